(** The choice tree: invariants over histories (C24-C31). *)
From Coq Require Import Ascii.
From Verif Require Import Prelude Arith CoreModel TreeModel DictProofs.
Local Open Scope string_scope.
Local Open Scope nat_scope.

(** ** Joined names *)
Lemma app_dot_inj x y a b : has_dot x = false -> has_dot y = false ->
  (x ++ "." ++ a = y ++ "." ++ b)%string -> x = y /\ a = b.
Proof.
  revert y; induction x as [|c x IH]; intros [|c' y] Hx Hy E; simpl in *.
  - injection E; auto.
  - injection E as <- E. simpl in Hy. discriminate.
  - injection E as -> E. simpl in Hx. discriminate.
  - injection E as <- E. destruct (Ascii.eqb c "."%char); [discriminate|].
    destruct (IH y Hx Hy E) as [-> ->]. auto.
Qed.
Lemma app_dot_has x a : has_dot (x ++ "." ++ a) = true.
Proof. induction x as [|c x IH]; simpl; auto. destruct (Ascii.eqb c "."%char); auto. Qed.

Lemma join_cons x l : l <> [] -> join (x :: l) = (x ++ "." ++ join l)%string.
Proof. destruct l; [congruence|reflexivity]. Qed.

Lemma join_inj p : forall q, p <> [] -> q <> [] ->
  Forall (fun x => has_dot x = false) p -> Forall (fun x => has_dot x = false) q -> join p = join q -> p = q.
Proof.
  induction p as [|x p IH]; intros [|y q] Np Nq Fp Fq E; try congruence.
  inversion Fp; inversion Fq; subst.
  destruct p as [|x' p], q as [|y' q].
  - simpl in E. congruence.
  - rewrite (join_cons y (y' :: q)) in E by discriminate. change (join [x]) with x in E. rewrite E, app_dot_has in *. discriminate.
  - rewrite (join_cons x (x' :: p)) in E by discriminate. change (join [y]) with y in E. rewrite <- E, app_dot_has in *. discriminate.
  - rewrite !join_cons in E by discriminate. apply app_dot_inj in E; auto. destruct E as [-> E].
    f_equal. apply IH; auto; discriminate.
Qed.

Lemma str_app_assoc a b c : ((a ++ b) ++ c = a ++ (b ++ c))%string.
Proof. induction a as [|x a IH]; simpl; auto. now rewrite IH. Qed.

Lemma join_snoc p x : p <> [] -> join (p ++ [x]) = (join p ++ "." ++ x)%string.
Proof.
  induction p as [|y p IH]; intros H; [congruence|].
  destruct p as [|y' p]; [reflexivity|].
  rewrite <- app_comm_cons. rewrite join_cons by (destruct p; discriminate).
  rewrite IH by discriminate. rewrite (join_cons y (y' :: p)) by discriminate. simpl. now rewrite str_app_assoc.
Qed.

Lemma join_single_no_dot p : p <> [] -> has_dot (join p) = false -> exists x, p = [x].
Proof.
  destruct p as [|x [|y p]]; intros H E; [congruence|eauto|].
  rewrite join_cons in E by discriminate. rewrite app_dot_has in E. discriminate.
Qed.

Section TreeP.
  Context (F : arith).
  Notation tree := (tree F).
  Notation node := (node F).

  Definition stored (t : tree) (i : nat) : Prop := In i (ids t).
  Definition parent_id (h : list node) (i : nat) : option nat :=
    match nth_error h i with Some nd => nd_parent nd | None => None end.
  Definition child_ids (h : list node) (i : nat) : list nat :=
    match nth_error h i with Some nd => dvals (nd_children nd) | None => [] end.

  Record heap_wf (h : list node) : Prop := {
    hw_name : forall i nd, nth_error h i = Some nd -> name_ok (nd_name nd) = true;
    hw_parent : forall i nd p, nth_error h i = Some nd -> nd_parent nd = Some p -> p < i
  }.

  (** ** Paths *)
  Lemma path_of_ext h h' : forall fuel i,
    (forall j, j <= i -> option_map (fun nd => (nd_name nd, nd_parent nd)) (nth_error h j) =
                         option_map (fun nd => (nd_name nd, nd_parent nd)) (nth_error h' j)) ->
    (forall j nd p, nth_error h j = Some nd -> nd_parent nd = Some p -> p < j) ->
    path_of F fuel h i = path_of F fuel h' i.
  Proof.
    induction fuel as [|fuel IH]; intros i H W; simpl; auto.
    pose proof (H i (le_n i)) as Hi.
    destruct (nth_error h i) as [nd|] eqn:E, (nth_error h' i) as [nd'|] eqn:E'; simpl in Hi; try discriminate; auto.
    injection Hi as -> Hp. rewrite <- Hp. destruct (nd_parent nd) as [p|] eqn:Ep; auto.
    f_equal. apply IH; auto. intros j Hj. apply H. specialize (W i nd p E Ep). lia.
  Qed.
  Lemma path_of_fuel h (W : heap_wf h) : forall f1 f2 i, i < f1 -> i < f2 -> path_of F f1 h i = path_of F f2 h i.
  Proof.
    induction f1 as [|f1 IH]; intros [|f2] i H1 H2; try lia. simpl.
    destruct (nth_error h i) as [nd|] eqn:E; auto. destruct (nd_parent nd) as [p|] eqn:Ep; auto.
    pose proof (hw_parent h W i nd p E Ep). f_equal. apply IH; lia.
  Qed.
  Lemma path_eq h (W : heap_wf h) i : path h i =
    match nth_error h i with
    | None => []
    | Some nd => match nd_parent nd with None => [nd_name nd] | Some p => (path h p ++ [nd_name nd])%list end
    end.
  Proof.
    unfold path at 1. cbn [path_of]. destruct (nth_error h i) as [nd|] eqn:E; auto.
    destruct (nd_parent nd) as [p|] eqn:Ep; auto. f_equal.
    pose proof (hw_parent h W i nd p E Ep). unfold path. apply path_of_fuel; auto; lia.
  Qed.
  Lemma path_ne h (W : heap_wf h) i nd : nth_error h i = Some nd -> path h i <> [].
  Proof. intros E. rewrite path_eq by auto. rewrite E. destruct (nd_parent nd); [destruct (path h n); discriminate|discriminate]. Qed.
  Lemma name_ok_dot n : name_ok n = true -> has_dot n = false.
  Proof. unfold name_ok. destruct (has_dot n); auto. Qed.
  Lemma path_dots h (W : heap_wf h) i : Forall (fun x => has_dot x = false) (path h i).
  Proof.
    induction i as [i IH] using (well_founded_induction lt_wf). rewrite path_eq by auto.
    destruct (nth_error h i) as [nd|] eqn:E; auto.
    pose proof (name_ok_dot _ (hw_name h W i nd E)).
    destruct (nd_parent nd) as [p|] eqn:Ep; [|repeat constructor; auto].
    apply Forall_app. split; [|repeat constructor; auto]. apply IH. eapply hw_parent; eauto.
  Qed.
  Lemma full_name_path h (W : heap_wf h) i j nd nd' : nth_error h i = Some nd -> nth_error h j = Some nd' ->
    full_name h i = full_name h j -> path h i = path h j.
  Proof. intros E E' H. apply join_inj; eauto using path_ne, path_dots. Qed.

  (** ** The consistency invariant *)
  Record consistent (t : tree) : Prop := {
    c_keys : NoDup (dkeys (t_all t));
    c_key : forall k i, In (k, i) (t_all t) -> k = full_name (t_heap t) i;
    c_node : forall i, stored t i -> exists nd, nth_error (t_heap t) i = Some nd /\
        scale_ok F (nd_scale nd) = true /\
        match nd_parent nd with
        | None => nd_level nd = 1
        | Some p => stored t p /\ nd_level nd = S (level_of (t_heap t) p)
        end;
    c_top_nodup : NoDup (t_top t);
    c_top : forall i, In i (t_top t) <-> stored t i /\ parent_id (t_heap t) i = None;
    c_child_keys : forall i nd n c, stored t i -> nth_error (t_heap t) i = Some nd -> In (n, c) (nd_children nd) ->
        exists nc, nth_error (t_heap t) c = Some nc /\ nd_name nc = n;
    c_child_nodup : forall i nd, stored t i -> nth_error (t_heap t) i = Some nd -> NoDup (dkeys (nd_children nd));
    c_child : forall i c, stored t i ->
        (In c (child_ids (t_heap t) i) <-> stored t c /\ parent_id (t_heap t) c = Some i)
  }.

  Lemma stored_key t i : consistent t -> stored t i -> In (full_name (t_heap t) i, i) (t_all t).
  Proof. intros C H. apply in_vals_ex in H. destruct H as [k H]. pose proof (c_key t C k i H). now subst k. Qed.
  Lemma stored_inj t i j : consistent t -> stored t i -> stored t j ->
    full_name (t_heap t) i = full_name (t_heap t) j -> i = j.
  Proof.
    intros C Hi Hj E. apply stored_key in Hi; auto. apply stored_key in Hj; auto. rewrite E in Hi.
    eapply nodup_fun; eauto. now apply c_keys.
  Qed.
  Lemma parent_id_some h i p : parent_id h i = Some p -> exists nd, nth_error h i = Some nd /\ nd_parent nd = Some p.
  Proof. unfold parent_id. destruct (nth_error h i) as [nd|]; [eauto|discriminate]. Qed.

  (** Adding a node (possibly replacing a childless one with the same key). *)
  Lemma consistent_add t h' top' parent name scale level cache :
    let h := t_heap t in let id := length h in
    let key := match parent with None => name | Some p => (full_name h p ++ "." ++ name)%string end in
    consistent t -> heap_wf h -> name_ok name = true -> scale_ok F scale = true ->
    match parent with None => level = 1 | Some p => stored t p /\ level = S (level_of h p) end ->
    (forall i, In (key, i) (t_all t) -> n_children h i = 0) ->
    length h' = S id -> nth_error h' id = Some (Node name parent scale level []) ->
    (forall j nd, nth_error h j = Some nd -> exists nd', nth_error h' j = Some nd' /\
       nd_name nd' = nd_name nd /\ nd_parent nd' = nd_parent nd /\ nd_level nd' = nd_level nd /\ nd_scale nd' = nd_scale nd /\
       nd_children nd' = (if match parent with Some p => Nat.eqb p j | None => false end
                          then dset String.eqb (nd_children nd) name id else nd_children nd)) ->
    NoDup top' ->
    (forall i, In i top' <-> (i = id /\ parent = None) \/ (In i (t_top t) /\ ~ In (key, i) (t_all t))) ->
    let t' := Tree h' (ddel String.eqb (t_all t) key ++ [(key, id)])%list top' cache in
    consistent t' /\ heap_wf h'.
  Proof.
    intros h id key C W Hn Hs Hp Hold HL Hid Hh Htn Ht t'.
    assert (Hlt : forall j nd, nth_error h j = Some nd -> j < id) by (intros j nd E; apply nth_error_Some; unfold h in *; congruence).
    assert (Hlt2 : forall j nd', nth_error h' j = Some nd' -> j = id \/ exists nd, nth_error h j = Some nd).
    { intros j nd' E. assert (j < length h') by (apply nth_error_Some; congruence).
      destruct (Nat.eq_dec j id) as [->|Ne]; auto. right.
      destruct (nth_error h j) as [nd|] eqn:E'; eauto. apply nth_error_None in E'. unfold id in *. lia. }
    assert (Hst : forall i, stored t i -> exists nd, nth_error h i = Some nd).
    { intros i Hi. destruct (c_node t C i Hi) as (nd & E & _). eauto. }
    assert (Hidn : nth_error h id = None) by (apply nth_error_None; unfold id; lia).
    assert (W' : heap_wf h').
    { constructor.
      - intros i nd' E. destruct (Hlt2 i nd' E) as [->|[nd E']].
        + rewrite Hid in E. injection E as <-. exact Hn.
        + destruct (Hh i nd E') as (nd1 & E1 & N1 & _). rewrite E in E1. injection E1 as <-. rewrite N1. eapply hw_name; eauto.
      - intros i nd' p E Ep. destruct (Hlt2 i nd' E) as [->|[nd E']].
        + rewrite Hid in E. injection E as <-. simpl in Ep. rewrite Ep in Hp. destruct Hp as [Hp _].
          destruct (Hst p Hp) as [ndp Ep']. eapply Hlt; eauto.
        + destruct (Hh i nd E') as (nd1 & E1 & _ & P1 & _). rewrite E in E1. injection E1 as <-. rewrite P1 in Ep. eapply hw_parent; eauto. }
    assert (Hpath : forall j, j < id -> path h' j = path h j).
    { intros j Hj. unfold path. symmetry. apply path_of_ext; [|apply W].
      intros k Hk. destruct (nth_error h k) as [nd|] eqn:E.
      - destruct (Hh k nd E) as (nd' & -> & N & P & _). simpl. now rewrite N, P.
      - exfalso. apply nth_error_None in E. unfold id in *. lia. }
    assert (Hfull : forall j, j < id -> full_name h' j = full_name h j) by (intros j Hj; unfold full_name; now rewrite Hpath).
    assert (Hpid : path h' id = match parent with None => [name] | Some p => (path h p ++ [name])%list end).
    { rewrite path_eq by auto. rewrite Hid. simpl. destruct parent as [p|]; auto. destruct Hp as [Hp _].
      destruct (Hst p Hp) as [ndp Ep']. rewrite Hpath; eauto. }
    assert (Hfid : full_name h' id = key).
    { unfold full_name at 1. rewrite Hpid. unfold key. destruct parent as [p|]; auto. destruct Hp as [Hp _].
      destruct (Hst p Hp) as [ndp Ep']. apply join_snoc. eapply path_ne; eauto. }
    assert (Hin : forall k i, In (k, i) (t_all t') <-> (k = key /\ i = id) \/ (k <> key /\ In (k, i) (t_all t))).
    { intros k i. simpl. rewrite in_app_iff, (in_ddel String.eqb string_eqb_spec) by (now apply c_keys). simpl.
      split; [intros [X|[X|[]]]|intros [X|X]]; auto; [injection X; auto|]. destruct X as [-> ->]; auto. }
    assert (Hsto : forall i, stored t' i <-> i = id \/ (stored t i /\ ~ In (key, i) (t_all t))).
    { intros i. unfold stored, ids. split.
      - intros X. apply in_vals_ex in X. destruct X as [k X]. apply Hin in X. destruct X as [[_ X]|[Ne X]]; auto.
        right. split; [eapply in_vals; eauto|]. intros Y. apply Ne.
        rewrite (c_key t C _ _ X), (c_key t C _ _ Y). reflexivity.
      - intros [->|[X Y]].
        + apply in_vals with key. apply Hin. auto.
        + apply in_vals_ex in X. destruct X as [k X]. apply in_vals with k. apply Hin. right. split; auto. intros ->. auto. }
    assert (Hsl : forall i, stored t i -> i < id) by (intros i Hi; destruct (Hst i Hi) as [nd E]; eauto).
    (* path of a node stored under [key] *)
    assert (Hkp : forall o, In (key, o) (t_all t) -> exists ndo, nth_error h o = Some ndo /\ nd_name ndo = name /\ nd_parent ndo = parent).
    { intros o Ho. assert (So : stored t o) by (eapply in_vals; eauto). destruct (Hst o So) as [ndo Eo]. exists ndo. split; auto.
      pose proof (c_key t C _ _ Ho) as Ek. fold h in Ek. rewrite <- Hfid, <- (Hfull o) in Ek by (eauto).
      destruct (Hh o ndo Eo) as (ndo' & Eo' & No & Po & _).
      pose proof (full_name_path h' W' id o _ _ Hid Eo' Ek) as Epath. rewrite Hpid in Epath.
      rewrite (path_eq h' W' o), Eo', No, Po in Epath.
      destruct parent as [p|] eqn:Epar.
      - destruct Hp as [Hp _]. destruct (Hst p Hp) as [ndp Ep'].
        destruct (nd_parent ndo) as [q|] eqn:Eq.
        + apply app_inj_tail in Epath. destruct Epath as [E1 E2]. split; auto. f_equal.
          destruct (c_node t C o So) as (nd2 & E3 & _ & Q). fold h in E3. rewrite Eo in E3. injection E3 as <-. rewrite Eq in Q. destruct Q as [Sq _].
          rewrite Hpath in E1 by auto. apply (stored_inj t); auto. unfold full_name. fold h. now rewrite E1.
        + change ([nd_name ndo]) with ([] ++ [nd_name ndo])%list in Epath. apply app_inj_tail in Epath. destruct Epath as [E1 _].
          exfalso. exact (path_ne h W p ndp Ep' E1).
      - destruct (nd_parent ndo) as [q|] eqn:Eq.
        + change [name] with ([] ++ [name])%list in Epath. apply app_inj_tail in Epath. destruct Epath as [E1 _]. symmetry in E1.
          exfalso. destruct (c_node t C o So) as (nd2 & E3 & _ & Q). fold h in E3. rewrite Eo in E3. injection E3 as <-.
          rewrite Eq in Q. destruct Q as [Sq _]. destruct (Hst q Sq) as [ndq Eq']. rewrite Hpath in E1 by eauto.
          exact (path_ne h W q ndq Eq' E1).
        + injection Epath as Epath. auto. }
    (* a stored node with the same name and parent is stored under [key] *)
    assert (Hkp' : forall c nc, stored t c -> nth_error h c = Some nc -> nd_parent nc = parent -> nd_name nc = name -> In (key, c) (t_all t)).
    { intros c nc Sc Ec P N. pose proof (stored_key t c C Sc) as X. fold h in X.
      assert (full_name h c = key) as <-; auto. rewrite <- (Hfull c), <- Hfid by eauto. unfold full_name.
      destruct (Hh c nc Ec) as (nc' & Ec' & N' & P' & _). rewrite (path_eq h' W' c), Hpid, Ec', N', P', P, N.
      destruct parent as [p|]; auto. destruct Hp as [Hp _]. rewrite Hpath; eauto. }
    assert (Hpar' : forall j, j < id -> parent_id h' j = parent_id h j).
    { intros j Hj. unfold parent_id. destruct (nth_error h j) as [nd|] eqn:E.
      - destruct (Hh j nd E) as (nd' & -> & _ & P & _). auto.
      - apply nth_error_None in E. unfold id in *. lia. }
    assert (Hlev' : forall j, j < id -> level_of h' j = level_of h j).
    { intros j Hj. unfold level_of. destruct (nth_error h j) as [nd|] eqn:E.
      - destruct (Hh j nd E) as (nd' & -> & _ & _ & P & _). auto.
      - apply nth_error_None in E. unfold id in *. lia. }
    assert (Hnokid : forall o c, In (key, o) (t_all t) -> stored t c -> parent_id h c = Some o -> False).
    { intros o c Ho Sc Pc. assert (So : stored t o) by (eapply in_vals; eauto).
      pose proof (proj2 (c_child t C o c So) (conj Sc Pc)) as X. specialize (Hold o Ho).
      unfold n_children in Hold. unfold child_ids in X. fold h in X. destruct (nth_error h o) as [nd|]; [|destruct X].
      destruct (nd_children nd); [destruct X|discriminate]. }
    assert (Hpst : forall p, parent = Some p -> stored t p /\ ~ In (key, p) (t_all t)).
    { intros p ->. destruct Hp as [Hp _]. split; auto. intros X. destruct (Hkp p X) as (nd & E & _ & P).
      pose proof (hw_parent h W p nd p E P). lia. }
    split; auto. constructor.
    - simpl. unfold dkeys. rewrite map_app. simpl. apply NoDup_app_one.
      + apply (ddel_keys_nodup String.eqb string_eqb_spec). now apply c_keys.
      + apply (ddel_key_gone String.eqb string_eqb_spec). now apply c_keys.
    - intros k i X. apply Hin in X. change (t_heap t') with h'. destruct X as [[-> ->]|[_ X]]; auto.
      rewrite Hfull; [now apply c_key|]. apply Hsl. eapply in_vals; eauto.
    - intros i Hi. change (t_heap t') with h'. apply Hsto in Hi. destruct Hi as [->|[Si Ni]].
      + exists (Node name parent scale level []). split; auto. simpl. split; auto. destruct parent as [p|]; auto.
        destruct (Hpst p eq_refl) as [Sp Np]. split; [apply Hsto; auto|]. destruct Hp as [_ ->]. f_equal. symmetry. apply Hlev'. auto.
      + destruct (c_node t C i Si) as (nd & E & S & P). destruct (Hh i nd E) as (nd' & E' & N1 & P1 & L1 & S1 & _).
        exists nd'. split; auto. rewrite S1. split; auto. rewrite P1, L1. destruct (nd_parent nd) as [q|] eqn:Eq; auto.
        destruct P as [Sq Lq]. split; [|rewrite Hlev'; auto]. apply Hsto. right. split; auto.
        intros X. apply (Hnokid q i X Si). unfold parent_id. fold h in E. now rewrite E.
    - exact Htn.
    - intros i. change (t_top t') with top'. change (t_heap t') with h'. rewrite Ht, Hsto. split.
      + intros [[-> ->]|[X Y]].
        * split; auto. unfold parent_id. rewrite Hid. reflexivity.
        * apply (c_top t C) in X. destruct X as [Si Pi]. split; auto. rewrite Hpar'; auto.
      + intros [[->|[Si Ni]] Pi].
        * left. split; auto. unfold parent_id in Pi. rewrite Hid in Pi. exact Pi.
        * right. split; auto. apply (c_top t C). split; auto. rewrite <- Hpar'; auto.
    - intros i nd' n c Si E Hc. change (t_heap t') with h' in *. apply Hsto in Si. destruct Si as [->|[Si Ni]].
      + rewrite Hid in E. injection E as <-. destruct Hc.
      + destruct (Hst i Si) as [nd E0]. destruct (Hh i nd E0) as (nd1 & E1 & _ & _ & _ & _ & Ch). rewrite E in E1. injection E1 as <-.
        rewrite Ch in Hc.
        assert (Hc' : (n = name /\ c = id) \/ In (n, c) (nd_children nd)).
        { destruct (match parent with Some p => Nat.eqb p i | None => false end); auto.
          apply (in_dset String.eqb string_eqb_spec) in Hc; [tauto|]. eapply c_child_nodup; eauto. }
        destruct Hc' as [[-> ->]|Hc'].
        * exists (Node name parent scale level []). auto.
        * destruct (c_child_keys t C i nd n c Si E0 Hc') as (nc & Ec & Nc).
          destruct (Hh c nc Ec) as (nc' & Ec' & N' & _). exists nc'. split; auto. congruence.
    - intros i nd' Si E. change (t_heap t') with h' in *. apply Hsto in Si. destruct Si as [->|[Si Ni]].
      + rewrite Hid in E. injection E as <-. constructor.
      + destruct (Hst i Si) as [nd E0]. destruct (Hh i nd E0) as (nd1 & E1 & _ & _ & _ & _ & Ch). rewrite E in E1. injection E1 as <-.
        rewrite Ch. destruct (match parent with Some p => Nat.eqb p i | None => false end).
        * apply (dset_keys_nodup String.eqb string_eqb_spec). eapply c_child_nodup; eauto.
        * eapply c_child_nodup; eauto.
    - intros i c Si. change (t_heap t') with h' in *. rewrite Hsto. apply Hsto in Si. destruct Si as [->|[Si Ni]].
      + (* the new node has no children *)
        unfold child_ids. rewrite Hid. simpl. split; [tauto|]. intros [[->|[Sc Nc]] P].
        * unfold parent_id in P. rewrite Hid in P. simpl in P. destruct (Hpst id P) as [Sp _]. apply Hsl in Sp. lia.
        * rewrite Hpar' in P by auto. apply parent_id_some in P. destruct P as (nc & Ec & Pc).
          pose proof (hw_parent h W c nc id Ec Pc). pose proof (Hlt c nc Ec). lia.
      + destruct (Hst i Si) as [nd E0]. destruct (Hh i nd E0) as (nd' & E1 & _ & _ & _ & _ & Ch).
        pose proof (c_child t C i c Si) as CC. unfold child_ids in *. fold h in CC. rewrite E0 in CC. rewrite E1, Ch.
        destruct (match parent with Some p => Nat.eqb p i | None => false end) eqn:Ep.
        * destruct parent as [p|]; [|discriminate]. apply Nat.eqb_eq in Ep. subst p.
          assert (Nd : NoDup (dkeys (nd_children nd))) by (eapply c_child_nodup; eauto).
          split.
          -- intros X. apply in_vals_ex in X. destruct X as [n X]. apply (in_dset String.eqb string_eqb_spec) in X; auto.
             destruct X as [[-> ->]|[Nn X]].
             ++ split; auto. unfold parent_id. now rewrite Hid.
             ++ assert (Y : In c (dvals (nd_children nd))) by (eapply in_vals; eauto). apply CC in Y. destruct Y as [Sc Pc].
                split; [|rewrite Hpar'; auto]. right. split; auto. intros Z. destruct (Hkp c Z) as (nc & Ec & Nc & _).
                destruct (c_child_keys t C i nd n c Si E0 X) as (nc2 & Ec2 & Nc2). fold h in Ec2. rewrite Ec in Ec2. injection Ec2 as <-. congruence.
          -- intros [[->|[Sc Nc]] P].
             ++ apply in_vals with name. apply (in_dset String.eqb string_eqb_spec); auto.
             ++ rewrite Hpar' in P by auto. pose proof (proj2 CC (conj Sc P)) as Y. apply in_vals_ex in Y. destruct Y as [n Y].
                apply in_vals with n. apply (in_dset String.eqb string_eqb_spec); auto. right. split; auto. intros ->.
                destruct (c_child_keys t C i nd name c Si E0 Y) as (nc & Ec & Hnc).
                apply parent_id_some in P. destruct P as (nc2 & Ec2 & Pc). fold h in Ec. rewrite Ec in Ec2. injection Ec2 as <-.
                apply Nc. eapply Hkp'; eauto.
        * assert (Npi : parent <> Some i).
          { intros ->. rewrite Nat.eqb_refl in Ep. discriminate. }
          rewrite CC. split.
          -- intros [Sc Pc]. split; [|rewrite Hpar'; auto]. right. split; auto. intros Z. destruct (Hkp c Z) as (nc & Ec & _ & P).
             unfold parent_id in Pc. fold h in Pc. rewrite Ec in Pc. congruence.
          -- intros [[->|[Sc Nc]] P].
             ++ unfold parent_id in P. rewrite Hid in P. simpl in P. congruence.
             ++ rewrite Hpar' in P by auto. auto.
  Qed.

  Definition inv (t : tree) : Prop := consistent t /\ heap_wf (t_heap t).

  Lemma consistent_cache t c : consistent t -> consistent (Tree (t_heap t) (t_all t) (t_top t) c).
  Proof. intros [A B C D E G H K]. constructor; assumption. Qed.

  Lemma set_remove_in l x l' : NoDup l -> set_remove l x = Some l' ->
    NoDup l' /\ forall i, In i l' <-> In i l /\ i <> x.
  Proof.
    revert l'; induction l as [|y l IH]; simpl; intros l' N E; [discriminate|].
    inversion N; subst. destruct (Nat.eqb_spec x y) as [->|Ne].
    - injection E as <-. split; auto. intros i. split; [|intros [[X|X] Y]; congruence].
      intros X. split; auto. intros ->. auto.
    - destruct (set_remove l x) as [l1|] eqn:E1; [|discriminate]. injection E as <-.
      destruct (IH l1 H2 eq_refl) as [N1 I1]. split.
      + constructor; auto. intros X. apply I1 in X. tauto.
      + intros i. simpl. rewrite I1. split; [intros [X|X]|intros [[X|X] Y]]; subst; auto; try tauto.
  Qed.
  Lemma set_remove_some l x : In x l -> exists l', set_remove l x = Some l'.
  Proof.
    induction l as [|y l IH]; simpl; [tauto|]. intros H. destruct (Nat.eqb_spec x y); eauto.
    destruct IH as [l' ->]; eauto. destruct H; [congruence|auto].
  Qed.
  Lemma set_remove_none l x : ~ In x l -> set_remove l x = None.
  Proof.
    induction l as [|y l IH]; simpl; auto. intros H. destruct (Nat.eqb_spec x y); [subst; tauto|].
    rewrite IH by tauto. reflexivity.
  Qed.
  Lemma set_add_in l x : ~ In x l -> set_add l x = (l ++ [x])%list.
  Proof.
    intros H. unfold set_add. destruct (existsb (Nat.eqb x) l) eqn:E; auto.
    apply existsb_exists in E. destruct E as (y & Hy & E). apply Nat.eqb_eq in E. subst. tauto.
  Qed.

  Lemma stored_node t i : consistent t -> stored t i -> exists nd, nth_error (t_heap t) i = Some nd.
  Proof. intros C H. destruct (c_node t C i H) as (nd & E & _). eauto. Qed.
  Lemma stored_lt t i : consistent t -> stored t i -> i < length (t_heap t).
  Proof. intros C H. destruct (stored_node t i C H) as [nd E]. apply nth_error_Some. congruence. Qed.

  Lemma top_full_name t i nd : consistent t -> heap_wf (t_heap t) ->
    nth_error (t_heap t) i = Some nd -> nd_parent nd = None -> full_name (t_heap t) i = nd_name nd.
  Proof. intros C W E P. unfold full_name. rewrite path_eq, E, P by auto. reflexivity. Qed.
  (** a stored node whose full name has no dot is a top node *)
  Lemma no_dot_top t k i : consistent t -> heap_wf (t_heap t) -> In (k, i) (t_all t) -> has_dot k = false ->
    In i (t_top t).
  Proof.
    intros C W H D. assert (S : stored t i) by (eapply in_vals; eauto).
    apply (c_top t C). split; auto. destruct (stored_node t i C S) as [nd E].
    unfold parent_id. rewrite E. destruct (nd_parent nd) as [p|] eqn:P; auto. exfalso.
    rewrite (c_key t C k i H) in D. unfold full_name in D. rewrite path_eq, E, P in D by auto.
    destruct (c_node t C i S) as (nd2 & E2 & _ & Q). rewrite E in E2. injection E2 as <-. rewrite P in Q.
    destruct Q as [Sp _]. destruct (stored_node t p C Sp) as [np Ep].
    rewrite join_snoc in D by (eapply path_ne; eauto). rewrite app_dot_has in D. discriminate.
  Qed.
  (** a top node's key has no dot *)
  Lemma top_no_dot t k i : consistent t -> heap_wf (t_heap t) -> In (k, i) (t_all t) -> In i (t_top t) -> has_dot k = false.
  Proof.
    intros C W H T. apply (c_top t C) in T. destruct T as [S P]. destruct (stored_node t i C S) as [nd E].
    unfold parent_id in P. rewrite E in P. rewrite (c_key t C k i H), (top_full_name t i nd) by auto.
    apply name_ok_dot. eapply hw_name; eauto.
  Qed.

  (** what a successful creation leaves *)
  Lemma create_top_shape t name scale :
    inv t -> name_ok name = true -> scale_ok F scale = true ->
    exists top', create_node F t name scale None =
      (Tree (t_heap t ++ [Node name None scale 1 []]) (ddel String.eqb (t_all t) name ++ [(name, length (t_heap t))])%list
            top' (t_cached t), Ok (length (t_heap t))) /\
      NoDup top' /\ (forall i, In i top' <-> In i (t_top t) /\ ~ In (name, i) (t_all t)).
  Proof.
    intros [C W] Hn Hs. unfold create_node.
    destruct (dget String.eqb (t_all t) name) as [old|] eqn:E.
    - apply (dget_in String.eqb string_eqb_spec) in E.
      assert (T : In old (t_top t)) by (eapply no_dot_top; eauto using name_ok_dot).
      destruct (set_remove_some (t_top t) old T) as [top' Er]. rewrite Er. exists top'.
      destruct (set_remove_in _ _ _ (c_top_nodup t C) Er) as [N I]. split; [|split; auto].
      + unfold new_node. rewrite Hn, Hs. simpl. f_equal. f_equal.
        apply (dset_absent String.eqb string_eqb_spec). apply (ddel_key_gone String.eqb string_eqb_spec). now apply c_keys.
      + intros i. rewrite I. split; intros [X Y]; split; auto.
        * intros Z. apply Y. eapply nodup_fun; eauto. now apply c_keys.
        * intros ->. auto.
    - apply (dget_none String.eqb string_eqb_spec) in E. exists (t_top t). split; [|split].
      + unfold new_node. rewrite Hn, Hs. simpl. f_equal. f_equal.
        rewrite (dset_absent String.eqb string_eqb_spec), (ddel_absent String.eqb string_eqb_spec) by auto. reflexivity.
      + now apply c_top_nodup.
      + intros i. split; [|tauto]. intros X. split; auto. intros Y. apply in_keys in Y. auto.
  Qed.

  Lemma top_lt t i : consistent t -> In i (t_top t) -> i < length (t_heap t).
  Proof. intros C H. apply (c_top t C) in H. apply stored_lt; tauto. Qed.

  Lemma add_top_inv t name scale :
    inv t -> name_ok name = true -> scale_ok F scale = true ->
    (forall i, In (name, i) (t_all t) -> n_children (t_heap t) i = 0) ->
    exists t' top', create_node F t name scale None = (t', Ok (length (t_heap t))) /\
      add_top F t' (length (t_heap t)) =
        Tree (t_heap t ++ [Node name None scale 1 []]) (ddel String.eqb (t_all t) name ++ [(name, length (t_heap t))])%list top' (t_cached t) /\
      inv (add_top F t' (length (t_heap t))).
  Proof.
    intros I Hn Hs Hc. destruct (create_top_shape t name scale I Hn Hs) as (top' & E & N & T).
    destruct I as [C W]. do 2 eexists. split; [exact E|]. unfold add_top. simpl.
    assert (Hni : ~ In (length (t_heap t)) top').
    { intros X. apply T in X. destruct X as [X _]. apply top_lt in X; auto. lia. }
    rewrite set_add_in by auto. split; [reflexivity|].
    apply (consistent_add t (t_heap t ++ [Node name None scale 1 []])%list (top' ++ [length (t_heap t)])%list None name scale 1 (t_cached t)); auto.
    - rewrite app_length. simpl. lia.
    - rewrite nth_error_app2 by lia. rewrite Nat.sub_diag. reflexivity.
    - intros j nd Ej. exists nd. rewrite nth_error_app1 by (apply nth_error_Some; congruence). repeat split; auto.
    - apply NoDup_app_one; auto.
    - intros i. rewrite in_app_iff, T. simpl. split; [intros [X|[X|[]]]|intros [[X _]|X]]; auto.
  Qed.

  Lemma inv_cache t c : inv t -> inv (Tree (t_heap t) (t_all t) (t_top t) c).
  Proof. intros [C W]. split; auto. now apply consistent_cache. Qed.

  Lemma create_top_fail t name scale :
    andb (name_ok name) (scale_ok F scale) = false -> ~ In name (dkeys (t_all t)) ->
    create_node F t name scale None = (t, Err AssertionError).
  Proof.
    intros H A. unfold create_node. apply (dget_none String.eqb string_eqb_spec) in A. rewrite A.
    unfold new_node. rewrite H. reflexivity.
  Qed.

  Lemma add_choice_inv t name scale :
    inv t ->
    (In name (dkeys (t_all t)) -> name_ok name = true /\ scale_ok F scale = true) ->
    (forall i, In (name, i) (t_all t) -> n_children (t_heap t) i = 0) ->
    inv (fst (add_choice F t name scale)).
  Proof.
    intros I Hv Hc. unfold add_choice.
    destruct (name_ok name && scale_ok F scale)%bool eqn:V.
    - apply andb_true_iff in V. destruct V as [Hn Hs].
      destruct (add_top_inv (drop_cache F t) name scale) as (t' & top' & E & _ & I'); auto.
      { now apply inv_cache. }
      rewrite E. exact I'.
    - rewrite create_top_fail; auto; [simpl; now apply inv_cache|].
      simpl. intros X. destruct (Hv X) as [A B]. rewrite A, B in V. discriminate.
  Qed.

  Lemma add_pairs_inv l : forall t, inv t -> NoDup (map fst l) ->
    (forall n, In n (map fst l) -> ~ In n (dkeys (t_all t))) -> inv (fst (add_pairs F t l)).
  Proof.
    induction l as [|[name scale] l IH]; intros t I N A; [exact I|]. cbn [add_pairs map fst In] in *.
    inversion N; subst.
    destruct (name_ok name && scale_ok F scale)%bool eqn:V.
    - apply andb_true_iff in V. destruct V as [Hn Hs].
      destruct (add_top_inv t name scale I Hn Hs) as (t' & top' & E & S & I').
      { intros i X. exfalso. apply (A name); auto. eapply in_keys; eauto. }
      rewrite E. specialize (IH (add_top F t' (length (t_heap t))) I' H2).
      destruct (add_pairs F (add_top F t' (length (t_heap t))) l) as [t2 [r|e]] eqn:E2; cbn [fst] in *; apply IH;
        intros n Hn1 X; rewrite S in X; simpl in X; unfold dkeys in X; rewrite map_app, in_app_iff in X; simpl in X;
        (destruct X as [X|[<-|[]]]; [|tauto]); apply (A n); auto; apply in_keys_ex in X; destruct X as [v X];
        apply (in_ddel String.eqb string_eqb_spec) in X; try (destruct I; now apply c_keys); eapply in_keys; apply X.
    - rewrite create_top_fail; auto.
  Qed.

  Lemma key_dot_not_top t p name i : consistent t -> heap_wf (t_heap t) ->
    In ((full_name (t_heap t) p ++ "." ++ name)%string, i) (t_all t) -> ~ In i (t_top t).
  Proof.
    intros C W H T. pose proof (top_no_dot t _ i C W H T) as D. rewrite app_dot_has in D. discriminate.
  Qed.

  Lemma create_child_shape t p name scale :
    inv t -> let key := (full_name (t_heap t) p ++ "." ++ name)%string in
    name_ok name = true -> scale_ok F scale = true ->
    create_node F t name scale (Some p) =
      (Tree (t_heap t ++ [Node name (Some p) scale (S (level_of (t_heap t) p)) []])
            (ddel String.eqb (t_all t) key ++ [(key, length (t_heap t))])%list (t_top t) (t_cached t), Ok (length (t_heap t))).
  Proof.
    intros [C W] key Hn Hs. unfold create_node. fold key. unfold new_node. rewrite Hn, Hs. cbn [andb].
    destruct (dmem String.eqb (t_all t) key) eqn:E; cbn [t_heap t_all t_top t_cached].
    - rewrite (dset_absent String.eqb string_eqb_spec); [reflexivity|].
      apply (ddel_key_gone String.eqb string_eqb_spec). now apply c_keys.
    - assert (A : ~ In key (dkeys (t_all t))).
      { intros X. apply (dmem_iff String.eqb string_eqb_spec) in X. congruence. }
      rewrite (dset_absent String.eqb string_eqb_spec), (ddel_absent String.eqb string_eqb_spec) by auto. reflexivity.
  Qed.

  Lemma set_child_node h p name id j nd : nth_error h j = Some nd ->
    exists nd', nth_error (set_child F h p name id) j = Some nd' /\
       nd_name nd' = nd_name nd /\ nd_parent nd' = nd_parent nd /\ nd_level nd' = nd_level nd /\ nd_scale nd' = nd_scale nd /\
       nd_children nd' = if Nat.eqb p j then dset String.eqb (nd_children nd) name id else nd_children nd.
  Proof.
    intros E. unfold set_child. destruct (Nat.eqb_spec p j) as [->|Ne].
    - rewrite E. eexists. split; [apply nth_error_upd_eq, nth_error_Some; congruence|]. repeat split.
    - exists nd. split; auto. destruct (nth_error h p); auto. rewrite nth_error_upd_neq; auto.
  Qed.
  Lemma set_child_length h p name id : length (set_child F h p name id) = length h.
  Proof. unfold set_child. destruct (nth_error h p); auto. apply upd_length. Qed.

  Lemma node_add_inv t p name scale :
    inv t -> stored t p ->
    let key := (full_name (t_heap t) p ++ "." ++ name)%string in
    (In key (dkeys (t_all t)) -> name_ok name = true /\ scale_ok F scale = true) ->
    (forall i, In (key, i) (t_all t) -> n_children (t_heap t) i = 0) ->
    inv (fst (node_add_choice F t p name scale)).
  Proof.
    intros I Sp key Hv Hc. unfold node_add_choice.
    destruct (name_ok name && scale_ok F scale)%bool eqn:V.
    - apply andb_true_iff in V. destruct V as [Hn Hs].
      rewrite create_child_shape by auto. fold key. simpl.
      destruct I as [C W]. pose proof (stored_lt t p C Sp) as Hp.
      set (nn := Node name (Some p) scale (S (level_of (t_heap t) p)) []).
      apply (consistent_add t (set_child F (t_heap t ++ [nn]) p name (length (t_heap t))) (t_top t) (Some p) name scale (S (level_of (t_heap t) p)) (t_cached t)); auto.
      + rewrite set_child_length, app_length. simpl. lia.
      + assert (En : nth_error (t_heap t ++ [nn])%list (length (t_heap t)) = Some nn)
          by (rewrite nth_error_app2, Nat.sub_diag by lia; reflexivity).
        unfold set_child. destruct (nth_error (t_heap t ++ [nn])%list p); auto. rewrite nth_error_upd_neq by lia. exact En.
      + intros j nd Ej. apply (set_child_node (t_heap t ++ [nn])%list p name (length (t_heap t)) j nd).
        rewrite nth_error_app1 by (apply nth_error_Some; congruence). exact Ej.
      + now apply c_top_nodup.
      + intros i. split; [|intros [[_ X]|X]; [discriminate|tauto]]. intros X. right. split; auto. intros Y.
        exact (key_dot_not_top t p name i C W Y X).
    - assert (A : ~ In key (dkeys (t_all t))).
      { intros X. destruct (Hv X) as [A B]. rewrite A, B in V. discriminate. }
      unfold create_node. fold key.
      destruct (dmem String.eqb (t_all t) key) eqn:E; [apply (dmem_iff String.eqb string_eqb_spec) in E; tauto|].
      unfold new_node. rewrite V. exact I.
  Qed.

  Lemma set_scale_inv t p scale : inv t -> inv (fst (set_scale F t p scale)).
  Proof.
    intros [C W]. unfold set_scale. destruct (scale_ok F scale) eqn:V; [|split; auto].
    destruct (nth_error (t_heap t) p) as [np|] eqn:Ep; [|split; auto]. simpl.
    set (np' := Node (nd_name np) (nd_parent np) scale (nd_level np) (nd_children np)).
    set (h' := upd (t_heap t) p np').
    assert (Hp : p < length (t_heap t)) by (apply nth_error_Some; congruence).
    assert (Hh : forall j, nth_error h' j = if Nat.eqb p j then Some np' else nth_error (t_heap t) j).
    { intros j. unfold h'. destruct (Nat.eqb_spec p j) as [<-|Ne]; [now apply nth_error_upd_eq|now apply nth_error_upd_neq]. }
    assert (Hj : forall j nd', nth_error h' j = Some nd' -> exists nd, nth_error (t_heap t) j = Some nd /\
       nd_name nd' = nd_name nd /\ nd_parent nd' = nd_parent nd /\ nd_level nd' = nd_level nd /\ nd_children nd' = nd_children nd).
    { intros j nd' E. rewrite Hh in E. destruct (Nat.eqb_spec p j) as [<-|Ne]; [|eauto 8]. injection E as <-. exists np. auto. }
    assert (Hj' : forall j nd, nth_error (t_heap t) j = Some nd -> exists nd', nth_error h' j = Some nd' /\
       nd_name nd' = nd_name nd /\ nd_parent nd' = nd_parent nd /\ nd_level nd' = nd_level nd /\ nd_children nd' = nd_children nd /\
       (nd_scale nd' = nd_scale nd \/ nd_scale nd' = scale)).
    { intros j nd E. rewrite Hh. destruct (Nat.eqb_spec p j) as [<-|Ne]; [|eauto 10].
      exists np'. rewrite Ep in E. injection E as <-. repeat split; auto. }
    assert (Hpar : forall j, parent_id h' j = parent_id (t_heap t) j).
    { intros j. unfold parent_id. rewrite Hh. destruct (Nat.eqb_spec p j) as [<-|Ne]; auto. rewrite Ep. reflexivity. }
    assert (Hch : forall j, child_ids h' j = child_ids (t_heap t) j).
    { intros j. unfold child_ids. rewrite Hh. destruct (Nat.eqb_spec p j) as [<-|Ne]; auto. rewrite Ep. reflexivity. }
    assert (Hlv : forall j, level_of h' j = level_of (t_heap t) j).
    { intros j. unfold level_of. rewrite Hh. destruct (Nat.eqb_spec p j) as [<-|Ne]; auto. rewrite Ep. reflexivity. }
    assert (Hfn : forall j, full_name h' j = full_name (t_heap t) j).
    { intros j. unfold full_name, path. f_equal. symmetry. apply path_of_ext; [|apply W].
      intros k _. rewrite Hh. destruct (Nat.eqb_spec p k) as [<-|Ne]; auto. rewrite Ep. reflexivity. }
    split.
    - destruct C as [A1 A2 A3 A4 A5 A6 A7 A8]. constructor; simpl; auto.
      + intros k i X. rewrite Hfn. auto.
      + intros i X. destruct (A3 i X) as (nd & E & S & P). destruct (Hj' i nd E) as (nd' & E' & N1 & P1 & L1 & C1 & S1).
        exists nd'. split; auto. split; [destruct S1 as [->| ->]; auto|]. rewrite P1, L1. destruct (nd_parent nd); auto.
        rewrite Hlv. auto.
      + intros i. rewrite A5. unfold stored. simpl. rewrite Hpar. tauto.
      + intros i nd' n c X E Hc. destruct (Hj i nd' E) as (nd & E0 & _ & _ & _ & C0). rewrite C0 in Hc.
        destruct (A6 i nd n c X E0 Hc) as (nc & Ec & Nc). destruct (Hj' c nc Ec) as (nc' & Ec' & N' & _). exists nc'. split; congruence.
      + intros i nd' X E. destruct (Hj i nd' E) as (nd & E0 & _ & _ & _ & C0). rewrite C0. eauto.
      + intros i c X. rewrite Hch, Hpar. apply A8. exact X.
    - constructor.
      + intros i nd' E. destruct (Hj i nd' E) as (nd & E0 & N0 & _). rewrite N0. eapply hw_name; eauto.
      + intros i nd' q E Q. destruct (Hj i nd' E) as (nd & E0 & _ & P0 & _). rewrite P0 in Q. eapply hw_parent; eauto.
  Qed.

  Lemma partial_inv t : inv t -> inv (fst (partial_utilities F t)).
  Proof.
    intros I. unfold partial_utilities. destruct (validate_tree t); auto. destruct (t_cached t); auto.
    destruct (choices t); auto. simpl. now apply inv_cache.
  Qed.

  Lemma inv_new : inv new_tree.
  Proof.
    split; constructor; unfold stored, ids; simpl; try constructor; intros; try tauto.
    - destruct i; discriminate.
    - destruct i; discriminate.
  Qed.
End TreeP.
