(** C30: what re-adding an existing childless choice under its node does to the columns of the choices. *)
From Coq Require Import Ascii Permutation.
From Verif Require Import Prelude Arith CoreModel TreeModel DictProofs TreeProofs SpecTree SpecNested TreeMore TreeHist ModelProofs.
Local Open Scope string_scope.
Local Open Scope nat_scope.
Local Open Scope list_scope.

(** the list with its element [q] moved to the end *)
Definition moved_last {A} (q : nat) (l : list A) : list A := firstn q l ++ skipn (S q) l ++ firstn 1 (skipn q l).

Lemma moved_map {A B} (f : A -> B) q l : map f (moved_last q l) = moved_last q (map f l).
Proof. unfold moved_last. now rewrite !map_app, <- !firstn_map, <- !skipn_map. Qed.
Lemma moved_perm {A} q (l : list A) : Permutation (moved_last q l) l.
Proof.
  unfold moved_last. revert l. induction q as [|q IH]; intros [|x l]; cbn; auto.
  - symmetry. apply Permutation_cons_append.
  - constructor. apply (IH l).
Qed.
Lemma moved_nth {A} q (l : list A) : q < length l ->
  (forall c, c < q -> nth_error (moved_last q l) c = nth_error l c) /\
  (forall c, q <= c -> S c < length l -> nth_error (moved_last q l) c = nth_error l (S c)) /\
  nth_error (moved_last q l) (length l - 1) = nth_error l q.
Proof.
  unfold moved_last. revert l. induction q as [|q IH]; intros [|x l] Q; cbn in Q; try lia.
  - cbn. split; [lia|]. split.
    + intros c _ Hc. apply nth_error_app1. lia.
    + rewrite Nat.sub_0_r, nth_error_app2, Nat.sub_diag by lia. reflexivity.
  - destruct (IH l ltac:(lia)) as (A1 & A2 & A3). split; [|split].
    + intros [|c] Hc; cbn; auto. apply A1. lia.
    + intros [|c] Hc Hl; [lia|]. cbn [firstn skipn length] in *. cbn [nth_error app]. apply A2; lia.
    + cbn [length]. replace (S (length l) - 1) with (S (length l - 1)) by lia. exact A3.
Qed.

Section Moved.
  Context (F : arith).
  Notation tree := (tree F).
  Notation inv := (inv F). Notation stored := (stored F).

  Lemma ddel_moved (l : dict string nat) q k i : NoDup (dkeys l) -> nth_error l q = Some (k, i) ->
    ddel String.eqb l k = firstn q l ++ skipn (S q) l.
  Proof.
    revert q. induction l as [|[k' i'] l IH]; intros q N E; [destruct q; discriminate|]. inversion_clear N as [|? ? N1 N2].
    destruct q as [|q].
    - injection E as -> ->. cbn. now rewrite String.eqb_refl.
    - cbn in E. cbn [ddel]. assert (k <> k') by (intros ->; apply N1; eapply in_keys, nth_error_In; eauto).
      destruct (String.eqb_spec k k'); [congruence|]. cbn. f_equal. now apply IH.
  Qed.

  Lemma readd_moves (t : tree) p pkey name scale old q cols :
    inv t -> In (pkey, p) (t_all t) -> nth_error (t_all t) q = Some ((pkey ++ "." ++ name)%string, old) ->
    n_children (t_heap t) old = 0 -> name_ok name = true -> scale_ok F scale = true -> choices t = Ok cols ->
    let t' := fst (node_add_choice F t p name scale) in
    inv t' /\ depth t' = depth t /\ choices t' = Ok (moved_last q cols) /\ length (t_all t') = length (t_all t).
  Proof.
    intros I Hp Hq H0 Hn Hs CH t'. pose proof I as [C W]. set (key := (pkey ++ "." ++ name)%string) in *.
    assert (PK : pkey = full_name (t_heap t) p) by (now apply (c_key F t C)).
    assert (Ho : In (key, old) (t_all t)) by (eapply nth_error_In; eauto).
    assert (Sp : stored t p) by (eapply in_vals; eauto). assert (So : stored t old) by (eapply in_vals; eauto).
    assert (LT : forall i, stored t i -> i < length (t_heap t)) by (intros; now apply stored_lt).
    pose proof (c_keys F t C) as NK.
    assert (I' : inv t').
    { apply node_add_inv; auto. rewrite <- PK. fold key. intros i Hi. assert (i = old) by (eapply nodup_fun; eauto). now subst i. }
    pose proof I' as [C' W'].
    pose proof (create_child_shape F t p name scale I Hn Hs) as E. cbv zeta in E. rewrite <- PK in E. fold key in E.
    set (id := length (t_heap t)) in *. set (h1 := t_heap t ++ [Node name (Some p) scale (S (level_of (t_heap t) p)) []]) in *.
    assert (ALL : t_all t' = ddel String.eqb (t_all t) key ++ [(key, id)]) by (unfold t', node_add_choice; rewrite E; reflexivity).
    assert (TOP : t_top t' = t_top t) by (unfold t', node_add_choice; rewrite E; reflexivity).
    assert (HP : t_heap t' = set_child F h1 p name id) by (unfold t', node_add_choice; rewrite E; reflexivity).
    rewrite (ddel_moved _ q key old) in ALL by auto.
    assert (KEEP : forall i nd, nth_error (t_heap t) i = Some nd -> exists nd', nth_error (t_heap t') i = Some nd' /\
               nd_name nd' = nd_name nd /\ nd_parent nd' = nd_parent nd /\ nd_children nd' = if Nat.eqb p i then dset String.eqb (nd_children nd) name id else nd_children nd).
    { intros i nd Ei. assert (E1 : nth_error h1 i = Some nd) by (unfold h1; rewrite nth_error_app1; auto; apply nth_error_Some; congruence).
      destruct (set_child_node F h1 p name id i nd E1) as (nd' & A & B & D & _ & _ & G). exists nd'. rewrite HP. auto. }
    assert (PATH : forall i, stored t i -> path (t_heap t') i = path (t_heap t) i).
    { intros i Si. unfold path. symmetry. apply path_of_ext; [|apply W]. intros j Hj. specialize (LT i Si).
      destruct (nth_error (t_heap t) j) as [nd|] eqn:Ej; [|apply nth_error_None in Ej; lia].
      destruct (KEEP j nd Ej) as (nd' & -> & N & P & _). cbn. now rewrite N, P. }
    assert (Hid : In (key, id) (t_all t')) by (rewrite ALL; apply in_or_app; right; now left).
    assert (Sid : stored t' id) by (eapply in_vals; eauto).
    assert (PID : path (t_heap t') id = path (t_heap t) old).
    { destruct (stored_node F t' id C' Sid) as [nid Eid]. destruct (stored_node F t old C So) as [no Eo]. destruct (KEEP old no Eo) as (no' & Eo' & _).
      rewrite <- (PATH old So). apply (full_name_path F (t_heap t') W' id old nid no' Eid Eo').
      rewrite <- (c_key F t' C' key id Hid). unfold full_name. rewrite (PATH old So). apply (c_key F t C key old Ho). }
    (* the nodes: those before, with the new one for the old one, at the end *)
    assert (PATHS : forall (A : Type) (f : list string -> A), map (fun i => f (path (t_heap t') i)) (ids t') = moved_last q (map (fun i => f (path (t_heap t) i)) (ids t))).
    { intros A f. rewrite <- moved_map. unfold ids, dvals. rewrite ALL. unfold moved_last. rewrite !skipn_map, !firstn_map.
      assert (S1 : firstn 1 (skipn q (t_all t)) = [(key, old)]).
      { clear -Hq. revert q Hq. induction (t_all t) as [|x l IH]; intros [|q] Hq; cbn in *; try discriminate; [congruence|now apply IH]. }
      rewrite S1. rewrite !map_app. cbn [map snd]. rewrite PID. rewrite <- app_assoc.
      assert (SAME : forall l, incl l (t_all t) -> map (fun i => f (path (t_heap t') i)) (map snd l) = map (fun i => f (path (t_heap t) i)) (map snd l)).
      { intros l Hl. rewrite !map_map. apply map_ext_in. intros [k i] Hi. cbn [snd]. rewrite PATH; auto. eapply in_vals. apply (Hl (k, i)); exact Hi. }
      rewrite (SAME (firstn q (t_all t))), (SAME (skipn (S q) (t_all t))); auto.
      - intros x Hx. rewrite <- (firstn_skipn (S q) (t_all t)). apply in_or_app. now right.
      - intros x Hx. rewrite <- (firstn_skipn q (t_all t)). apply in_or_app. now left. }
    assert (LEN : length (ids t') = length (ids t)).
    { specialize (PATHS _ (fun x => x)). apply (f_equal (@length _)) in PATHS. rewrite map_length in PATHS. rewrite PATHS.
      rewrite (Permutation_length (moved_perm _ _)). apply map_length. }
    assert (LALL : length (t_all t') = length (t_all t)) by (unfold ids, dvals in LEN; now rewrite !map_length in LEN).
    assert (DEP : depth t' = depth t).
    { assert (LV : map (level_of (t_heap t')) (ids t') = moved_last q (map (level_of (t_heap t)) (ids t))).
      { rewrite (map_ext_in (level_of (t_heap t)) (fun i => length (path (t_heap t) i))) by (intros i Hi; now apply level_length).
        rewrite (map_ext_in (level_of (t_heap t')) (fun i => length (path (t_heap t') i))) by (intros i Hi; now apply level_length). apply PATHS. }
      assert (MX : fold_left Nat.max (map (level_of (t_heap t')) (ids t')) 0 = fold_left Nat.max (map (level_of (t_heap t)) (ids t)) 0).
      { rewrite LV. assert (P := moved_perm q (map (level_of (t_heap t)) (ids t))). rewrite !fold_symmetric by (intros; lia).
        revert P. generalize (moved_last q (map (level_of (t_heap t)) (ids t))) (map (level_of (t_heap t)) (ids t)). intros l1 l2 P. induction P; cbn; lia. }
      unfold depth. destruct (ids t') as [|a l] eqn:E1, (ids t) as [|b l2] eqn:E2; auto; try discriminate LEN. }
    (* the tree still validates *)
    pose proof CH as CH0. unfold choices in CH0. apply rbind_ok in CH0. destruct CH0 as ([] & V & CH0). apply rbind_ok in CH0. destruct CH0 as (d & D & _).
    assert (V' : validate_tree t' = Ok tt).
    { apply validate_iff in V. destruct V as [V1 V2]. apply validate_iff. rewrite TOP. split; auto. intros i Si.
      unfold TreeProofs.stored, ids in Si. apply in_vals_ex in Si. destruct Si as [k Hk]. rewrite ALL in Hk. rewrite <- app_assoc in Hk.
      assert (Hk' : In (k, i) (t_all t) \/ (k, i) = (key, id)).
      { apply in_app_or in Hk. destruct Hk as [Hk|Hk]; [left; rewrite <- (firstn_skipn q (t_all t)); apply in_or_app; now left|].
        apply in_app_or in Hk. destruct Hk as [Hk|[Hk|[]]]; [left; rewrite <- (firstn_skipn (S q) (t_all t)); apply in_or_app; now right|]. right. congruence. }
      destruct Hk' as [Hk'|Hk'].
      - assert (Si : stored t i) by (eapply in_vals; eauto). specialize (V2 i Si). destruct (stored_node F t i C Si) as [nd Ei].
        destruct (KEEP i nd Ei) as (nd' & Ei' & _ & _ & CHD). unfold n_children in V2 |- *. rewrite Ei in V2. rewrite Ei', CHD.
        destruct (Nat.eqb_spec p i) as [<-|Ne]; auto.
        (* the old node was a child of p under that name *)
        assert (PP : path (t_heap t) old = path (t_heap t) p ++ [name]).
        { rewrite <- PID, path_eq by auto. rewrite HP. unfold set_child. assert (E1 : nth_error h1 p = Some nd) by (unfold h1; rewrite nth_error_app1; auto; now apply LT). rewrite E1.
          rewrite nth_error_upd_neq by (specialize (LT p Sp); unfold id; lia). unfold h1, id. rewrite nth_error_app2, Nat.sub_diag by lia. cbn [nth_error nd_parent nd_name].
          f_equal. rewrite <- (PATH p Sp), HP. unfold set_child. fold h1. rewrite E1. reflexivity. }
        rewrite path_eq in PP by auto. destruct (c_node F t C old So) as (no & Eo & _ & PO). rewrite Eo in PP.
        destruct (nd_parent no) as [p'|] eqn:EP.
        + apply app_inj_tail in PP. destruct PP as [PP NM]. destruct PO as [Sp' _].
          assert (p' = p) by (apply (stored_inj F t); auto; unfold full_name; now rewrite PP). subst p'.
          assert (IC : In old (child_ids F (t_heap t) p)) by (apply (c_child F t C p old Sp); split; auto; unfold parent_id; now rewrite Eo).
          unfold child_ids in IC. rewrite Ei in IC. apply in_vals_ex in IC. destruct IC as [n Hc].
          destruct (c_child_keys F t C p nd n old Sp Ei Hc) as (nc & Enc & Nn). rewrite Eo in Enc. injection Enc as <-.
          assert (KN : In name (dkeys (nd_children nd))) by (rewrite <- NM, Nn; eapply in_keys; eauto).
          assert (LN : length (dset String.eqb (nd_children nd) name id) = length (nd_children nd)).
          { pose proof (dset_keys String.eqb string_eqb_spec (nd_children nd) name id KN) as X.
            apply (f_equal (@length _)) in X. unfold dkeys in X. now rewrite !map_length in X. }
          rewrite LN. exact V2.
        + assert (X : path (t_heap t) p = []) by (destruct (path (t_heap t) p) as [|x [|]]; auto; discriminate PP).
          exfalso. exact (path_ne F (t_heap t) W p nd Ei X).
      - injection Hk' as _ ->. unfold n_children. rewrite HP. unfold set_child.
        destruct (nth_error h1 p) as [np|]; [rewrite nth_error_upd_neq by (specialize (LT p Sp); unfold id; lia)|];
          unfold h1, id; rewrite nth_error_app2, Nat.sub_diag by lia; cbn; lia. }
    rewrite (choices_eq F t d I V D) in CH. injection CH as <-. split; auto. split; auto. split; auto.
    rewrite (choices_eq F t' d I' V') by congruence. f_equal. unfold label_of. apply (PATHS _ (fun x => if d =? 1 then Flat (join x) else Tup (x ++ repeat "." (d - length x)))).
  Qed.
End Moved.
