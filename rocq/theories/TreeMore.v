(** The choice tree: labels, flattening (C25-C27, C31). *)
From Coq Require Import Ascii Reals Lra.
From Verif Require Import Prelude Arith CoreModel TreeModel DictProofs TreeProofs SpecTree SpecNested.
Local Open Scope string_scope.
Local Open Scope nat_scope.

Section TM.
  Context (F : arith).
  Notation tree := (tree F).
  Notation node := (node F).
  Notation inv := (inv F). Notation stored := (stored F).
  Implicit Types t : tree.

  Lemma in_model_stored t i : in_model t i <-> stored t i.
  Proof.
    unfold in_model, TreeProofs.stored, ids. split; [intros [k H]; eapply in_vals; eauto|apply in_vals_ex].
  Qed.

  Lemma has_child_iff t i : inv t -> stored t i -> (has_child t i <-> is_parent (t_heap t) i = true).
  Proof.
    intros [C W] Si. unfold has_child, is_parent. destruct (stored_node F t i C Si) as [nd E].
    unfold n_children. rewrite E. pose proof (c_child F t C i) as CC. unfold child_ids in CC. rewrite E in CC.
    split.
    - intros (c & nc & Hc & Ec & P). apply in_model_stored in Hc.
      assert (X : In c (dvals (nd_children nd))).
      { apply CC; auto. split; auto. unfold parent_id. now rewrite Ec. }
      destruct (nd_children nd); [destruct X|reflexivity].
    - intros X. destruct (nd_children nd) as [|[n c] l] eqn:El; [discriminate|].
      destruct (proj1 (CC c Si) (or_introl eq_refl)) as [Sc P]. apply parent_id_some in P. destruct P as (nc & Ec & P).
      exists c, nc. split; auto. now apply in_model_stored.
  Qed.
  Lemma children_nil_iff t i nd : inv t -> stored t i -> nth_error (t_heap t) i = Some nd ->
    (nd_children nd <> [] <-> has_child t i).
  Proof.
    intros I S E. rewrite has_child_iff by auto. unfold is_parent, n_children. rewrite E.
    destruct (nd_children nd); simpl; split; congruence.
  Qed.

  Lemma spells_path t i : inv t -> stored t i -> spells (t_heap t) i (path (t_heap t) i).
  Proof.
    intros [C W]. induction i as [i IH] using (well_founded_induction lt_wf). intros S.
    destruct (c_node F t C i S) as (nd & E & _ & P). rewrite path_eq, E by auto.
    destruct (nd_parent nd) as [p|] eqn:Ep.
    - apply spells_child with p; auto. destruct P as [Sp _]. apply IH; auto. eapply hw_parent; eauto.
    - apply spells_top; auto.
  Qed.
  Lemma spells_unique t i p1 : inv t -> spells (t_heap t) i p1 -> p1 = path (t_heap t) i.
  Proof.
    intros [C W] H. induction H as [i nd E P|i nd p parts E P H IH]; rewrite path_eq, E, P by auto; auto.
    now rewrite IH.
  Qed.

  Lemma level_length t i : inv t -> stored t i -> level_of (t_heap t) i = length (path (t_heap t) i).
  Proof.
    intros [C W]. induction i as [i IH] using (well_founded_induction lt_wf). intros S.
    destruct (c_node F t C i S) as (nd & E & _ & P). rewrite path_eq, E by auto. unfold level_of at 1. rewrite E.
    destruct (nd_parent nd) as [p|] eqn:Ep; auto. destruct P as [Sp ->].
    rewrite app_length, IH; auto; [simpl; lia|]. eapply hw_parent; eauto.
  Qed.

  Lemma fold_max_ge l a x : (In x l \/ x <= a) -> x <= fold_left Nat.max l a.
  Proof.
    revert a; induction l as [|y l IH]; intros a H; simpl in *; [destruct H; [tauto|auto]|].
    apply IH. destruct H as [[->|H]|H]; auto; right; lia.
  Qed.
  Lemma fold_max_le l a b : a <= b -> (forall x, In x l -> x <= b) -> fold_left Nat.max l a <= b.
  Proof.
    revert a; induction l as [|y l IH]; intros a H Hl; simpl; auto. apply IH; [|intros; apply Hl; simpl; auto].
    specialize (Hl y (or_introl eq_refl)). lia.
  Qed.
  Lemma depth_ok t d : depth t = Ok d -> forall i, stored t i -> level_of (t_heap t) i <= d.
  Proof.
    unfold depth, TreeProofs.stored. intros H i Hi. destruct (ids t) as [|a l]; [destruct Hi|]. injection H as <-.
    apply (fold_max_ge (map (level_of (t_heap t)) (a :: l)) 0). left. now apply in_map.
  Qed.

  Lemma firstn_ge {A} (l : list A) k : length l <= k -> firstn k l = l.
  Proof. apply firstn_all2. Qed.

  (** ** Labels *)
  Lemma nested_id_fuel h (W : heap_wf F h) d : forall f1 f2 i, i < f1 -> i < f2 -> nested_id_of F f1 h d i = nested_id_of F f2 h d i.
  Proof.
    induction f1 as [|f1 IH]; intros [|f2] i H1 H2; try lia. simpl.
    destruct (nth_error h i) as [nd|] eqn:E; auto. destruct (nd_parent nd) as [p|] eqn:Ep; auto.
    pose proof (hw_parent F h W i nd p E Ep). rewrite (IH f2 p) by lia. reflexivity.
  Qed.
  Lemma upd_at_mid {A} (a : list A) x y b : upd (a ++ x :: b)%list (length a) y = (a ++ y :: b)%list.
  Proof. induction a as [|z a IH]; simpl; auto. now rewrite IH. Qed.

  Lemma nested_id_spec t d i : inv t -> stored t i -> level_of (t_heap t) i <= d ->
    (forall j, stored t j -> level_of (t_heap t) j <= d) ->
    nested_id (t_heap t) d i = (path (t_heap t) i ++ repeat "." (d - length (path (t_heap t) i)))%list.
  Proof.
    intros I. induction i as [i IH] using (well_founded_induction lt_wf). intros S Hl Hall.
    pose proof (level_length t i I S) as LL. destruct I as [C W].
    destruct (c_node F t C i S) as (nd & E & _ & P).
    unfold nested_id. cbn [nested_id_of]. rewrite E. rewrite (path_eq F (t_heap t) W i), E in LL |- *.
    unfold level_of in LL, Hl. rewrite E in LL, Hl.
    destruct (nd_parent nd) as [p|] eqn:Ep.
    - destruct P as [Sp Lp]. pose proof (hw_parent F _ W i nd p E Ep) as Hpi.
      rewrite (nested_id_fuel (t_heap t) W d i (Datatypes.S p)) by lia. fold (nested_id (t_heap t) d p).
      rewrite IH; auto. rewrite app_length in LL |- *. simpl in LL |- *.
      set (pp := path (t_heap t) p) in *. assert (Hpp : length pp < d) by lia.
      replace (firstn (nd_level nd + 1) (pp ++ repeat "." (d - length pp)) ++ skipn (nd_level nd + 1) (repeat "." d))%list
        with (pp ++ repeat "." (d - length pp))%list.
      + replace (nd_level nd + 1 - 2) with (length pp) by lia.
        replace (d - length pp) with (Datatypes.S (d - (length pp + 1))) by lia. simpl. rewrite upd_at_mid, <- app_assoc. reflexivity.
      + rewrite firstn_app. rewrite (firstn_all2 pp) by lia. rewrite <- app_assoc. f_equal.
        replace (repeat "." (d - length pp)) with (repeat "." (Nat.min (nd_level nd + 1 - length pp) (d - length pp)) ++
          repeat "." (d - length pp - Nat.min (nd_level nd + 1 - length pp) (d - length pp)))%list at 1
          by (rewrite <- repeat_app; f_equal; lia).
        f_equal.
        * clear. generalize (nd_level nd + 1 - length pp) as a, (d - length pp) as b.
          induction a as [|a IHa]; intros [|b]; simpl; auto. now rewrite IHa.
        * replace (d - length pp - Nat.min (nd_level nd + 1 - length pp) (d - length pp)) with (d - (nd_level nd + 1)) by lia.
          clear. generalize (nd_level nd + 1) as a, d as b. induction a as [|a IHa]; intros [|b]; simpl; auto.
    - simpl in LL. destruct d as [|d]; [lia|]. simpl. now rewrite Nat.sub_0_r.
  Qed.

  Lemma padded_inj h (W : heap_wf F h) d i j : let p := path h i in let q := path h j in
    (p ++ repeat "." (d - length p) = q ++ repeat "." (d - length q))%list -> p = q.
  Proof.
    intros p q. pose proof (path_dots F h W i) as Dp. pose proof (path_dots F h W j) as Dq. fold p in Dp. fold q in Dq.
    generalize (d - length p) as a, (d - length q) as b. clearbody p q. clear -Dp Dq.
    revert q Dq. induction p as [|x p IH]; intros [|y q] Dq a b E; auto.
    - destruct a; simpl in E; [discriminate|]. injection E as <- _. inversion Dq. discriminate.
    - destruct b; simpl in E; [discriminate|]. injection E as -> _. inversion Dp. discriminate.
    - injection E as <- E. inversion Dp; inversion Dq; subst. f_equal. eapply IH; eauto.
  Qed.

  Lemma ids_nodup t : inv t -> NoDup (ids t).
  Proof.
    intros [C W]. pose proof (c_keys F t C) as N. pose proof (c_key F t C) as K. unfold ids, dvals.
    unfold dkeys in N. revert N K. generalize (t_all t). intros l N K.
    induction l as [|[k i] l IH]; simpl; constructor.
    - intros X. apply in_map_iff in X. destruct X as ([k' i'] & E & X). simpl in E. subst i'.
      simpl in N. inversion N; subst. apply H1. apply in_map_iff. exists (k', i). split; auto. simpl.
      rewrite (K k i) by (simpl; auto). rewrite (K k' i) by (simpl; auto). reflexivity.
    - apply IH; [now inversion N|]. intros; apply K; simpl; auto.
  Qed.

  Lemma keys_full t : inv t -> dkeys (t_all t) = map (full_name (t_heap t)) (ids t).
  Proof.
    intros [C W]. pose proof (c_key F t C) as K. unfold ids, dvals, dkeys. rewrite map_map. apply map_ext_in.
    intros [k i] H. simpl. auto.
  Qed.

  Definition label_of t (d i : nat) : label :=
    if d =? 1 then Flat (full_name (t_heap t) i)
    else Tup (path (t_heap t) i ++ repeat "." (d - length (path (t_heap t) i)))%list.

  Lemma choices_eq t d : inv t -> validate_tree t = Ok tt -> depth t = Ok d ->
    choices t = Ok (map (label_of t d) (ids t)).
  Proof.
    intros I V D. unfold choices. rewrite V, D. simpl. f_equal. unfold label_of. destruct (d =? 1).
    - rewrite keys_full by auto. now rewrite map_map.
    - apply map_ext_in. intros i Hi. f_equal. pose proof (depth_ok t d D) as Hd. apply nested_id_spec; auto; apply Hd; exact Hi.
  Qed.

  Lemma label_of_inj t d i j : inv t -> stored t i -> stored t j -> label_of t d i = label_of t d j -> i = j.
  Proof.
    intros [C W] Si Sj. unfold label_of. destruct (d =? 1); intros E; injection E as E.
    - eapply stored_inj; eauto.
    - apply (padded_inj (t_heap t) W) in E. apply (stored_inj F t); auto. unfold full_name. now rewrite E.
  Qed.

  Lemma labels_nodup t d : inv t -> NoDup (map (label_of t d) (ids t)).
  Proof.
    intros I. pose proof (ids_nodup t I) as N.
    assert (H : forall i j, In i (ids t) -> In j (ids t) -> label_of t d i = label_of t d j -> i = j)
      by (intros; eapply label_of_inj; eauto).
    revert N H. generalize (ids t). induction l as [|x l IH]; intros N H; simpl; constructor; inversion N; subst.
    - intros X. apply in_map_iff in X. destruct X as (y & E & Y). apply H2. assert (y = x) by (apply H; simpl; auto). congruence.
    - apply IH; auto. intros; apply H; simpl; auto.
  Qed.

  Lemma depth_one_path t d i : inv t -> depth t = Ok d -> d = 1 -> stored t i ->
    exists x, path (t_heap t) i = [x].
  Proof.
    intros I D -> S. pose proof (depth_ok t 1 D i S) as L. rewrite level_length in L by auto.
    destruct I as [C W]. destruct (stored_node F t i C S) as [nd E]. pose proof (path_ne F _ W i nd E).
    destruct (path (t_heap t) i) as [|x [|y l]]; simpl in *; [congruence|eauto|lia].
  Qed.

  Lemma label_of_spec t d i : inv t -> depth t = Ok d -> stored t i -> label_spec t d i (label_of t d i).
  Proof.
    intros I D S. exists (path (t_heap t) i). split; [now apply spells_path|]. unfold label_of.
    destruct (Nat.eqb_spec d 1) as [->|]; auto. destruct (depth_one_path t 1 i I D eq_refl S) as [x E].
    unfold full_name. rewrite E. reflexivity.
  Qed.

  (** ** Validation *)
  Lemma validate_iff t : validate_tree t = Ok tt <->
    2 <= length (t_top t) /\ forall i, stored t i -> n_children (t_heap t) i <> 1.
  Proof.
    unfold validate_tree. destruct (Nat.leb_spec 2 (length (t_top t))) as [L|L]; simpl.
    - destruct (existsb _ (ids t)) eqn:E.
      + split; [discriminate|]. intros [_ H]. apply existsb_exists in E. destruct E as (i & Hi & E).
        apply Nat.eqb_eq in E. destruct (H i Hi E).
      + split; auto. intros _. split; auto. intros i Hi X.
        assert (existsb (fun id => n_children (t_heap t) id =? 1) (ids t) = true) by
          (apply existsb_exists; exists i; split; auto; apply Nat.eqb_eq; auto). congruence.
    - split; [discriminate|]. lia.
  Qed.
  Lemma child_ids_nodup t i nd : inv t -> stored t i -> nth_error (t_heap t) i = Some nd -> NoDup (dvals (nd_children nd)).
  Proof.
    intros [C W] S E. pose proof (c_child_nodup F t C i nd S E) as N.
    assert (K : forall n c, In (n, c) (nd_children nd) -> exists nc, nth_error (t_heap t) c = Some nc /\ nd_name nc = n)
      by (intros; eapply c_child_keys; eauto).
    revert N K. generalize (nd_children nd). unfold dkeys, dvals. induction d as [|[n c] l IH]; simpl; intros N K; constructor; inversion N; subst.
    - intros X. apply in_map_iff in X. destruct X as ([n' c'] & E' & X). simpl in E'. subst c'.
      destruct (K n c) as (a & Ea & Na); auto. destruct (K n' c) as (b & Eb & Nb); auto. rewrite Ea in Eb. injection Eb as <-.
      apply H1. apply in_map_iff. exists (n', c). split; auto. simpl. congruence.
    - apply IH; auto.
  Qed.

  (** ** Positions *)
  Lemma fold_dset_app (l : list (nat * nat)) (f : nat -> string) acc :
    NoDup (dkeys acc ++ map (fun iv => f (snd iv)) l)%list ->
    fold_left (fun d (iv : nat * nat) => dset String.eqb d (f (snd iv)) (fst iv)) l acc =
      (acc ++ map (fun iv => (f (snd iv), fst iv)) l)%list.
  Proof.
    revert acc; induction l as [|[i v] l IH]; intros acc N; simpl in *; [now rewrite app_nil_r|].
    rewrite (dset_absent String.eqb string_eqb_spec).
    - rewrite IH; [now rewrite <- app_assoc|]. unfold dkeys in *. rewrite map_app, <- app_assoc. exact N.
    - apply NoDup_remove_2 in N. rewrite in_app_iff in N. tauto.
  Qed.
  Lemma map_snd_combine {A B} (a : list A) (b : list B) : length a = length b -> map snd (combine a b) = b.
  Proof. revert b; induction a as [|x a IH]; intros [|y b] H; simpl in *; try lia; auto. rewrite IH; auto. Qed.
  Lemma nth_error_combine {A B} (a : list A) (b : list B) k x y :
    nth_error a k = Some x -> nth_error b k = Some y -> nth_error (combine a b) k = Some (x, y).
  Proof. revert b k; induction a as [|u a IH]; intros [|v b] [|k] H1 H2; simpl in *; try discriminate; auto. congruence. Qed.

  Lemma positions_eq t : inv t ->
    node_positions F t = map (fun iv => (full_name (t_heap t) (snd iv), fst iv)) (combine (seq 0 (length (ids t))) (ids t)).
  Proof.
    intros I. unfold node_positions. rewrite (fold_dset_app _ (full_name (t_heap t))); auto. simpl.
    rewrite <- (map_map snd (full_name (t_heap t))), map_snd_combine by (now rewrite seq_length).
    rewrite <- keys_full by auto. destruct I as [C W]. now apply c_keys.
  Qed.
  Lemma position_of t k i : inv t -> nth_error (ids t) k = Some i ->
    dget String.eqb (node_positions F t) (full_name (t_heap t) i) = Some k.
  Proof.
    intros I E. rewrite positions_eq by auto. apply (in_dget String.eqb string_eqb_spec).
    - unfold dkeys. rewrite map_map. simpl. rewrite <- (map_map snd (full_name (t_heap t))), map_snd_combine by (now rewrite seq_length).
      rewrite <- keys_full by auto. destruct I as [C W]. now apply c_keys.
    - apply in_map_iff. exists (k, i). split; auto. apply nth_error_In with k. apply nth_error_combine; auto.
      assert (k < length (ids t)) by (apply nth_error_Some; congruence).
      rewrite (nth_error_nth' _ 0) by (now rewrite seq_length). now rewrite seq_nth.
  Qed.

  (** ** Flattening *)
  Definition pos_in (l : list nat) (i : nat) : option nat :=
    (fix go l k := match l with [] => None | x :: r => if Nat.eqb x i then Some k else go r (S k) end) l 0.
  Lemma pos_in_go l i k : NoDup l -> nth_error l k = Some i -> forall b,
     (fix go l k := match l with [] => None | x :: r => if Nat.eqb x i then Some k else go r (S k) end) l b = Some (b + k).
  Proof.
    revert k; induction l as [|x l IH]; intros [|k] N E b; simpl in *; try discriminate; inversion N; subst.
    - injection E as ->. rewrite Nat.eqb_refl. f_equal; lia.
    - destruct (Nat.eqb_spec x i) as [->|]; [exfalso; apply H1; eapply nth_error_In; eauto|].
      rewrite (IH k) by auto. f_equal; lia.
  Qed.
  Lemma pos_in_nth l i k : NoDup l -> nth_error l k = Some i -> pos_in l i = Some k.
  Proof. intros N E. unfold pos_in. now rewrite (pos_in_go l i k N E 0). Qed.

  Definition exp_h t (i : nat) : Z :=
    match nth_error (t_heap t) i with
    | Some nd => match nd_parent nd with
                 | Some p => match pos_in (ids t) p with Some q => Z.of_nat q | None => (-1)%Z end
                 | None => (-1)%Z end
    | None => (-1)%Z end.
  Definition exp_sc t i : num F :=
    match nth_error (t_heap t) i with
    | Some nd => if is_parent (t_heap t) i then nd_scale nd else none_ F | None => none_ F end.

  (** list with the first [m] entries computed, the rest default *)
  Definition part {A} (f : nat -> A) (d : A) (l : list nat) (m : nat) : list A :=
    (map f (firstn m l) ++ repeat d (length l - m))%list.
  Lemma part_upd {A} (f : nat -> A) d l m i : nth_error l m = Some i -> upd (part f d l m) m (f i) = part f d l (S m).
  Proof.
    intros E. unfold part. assert (Hm : m < length l) by (apply nth_error_Some; congruence).
    replace (length l - m) with (S (length l - S m)) by lia. cbn [repeat].
    assert (Hlen : length (map f (firstn m l)) = m) by (rewrite map_length, firstn_length; lia).
    pose proof (upd_at_mid (map f (firstn m l)) d (f i) (repeat d (length l - S m))) as X. rewrite Hlen in X. rewrite X. assert (H : firstn (S m) l = (firstn m l ++ [i])%list).
    { clear Hm Hlen X. revert l E. induction m as [|m IH]; intros [|x l] E; simpl in *; try discriminate; [congruence|].
      f_equal. apply IH; auto. }
    rewrite H, map_app, <- app_assoc. reflexivity.
  Qed.
  Lemma part_skip {A} (f : nat -> A) d l m i : nth_error l m = Some i -> f i = d -> part f d l (S m) = part f d l m.
  Proof.
    intros E Hd. rewrite <- (part_upd f d l m i E). assert (Hm : m < length l) by (apply nth_error_Some; congruence).
    unfold part. replace (length l - m) with (S (length l - S m)) by lia. cbn [repeat].
    assert (Hlen : length (map f (firstn m l)) = m) by (rewrite map_length, firstn_length; lia).
    pose proof (upd_at_mid (map f (firstn m l)) d (f i) (repeat d (length l - S m))) as X. rewrite Hlen in X. rewrite X. now rewrite Hd.
  Qed.

  Lemma flatten_prefix t : inv t -> let l := ids t in forall rest m,
    (forall j, nth_error rest j = nth_error l (m + j)) -> m + length rest = length l ->
    fold_left (flatten_node F t (node_positions F t)) rest
      (Ok (part (exp_h t) (-1)%Z l m, part (fun i => level_of (t_heap t) i - 1) 0 l m,
           part (exp_sc t) (none_ F) l m, part (fun i => negb (is_parent (t_heap t) i)) true l m))
    = Ok (map (exp_h t) l, map (fun i => level_of (t_heap t) i - 1) l, map (exp_sc t) l,
          map (fun i => negb (is_parent (t_heap t) i)) l).
  Proof.
    intros I l. induction rest as [|i rest IH]; intros m Hn Hl; simpl in Hl.
    - assert (m = length l) as -> by lia. unfold part. rewrite firstn_all, Nat.sub_diag. simpl. now rewrite !app_nil_r.
    - pose proof (Hn 0) as E. simpl in E. rewrite Nat.add_0_r in E. symmetry in E.
      cbn [fold_left]. unfold flatten_node at 2. cbn [rbind].
      assert (S : stored t i) by (eapply nth_error_In; eauto).
      rewrite (position_of t m i I E). pose proof I as I0. destruct I as [C W].
      destruct (c_node F t C i S) as (nd & En & _ & P). rewrite En.
      assert (Elv : nd_level nd = level_of (t_heap t) i) by (unfold level_of; now rewrite En). rewrite Elv.
      rewrite (part_upd (fun i => level_of (t_heap t) i - 1) 0 l m i E).
      assert (Hh : match nd_parent nd with
                   | None => Ok (part (exp_h t) (-1)%Z l m)
                   | Some p => match dget String.eqb (node_positions F t) (full_name (t_heap t) p) with
                               | Some pp => Ok (upd (part (exp_h t) (-1)%Z l m) m (Z.of_nat pp))
                               | None => Err KeyError end
                   end = Ok (part (exp_h t) (-1)%Z l (Datatypes.S m))).
      { destruct (nd_parent nd) as [p|] eqn:Ep.
        - destruct P as [Sp _]. apply In_nth_error in Sp. destruct Sp as [q Eq]. rewrite (position_of t q p I0 Eq).
          f_equal. rewrite <- (part_upd (exp_h t) (-1)%Z l m i E). f_equal. unfold exp_h. rewrite En, Ep.
          rewrite (pos_in_nth _ p q); auto. now apply ids_nodup.
        - f_equal. symmetry. apply part_skip with i; auto. unfold exp_h. rewrite En, Ep. reflexivity. }
      rewrite Hh. cbn [rbind].
      assert (Hsc : (if is_parent (t_heap t) i then nd_scale nd else none_ F) = exp_sc t i) by (unfold exp_sc; now rewrite En).
      destruct (is_parent (t_heap t) i) eqn:Eip.
      + rewrite Hsc. rewrite (part_upd (exp_sc t) (none_ F) l m i E).
        replace false with (negb (is_parent (t_heap t) i)) by (now rewrite Eip).
        rewrite (part_upd (fun i => negb (is_parent (t_heap t) i)) true l m i E).
        apply IH; [|lia]. intros j. specialize (Hn (Datatypes.S j)). simpl in Hn. rewrite Hn. f_equal. lia.
      + rewrite <- (part_skip (exp_sc t) (none_ F) l m i E) by auto.
        rewrite <- (part_skip (fun i => negb (is_parent (t_heap t) i)) true l m i E) by (now rewrite Eip).
        apply IH; [|lia]. intros j. specialize (Hn (Datatypes.S j)). simpl in Hn. rewrite Hn. f_equal. lia.
  Qed.

  Lemma flatten_eq t d : inv t -> depth t = Ok d -> 1 < d ->
    flatten F t = Ok (map (exp_h t) (ids t), map (fun i => level_of (t_heap t) i - 1) (ids t),
                      map (exp_sc t) (ids t), map (fun i => negb (is_parent (t_heap t) i)) (ids t)).
  Proof.
    intros I D H. unfold flatten. rewrite D. cbn [rbind]. destruct (Nat.ltb_spec 1 d); [|lia]. cbn [negb].
    pose proof (flatten_prefix t I (ids t) 0 (fun j => eq_refl) eq_refl) as X. cbn zeta in X. unfold part in X. simpl in X.
    rewrite Nat.sub_0_r in X. replace (length (t_all t)) with (length (ids t)); [exact X|].
    unfold ids, dvals. now rewrite map_length.
  Qed.

  (** parent positions *)
  Lemma exp_h_parent t k i nd : inv t -> nth_error (ids t) k = Some i -> nth_error (t_heap t) i = Some nd ->
    match nd_parent nd with
    | None => exp_h t i = (-1)%Z
    | Some p => exists q, nth_error (ids t) q = Some p /\ exp_h t i = Z.of_nat q
    end.
  Proof.
    intros I E En. unfold exp_h. rewrite En. destruct (nd_parent nd) as [p|] eqn:Ep; auto.
    assert (S : stored t i) by (eapply nth_error_In; eauto). pose proof I as [C W].
    destruct (c_node F t C i S) as (nd' & En' & _ & P). rewrite En in En'. injection En' as <-. rewrite Ep in P. destruct P as [Sp _].
    apply In_nth_error in Sp. destruct Sp as [q Eq]. exists q. split; auto. rewrite (pos_in_nth _ p q); auto. now apply ids_nodup.
  Qed.
  Lemma parent_of_exp t k i nd : inv t -> nth_error (ids t) k = Some i -> nth_error (t_heap t) i = Some nd ->
    match nd_parent nd with
    | None => parent_of (map (exp_h t) (ids t)) k = None /\ nth k (map (exp_h t) (ids t)) (-1)%Z = (-1)%Z
    | Some p => exists q, nth_error (ids t) q = Some p /\ parent_of (map (exp_h t) (ids t)) k = Some q
    end.
  Proof.
    intros I E En. pose proof (exp_h_parent t k i nd I E En) as H.
    assert (Hn : nth k (map (exp_h t) (ids t)) (-1)%Z = exp_h t i).
    { apply nth_error_nth. rewrite nth_error_map, E. reflexivity. }
    unfold parent_of. rewrite Hn. destruct (nd_parent nd) as [p|].
    - destruct H as (q & Eq & ->). exists q. split; auto.
      destruct (Z.ltb_spec (Z.of_nat q) 0); [lia|]. now rewrite Nat2Z.id.
    - rewrite H. auto.
  Qed.

  (** children of a position = positions of the nodes that name it as parent *)
  Lemma children_exp t k i j : inv t -> nth_error (ids t) k = Some i ->
    (In j (children (length (ids t)) (map (exp_h t) (ids t)) k) <->
     exists c nd, nth_error (ids t) j = Some c /\ nth_error (t_heap t) c = Some nd /\ nd_parent nd = Some i).
  Proof.
    intros I E. unfold children. rewrite filter_In, in_seq. split.
    - intros [[_ Hj] H]. simpl in Hj. destruct (nth_error (ids t) j) as [c|] eqn:Ej; [|apply nth_error_None in Ej; lia].
      assert (S : stored t c) by (eapply nth_error_In; eauto). pose proof I as [C W].
      destruct (stored_node F t c C S) as [nd En]. exists c, nd. split; auto. split; auto.
      pose proof (parent_of_exp t j c nd I Ej En) as P. unfold is_child in H.
      destruct (nd_parent nd) as [p|]; [|destruct P as [P _]; rewrite P in H; discriminate].
      destruct P as (q & Eq & P). rewrite P in H. apply Nat.eqb_eq in H. subst q. congruence.
    - intros (c & nd & Ej & En & P). split.
      + split; [lia|]. simpl. apply nth_error_Some. congruence.
      + pose proof (parent_of_exp t j c nd I Ej En) as X. rewrite P in X. destruct X as (q & Eq & X). unfold is_child. rewrite X.
        apply Nat.eqb_eq. pose proof (ids_nodup t I) as N. rewrite NoDup_nth_error in N. apply N; [apply nth_error_Some; congruence|congruence].
  Qed.
  Lemma children_nil t k i : inv t -> nth_error (ids t) k = Some i ->
    (children (length (ids t)) (map (exp_h t) (ids t)) k = [] <-> is_parent (t_heap t) i = false).
  Proof.
    intros I E. assert (S : stored t i) by (eapply nth_error_In; eauto).
    pose proof (has_child_iff t i I S) as HC. split.
    - intros H. destruct (is_parent (t_heap t) i) eqn:Ei; auto. exfalso.
      destruct (proj2 HC eq_refl) as (c & nd & Hc & En & P). apply in_model_stored in Hc. apply In_nth_error in Hc. destruct Hc as [j Ej].
      pose proof (proj2 (children_exp t k i j I E)) as X. rewrite H in X. apply X. eauto 6.
    - intros H. destruct (children (length (ids t)) (map (exp_h t) (ids t)) k) as [|j l] eqn:Ec; auto. exfalso.
      destruct (proj1 (children_exp t k i j I E)) as (c & nd & Ej & En & P); [rewrite Ec; simpl; auto|].
      assert (has_child t i) by (exists c, nd; split; auto; apply in_model_stored; eapply nth_error_In; eauto).
      apply HC in H0. congruence.
  Qed.

  Lemma flatten_wf t d : inv t -> depth t = Ok d ->
    wf_table (length (ids t)) (map (exp_h t) (ids t)) (map (fun i => level_of (t_heap t) i - 1) (ids t))
             (map (fun i => negb (is_parent (t_heap t) i)) (ids t)).
  Proof.
    intros I D. unfold wf_table. rewrite !map_length. split.
    { unfold depth in D. destruct (ids t); [discriminate|simpl; lia]. }
    do 3 (split; [reflexivity|]). split.
    - intros k Hk. destruct (nth_error (ids t) k) as [i|] eqn:E; [|apply nth_error_None in E; lia].
      assert (S : stored t i) by (eapply nth_error_In; eauto). pose proof I as [C W].
      destruct (c_node F t C i S) as (nd & En & _ & P).
      pose proof (parent_of_exp t k i nd I E En) as X.
      assert (Hlv : forall k i, nth_error (ids t) k = Some i -> nth k (map (fun i => level_of (t_heap t) i - 1) (ids t)) 0 = level_of (t_heap t) i - 1).
      { intros k' i' E'. apply nth_error_nth. rewrite nth_error_map, E'. reflexivity. }
      rewrite (Hlv k i E). assert (Elv : level_of (t_heap t) i = nd_level nd) by (unfold level_of; now rewrite En). rewrite Elv.
      destruct (nd_parent nd) as [p|] eqn:Ep.
      + destruct X as (q & Eq & ->). destruct P as [Sp Lp]. split; [apply nth_error_Some; congruence|].
        rewrite (Hlv q p Eq), Lp. rewrite (level_length t p I Sp). destruct (stored_node F t p C Sp) as [np Enp].
        pose proof (path_ne F _ W p np Enp). destruct (path (t_heap t) p); [congruence|]. simpl. lia.
      + destruct X as [-> X]. split; auto. rewrite P. reflexivity.
    - intros k Hk. destruct (nth_error (ids t) k) as [i|] eqn:E; [|apply nth_error_None in E; lia].
      rewrite (children_nil t k i I E). erewrite nth_error_nth by (rewrite nth_error_map, E; reflexivity).
      destruct (is_parent (t_heap t) i); simpl; split; congruence.
  Qed.
End TM.
