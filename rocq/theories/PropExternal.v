(** Property C58: partial utilities given as a table. *)
From Verif Require Import Prelude Arith CoreModel TreeModel DictProofs ParModel ParProofs PropParallel ExprModel ScopeModel SpecScope ScopeProofs ModelModel ModelProofs SpecModel KernelProofs EvalProofs ModelExample PropState ModelWorld ModelHist ModelTabs RunProofs.
Local Open Scope string_scope.
Local Open Scope nat_scope.
Local Open Scope list_scope.

Section External.
  Context {L : Type} {F : arith} {D cell : Type} (E : env L F D cell).
  Notation num := (num F).
  Notation cm := (cm E).
  Notation table := (list (list num)).
  Notation tables := (list (list (list num))).
  Context (EQ : forall a b, ev_eq E a b = true <-> a = b) (G : generator F).
  Set Default Proof Using "Type*".

  (** the table of partial utilities a call starts from *)
  Definition partials (ts : tables) (m : cm) (d : list D) (ch : list label) : table :=
    match m_utils m with Some u => nth (u_ref u) ts [] | None => zeros (length d) (length ch) end.

  Lemma axis_goes index labels allowed idx : add_axis E index labels allowed = Ok idx -> NoDup labels ->
    forall i l tr, nth_error labels i = Some l -> (goes_to idx i tr <-> nth_error index tr = Some l).
  Proof.
    unfold add_axis. destruct (index_equals (ev_eq E) index labels) eqn:IE.
    - apply (index_equals_spec _ EQ) in IE. subst labels. intros H N i l tr X. injection H as <-. cbn. split; [intros ->; auto|].
      intros Y. apply (proj1 (NoDup_nth_error index) N); [apply nth_error_Some; congruence|congruence].
    - destruct allowed; [|discriminate]. unfold get_indexer. destruct (unique (ev_eq E) index) eqn:U; [|discriminate]. apply (unique_spec _ EQ) in U.
      cbn [rmap]. intros H _ i l tr X. injection H as <-. cbn [goes_to]. rewrite nth_error_map, X. cbn [option_map].
      destruct (position (ev_eq E) index l) as [p|] eqn:P; split.
      + intros Q. injection Q as Q. apply Nat2Z.inj in Q. subst. now apply (position_some _ EQ).
      + intros Q. rewrite (position_nth _ EQ index l tr U Q) in P. injection P as <-. reflexivity.
      + intros Q. injection Q as Q. lia.
      + intros Q. apply (position_none _ EQ) in P. exfalso. apply P. eapply nth_error_In; eauto.
  Qed.
  Lemma axis_distinct index labels allowed idx n : add_axis E index labels allowed = Ok idx -> NoDup labels -> indexer_ok (length labels) n idx -> distinct idx.
  Proof.
    unfold add_axis. destruct (index_equals (ev_eq E) index labels) eqn:IE; [intros H; injection H as <-; cbn; auto|].
    destruct allowed; [|discriminate]. unfold get_indexer. destruct (unique (ev_eq E) index) eqn:U; [|discriminate].
    cbn [rmap]. intros H N O. injection H as <-. destruct O as (_ & _ & R). cbn [distinct].
    revert R. clear IE. induction N as [|x l NI N IH]; intros R; cbn; [constructor|]. constructor.
    - intros I. apply in_map_iff in I. destruct I as (y & Q & I). destruct (position (ev_eq E) index x) as [p|] eqn:P1, (position (ev_eq E) index y) as [q|] eqn:P2; try lia.
      + apply Nat2Z.inj in Q. subst q. apply (position_some _ EQ) in P1, P2. assert (x = y) by congruence. now subst.
      + specialize (R (-1)%Z). cbn in R. rewrite P1 in R. specialize (R (or_introl eq_refl)). lia.
    - apply IH. intros z I. apply R. now right.
  Qed.
  Lemma axis_incl index labels allowed idx n : add_axis E index labels allowed = Ok idx -> indexer_ok (length labels) n idx -> incl labels index.
  Proof.
    unfold add_axis. destruct (index_equals (ev_eq E) index labels) eqn:IE.
    - apply (index_equals_spec _ EQ) in IE. subst. intros _ _. apply incl_refl.
    - destruct allowed; [|discriminate]. unfold get_indexer. destruct (unique (ev_eq E) index) eqn:U; [|discriminate].
      cbn [rmap]. intros H O. injection H as <-. destruct O as (_ & _ & R). intros x I. destruct (position (ev_eq E) index x) as [p|] eqn:P; [apply (position_some _ EQ) in P; eapply nth_error_In; eauto|].
      specialize (R (-1)%Z). rewrite in_map_iff in R. enough (0 <= -1 < Z.of_nat n)%Z by lia. apply R. exists x. now rewrite P.
  Qed.
  Lemma axis_has idx k n i : indexer_ok k n idx -> i < k -> exists tr, goes_to idx i tr /\ tr < n.
  Proof.
    destruct idx as [l|]; cbn; [|intros ->; eauto]. intros (A & _ & R) LT. exists (Z.to_nat (nth i l 0%Z)).
    assert (I : In (nth i l 0%Z) l) by (apply nth_In; lia). apply R in I. split; [|lia].
    rewrite Z2Nat.id by lia. apply nth_error_nth'. lia.
  Qed.
  Lemma goes_lt idx k n i tr : indexer_ok k n idx -> i < k -> goes_to idx i tr -> tr < n.
  Proof.
    intros O LT GT. destruct (axis_has idx k n i O LT) as (q & GQ & LQ). destruct idx as [l|]; cbn in *; [|subst; auto]. rewrite GT in GQ. injection GQ as GQ. apply Nat2Z.inj in GQ. now subst.
  Qed.

  Lemma prepare_parts ts (m : cm) rows cols cells rr rc ts1 m1 u ix p :
    add_partial_prepare E ts m rows cols cells rr rc = (ts1, m1, Ok (u, ix, p)) ->
    exists d ch, units E m = Ok d /\ choices (m_tree m) = Ok ch /\
      add_axis E d rows rr = Ok (fst ix) /\ add_axis E (map (ev_label E) ch) cols rc = Ok (snd ix) /\
      partial_utilities E ts m = (ts1, m1, Ok u) /\
      fast_indexed_add F (length (deref_tab ts1 (u_ref u))) (length (u_cols u)) cells (length cols) (fst ix) (snd ix) = Ok p.
  Proof.
    unfold add_partial_prepare. destruct (validate_tree (m_tree m)); [|discriminate]. destruct (units E m) as [d|]; [|discriminate]. destruct (choices (m_tree m)) as [ch|]; [|discriminate].
    destruct (add_axis E d rows rr) as [ri|] eqn:A1; [|discriminate]. destruct (add_axis E (map (ev_label E) ch) cols rc) as [ci|] eqn:A2; [|discriminate].
    destruct (partial_utilities E ts m) as [[ts2 m2] [u2|]]; [|discriminate].
    destruct (fast_indexed_add F (length (deref_tab ts2 (u_ref u2))) (length (u_cols u2)) cells (length cols) ri ci) as [p2|] eqn:FA; cbn [rbind]; [|discriminate].
    intros H. injection H as <- <- <- <- <-. exists d, ch. cbn. auto 10.
  Qed.
  Lemma partial_parts ts (m : cm) ts1 m1 u d ch : partial_utilities E ts m = (ts1, m1, Ok u) -> units E m = Ok d -> choices (m_tree m) = Ok ch -> table_ok E ts m ->
    m_utils m1 = Some u /\ (m_utils m = Some u \/ m_utils m = None /\ u = UTab (length ts) d ch) /\
    nth (u_ref u) ts1 [] = partials ts m d ch /\ u_ref u < length ts1 /\ rectangle (length (partials ts m d ch)) (length (u_cols u)) (partials ts m d ch) /\
    (forall ref, ref < length ts -> nth ref ts1 [] = nth ref ts []) /\ m_tree m1 = m_tree m /\ m_scope m1 = m_scope m /\ m_du m1 = m_du m.
  Proof.
    unfold partial_utilities, partials. intros H U C TO. rewrite U, C in H. destruct (validate_tree (m_tree m)); [|discriminate]. destruct (m_utils m) as [v|] eqn:MU.
    - injection H as <- <- <-. destruct (TO v MU) as [T1 [T2 T3]]. repeat split; auto.
    - injection H as <- <- <-. cbn. rewrite app_nth2, Nat.sub_diag, app_length by lia. cbn. repeat split; auto; try lia.
      + exact (proj2 (zeros_rect E _ _)).
      + intros ref R. now apply app_nth1.
  Qed.
  Lemma table_of_cell n k mem p q : p < n -> q < k -> tcell (table_of n k mem) p q = match mem (COut p q) with VN x => x | VI _ => nzero F end.
  Proof using Type.
    intros P Q. unfold tcell, table_of. rewrite nth_indep with (d' := map (fun j => match mem (COut 0 j) with VN x => x | VI _ => nzero F end) (seq 0 k)) by (now rewrite map_length, seq_length).
    rewrite map_nth with (f := fun i => map (fun j => match mem (COut i j) with VN x => x | VI _ => nzero F end) (seq 0 k)) (d := 0), seq_nth by auto. cbn.
    rewrite nth_indep with (d' := match mem (COut p 0) with VN x => x | VI _ => nzero F end) by (now rewrite map_length, seq_length).
    rewrite map_nth with (f := fun j => match mem (COut p j) with VN x => x | VI _ => nzero F end), seq_nth by auto. reflexivity.
  Qed.

  (** Whatever the schedule of the parallel loop: the labels of the table are known, every one of its cells is added to
      the cell with its decision unit and its choice, no other cell and nothing else of the model changes. *)
  Theorem C58_added_by_label ts (m : cm) d ch rows cols cells rr rc ts' m' :
    table_ok E ts m -> m_du m = Some d -> choices (m_tree m) = Ok ch ->
    NoDup rows -> NoDup cols -> rectangle (length rows) (length cols) cells ->
    add_partial E G ts m rows cols cells rr rc ts' m' (Ok tt) ->
    incl rows d /\ incl cols (map (ev_label E) ch) /\
    m_tree m' = m_tree m /\ m_scope m' = m_scope m /\ m_du m' = m_du m /\
    exists u, m_utils m' = Some u /\ (m_utils m = Some u \/ m_utils m = None /\ u = UTab (length ts) d ch) /\
      let before := partials ts m d ch in let after := nth (u_ref u) ts' [] in
      rectangle (length before) (length (u_cols u)) after /\
      (forall i j r c p q, nth_error rows i = Some r -> nth_error cols j = Some c -> nth_error d p = Some r -> nth_error (map (ev_label E) ch) q = Some c ->
         p < length before /\ q < length (u_cols u) /\ tcell after p q = nadd F (tcell before p q) (tcell cells i j)) /\
      (forall p q, p < length before -> q < length (u_cols u) ->
         ~ (exists r c, nth_error d p = Some r /\ In r rows /\ nth_error (map (ev_label E) ch) q = Some c /\ In c cols) ->
         tcell after p q = tcell before p q) /\
      (forall ref, ref < length ts -> ref <> u_ref u -> nth ref ts' [] = nth ref ts []).
  Proof.
    intros TO DU CH N1 N2 [RC1 RC2] AP. inversion AP as [|ts1 m1 u [ri ci] n task r0 mem' e PR PF]; subst. clear AP.
    apply prepare_parts in PR. destruct PR as (d0 & ch0 & U & C & A1 & A2 & PU & FA). cbn [fst snd] in *.
    unfold units in U. rewrite DU in U. injection U as <-. rewrite CH in C. injection C as <-.
    assert (U : units E m = Ok d) by (unfold units; now rewrite DU).
    destruct (partial_parts ts m ts1 m' u d ch PU U CH TO) as (P1 & P2 & P3 & P4 & P5 & P6 & P7 & P8 & P9).
    unfold deref_tab in FA, PF |- *. rewrite P3 in *. set (before := partials ts m d ch) in *.
    assert (OK : is_ok (fast_indexed_add F (length before) (length (u_cols u)) cells (length cols) ri ci) = true) by now rewrite FA.
    apply C22_rejected_before_writing in OK. destruct OK as [O1 O2]. rewrite RC1 in O1.
    destruct (C22_adds_in_every_schedule F G _ _ _ _ _ _ _ _ _ _ _ _ FA (axis_distinct _ _ _ _ _ A1 N1 O1) (axis_distinct _ _ _ _ _ A2 N2 O2) (fun i j => ex_intro _ _ eq_refl) PF) as (_ & W1 & W2).
    split; [eapply axis_incl; eauto|]. split; [eapply axis_incl; eauto|]. split; auto. split; auto. split; auto. exists u. split; auto. split; auto. cbv zeta.
    rewrite nth_upd_eq by auto. split; [|split; [|split]].
    - split; [unfold table_of; now rewrite map_length, seq_length|]. apply Forall_forall. intros row I. unfold table_of in I. apply in_map_iff in I. destruct I as (z & <- & _). now rewrite map_length, seq_length.
    - intros i j r c p q I J P Q.
      assert (LI : i < length rows) by (apply nth_error_Some; congruence). assert (LJ : j < length cols) by (apply nth_error_Some; congruence).
      assert (GP : goes_to ri i p) by (apply (axis_goes _ _ _ _ A1 N1 i r p I); auto). assert (GQ : goes_to ci j q) by (apply (axis_goes _ _ _ _ A2 N2 j c q J); auto).
      assert (LP : p < length before) by (eapply goes_lt; eauto). assert (LQ : q < length (u_cols u)) by (eapply goes_lt; eauto).
      split; auto. split; auto. rewrite table_of_cell by auto.
      destruct (nth_error cells i) as [row|] eqn:ROW; [|apply nth_error_None in ROW; lia].
      assert (LR : length row = length cols) by (rewrite Forall_forall in RC2; apply RC2; eapply nth_error_In; eauto).
      destruct (nth_error row j) as [a|] eqn:AE; [|apply nth_error_None in AE; lia].
      rewrite (W1 i j p q row a _ ROW AE LJ GP GQ eq_refl). f_equal. unfold tcell. now rewrite (nth_error_nth _ _ _ ROW), (nth_error_nth _ _ _ AE).
    - intros p q LP LQ NO. rewrite table_of_cell by auto. rewrite W2; [reflexivity|].
      intros i j tr tc LI LJ GP GQ X. injection X as <- <-. rewrite RC1 in LI. apply NO.
      destruct (nth_error rows i) as [r|] eqn:I; [|apply nth_error_None in I; lia]. destruct (nth_error cols j) as [c|] eqn:J; [|apply nth_error_None in J; lia].
      exists r, c. split; [apply (axis_goes _ _ _ _ A1 N1 i r p I); auto|]. split; [eapply nth_error_In; eauto|]. split; [apply (axis_goes _ _ _ _ A2 N2 j c q J); auto|eapply nth_error_In; eauto].
    - intros ref R NR. rewrite nth_upd_neq by auto. auto.
  Qed.

  (** A call that raises changes no utilities; it may create the table of zeros *)
  Theorem C58_raising_changes_nothing ts (m : cm) rows cols cells rr rc ts' m' x :
    add_partial E G ts m rows cols cells rr rc ts' m' (Err x) ->
    m_tree m' = m_tree m /\ m_scope m' = m_scope m /\ m_du m' = m_du m /\
    (ts' = ts /\ m_utils m' = m_utils m \/
     m_utils m = None /\ exists d ch, m_du m = Some d /\ choices (m_tree m) = Ok ch /\ ts' = ts ++ [zeros (length d) (length ch)] /\ m_utils m' = Some (UTab (length ts) d ch)).
  Proof.
    intros AP. inversion AP as [ts1 m1 x1 PR|]; subst. unfold add_partial_prepare in PR.
    destruct (validate_tree (m_tree m)) eqn:VT; [|injection PR as <- <- _; auto 6]. destruct (units E m) as [d|] eqn:U; [|injection PR as <- <- _; auto 6].
    destruct (choices (m_tree m)) as [ch|] eqn:CH; [|injection PR as <- <- _; auto 6]. destruct (add_axis E d rows rr) as [ri|]; [|injection PR as <- <- _; auto 6].
    destruct (add_axis E (map (ev_label E) ch) cols rc) as [ci|]; [|injection PR as <- <- _; auto 6].
    unfold partial_utilities in PR. rewrite VT, U, CH in PR. destruct (m_utils m) as [u|] eqn:MU.
    - injection PR as <- <- _. rewrite MU. auto 6.
    - injection PR as <- <- _. cbn. repeat split; auto. right. split; auto. exists d, ch. unfold units in U. destruct (m_du m); [injection U as <-; auto|discriminate].
  Qed.

  (** Labels the model does not have, and mismatches that are not allowed, raise *)
  Theorem C58_wrong_labels_raise ts (m : cm) d ch rows cols cells rr rc ts' m' r :
    m_du m = Some d -> choices (m_tree m) = Ok ch -> length cells = length rows ->
    ~ incl rows d \/ ~ incl cols (map (ev_label E) ch) \/ (rows <> d /\ rr = false) \/ (cols <> map (ev_label E) ch /\ rc = false) ->
    add_partial E G ts m rows cols cells rr rc ts' m' r -> exists x, r = Err x.
  Proof.
    intros DU CH LC BAD AP. inversion AP as [|ts1 m1 u [ri ci] n task r0 mem' e PR PF]; subst; eauto. exfalso.
    apply prepare_parts in PR. destruct PR as (d0 & ch0 & U & C & A1 & A2 & PU & FA). cbn [fst snd] in *.
    unfold units in U. rewrite DU in U. injection U as <-. rewrite CH in C. injection C as <-.
    assert (OK : is_ok (fast_indexed_add F (length (deref_tab ts1 (u_ref u))) (length (u_cols u)) cells (length cols) ri ci) = true) by now rewrite FA.
    apply C22_rejected_before_writing in OK. destruct OK as [O1 O2]. rewrite LC in O1.
    assert (NE : forall index labels a idx, add_axis E index labels a = Ok idx -> labels <> index -> a = false -> False).
    { intros index labels a idx Q1 Q2 ->. unfold add_axis in Q1. rewrite (index_equals_neq _ EQ) in Q1 by congruence. discriminate. }
    destruct BAD as [B|[B|[[B1 B2]|[B1 B2]]]]; [apply B; eapply axis_incl; eauto|apply B; eapply axis_incl; eauto|eauto|eauto].
  Qed.

  (** A table whose labels are all known, on at least one row and column, is accepted, and the call ends *)
  Theorem C58_known_labels_accepted ts (m : cm) d ch rows cols cells rr rc :
    validate_tree (m_tree m) = Ok tt -> m_du m = Some d -> choices (m_tree m) = Ok ch ->
    (forall u, m_utils m = Some u -> length (nth (u_ref u) ts []) = length d /\ length (u_cols u) = length ch) ->
    NoDup d -> NoDup (map (ev_label E) ch) -> length cells = length rows ->
    incl rows d -> incl cols (map (ev_label E) ch) -> rows = d \/ rr = true -> cols = map (ev_label E) ch \/ rc = true ->
    rows <> [] -> cols <> [] ->
    (exists ts' m', add_partial E G ts m rows cols cells rr rc ts' m' (Ok tt)) /\
    forall ts' m' r, add_partial E G ts m rows cols cells rr rc ts' m' r -> r = Ok tt.
  Proof.
    intros VT DU CH SH ND NC LC I1 I2 R1 R2 E1 E2.
    assert (AX : forall index labels a, NoDup index -> incl labels index -> labels = index \/ a = true -> labels <> [] ->
       exists idx, add_axis E index labels a = Ok idx /\ indexer_ok (length labels) (length index) idx).
    { intros index labels a N I R NE. unfold add_axis. destruct (index_equals (ev_eq E) index labels) eqn:IE.
      - apply (index_equals_spec _ EQ) in IE. subst. exists None. split; auto. reflexivity.
      - destruct R as [->|R]; [rewrite (index_equals_refl _ EQ) in IE; discriminate|]. rewrite R, (get_indexer_unique _ EQ) by auto. eexists. split; [reflexivity|].
        cbn. split; [apply map_length|]. split; [destruct labels; cbn; congruence|]. intros x J. apply in_map_iff in J. destruct J as (y & <- & J). apply I in J.
        destruct (position (ev_eq E) index y) as [p|] eqn:P; [apply (position_lt _ EQ) in P; lia|]. apply (position_none _ EQ) in P. tauto. }
    destruct (AX d rows rr ND I1 R1 E1) as (ri & A1 & O1). destruct (AX (map (ev_label E) ch) cols rc NC I2 R2 E2) as (ci & A2 & O2). rewrite map_length in O2.
    assert (U : units E m = Ok d) by (unfold units; now rewrite DU).
    assert (PR : exists ts1 m1 u, partial_utilities E ts m = (ts1, m1, Ok u) /\ length (deref_tab ts1 (u_ref u)) = length d /\ length (u_cols u) = length ch).
    { unfold partial_utilities. rewrite VT, U, CH. destruct (m_utils m) as [v|] eqn:MU.
      - do 3 eexists. split; [reflexivity|]. apply SH; auto.
      - do 3 eexists. split; [reflexivity|]. unfold deref_tab. cbn. rewrite app_nth2, Nat.sub_diag by lia. cbn. split; auto. apply repeat_length. }
    destruct PR as (ts1 & m1 & u & PU & L1 & L2).
    assert (FA : exists n task, fast_indexed_add F (length (deref_tab ts1 (u_ref u))) (length (u_cols u)) cells (length cols) ri ci = Ok (n, task)).
    { rewrite L1, L2. rewrite <- LC in O1. pose proof (proj2 (C22_rejected_before_writing F _ _ cells (length cols) ri ci) (conj O1 O2)) as OK.
      destruct (fast_indexed_add F (length d) (length ch) cells (length cols) ri ci) as [[n task]|]; [eauto|discriminate]. }
    destruct FA as (n & task & FA).
    assert (PR : add_partial_prepare E ts m rows cols cells rr rc = (ts1, m1, Ok (u, (ri, ci), (n, task)))).
    { unfold add_partial_prepare. rewrite VT, U, CH, A1, A2, PU, FA. reflexivity. }
    split.
    - destruct (parallel_for_exists F G n task (fun _ => gseed G 0%Z) (memory_of (deref_tab ts1 (u_ref u)))) as (mem' & e & PF). do 2 eexists. eapply add_done; eauto.
    - intros ts' m' r AP. inversion AP; auto. congruence.
  Qed.
End External.
Unset Default Proof Using.
Print Assumptions C58_added_by_label.
Print Assumptions C58_raising_changes_nothing.
Print Assumptions C58_wrong_labels_raise.
Print Assumptions C58_known_labels_accepted.

Lemma prepare_err {L : Type} {F : arith} {D cell : Type} (E : env L F D cell) ts (m : cm E) rows cols cells rr rc x :
  (match snd (add_partial_prepare E ts m rows cols cells rr rc) with Err y => Some y | Ok _ => None end) = Some x ->
  forall G ts' m' r, add_partial E G ts m rows cols cells rr rc ts' m' r -> r = Err x.
Proof. intros Q G ts' m' r AP. inversion AP as [ts1 m1 y PR|ts1 m1 u ix n task r0 mem' e PR PF]; subst; rewrite PR in Q; cbn [snd] in Q; congruence. Qed.
(** ** An empty subset of the decision units raises ValueError (the minimum of an empty indexer) *)
Theorem C58_empty_subset_refuted : exists ops : list (mop idE),
  let w := mrun idE (new_mworld idE) ops in
  m_du (model idE w 0) = Some ["h1"; "h2"] /\ choices (m_tree (model idE w 0)) = Ok [Flat "A"; Flat "B"] /\ incl [] ["h1"; "h2"] /\
  forall G ts' m' r, add_partial idE G (mw_tabs w) (model idE w 0) [] ["A"; "B"] [] true true ts' m' r -> r = Err ValueError.
Proof.
  exists (two_choices (fun x => x) (fun x => x)). cbv zeta. split; [reflexivity|]. split; [vm_compute; reflexivity|]. split; [intros x []|].
  apply prepare_err. vm_compute. reflexivity.
Qed.
Print Assumptions C58_empty_subset_refuted.
(** the hypotheses of the theorems: a table with the labels in another order, and a subset of the choices *)
Example C58_hypotheses_met : forall G,
  let w := mrun idE (new_mworld idE) (two_choices (fun x => x) (fun x => x)) in
  table_ok idE (mw_tabs w) (model idE w 0) /\ m_du (model idE w 0) = Some ["h1"; "h2"] /\ choices (m_tree (model idE w 0)) = Ok [Flat "A"; Flat "B"] /\
  map (ev_label idE) [Flat "A"; Flat "B"] = ["A"; "B"] /\
  exists ts' m', add_partial idE G (mw_tabs w) (model idE w 0) ["h2"; "h1"] ["B"] [[flz 7]; [flz 9]] true true ts' m' (Ok tt).
Proof.
  intros G w. split; [intros u; discriminate|]. split; [reflexivity|]. split; [vm_compute; reflexivity|]. split; [reflexivity|].
  apply (C58_known_labels_accepted idE (fun a b => String.eqb_eq a b) G (mw_tabs w) (model idE w 0) ["h1"; "h2"] [Flat "A"; Flat "B"]); auto.
  - intros u; discriminate.
  - repeat constructor; cbn; intuition discriminate.
  - repeat constructor; cbn; intuition discriminate.
  - intros x I. cbn in I |- *. intuition.
  - intros x I. cbn in I |- *. intuition.
  - discriminate.
  - discriminate.
Qed.
(** labels the model does not have *)
Example C58_wrong_labels_met : ~ incl ["h3"] ["h1"; "h2"].
Proof. intros H. specialize (H "h3" (or_introl eq_refl)). cbn in H. intuition discriminate. Qed.
