(** C96: a discrete run selects from the rows that a stochastic run of the same model returns. *)
From Coq Require Import Reals Lra Lia Sorted Permutation.
From Flocq Require Import Core.Core IEEE754.BinarySingleNaN.
From Verif Require Import Prelude Arith CoreModel TreeModel DictProofs ParModel ExprModel SpecExpr ExprProofs ExprUses ExprMeaning ExprContainer ExprWorld ScopeModel SpecScope ScopeProofs ModelModel ModelProofs SpecModel KernelProofs EvalProofs PropState ModelWorld ModelHist ModelTabs RunProofs PropUtility SpecSampling MnlProofs SpecNested NestedProofs NestedExact SpecTree TreeProofs TreeMore TreeHist RunOut SpecEnd ParProofs OutProofs RunResult EndProofs PropEnd SamplingProofs SpecIeee IeeeProofs PropIeee PropNested NestedIeee ModelExample ModelTrees PropNestedIeee NestedSum PropNestedSum.
Local Open Scope nat_scope.
Local Open Scope list_scope.

(** ** Adding zeros *)
Definition plus_ (a : float64) : Prop := f64_nonneg a /\ a <> B754_zero true.
Lemma plus_zero : plus_ f64_zero. Proof. split; [reflexivity|discriminate]. Qed.
Lemma plus_add a x : plus_ a -> f64_nonneg x -> plus_ (f64_add a x).
Proof.
  intros [Ha Na] Hx. destruct (f64_add_nonneg_le a x Ha Hx) as [A B]. split; auto. intros Q. rewrite Q in B.
  destruct a as [[]|[]| |[]]; try discriminate; try congruence. clear Ha Na A. destruct x as [[]|[]| |[]]; try discriminate.
Qed.
Lemma add_plus_zero a : plus_ a -> f64_add a f64_zero = a.
Proof. intros [Ha Na]. destruct a as [[]|[]| |[]]; try discriminate; try congruence; reflexivity. Qed.
Lemma fold_drop {A} (f : A -> float64) (b : A -> bool) : forall l acc, plus_ acc -> (forall k, In k l -> f64_nonneg (f k) /\ (b k = false -> f k = f64_zero)) ->
  fold_left f64_add (map f l) acc = fold_left f64_add (map f (filter b l)) acc.
Proof.
  induction l as [|k l IH]; intros acc PA H; [reflexivity|]. cbn [map fold_left filter]. destruct (H k (or_introl eq_refl)) as [N Z]. assert (H' : forall j, In j l -> f64_nonneg (f j) /\ (b j = false -> f j = f64_zero)) by (intros j I; apply H; now right).
  destruct (b k) eqn:Q.
  - cbn [map fold_left]. apply IH; auto. now apply plus_add.
  - rewrite (Z eq_refl), add_plus_zero by auto. apply IH; auto.
Qed.

(** ** Sorted positions *)
Definition among (ks : list nat) (k : nat) : bool := existsb (Nat.eqb k) ks.
Lemma among_in ks k : among ks k = true <-> In k ks.
Proof. unfold among. rewrite existsb_exists. split; [intros (x & I & Q); apply Nat.eqb_eq in Q; now subst|intros I; exists k; split; auto; apply Nat.eqb_refl]. Qed.
Lemma filter_all {A} (b : A -> bool) l : (forall x, In x l -> b x = true) -> filter b l = l.
Proof. induction l as [|x l IH]; intros H; auto. cbn. rewrite (H x (or_introl eq_refl)), IH; auto. intros y I. apply H. now right. Qed.
Lemma filter_none {A} (b : A -> bool) l : (forall x, In x l -> b x = false) -> filter b l = [].
Proof. induction l as [|x l IH]; intros H; auto. cbn. rewrite (H x (or_introl eq_refl)). apply IH. intros y I. apply H. now right. Qed.
(** the sorted positions before and at [k], the one of rank [i] *)
Lemma sorted_prefix : forall ks a n i k, StronglySorted lt ks -> (forall k, In k ks -> a <= k < a + n) -> nth_error ks i = Some k ->
  filter (among ks) (seq a (S k - a)) = firstn (S i) ks.
Proof.
  induction ks as [|k0 ks IH]; intros a n i k SS LT N; [destruct i; discriminate|]. inversion_clear SS as [|? ? SS' H0]. rewrite Forall_forall in H0.
  assert (R0 : a <= k0 < a + n) by (apply LT; now left).
  assert (PRE : filter (among (k0 :: ks)) (seq a (k0 - a)) = []). { apply filter_none. intros x I. apply in_seq in I. destruct (among (k0 :: ks) x) eqn:Q; auto. apply among_in in Q. destruct Q as [->|Q]; [lia|]. specialize (H0 x Q). lia. }
  destruct i as [|i].
  - injection N as ->. replace (S k - a) with ((k - a) + 1) by lia. rewrite seq_app, filter_app, PRE. cbn [app]. replace (a + (k - a)) with k by lia. cbn [seq filter]. replace (among (k :: ks) k) with true; [reflexivity|]. symmetry. apply among_in. now left.
  - cbn [nth_error] in N. assert (Ik : In k ks) by (eapply nth_error_In; eauto). pose proof (H0 k Ik) as LK.
    replace (S k - a) with ((k0 - a) + (1 + (S k - S k0))) by lia. rewrite seq_app, filter_app, PRE. cbn [app]. replace (a + (k0 - a)) with k0 by lia. cbn [Nat.add seq filter].
    replace (among (k0 :: ks) k0) with true by (symmetry; apply among_in; now left). cbn [firstn]. f_equal.
    change (match ks with [] => [] | a0 :: l => a0 :: firstn i l end) with (firstn (S i) ks). rewrite <- (IH (S k0) (a + n) i k SS'); auto.
    + apply filter_ext_in. intros x I. apply in_seq in I. unfold among. cbn [existsb]. destruct (Nat.eqb_spec x k0); [lia|]. reflexivity.
    + intros x I. specialize (H0 x I). specialize (LT x (or_intror I)). lia.
Qed.
Lemma sorted_all ks n : StronglySorted lt ks -> (forall k, In k ks -> k < n) -> filter (among ks) (seq 0 n) = ks.
Proof.
  intros SS LT. destruct ks as [|k0 ks']; [apply filter_none; reflexivity|]. set (ks := k0 :: ks') in *.
  assert (LN : exists k, nth_error ks (length ks - 1) = Some k). { destruct (nth_error ks (length ks - 1)) eqn:Q; eauto. apply nth_error_None in Q. cbn in Q. lia. }
  destruct LN as [k N]. assert (Ik : In k ks) by (eapply nth_error_In; eauto). pose proof (LT k Ik) as Lk.
  pose proof (sorted_prefix ks 0 n _ k SS (fun x I => conj (Nat.le_0_l x) (LT x I)) N) as P. rewrite Nat.sub_0_r in P.
  replace n with (S k + (n - S k)) by lia. rewrite seq_app, filter_app, P. cbn [Nat.add].
  assert (FN : firstn (S (length ks - 1)) ks = ks) by (replace (S (length ks - 1)) with (length ks) by (cbn; lia); apply firstn_all). rewrite FN.
  rewrite filter_none; [apply app_nil_r|]. intros x I. apply in_seq in I. destruct (among ks x) eqn:Q; auto. apply among_in in Q.
  (* the last is the greatest *)
  exfalso. assert (MX : forall l y z, StronglySorted lt l -> nth_error l (length l - 1) = Some z -> In y l -> y <= z).
  { clear. induction l as [|a l IH]; intros y z SS N J; [destruct J|]. inversion_clear SS as [|? ? SS' H]. rewrite Forall_forall in H. destruct l as [|b l]; [cbn in N; injection N as <-; destruct J as [->|[]]; lia|].
    replace (length (a :: b :: l) - 1) with (S (length (b :: l) - 1)) in N by (cbn; lia). cbn [nth_error] in N. destruct J as [->|J]; [apply Nat.lt_le_incl, H; eapply nth_error_In; eauto|eauto]. }
  pose proof (MX ks x k SS N Q). lia.
Qed.

(** ** Running sums of the row and of all nodes *)
Section Running.
  Context (fexp flog : float64 -> float64).
  Notation F := (B64 fexp flog).
  Context (P : list float64) (ks : list nat) (SS : StronglySorted lt ks) (LT : forall k, In k ks -> k < length P)
    (NN : Forall f64_nonneg P) (ZE : forall k, k < length P -> ~ In k ks -> nth k P f64_zero = f64_zero).
  Notation vals := (map (fun k => nth k P f64_zero) ks).

  Lemma firstn_seq k : k <= length P -> firstn k P = map (fun j => nth j P f64_zero) (seq 0 k).
  Proof using Type.
    intros H. rewrite <- (nth_seq_id P) at 1. rewrite firstn_map. f_equal. replace (length P) with (k + (length P - k)) by lia. rewrite seq_app, firstn_app, seq_length, Nat.sub_diag. cbn [firstn]. rewrite app_nil_r. rewrite <- (seq_length k 0) at 1. apply firstn_all.
  Qed.
  Lemma val_cond l : (forall k, In k l -> k < length P) -> forall k, In k l -> f64_nonneg (nth k P f64_zero) /\ (among ks k = false -> nth k P f64_zero = f64_zero).
  Proof using NN ZE.
    intros B k I. pose proof (B k I) as Hk. split; [rewrite Forall_forall in NN; apply NN, nth_In, Hk|]. intros Q. apply ZE; auto. intros J. apply among_in in J. congruence.
  Qed.
  Lemma running_row i k : nth_error ks i = Some k -> running F P k = running F vals i.
  Proof using SS LT NN ZE.
    intros N. pose proof (LT k (nth_error_In _ _ N)) as Hk. unfold running. change (nadd F) with f64_add. change (nzero F) with f64_zero. rewrite firstn_seq by lia. rewrite firstn_map.
    pose proof (sorted_prefix ks 0 (length P) i k SS (fun x I => conj (Nat.le_0_l x) (LT x I)) N) as PR. rewrite Nat.sub_0_r in PR. rewrite <- PR. apply (fold_drop (fun j => nth j P f64_zero)); [apply plus_zero|].
    apply val_cond. intros x I. apply in_seq in I. lia.
  Qed.
  Lemma total_row : fold_left f64_add P f64_zero = fold_left f64_add vals f64_zero.
  Proof using SS LT NN ZE.
    rewrite <- (nth_seq_id P) at 1. rewrite <- (sorted_all ks (length P) SS LT) at 1. apply (fold_drop (fun j => nth j P f64_zero)); [apply plus_zero|]. apply val_cond. intros x I. apply in_seq in I. lia.
  Qed.
  Lemma running_plus k : k < length P -> plus_ (running F P k).
  Proof using NN.
    intros Hk. unfold running. change (nadd F) with f64_add. change (nzero F) with f64_zero. assert (G : forall l acc, Forall f64_nonneg l -> plus_ acc -> plus_ (fold_left f64_add l acc)).
    { induction l as [|x l IH]; intros acc H PA; auto. inversion_clear H. cbn. apply IH; auto. now apply plus_add. }
    apply G; [|apply plus_zero]. apply Forall_forall. intros x I. rewrite Forall_forall in NN. apply NN. rewrite <- (firstn_skipn (S k) P). apply in_or_app. now left.
  Qed.
  Lemma running_last : P <> [] -> running F P (length P - 1) = fold_left f64_add P f64_zero.
  Proof using Type. intros H. unfold running. replace (S (length P - 1)) with (length P) by (assert (length P <> 0) by (intros Q; apply length_zero_iff_nil in Q; auto); lia). now rewrite firstn_all. Qed.
  Lemma running_S k : S k < length P -> running F P (S k) = f64_add (running F P k) (nth (S k) P f64_zero).
  Proof using Type.
    intros H. unfold running. change (nadd F) with f64_add. change (nzero F) with f64_zero. rewrite !firstn_seq by lia. rewrite (seq_S (S k)), map_app, fold_left_app. reflexivity.
  Qed.
  Lemma running_mono a b : a <= b -> b < length P -> f64_le (running F P a) (running F P b) = true.
  Proof using NN.
    intros H Hb. induction H as [|b H IH]; [apply f64_le_refl, f64_nonneg_not_nan, running_plus; auto|]. rewrite running_S by auto. eapply f64_le_trans; [apply IH; lia|]. apply f64_add_nonneg_le; [apply running_plus; lia|]. rewrite Forall_forall in NN. apply NN, nth_In. exact Hb.
  Qed.

  (** the position chosen among all nodes is one of the row: the first of the row whose running sum reaches the number; its
      probability is not 0 *)
  Lemma chosen_in_row (x : float64) k : f64_le f64_tiny x = true -> f64_le x (fold_left f64_add vals f64_zero) = true ->
    first_reaching (fun k => f64_le x (running F P k)) (length P) k ->
    exists i, nth_error ks i = Some k /\ first_reaching (fun i => f64_le x (running F vals i)) (length ks) i /\ f64_eq (nth k P f64_zero) f64_zero = false.
  Proof using SS LT NN ZE.
    intros T TOT (Hk & FR). assert (NE : P <> []) by (intros Q; rewrite Q in Hk; cbn in Hk; lia). rewrite <- total_row, <- running_last in TOT by auto.
    destruct FR as [[RK NB]|[_ NB]]; [|exfalso; specialize (NB (length P - 1) ltac:(lia)); congruence].
    assert (NZ : f64_eq (nth k P f64_zero) f64_zero = false).
    { destruct (f64_eq (nth k P f64_zero) f64_zero) eqn:Q; auto. exfalso. destruct k as [|k].
      - unfold running in RK. rewrite firstn_seq in RK by lia. cbn [seq map fold_left] in RK. change (nadd F) with f64_add in RK. change (nzero F) with f64_zero in RK.
        rewrite (f64_draw_not_le_zero x) in RK; auto; [discriminate|]. now apply f64_add_zero_zero.
      - rewrite running_S in RK by auto. rewrite f64_le_add_zero in RK; auto; [|apply running_plus; lia]. rewrite NB in RK by lia. discriminate. }
    assert (Ik : In k ks). { destruct (in_dec Nat.eq_dec k ks) as [|NI]; auto. rewrite (ZE k Hk NI) in NZ. discriminate. }
    apply In_nth_error in Ik. destruct Ik as [i N]. exists i. split; auto. split; auto. split; [apply nth_error_Some; congruence|]. left. rewrite <- (running_row i k N). split; auto.
    intros j Hj. assert (Hi : i < length ks) by (apply nth_error_Some; congruence). destruct (nth_error ks j) as [k'|] eqn:N'; [|apply nth_error_None in N'; lia]. rewrite <- (running_row j k' N'). apply NB.
    clear - SS N N' Hj. revert i j N N' Hj. induction SS as [|a l S IH H]; intros i j N N' Hj; [destruct i; discriminate|]. destruct i as [|i]; [lia|]. rewrite Forall_forall in H. destruct j as [|j]; cbn in N, N'.
    - injection N' as <-. apply H. eapply nth_error_In; eauto.
    - eapply IH; eauto. lia.
  Qed.
End Running.
  (** the computed total of numbers whose sum is close to 1 *)
  Lemma total_reaches (P : list float64) (NN : Forall f64_nonneg P) (x : float64) (c : R) : P <> [] -> is_finite x = true -> (1 - c <= real_sum P)%R -> (0 <= c <= 1)%R -> (INR (length P) * ulp_half <= 1)%R -> (real x <= 1 - c - INR (length P) * ulp_half)%R ->
    f64_le x (fold_left f64_add P f64_zero) = true.
  Proof.
    intros NE FX LB C NU RX. destruct (fsum_le P f64_zero zero_nonneg NN) as [NF _]. change (fsum f64_zero P) with (fold_left f64_add P f64_zero) in NF. destruct (f64_nonneg_cases _ NF) as [[FF _]|IF].
    - unfold f64_le. rewrite Bleb_correct by auto. apply Rle_bool_true. destruct P as [|y q]; [congruence|]. destruct (total_error y q NN FF) as [[B1 _] _]. change (fsum f64_zero (y :: q)) with (fold_left f64_add (y :: q) f64_zero) in B1. eapply Rle_trans; [exact RX|]. eapply Rle_trans; [|exact B1].
      pose proof (pow_lower (length q)) as PL. cbn [length] in NU |- *. rewrite S_INR in NU |- *. pose proof u_pos as U0. pose proof (pos_INR (length q)) as K0. set (K := INR (length q)) in *. set (Sp := real_sum (y :: q)) in *. set (X := ((1 - u) ^ length q)%R) in *.
      apply Rle_trans with ((1 - c) * (1 - K * u))%R; [|apply Rmult_le_compat; lra].
      assert (0 <= K * u)%R by (apply Rmult_le_pos; lra). assert (0 <= c * (K * u))%R by (apply Rmult_le_pos; lra). lra.
    - rewrite IF. destruct x as [[]|[]| |[]]; try discriminate; reflexivity.
  Qed.

Lemma floored_ok x : drawable x -> is_finite (floored x) = true /\ f64_le f64_tiny (floored x) = true.
Proof.
  intros [FX H]. unfold floored. destruct (f64_eq x f64_zero) eqn:Q; [split; reflexivity|]. destruct H as [H|H]; [discriminate|]. auto.
Qed.
Lemma floored_max x : drawable x -> (if f64_lt x f64_tiny then f64_tiny else x) = floored x.
Proof.
  intros [FX H]. unfold floored. destruct (f64_eq x f64_zero) eqn:Q.
  - destruct x as [s|s| |s m e b]; try discriminate; try (destruct s; discriminate). reflexivity.
  - destruct H as [H|H]; [discriminate|]. unfold f64_lt, f64_le in *. rewrite Bltb_correct by auto. rewrite Bleb_correct in H by auto. destruct (Rlt_bool_spec (B2R x) (B2R f64_tiny)); auto.
    destruct (Rle_bool_spec (B2R f64_tiny) (B2R x)); [exfalso; lra|discriminate].
Qed.

Lemma nth_error_same {A} : forall l l' : list A, (forall i, nth_error l i = nth_error l' i) -> l = l'.
Proof.
  induction l as [|x l IH]; intros [|y l'] H; auto; [specialize (H 0); discriminate|specialize (H 0); discriminate|].
  pose proof (H 0) as H0. injection H0 as ->. f_equal. apply IH. intros i. apply (H (S i)).
Qed.

Section Whole.
  Context {L D cell : Type} (fexp flog : float64 -> float64).
  Notation F := (B64 fexp flog).
  Context (E : env L F D cell) (SE : sane_exp fexp) (SN : keeps_nan fexp).
  Notation start := (new_mworld E).

  (** nests have probability 0 *)
  Lemma row_nests (t : tree F) nl us scaled check (P : list float64) (top : float64) (terms : list float64) : inv F t -> depth t = Ok nl -> length us = length (t_all t) ->
    row_outputs t us scaled check = Ok (P, top, terms) -> forall k, k < length (t_all t) -> ~ end_node F t k -> nth k P f64_zero = f64_zero.
  Proof using Type.
    intros IV DP LU H. unfold row_outputs in H. rewrite DP in H. cbn [rbind] in H. destruct (Nat.ltb_spec 1 nl) as [Hd|Hd].
    - rewrite (flatten_eq F t nl IV DP Hd) in H. cbn [rbind] in H. pose proof (flatten_wf F t nl IV DP) as WF. rewrite <- (all_ids F t) in WF. set (n := length (t_all t)) in *.
      set (sc := map (exp_sc F t) (ids t)) in *.
      pose proof (C13_nested_logit_equations F n _ _ _ sc us scaled check P top terms WF LU H) as S.
      intros k Hk NE. destruct S as (_ & _ & _ & S). specialize (S k Hk). pose proof (proj2 (proj2 (proj2 (proj2 (proj2 WF)))) k Hk) as WB.
      assert (Hk' : k < length (ids t)) by (rewrite <- (all_ids F t); exact Hk). rewrite (end_nodes F t IV) in NE.
      rewrite (nth_indep _ true (negb (is_parent (t_heap t) 0))) in WB by (now rewrite map_length). rewrite (map_nth (fun i => negb (is_parent (t_heap t) i))) in WB.
      destruct (children n (map (exp_h F t) (ids t)) k) as [|c l]; [|exact S]. exfalso. apply NE. split; auto. apply WB. reflexivity.
    - intros k Hk NE. exfalso. apply NE. apply (end_nodes F t IV). rewrite <- (all_ids F t). split; auto. rewrite flat_no_children with (nl := nl); auto; [lia|]. unfold stored. apply nth_In. rewrite <- (all_ids F t). exact Hk.
  Qed.

  (** what the two kinds of run of one state have in common: the rows *)
  Lemma runs_share (NL : numexpr_local E) (G : generator F) ops i n clear seed scale as_index squeeze ts1 m1 ts2 m2 out result logsums :
    let w := mrun E start ops in let m := model E w i in
    tree_history E start ops ->
    run_stochastic_all E (mheap E w) (mcont E w i) (mw_tabs w) m None clear scale true = (ts1, m1, Ok out) ->
    run_discrete E G (mheap E w) (mcont E w i) (mw_tabs w) m (Z.of_nat n) clear seed scale as_index squeeze ts2 m2 (Ok (result, logsums)) ->
    ts1 = ts2 /\ m1 = m2 /\ exists d cols nl, m_du m = Some d /\ choices (m_tree m) = Ok cols /\ depth (m_tree m) = Ok nl /\ inv F (m_tree m) /\ length cols = length (t_all (m_tree m)) /\
    1 <= n /\ length out = length d /\ result_units result = d /\ length logsums = length d /\
    forall r row (top : float64) terms, nth_error out r = Some (row, top, terms) -> nth_error logsums r = Some top /\
      exists us (P : list float64), length us = length (t_all (m_tree m)) /\ row_outputs (m_tree m) us scale true = Ok (P, top, map snd terms) /\ length P = length cols /\ length terms = length cols /\ end_row F (m_tree m) cols P row /\
        forall j, j < n -> exists k e, chosen F n P (random_number F G seed (length d) n r j) k /\ result_entry result r j = Some e /\ shows cols as_index e k.
  Proof using Type.
    intros w m OH R1 R. unfold run_stochastic_all in R1. destruct (run_utilities E (mheap E w) (mcont E w i) (mw_tabs w) m None clear) as [[ts0 m0] [t|e]] eqn:RU; [|discriminate].
    injection R1 as <- <- R1. unfold run_discrete in R.
    assert (V0 : is_ok (validate E (mheap E w) (mcont E w i) m None) = true /\ 1 <= n).
    { unfold run_discrete_utilities in R. destruct (validate E (mheap E w) (mcont E w i) m None); [|destruct R as (_ & _ & R); discriminate]. destruct (Z.ltb_spec (Z.of_nat n) 1); [destruct R as (_ & _ & R); discriminate|]. split; [reflexivity|lia]. }
    destruct V0 as [V0 Hn]. assert (RD : run_discrete_utilities E (mheap E w) (mcont E w i) (mw_tabs w) m (Z.of_nat n) clear = (ts0, m0, Ok t)).
    { unfold run_discrete_utilities. destruct (validate E (mheap E w) (mcont E w i) m None); [|discriminate]. destruct (Z.ltb_spec (Z.of_nat n) 1); [lia|]. exact RU. }
    rewrite RD in R. destruct R as (E1 & E2 & R). subst ts2 m2. rewrite Nat2Z.id in R. cbn zeta in R. split; auto. split; auto.
    destruct (run_touch E _ _ _ _ _ _ _ _ _ RU) as (T1 & T2 & _). assert (GD : inv F (m_tree m)) by (apply reachable_sound; exact OH).
    pose proof (table_ok_reachable E NL ops i) as TO. fold w m in TO. pose proof (run_ok E _ _ _ _ _ _ _ _ _ RU) as (si & xs & m3 & u & V & S & EV & _ & TT).
    destruct (evaluate_ok E _ _ _ _ _ _ _ TO EV) as (d & cols & nl & sh & DU & CH & DP & UC & SH & EA & _ & LD & _). apply validate_ok in V. destruct V as (V & _).
    pose proof (start_rect E NL _ _ _ cols TO DU UC) as SR. pose proof (eval_all_rect E NL _ _ _ _ _ _ _ _ _ EA SR) as RC. rewrite <- TT in RC.
    assert (LC : length cols = length (t_all (m_tree m))).
    { pose proof CH as CH'. rewrite (choices_eq F (m_tree m) nl GD V DP) in CH'. injection CH' as <-. rewrite map_length. symmetry. apply all_ids. }
    exists d, cols, nl. split; [exact DU|]. split; [exact CH|]. split; [exact DP|]. split; [exact GD|]. split; [exact LC|]. split; [exact Hn|].
    destruct RC as [_ RC2]. rewrite Forall_forall in RC2. assert (RC1 : length t = length d) by (rewrite TT; exact LD).
    assert (LU : forall us, In us t -> length us = length (t_all (m_tree m))) by (intros us I; rewrite (RC2 us I); exact LC).
    destruct (sampling_task G (m_tree m0) t n seed scale) as [task|] eqn:ST; [|discriminate]. destruct R as (r0 & mm & mem & er & PF & R). destruct er; [destruct R; discriminate|]. rewrite T1 in ST. fold m in ST.
    pose proof (discrete_rows F G (m_tree m) nl DP t n seed scale task r0 mm mem GD ST Hn LU PF) as DR. rewrite RC1 in DR, R.
    symmetry in R. apply rbind_ok in R. destruct R as (res & CV & R). injection R as <- <-.
    assert (CH1 : choices (m_tree m0) = Ok cols) by (rewrite T1; exact CH). assert (DU1 : units E m0 = Ok d) by (unfold units; rewrite T2; fold m; rewrite DU; reflexivity).
    apply map_res_ok in R1. destruct R1 as [LO R1]. change (length out = length t) in LO. rewrite RC1 in LO.
    destruct (result_ok E m0 d cols n mem as_index squeeze DU1 CH1 Hn) as (res' & CV' & RE1 & RE2).
    { intros r j Hr Hj. destruct (DR r Hr) as (P & top & terms & RO & _ & DJ). destruct (DJ j Hj) as (k & CK & Hk & _). exists k. split; auto.
      assert (I : In (nth r t []) t) by (apply nth_In; rewrite RC1; exact Hr). destruct (row_outputs_solution F (m_tree m) GD nl DP _ _ _ _ _ _ (LU _ I) RO) as (_ & L1 & _). rewrite (LU _ I) in L1. rewrite LC. rewrite <- L1. exact Hk. }
    rewrite CV in CV'. injection CV' as <-. split; [exact LO|]. split; auto. split; [unfold logsum_array; now rewrite map_length, seq_length|].
    intros r row top terms I. assert (Hr : r < length d) by (rewrite <- LO; apply nth_error_Some; intros Q; pose proof (eq_trans (eq_sym I) Q) as Q'; discriminate Q').
    destruct (nth_error t r) as [us|] eqn:N; [|exfalso; apply nth_error_None in N; rewrite RC1 in N; apply (Nat.lt_irrefl r), (Nat.lt_le_trans _ _ _ Hr N)].
    destruct (R1 r us N) as (o & SO & NO). pose proof (eq_trans (eq_sym I) NO) as Q. injection Q as <-. rewrite T1 in SO. fold m in SO.
    pose proof (nth_error_In _ _ N) as IU. specialize (LU us IU).
    unfold stochastic_outputs in SO. apply rbind_ok in SO. destruct SO as ([[P top'] terms'] & RO & SO). rewrite DP in SO. cbn [rbind] in SO.
    destruct (row_outputs_solution F (m_tree m) GD nl DP us scale true P top' terms' LU RO) as (_ & L1 & L2). destruct (frame_row_ends F (m_tree m) GD nl DP V P cols CH) as (row' & FR & ER); [rewrite L1; exact LU|].
    rewrite FR in SO. cbn [rbind] in SO. rewrite CH in SO. cbn [rbind] in SO. injection SO as <- <- <-.
    assert (LX : length cols = length terms') by (rewrite L2, LU; exact LC).
    assert (MS : map snd (combine cols terms') = (terms' : list float64)). { clear - LX. revert terms' LX. induction cols as [|c cs IH]; intros [|y ys] LX; try discriminate; auto. cbn in *. f_equal. apply IH. lia. }
    destruct (DR r Hr) as (P' & top'' & terms'' & RO' & CL & DJ). rewrite (nth_error_nth _ _ _ N) in RO'. pose proof (eq_trans (eq_sym RO) RO') as Q. injection Q as <- <- <-. split.
    - unfold logsum_array. rewrite nth_error_map, nth_error_seq0 by auto. cbn. now rewrite CL.
    - exists us, P. split; [exact LU|]. split; [exact (eq_trans RO (f_equal (fun l : list float64 => Ok (P, top', l)) (eq_sym MS)))|]. split; [exact (eq_trans L1 (eq_trans LU (eq_sym LC)))|]. split; [exact (eq_trans (combine_length cols terms') (eq_trans (f_equal (Nat.min (length cols)) (eq_sym LX)) (Nat.min_id _)))|]. split; [exact ER|].
      intros j Hj. destruct (DJ j Hj) as (k & CK & Hk & CC). destruct (RE2 r j Hr Hj) as (e & E1 & E2). exists k, e. split; auto.
  Qed.

  Lemma row_nonneg (t : tree F) nl us scaled check (P : list float64) (top : float64) (terms : list float64) : inv F t -> depth t = Ok nl -> length us = length (t_all t) ->
    row_outputs t us scaled check = Ok (P, top, terms) -> all_finite terms -> Forall f64_nonneg P.
  Proof using SE SN.
    intros IV DP LU RO AF. destruct (row_outputs_solution F t IV nl DP us scaled check P top terms LU RO) as (LS & _).
    destruct (logit_probable fexp flog SE SN t nl scaled us P top terms IV LU LS) as [_ B]. specialize (B AF). eapply Forall_impl; [|exact B]. intros x [FX BX].
    unfold f64_nonneg, f64_le. rewrite Bleb_correct by auto. apply Rle_bool_true. exact (proj1 BX).
  Qed.
  Lemma chosen_floored n (P : list float64) (x : float64) k : drawable x -> Forall f64_nonneg P -> chosen F n P x k -> first_reaching (fun k => f64_le (floored x) (running F P k)) (length P) k.
  Proof using Type.
    intros DX NN H. unfold chosen in H. destruct (n =? 1).
    - cbv zeta in H. change (if nlt F x (ntiny F) then ntiny F else x) with (if f64_lt x f64_tiny then f64_tiny else x) in H. rewrite (floored_max x DX) in H. exact H.
    - destruct H as [_ H]. change (if neqb F x (nzero F) then ntiny F else x) with (floored x) in H. apply H. intros a b [Hab Hb] HA. eapply f64_le_trans; [exact HA|]. now apply running_mono.
  Qed.

  (** The same state, one stochastic and one discrete run (any number of draws, any schedule): they share the logsums, and the
      entry for unit [r] and draw [j] shows the first choice of the returned row at which the running sum of the probabilities
      reaches the random number of (seed, r, j), provided that their sum does; the probability of that choice is not 0. *)
  Theorem C96_choices_follow_the_rows (NL : numexpr_local E) (G : generator F) ops i n clear seed scale as_index squeeze ts1 m1 ts2 m2 out result logsums d cols :
    let w := mrun E start ops in let m := model E w i in
    tree_history E start ops ->
    run_stochastic_all E (mheap E w) (mcont E w i) (mw_tabs w) m None clear scale true = (ts1, m1, Ok out) ->
    run_discrete E G (mheap E w) (mcont E w i) (mw_tabs w) m (Z.of_nat n) clear seed scale as_index squeeze ts2 m2 (Ok (result, logsums)) ->
    m_du m = Some d -> choices (m_tree m) = Ok cols ->
    ts1 = ts2 /\ m1 = m2 /\ length out = length d /\ result_units result = d /\ logsums = map (fun o => snd (fst o)) out /\
    forall r row (top : float64) terms j, nth_error out r = Some (row, top, terms) -> all_finite (map snd terms) -> j < n ->
      let x := random_number F G seed (length d) n r j in let P := map snd row in
      drawable x -> f64_le (floored x) (fold_left f64_add P f64_zero) = true ->
      exists a l (p : float64) k e, first_reaching (fun a => f64_le (floored x) (running F P a)) (length row) a /\ nth_error row a = Some (l, p) /\ (0 < real p)%R /\
        nth_error cols k = Some l /\ result_entry result r j = Some e /\ shows cols as_index e k.
  Proof using SE SN.
    intros w m OH R1 R2 DU CH. destruct (runs_share NL G ops i n clear seed scale as_index squeeze ts1 m1 ts2 m2 out result logsums OH R1 R2) as (Q1 & Q2 & d' & cols' & nl & DU' & CH' & DP & IV & LC & Hn & LO & RU & LL & H).
    pose proof (eq_trans (eq_sym DU) DU') as Q0. injection Q0 as <-. pose proof (eq_trans (eq_sym CH) CH') as Q3. injection Q3 as <-. fold w m in CH', DP, IV, LC. split; auto. split; auto. split; auto. split; auto. split.
    { apply nth_error_same. intros r. rewrite nth_error_map. destruct (nth_error out r) as [[[row top] terms]|] eqn:NO; [exact (proj1 (H r row top terms NO))|]. apply nth_error_None. apply nth_error_None in NO. rewrite LL, <- LO. exact NO. }
    intros r row top terms j NO AF Hj x P DX TOT. destruct (H r row top terms NO) as (_ & us & PP & LU & RO & LP & LT & (ks & SS & KS & ER) & DJ). destruct (DJ j Hj) as (k & e & CC & RE & SH). fold x in CC.
    pose proof (row_nonneg _ _ _ _ _ _ _ _ IV DP LU RO AF) as NN. pose proof (chosen_floored n PP x k DX NN CC) as FR. destruct (floored_ok x DX) as [_ FT].
    assert (KB : forall k, In k ks -> k < length PP). { intros k0 J. apply KS in J. destruct J as (key & id & J & _). rewrite LP, LC. apply nth_error_Some. intros Q. pose proof (eq_trans (eq_sym J) Q) as Q'. discriminate Q'. }
    assert (VP : P = map (fun k => nth k PP f64_zero) ks). { unfold P. rewrite ER, map_map. reflexivity. }
    destruct (chosen_in_row fexp flog PP ks SS KB NN) with (x := floored x) (k := k) as (a & NA & FA & NZ); auto.
    - intros k0 Hk NI. eapply row_nests; eauto; [rewrite <- LC, <- LP; exact Hk|]. intros EN. apply NI, KS, EN.
    - rewrite <- VP. exact TOT.
    - assert (LR : length row = length ks) by (rewrite ER; apply map_length). pose proof (KB k (nth_error_In _ _ NA)) as Hk.
      exists a, (nth k cols (Flat "")), (nth k PP f64_zero), k, e. rewrite VP, LR. split; auto. split; [rewrite ER, nth_error_map, NA; reflexivity|]. split.
      + rewrite Forall_forall in NN. assert (NK : f64_nonneg (nth k PP f64_zero)) by (apply NN, nth_In, Hk). destruct (row_outputs_solution F (m_tree m) IV nl DP us scale true PP top (map snd terms) LU RO) as (LS & _).
        destruct (logit_probable fexp flog SE SN (m_tree m) nl scale us PP top (map snd terms) IV LU LS) as [_ B]. specialize (B AF). rewrite Forall_forall in B. destruct (B _ (nth_In PP f64_zero Hk)) as [FK [[G0|G0] _]]; auto.
        exfalso. unfold f64_eq in NZ. rewrite Beqb_correct in NZ by auto. unfold real in G0. rewrite Req_bool_true in NZ; [discriminate|symmetry; exact G0].
      + split; [apply nth_error_nth'; rewrite <- LP; exact Hk|]. auto.
  Qed.

  (** If the stochastic run returns, so does every discrete run of the same state, and there is one. *)
  Theorem C96_discrete_returns (NL : numexpr_local E) (G : generator F) ops i n clear seed scale as_index squeeze ts1 m1 out :
    let w := mrun E start ops in let m := model E w i in
    tree_history E start ops -> 1 <= n ->
    run_stochastic_all E (mheap E w) (mcont E w i) (mw_tabs w) m None clear scale true = (ts1, m1, Ok out) ->
    (exists o, run_discrete E G (mheap E w) (mcont E w i) (mw_tabs w) m (Z.of_nat n) clear seed scale as_index squeeze ts1 m1 o) /\
    forall ts2 m2 o, run_discrete E G (mheap E w) (mcont E w i) (mw_tabs w) m (Z.of_nat n) clear seed scale as_index squeeze ts2 m2 o -> is_ok o = true.
  Proof using Type.
    intros w m OH Hn R1. unfold run_stochastic_all in R1. destruct (run_utilities E (mheap E w) (mcont E w i) (mw_tabs w) m None clear) as [[ts0 m0] [t|e]] eqn:RU; [|discriminate].
    injection R1 as <- <- R1.
    destruct (run_touch E _ _ _ _ _ _ _ _ _ RU) as (T1 & T2 & _). assert (GD : inv F (m_tree m)) by (apply reachable_sound; exact OH).
    pose proof (table_ok_reachable E NL ops i) as TO. fold w m in TO. pose proof (run_ok E _ _ _ _ _ _ _ _ _ RU) as (si & xs & m3 & u & V & S & EV & _ & TT).
    destruct (evaluate_ok E _ _ _ _ _ _ _ TO EV) as (d & cols & nl & sh & DU & CH & DP & UC & SH & EA & _ & LD & _). pose proof (validate_ok E _ _ _ _ V) as (VT & _).
    pose proof (start_rect E NL _ _ _ cols TO DU UC) as SR. pose proof (eval_all_rect E NL _ _ _ _ _ _ _ _ _ EA SR) as RC. rewrite <- TT in RC.
    assert (LC : length cols = length (t_all (m_tree m))).
    { pose proof CH as CH'. rewrite (choices_eq F (m_tree m) nl GD VT DP) in CH'. injection CH' as <-. rewrite map_length. symmetry. apply all_ids. }
    destruct RC as [_ RC2]. rewrite Forall_forall in RC2. assert (RC1 : length t = length d) by (rewrite TT; exact LD).
    assert (LU : forall us, In us t -> length us = length (t_all (m_tree m))) by (intros us I; rewrite (RC2 us I); exact LC).
    assert (RD : run_discrete_utilities E (mheap E w) (mcont E w i) (mw_tabs w) m (Z.of_nat n) clear = (ts0, m0, Ok t)).
    { unfold run_discrete_utilities. rewrite V. destruct (Z.ltb_spec (Z.of_nat n) 1); [lia|]. exact RU. }
    apply map_res_ok in R1. destruct R1 as [_ R1].
    assert (OKR : forall us, In us t -> is_ok (row_outputs (m_tree m) us scale true) = true).
    { intros us I. apply In_nth_error in I. destruct I as [r I]. destruct (R1 r us I) as (o & SO & _). rewrite T1 in SO. fold m in SO. unfold stochastic_outputs in SO. apply rbind_ok in SO. destruct SO as (z & RO & _). rewrite RO. reflexivity. }
    destruct (sampling_task_ok F G (m_tree m) nl DP t n seed scale GD) as [task ST].
    assert (ST1 : sampling_task G (m_tree m0) t n seed scale = Ok task) by (rewrite T1; exact ST).
    unfold run_discrete. rewrite RD, Nat2Z.id, ST1. split.
    - destruct (parallel_for_exists F G (length t) task (fun _ => gseed G 0%Z) (fun _ => VI 0%Z)) as (mem & e & PF). destruct e.
      + exists (Err UtilityBounds). split; auto. split; auto. exists (fun _ => gseed G 0%Z), (fun _ => VI 0%Z), mem, true. split; eauto.
      + eexists. split; auto. split; auto. exists (fun _ => gseed G 0%Z), (fun _ => VI 0%Z), mem, false. split; [exact PF|reflexivity].
    - intros ts' m' o (-> & -> & r0 & mm & mem & e & PF & Q). pose proof (discrete_no_error F G (m_tree m) nl DP t n seed scale task r0 mm mem e GD ST Hn LU PF) as NE.
      destruct e.
      + destruct (proj1 NE eq_refl) as (u0 & y & I & RO). pose proof (OKR u0 I) as OK. rewrite RO in OK. discriminate OK.
      + pose proof (discrete_rows F G (m_tree m) nl DP t n seed scale task r0 mm mem GD ST Hn LU PF) as DR. rewrite RC1 in DR, Q.
        assert (CH1 : choices (m_tree m0) = Ok cols) by (rewrite T1; exact CH). assert (DU1 : units E m0 = Ok d) by (unfold units; rewrite T2; fold m; rewrite DU; reflexivity).
        destruct (result_ok E m0 d cols n mem as_index squeeze DU1 CH1 Hn) as (res' & CV' & _).
        { intros r j Hr Hj. destruct (DR r Hr) as (P & top & terms & RO & _ & DJ). destruct (DJ j Hj) as (k & CK & Hk & _). exists k. split; auto.
          assert (I : In (nth r t []) t) by (apply nth_In; rewrite RC1; exact Hr). destruct (row_outputs_solution F (m_tree m) GD nl DP _ _ _ _ _ _ (LU _ I) RO) as (_ & L1 & _). rewrite (LU _ I) in L1. rewrite LC. rewrite <- L1. exact Hk. }
        rewrite CV' in Q. cbn [rbind] in Q. subst o. reflexivity.
  Qed.

  Context (EI : exp_at_minus_infinity fexp) (LZ : log_at_zero flog).
  (** In particular, for numbers up to 1 - 5n half-units, [n] the number of nodes: an infeasible choice (or a nest) is never
      selected, the last one included. *)
  Theorem C96_never_improbable (NL : numexpr_local E) (G : generator F) ops i n clear seed scale as_index squeeze ts1 m1 ts2 m2 out result logsums d cols :
    let w := mrun E start ops in let m := model E w i in
    tree_history E start ops ->
    run_stochastic_all E (mheap E w) (mcont E w i) (mw_tabs w) m None clear scale true = (ts1, m1, Ok out) ->
    run_discrete E G (mheap E w) (mcont E w i) (mw_tabs w) m (Z.of_nat n) clear seed scale as_index squeeze ts2 m2 (Ok (result, logsums)) ->
    m_du m = Some d -> choices (m_tree m) = Ok cols ->
    forall r row (top : float64) terms j, nth_error out r = Some (row, top, terms) -> finite_total (map snd terms) -> (INR (length terms) * ulp_half <= / 16)%R -> j < n ->
      let x := random_number F G seed (length d) n r j in
      drawable x -> (real x <= 1 - 5 * INR (length terms) * ulp_half)%R ->
      exists l (p : float64) k e, In (l, p) row /\ (0 < real p)%R /\ nth_error cols k = Some l /\ result_entry result r j = Some e /\ shows cols as_index e k.
  Proof using SE SN EI LZ.
    intros w m OH R1 R2 DU CH r row top terms j NO FT NU Hj x DX BX.
    destruct (runs_share NL G ops i n clear seed scale as_index squeeze ts1 m1 ts2 m2 out result logsums OH R1 R2) as (_ & _ & d' & cols' & nl & DU' & CH' & DP & IV & LC & Hn & LO & RU & LL & H).
    fold w m in CH', DP, IV, LC. pose proof (eq_trans (eq_sym CH) CH') as Q3. injection Q3 as <-. destruct (H r row top terms NO) as (_ & us & PP & LU & RO & LP & LT & (ks & SS & KS & ER) & _).
    assert (NU4 : (INR (length terms) * ulp_half <= / 4)%R) by lra. assert (LN : length terms = length (t_all (m_tree m))) by (rewrite LT; exact LC).
    destruct (row_close fexp flog SE SN EI LZ (m_tree m) nl us scale PP top (map snd terms) IV DP LU RO FT) as [B ZE]; [rewrite <- LN; exact NU4|]. rewrite <- LN in B.
    assert (PT : Forall proper (map snd terms : list float64)).
    { destruct (row_outputs_solution F (m_tree m) IV nl DP us scale true PP top (map snd terms) LU RO) as (LS & _). unfold logit_solution in LS. destruct (1 <? nl).
      - destruct LS as (h & sc & EN & LS). eapply terms_proper; eauto. exact (proj1 LS).
      - destruct LS as (-> & _). apply Forall_forall. intros y I. apply in_map_iff in I. destruct I as (z & <- & _). apply exp_proper; auto. }
    assert (AF : all_finite (map snd terms)) by (apply terms_finite; auto).
    pose proof (row_nonneg _ _ _ _ _ _ _ _ IV DP LU RO AF) as NN. destruct (floored_ok x DX) as [FF _].
    assert (KB : forall k, In k ks -> k < length PP). { intros k0 J. apply KS in J. destruct J as (key & id & J & _). rewrite LP, LC. apply nth_error_Some. intros Q. pose proof (eq_trans (eq_sym J) Q) as Q'. discriminate Q'. }
    assert (ZE' : forall k, k < length PP -> ~ In k ks -> nth k PP f64_zero = f64_zero). { intros k0 Hk NI. apply ZE; [rewrite <- LC, <- LP; exact Hk|]. intros EN. apply NI, KS, EN. }
    assert (VP : map snd row = map (fun k => nth k PP f64_zero) ks). { rewrite ER, map_map. reflexivity. }
    destruct (C96_choices_follow_the_rows NL G ops i n clear seed scale as_index squeeze ts1 m1 ts2 m2 out result logsums d cols OH R1 R2 DU CH) as (_ & _ & _ & _ & _ & C).
    destruct (C r row top terms j NO AF Hj DX) as (a & l & p & k & e & FA & NA & PP0 & NK & RE & SH).
    - fold x. change (map snd row : list float64) with (map snd row). rewrite VP, <- (total_row PP ks SS KB NN ZE').
      apply (total_reaches PP NN (floored x) (4 * INR (length terms) * ulp_half)); auto.
      + intros Q. assert (RS : real_sum PP = 0%R) by (rewrite Q; reflexivity). rewrite RS in B. unfold Rabs in B. destruct (Rcase_abs (0 - 1)); lra.
      + unfold Rabs in B. destruct (Rcase_abs (real_sum PP - 1)); lra.
      + pose proof (pos_INR (length terms)). pose proof u_pos. assert (0 <= INR (length terms) * ulp_half)%R by (apply Rmult_le_pos; lra). lra.
      + change (INR (@length float64 PP) * ulp_half <= 1)%R. rewrite LP, <- LT. lra.
      + change (real (floored x) <= 1 - 4 * INR (length terms) * ulp_half - INR (@length float64 PP) * ulp_half)%R. rewrite LP, <- LT. unfold floored. destruct (f64_eq x f64_zero); [|lra].
        assert (TI : (real f64_tiny <= / 2)%R). { assert (TH : f64_le f64_tiny half = true) by (vm_compute; reflexivity). unfold f64_le in TH. rewrite Bleb_correct in TH by reflexivity. unfold real.
          destruct (Rle_bool_spec (B2R f64_tiny) (B2R half)); [|discriminate]. assert (HH : B2R half = (/ 2)%R); [|lra]. rewrite <- (SF2R_B2SF 53 1024 half). assert (Q : B2SF half = SpecFloat.S754_finite false 4503599627370496 (-53)) by (vm_compute; reflexivity). rewrite Q. unfold SF2R, F2R. simpl. lra. } lra.
    - exists l, p, k, e. split; [eapply nth_error_In; eauto|]. auto.
  Qed.
End Whole.

Print Assumptions C96_choices_follow_the_rows.
Print Assumptions C96_never_improbable.
Print Assumptions C96_discrete_returns.

(** *** The hypotheses are met: the nested model of C95, two draws; every random number is 1/2 *)
Definition c96_half : generator sumF := Generator sumF unit (fun _ => tt) (fun s => (half, s)) (fun s => (0%Z, s)).
Definition c96_world := mrun sumE (new_mworld sumE) c95_ops.
Example C96_hypotheses_met : exists ts m ts' m' out result logsums row top terms,
  run_stochastic_all sumE (mheap sumE c96_world) (mcont sumE c96_world 0) (mw_tabs c96_world) (model sumE c96_world 0) None true true true = (ts, m, Ok out) /\
  run_discrete sumE c96_half (mheap sumE c96_world) (mcont sumE c96_world 0) (mw_tabs c96_world) (model sumE c96_world 0) 2%Z true 7%Z true false true ts' m' (Ok (result, logsums)) /\
  nth_error out 1 = Some (row, top, terms) /\ finite_total (map snd terms) /\ length terms = 4 /\
  let x := random_number sumF c96_half 7 2 2 1 1 in drawable x /\ (real x <= 1 - 5 * INR 4 * ulp_half)%R.
Proof.
  assert (OK : match snd c95_run with Ok out => match nth_error out 1 with Some o => is_finite (fold_left f64_add (map snd (snd o)) f64_zero) = true /\ length (snd o) = 4 | None => False end | Err _ => False end) by (vm_compute; auto).
  destruct C95_run_hypotheses_met as (NL & TH & _).
  assert (RQ : run_stochastic_all sumE (mheap sumE c96_world) (mcont sumE c96_world 0) (mw_tabs c96_world) (model sumE c96_world 0) None true true true = c95_run) by reflexivity.
  destruct c95_run as [[ts m] [out|e]] eqn:Q; cbn [snd] in OK; [|destruct OK]. destruct (nth_error out 1) as [[[row top] terms]|] eqn:NO; [|destruct OK]. destruct OK as [O1 O2]. cbn [snd] in O1, O2.
  destruct (C96_discrete_returns step_exp_nan c95_log sumE NL c96_half c95_ops 0 2 true 7%Z true false true ts m out TH (le_S _ _ (le_n 1)) RQ) as [[o RO] OKO]. pose proof (OKO ts m o RO) as OO. destruct o as [[result logsums]|]; [|discriminate OO].
  exists ts, m, ts, m, out, result, logsums, row, top, terms. split; [exact RQ|]. split; [exact RO|]. split; [exact NO|]. split; [exact O1|]. split; [exact O2|].
  assert (XH : random_number sumF c96_half 7 2 2 1 1 = half) by reflexivity. rewrite XH. destruct three_hypotheses as (_ & _ & _ & T & FH & _). split; [exact (conj FH (or_intror T))|].
  assert (HH : real half = (/ 2)%R). { unfold real. rewrite <- (SF2R_B2SF 53 1024 half). assert (QH : B2SF half = SpecFloat.S754_finite false 4503599627370496 (-53)) by (vm_compute; reflexivity). rewrite QH. unfold SF2R, F2R. simpl. lra. }
  rewrite HH. pose proof u_small. pose proof u_pos. replace (INR 4) with 4%R by (simpl; lra). lra.
Qed.
