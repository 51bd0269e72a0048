(** C95: the computed probabilities of a nested model, and of every row of a stochastic run, sum to nearly 1. *)
From Coq Require Import Reals Lra Lia Sorted Permutation.
From Flocq Require Import Core.Core IEEE754.BinarySingleNaN.
From Verif Require Import Prelude Arith CoreModel TreeModel DictProofs ParModel ExprModel SpecExpr ExprProofs ExprUses ExprMeaning ExprContainer ExprWorld ScopeModel SpecScope ScopeProofs ModelModel ModelProofs SpecModel KernelProofs EvalProofs PropState ModelWorld ModelHist ModelTabs RunProofs PropUtility SpecSampling MnlProofs SpecNested NestedProofs NestedExact SpecTree TreeProofs TreeMore TreeHist RunOut SpecEnd ParProofs OutProofs SamplingProofs SpecIeee IeeeProofs PropIeee PropNested NestedIeee ModelExample ModelTrees PropNestedIeee NestedSum.
Local Open Scope nat_scope.
Local Open Scope list_scope.

Lemma finite_row (fexp flog : float64 -> float64) (n : nat) h lv bt (sc us P T : list float64) scaled (top : float64) :
  sane_exp fexp -> keeps_nan fexp -> exp_at_minus_infinity fexp -> log_at_zero flog -> wf_table n h lv bt ->
  (forall i, i < n -> children n h i <> [] -> positive_scale (nth i sc f64_zero)) ->
  nl_solution (B64 fexp flog) n h sc scaled us P top T -> f64_le top f64_zero = false -> finite_total T -> (INR n * ulp_half <= / 4)%R ->
  (Rabs (real_sum P - 1) <= 4 * INR n * ulp_half)%R.
Proof.
  intros SE SN EI LZ WF SC (NT & TP & LP & HP) Z FT NU. change (@length float64 P = n) in LP.
  assert (EX : forall i, i < n -> exists q, path_prob (B64 fexp flog) n h T i q).
  { apply (down_ind n h lv bt WF). intros i Hi IH. destruct (parent_of h i) as [p|] eqn:PP; [|eexists; now constructor]. destruct (IH p eq_refl) as [q Hq]. eexists. eapply pp_child; eauto. }
  destruct (list_choice _ f64_zero n EX) as (Q & LQ & HQ). rewrite TP in Z.
  pose proof (leaves_close fexp flog n h lv bt scaled sc SE SN EI LZ WF SC us T NT FT Q HQ NU Z) as LC.
  replace (real_sum P) with (SUM (fun i => real (nth i Q f64_zero)) (filter (leaf n h) (seq 0 n))); [exact LC|].
  rewrite SUM_filter. unfold real_sum. rewrite <- (nth_seq_id P) at 1. change (@length (num (B64 fexp flog)) P = n) in LP. change (@length float64 P = n) in LP. rewrite LP, map_map. unfold SUM. f_equal. apply map_ext_in. intros i I. apply in_seq in I.
  assert (Hi : i < n) by lia. specialize (HP i Hi). unfold leaf. destruct (children n h i).
  - f_equal. exact (path_unique fexp flog n h T i _ _ (HQ i Hi) HP).
  - symmetry. change (real (nth i P f64_zero) = 0%R). replace (nth i P f64_zero) with f64_zero by (symmetry; exact HP). reflexivity.
Qed.

(** Whatever the utilities and scales: the sum of the computed probabilities of a nested model of n nodes differs from 1 by at
    most 4n half-units, when the terms do not overflow. *)
Theorem C95_nested_sum : forall fexp flog n h lv bt (sc us P : list float64) scaled (top : float64) (terms : list float64),
  sane_exp fexp -> keeps_nan fexp -> exp_at_minus_infinity fexp -> log_at_zero flog ->
  wf_table n h lv bt -> length us = n -> length sc = n -> Forall positive_scale sc ->
  nested_probabilities (B64 fexp flog) h lv sc bt scaled us true = Ok (P, top, terms) ->
  finite_total terms -> (INR n * ulp_half <= / 4)%R ->
  (Rabs (real_sum P - 1) <= 4 * INR n * ulp_half)%R.
Proof.
  intros fexp flog n h lv bt sc us P scaled top terms SE SN EI LZ WF LU LS SC H FT NU.
  pose proof (C13_nested_logit_equations (B64 fexp flog) n h lv bt sc us scaled true P top terms WF LU H) as S.
  eapply (finite_row fexp flog n h lv bt sc us P terms scaled top); eauto.
  - intros i Hi _. rewrite Forall_forall in SC. apply SC, nth_In. now rewrite LS.
  - unfold nested_probabilities in H. destruct lv; [discriminate|]. cbv zeta in H. match goal with H : (if ?b then _ else _) = _ |- _ => destruct b eqn:Q; [discriminate|] end.
    injection H as _ <- _. rewrite andb_true_r in Q. exact Q.
Qed.
Print Assumptions C95_nested_sum.

Lemma SUM_end (f : nat -> R) ks n : StronglySorted lt ks -> (forall k, In k ks -> k < n) -> (forall k, k < n -> ~ In k ks -> f k = 0%R) -> SUM f ks = SUM f (seq 0 n).
Proof.
  intros SS LT Z. assert (ND : NoDup ks). { clear - SS. induction SS as [|k l SS IH H]; constructor; auto. intros I. rewrite Forall_forall in H. specialize (H k I). lia. }
  set (b := fun k => existsb (Nat.eqb k) ks). assert (BI : forall k, b k = true <-> In k ks). { intros k. unfold b. rewrite existsb_exists. split; [intros (x & I & Q); apply Nat.eqb_eq in Q; now subst|intros I; exists k; split; auto; apply Nat.eqb_refl]. }
  assert (PM : Permutation ks (filter b (seq 0 n))).
  { apply NoDup_Permutation; auto; [apply NoDup_filter, seq_NoDup|]. intros k. rewrite filter_In, in_seq, BI. split; [intros I; split; auto; specialize (LT k I); lia|tauto]. }
  transitivity (SUM f (filter b (seq 0 n))); [unfold SUM; apply Rsum_perm, Permutation_map, PM|]. rewrite SUM_filter. apply SUM_ext. intros k I. apply in_seq in I. destruct (b k) eqn:Q; auto. symmetry. apply Z; [lia|]. intros J. apply BI in J. congruence.
Qed.

Section Whole.
  Context {L D cell : Type} (fexp flog : float64 -> float64).
  Notation F := (B64 fexp flog).
  Context (E : env L F D cell) (SE : sane_exp fexp) (SN : keeps_nan fexp) (EI : exp_at_minus_infinity fexp) (LZ : log_at_zero flog).
  Notation start := (new_mworld E).

  Lemma checked_top (t : tree F) us scaled (P : list float64) (top : float64) (terms : list float64) : row_outputs t us scaled true = Ok (P, top, terms) -> f64_le top f64_zero = false.
  Proof using Type.
    intros H. unfold row_outputs in H. destruct (depth t) as [d|]; [|discriminate]. cbn [rbind] in H. destruct (1 <? d).
    - destruct (flatten F t) as [[[[h lv] sc] bt]|]; [|discriminate]. cbn [rbind] in H. unfold nested_probabilities in H. destruct lv; [discriminate|]. cbv zeta in H.
      match goal with H : (if ?b then _ else _) = _ |- _ => destruct b eqn:Q; [discriminate|] end. injection H as _ <- _. rewrite andb_true_r in Q. exact Q.
    - unfold multinomial_probabilities in H. cbv zeta in H. match goal with H : (if ?b then _ else _) = _ |- _ => destruct b eqn:Q; [discriminate|] end. injection H as _ <- _. exact Q.
  Qed.
  (** one row, before the nests are removed *)
  Lemma row_close (t : tree F) nl us scaled (P : list float64) (top : float64) (terms : list float64) : inv F t -> depth t = Ok nl -> length us = length (t_all t) ->
    row_outputs t us scaled true = Ok (P, top, terms) -> finite_total terms -> (INR (length (t_all t)) * ulp_half <= / 4)%R ->
    (Rabs (real_sum P - 1) <= 4 * INR (length (t_all t)) * ulp_half)%R /\ forall k, k < length (t_all t) -> ~ end_node F t k -> nth k P f64_zero = f64_zero.
  Proof using SE SN EI LZ.
    intros IV DP LU H FT NU. pose proof (checked_top _ _ _ _ _ _ H) as Z. pose proof H as H0. unfold row_outputs in H. rewrite DP in H. cbn [rbind] in H. destruct (Nat.ltb_spec 1 nl) as [Hd|Hd].
    - rewrite (flatten_eq F t nl IV DP Hd) in H. cbn [rbind] in H. pose proof (flatten_wf F t nl IV DP) as WF. rewrite <- (all_ids F t) in WF. set (n := length (t_all t)) in *.
      set (sc := map (exp_sc F t) (ids t)) in *.
      assert (SC : Forall positive_scale (sc : list float64)).
      { apply Forall_forall. intros s I. apply in_map_iff in I. destruct I as (i & <- & I). destruct (c_node F t (proj1 IV) i I) as (nd & EN & SO & _). unfold exp_sc. rewrite EN.
        assert (OK : forall s, scale_ok F s = true -> positive_scale s).
        { clear. intros s. unfold scale_ok. cbn [nlt nle nzero none_ B64]. rewrite andb_true_iff. intros [A B]. assert (FS : is_finite s = true). { destruct s as [[]|[]| |[]]; auto; try discriminate. }
          split; auto. unfold f64_lt in A. rewrite Bltb_correct in A by auto. unfold real. change 0%R with (B2R f64_zero). destruct (Rlt_bool_spec (B2R f64_zero) (B2R s)); [auto|discriminate]. }
        destruct (is_parent (t_heap t) i); [now apply OK|]. split; [reflexivity|]. change (0 < real f64_one)%R. rewrite one_is. lra. }
      assert (LS : length sc = n) by (unfold sc, n; rewrite map_length; symmetry; apply all_ids).
      pose proof (C13_nested_logit_equations F n _ _ _ sc us scaled true P top terms WF LU H) as S. split.
      + exact (C95_nested_sum fexp flog n _ _ _ sc us P scaled top terms SE SN EI LZ WF LU LS SC H FT NU).
      + intros k Hk NE. destruct S as (_ & _ & _ & S). specialize (S k Hk). pose proof (proj2 (proj2 (proj2 (proj2 (proj2 WF)))) k Hk) as WB.
        assert (Hk' : k < length (ids t)) by (rewrite <- (all_ids F t); exact Hk). rewrite (end_nodes F t IV) in NE.
        rewrite (nth_indep _ true (negb (is_parent (t_heap t) 0))) in WB by (now rewrite map_length). rewrite (map_nth (fun i => negb (is_parent (t_heap t) i))) in WB.
        destruct (children n (map (exp_h F t) (ids t)) k) as [|c l]; [|exact S]. exfalso. apply NE. split; auto. apply WB. reflexivity.
    - unfold multinomial_probabilities in H. cbv zeta in H. change (nsum F (map (nexp F) us)) with (fsum f64_zero (map fexp us)) in H. cbn [nle nzero B64] in H. destruct (f64_le (fsum f64_zero (map fexp us)) f64_zero) eqn:Q; [discriminate|].
      injection H as HP HT HE. assert (HP' : map (fun e => f64_div e (fsum f64_zero (map fexp us))) (map fexp us) = P) by exact HP. clear HP.
      assert (PT : Forall proper (map fexp us)) by (apply Forall_forall; intros x I; apply in_map_iff in I; destruct I as (y & <- & _); apply exp_proper; auto).
      assert (FT' : finite_total (map fexp us)) by (change (map fexp us = terms) in HE; rewrite HE; exact FT). pose proof (total_nonneg _ PT FT') as NN. split.
      + destruct (not_le_zero _ (proj1 (fsum_le _ _ zero_nonneg NN)) Q) as [[_ PS]|I]; [|unfold finite_total in FT'; fold (fsum f64_zero (map fexp us)) in FT'; rewrite I in FT'; discriminate].
        rewrite <- HP'. rewrite <- LU in *. clear - NN FT' PS NU. change (INR (@length float64 us) * ulp_half <= / 4)%R in NU. change (Rabs (real_sum (map (fun e => f64_div e (fsum f64_zero (map fexp us))) (map fexp us)) - 1) <= 4 * INR (@length float64 us) * ulp_half)%R.
        rewrite <- (map_length fexp us) in *. destruct (map fexp us) as [|w ws]; [unfold real in PS; simpl in PS; lra|].
        destruct (probabilities_sum w ws NN FT' PS) as (_ & _ & A & B & _). specialize (B NU). set (N := INR (length (w :: ws))) in *.
        pose proof eta_tiny. pose proof u_pos. assert (0 <= N)%R by apply pos_INR. apply Rabs_le. assert (0 <= N * ulp_half)%R by (apply Rmult_le_pos; lra). split; [|lra].
        assert (N * eta <= N * ulp_half)%R by (apply Rmult_le_compat_l; lra). lra.
      + intros k Hk NE. exfalso. apply NE. apply (end_nodes F t IV). rewrite <- (all_ids F t). split; auto. rewrite flat_no_children with (nl := nl); auto; [lia|]. unfold stored. apply nth_In. rewrite <- (all_ids F t). exact Hk.
  Qed.

  (** Every row of a stochastic run of any model: the returned probabilities sum to 1 within 4n half-units, n the number of nodes. *)
  Theorem C95_run_sums (NL : numexpr_local E) ops i group clear scale ts' m' out :
    let w := mrun E start ops in let m := model E w i in
    tree_history E start ops ->
    run_stochastic_all E (mheap E w) (mcont E w i) (mw_tabs w) m group clear scale true = (ts', m', Ok out) ->
    forall row (top : float64) terms, In (row, top, terms) out ->
      finite_total (map snd terms) -> (INR (length terms) * ulp_half <= / 4)%R ->
      (Rabs (real_sum (map snd row) - 1) <= 4 * INR (length terms) * ulp_half)%R.
  Proof.
    intros w m OH R row top terms I FT NU. unfold run_stochastic_all in R. destruct (run_utilities E (mheap E w) (mcont E w i) (mw_tabs w) m group clear) as [[ts1 m1] [t|e]] eqn:RU; [|discriminate].
    injection R as <- <- R. destruct (run_touch E _ _ _ _ _ _ _ _ _ RU) as (T1 & T2 & _). assert (GD : inv F (m_tree m)) by (apply reachable_sound; exact OH).
    pose proof (table_ok_reachable E NL ops i) as TO. fold w m in TO. pose proof (run_ok E _ _ _ _ _ _ _ _ _ RU) as (si & xs & m2 & u & V & S & EV & _ & TT).
    destruct (evaluate_ok E _ _ _ _ _ _ _ TO EV) as (d & cols & nl & sh & DU & CH & DP & UC & SH & EA & _ & LD & _). apply validate_ok in V. destruct V as (V & _).
    pose proof (start_rect E NL _ _ _ cols TO DU UC) as SR. pose proof (eval_all_rect E NL _ _ _ _ _ _ _ _ _ EA SR) as RC. rewrite <- TT in RC.
    assert (LC : length cols = length (t_all (m_tree m))).
    { pose proof CH as CH'. rewrite (choices_eq F (m_tree m) nl GD V DP) in CH'. injection CH' as <-. rewrite map_length. symmetry. apply all_ids. }
    apply In_nth_error in I. destruct I as [r I]. apply map_res_ok in R. destruct R as [LO R].
    destruct (nth_error t r) as [us|] eqn:N; [|exfalso; apply nth_error_None in N; assert (r < length out) by (apply nth_error_Some; intros Q; pose proof (eq_trans (eq_sym I) Q) as Q'; discriminate Q'); apply (Nat.lt_irrefl r); apply Nat.lt_le_trans with (length out); [exact H|]; eapply Nat.le_trans; [apply Nat.eq_le_incl, LO|exact N]].
    destruct (R r us N) as (o & SO & NO). pose proof (eq_trans (eq_sym I) NO) as Q. injection Q as <-. rewrite T1 in SO.
    assert (LU : length us = length (t_all (m_tree m))). { destruct RC as [_ RC]. rewrite Forall_forall in RC. rewrite <- LC. apply RC. eapply nth_error_In; eauto. }
    unfold stochastic_outputs in SO. apply rbind_ok in SO. destruct SO as ([[P top'] terms'] & RO & SO). rewrite DP in SO. cbn [rbind] in SO.
    destruct (row_outputs_solution F (m_tree m) GD nl DP us scale true P top' terms' LU RO) as (_ & L1 & L2). destruct (frame_row_ends F (m_tree m) GD nl DP V P cols CH) as (row' & FR & ER); [congruence|].
    rewrite FR in SO. cbn [rbind] in SO. rewrite CH in SO. cbn [rbind] in SO. injection SO as <- <- <-.
    assert (LX : length cols = length terms') by congruence.
    assert (MS : map snd (combine cols terms') = (terms' : list float64)). { clear - LX. revert terms' LX. induction cols as [|c cs IH]; intros [|y ys] LX; try discriminate; auto. cbn in *. f_equal. apply IH. lia. }
    pose proof (eq_ind _ (fun l : list float64 => finite_total l) FT _ MS) as FT'. assert (LT : length (combine cols terms') = length (t_all (m_tree m))) by (rewrite combine_length, LX, Nat.min_id; congruence).
    match type of NU with (INR ?x * _ <= _)%R => assert (IN : x = length (t_all (m_tree m))) by exact LT; rewrite IN in NU |- * end. destruct (row_close (m_tree m) nl us scale P top' terms' GD DP LU RO FT' NU) as [B ZE].
    destruct ER as (ks & SS & KS & ->). replace (real_sum (map snd (map (fun k => (nth k cols (Flat ""), nth k P (nzero F))) ks))) with (real_sum P); [exact B|].
    unfold real_sum. rewrite !map_map. change (map (fun x => real (snd (nth x cols (Flat ""), nth x P (nzero F)))) ks) with (map (fun x => real (nth x P f64_zero)) ks).
    change (Rsum (map (fun x => real (nth x P f64_zero)) ks)) with (SUM (fun x => real (nth x P f64_zero)) ks). rewrite (SUM_end _ ks (length (t_all (m_tree m)))); auto.
    - rewrite <- (nth_seq_id P) at 1. change (@length float64 P) with (@length (num F) P). rewrite map_map, L1, LU. reflexivity.
    - intros k J. apply KS in J. destruct J as (key & id & J & _). apply nth_error_Some. congruence.
    - intros k Hk J. assert (ZK : nth k P f64_zero = f64_zero) by (apply ZE; [exact Hk|intros EN; apply J, KS, EN]). rewrite ZK. reflexivity.
  Qed.
End Whole.
Print Assumptions C95_run_sums.

(** *** The hypotheses are met: the nested model of C92, with an exponential taking 0 to 1, -inf to 0, +inf to +inf, NaN to NaN
    and anything else to 2, and a logarithm taking 0 to -inf and anything else to itself *)
Definition c95_log (x : float64) : float64 := match x with B754_zero _ => B754_infinity true | _ => x end.
Lemma c95_functions : sane_exp step_exp_nan /\ keeps_nan step_exp_nan /\ exp_at_minus_infinity step_exp_nan /\ log_at_zero c95_log.
Proof.
  split; [apply step_exp_nan_sane|]. split; [apply step_exp_nan_sane|]. split; [reflexivity|]. intros x H. destruct x as [s|[]| |[]]; try discriminate; reflexivity.
Qed.
Notation sumF := (B64 step_exp_nan c95_log).
Notation sumE := (fenv step_exp_nan c95_log).
Definition c95_kernel := nested_probabilities sumF [-1; -1; 0; 0; 1; 1]%Z [0; 0; 1; 1; 1; 1] (repeat f64_one 6) [false; false; true; true; true; true] true
  [f64_zero; f64_zero; f64_zero; f64_one; B754_infinity true; B754_infinity true] true.
(** the second nest has only children of utility -inf *)
Example C95_hypotheses_met : wf_table 6 [-1; -1; 0; 0; 1; 1]%Z [0; 0; 1; 1; 1; 1] [false; false; true; true; true; true] /\ Forall positive_scale (repeat f64_one 6) /\
  match c95_kernel with
  | Ok (P, top, terms) => finite_total terms /\ map B2SF P = map B2SF [f64_zero; f64_zero; f64_div f64_one (f64_add (f64_add f64_one f64_one) f64_one); f64_div (f64_add f64_one f64_one) (f64_add (f64_add f64_one f64_one) f64_one); f64_zero; f64_zero]
  | Err _ => False end /\ (INR 6 * ulp_half <= / 4)%R.
Proof.
  split; [|split; [|split]].
  - unfold wf_table. repeat (split; [cbn; lia|]). split.
    + intros i Hi. do 6 (destruct i as [|i]; [vm_compute; repeat split; lia|]). lia.
    + intros i Hi. do 6 (destruct i as [|i]; [vm_compute; split; congruence|]). lia.
  - apply Forall_forall. intros s I. apply repeat_spec in I. subst s. split; [reflexivity|]. change (0 < real f64_one)%R. rewrite one_is. lra.
  - vm_compute. split; reflexivity.
  - pose proof u_small as U. pose proof u_pos. replace (INR 6) with 6%R by (simpl; lra). lra.
Qed.
Definition c95_ops : list (mop sumE) := two_choices step_exp_nan c95_log ++
  [MTree sumE 0 (@NodeAdd sumF 0 "C" f64_one); MTree sumE 0 (@NodeAdd sumF 0 "D" f64_one); MAppend sumE 0 "x" None].
Definition c95_run := let w := mrun sumE (new_mworld sumE) c95_ops in run_stochastic_all sumE (mheap sumE w) (mcont sumE w 0) (mw_tabs w) (model sumE w 0) None true true true.
Example C95_run_hypotheses_met :
  numexpr_local sumE /\ tree_history sumE (new_mworld sumE) c95_ops /\
  match snd c95_run with Ok out => map (fun o => (length (snd o), is_finite (fold_left f64_add (map snd (snd o)) f64_zero), map (fun x => B2SF (snd x)) (fst (fst o)))) out =
    repeat (4, true, [B2SF half; B2SF (f64_mul half half); B2SF (f64_mul half half)]) 2 | Err _ => False end.
Proof.
  split; [apply e_local|]. split; [|vm_compute; reflexivity].
  unfold c95_ops, two_choices. cbn [app tree_history]. repeat match goal with |- _ /\ _ => split end; unfold tree_orderly; try exact I.
  - split; [repeat constructor; cbn; intuition discriminate|cbn; tauto].
  - exists "A"%string. split; [vm_compute; auto|]. intros H. exfalso. vm_compute in H. intuition discriminate.
  - exists "A"%string. split; [vm_compute; auto|]. intros H. exfalso. vm_compute in H. intuition discriminate.
Qed.
