(** C92: computed (IEEE binary64) probabilities of any model, nested ones included. *)
From Coq Require Import Reals Lra Lia.
From Flocq Require Import Core.Core IEEE754.BinarySingleNaN.
From Verif Require Import Prelude Arith CoreModel TreeModel DictProofs ParModel ExprModel SpecExpr ExprProofs ExprUses ExprMeaning ExprContainer ExprWorld ScopeModel SpecScope ScopeProofs ModelModel ModelProofs SpecModel KernelProofs EvalProofs PropState ModelWorld ModelHist ModelTabs RunProofs PropUtility SpecSampling SpecNested NestedProofs SpecTree TreeProofs TreeMore TreeHist RunOut SpecEnd ParProofs OutProofs SamplingProofs SpecIeee IeeeProofs PropIeee PropNested NestedIeee ModelExample ModelTrees.
Local Open Scope nat_scope.
Local Open Scope list_scope.

(** Whatever the utilities, the scales and the logarithm, every computed probability of a nested model is in [0, 1]
    or NaN; none is NaN when the returned terms (the exponentials) are finite. *)
Theorem C92_nested_bounds : forall fexp flog n h lv bt (sc u P : list float64) scaled chk (top : float64) (terms : list float64),
  sane_exp fexp -> keeps_nan fexp -> wf_table n h lv bt -> length u = n ->
  nested_probabilities (B64 fexp flog) h lv sc bt scaled u chk = Ok (P, top, terms) ->
  length P = n /\ Forall nan_or_between P /\ (all_finite terms -> Forall between_0_and_1 P).
Proof.
  intros fexp flog n h lv bt sc u P scaled chk top terms SE SN WF LU H.
  pose proof (C13_nested_logit_equations (B64 fexp flog) n h lv bt sc u scaled chk P top terms WF LU H) as S.
  split; [apply S|]. eapply solution_probable; eauto. intros i p Hi Q. pose proof (proj1 (proj2 (proj2 (proj2 (proj2 WF)))) i Hi) as W. rewrite Q in W. apply W.
Qed.
Print Assumptions C92_nested_bounds.

Lemma nth_seq_id (l : list float64) : map (fun j => nth j l f64_zero) (seq 0 (length l)) = l.
Proof.
  apply (nth_ext _ _ f64_zero f64_zero); rewrite map_length, seq_length; auto. intros i Hi. rewrite (nth_indep _ f64_zero (nth 0 l f64_zero)) by (now rewrite map_length, seq_length).
  rewrite (map_nth (fun j => nth j l f64_zero)), seq_nth by auto. reflexivity.
Qed.
Section Whole.
  Context {L D cell : Type} (fexp flog : float64 -> float64).
  Notation F := (B64 fexp flog).
  Context (E : env L F D cell) (SE : sane_exp fexp) (SN : keeps_nan fexp).
  Notation start := (new_mworld E).

  Lemma mnl_probable (us P : list float64) (top : float64) (terms : list float64) : mnl_solution F us P top terms -> Forall nan_or_between P /\ (all_finite terms -> Forall between_0_and_1 P).
  Proof.
    intros (T1 & T2 & T3). assert (PT : Forall proper terms). { rewrite T1. apply Forall_forall. intros x I. apply in_map_iff in I. destruct I as (y & <- & _). now apply exp_proper. }
    assert (G : top = group_sum F terms (seq 0 (length terms))).
    { rewrite (group_fsum fexp flog). rewrite T2. unfold fsum. cbn [nadd nzero B64]. f_equal. symmetry. apply nth_seq_id. }
    assert (IX : forall x, In x terms -> exists i, In i (seq 0 (length terms)) /\ x = nth i terms f64_zero).
    { intros x I. apply (In_nth _ _ f64_zero) in I. destruct I as (i & Hi & <-). exists i. split; auto. apply in_seq. lia. }
    rewrite T3. split; [|intros FT]; apply Forall_forall; intros x I; apply in_map_iff in I; destruct I as (y & <- & I); destruct (IX y I) as (i & Ii & ->); rewrite G; cbn [nle ndiv nzero B64].
    - now apply (cond_probable fexp flog terms PT).
    - now apply (cond_between fexp flog terms PT FT).
  Qed.
  Lemma logit_probable (t : tree F) nl scaled (us P : list float64) (top : float64) (terms : list float64) : inv F t -> length us = length (t_all t) -> logit_solution F t nl scaled us P top terms ->
    Forall nan_or_between P /\ (all_finite terms -> Forall between_0_and_1 P).
  Proof.
    intros IV LU. unfold logit_solution. destruct (1 <? nl); [|apply mnl_probable]. intros (h & sc & EN & S). eapply (solution_probable fexp flog); [|exact SE|exact SN|exact S].
    intros i p Hi Q. destruct EN as (L1 & _ & EN). change (@length float64 us = length (t_all t)) in LU. change (i < @length float64 us) in Hi. change (p < @length float64 us). rewrite LU in *.
    destruct (nth_error (t_all t) i) as [[key id]|] eqn:N; [|apply nth_error_None in N; lia].
    assert (ST : stored F t id) by (apply nth_error_In in N; apply (in_map snd) in N; exact N).
    destruct (stored_node F t id (proj1 IV) ST) as [nd ND]. destruct (EN i key id nd N ND) as [X _]. unfold parent_of in Q. rewrite (nth_indep h (-1)%Z 0%Z) in Q, X by lia.
    destruct (nd_parent nd) as [q|].
    - destruct X as (k & pkey & K & X). rewrite X in Q. destruct (Z.ltb_spec (Z.of_nat k) 0); [lia|]. injection Q as <-. rewrite Nat2Z.id. apply nth_error_Some. congruence.
    - rewrite X in Q. discriminate.
  Qed.

  (** A stochastic run of any model, with any data assigned and any utilities cached: every probability it
      returns is in [0, 1] or NaN, and none in the row of a unit whose terms are finite is NaN. *)
  Theorem C92_run_bounds (NL : numexpr_local E) ops i group clear scale check ts' m' out :
    let w := mrun E start ops in let m := model E w i in
    tree_history E start ops ->
    run_stochastic_all E (mheap E w) (mcont E w i) (mw_tabs w) m group clear scale check = (ts', m', Ok out) ->
    forall row (top : float64) terms, In (row, top, terms) out ->
      Forall (fun x => nan_or_between (snd x)) row /\ (all_finite (map snd terms) -> Forall (fun x => between_0_and_1 (snd x)) row).
  Proof.
    intros w m OH R row top terms I. unfold run_stochastic_all in R. destruct (run_utilities E (mheap E w) (mcont E w i) (mw_tabs w) m group clear) as [[ts1 m1] [t|e]] eqn:RU; [|discriminate].
    injection R as <- <- R. destruct (run_touch E _ _ _ _ _ _ _ _ _ RU) as (T1 & T2 & _). assert (GD : inv F (m_tree m)) by (apply reachable_sound; exact OH).
    pose proof (table_ok_reachable E NL ops i) as TO. fold w m in TO. pose proof (run_ok E _ _ _ _ _ _ _ _ _ RU) as (si & xs & m2 & u & V & S & EV & _ & TT).
    destruct (evaluate_ok E _ _ _ _ _ _ _ TO EV) as (d & cols & nl & sh & DU & CH & DP & UC & SH & EA & _ & LD & _). apply validate_ok in V. destruct V as (V & _).
    pose proof (start_rect E NL _ _ _ cols TO DU UC) as SR. pose proof (eval_all_rect E NL _ _ _ _ _ _ _ _ _ EA SR) as RC. rewrite <- TT in RC.
    assert (LC : length cols = length (t_all (m_tree m))).
    { pose proof CH as CH'. rewrite (choices_eq F (m_tree m) nl GD V DP) in CH'. injection CH' as <-. rewrite map_length. symmetry. apply all_ids. }
    apply In_nth_error in I. destruct I as [r I]. apply map_res_ok in R. destruct R as [LO R].
    destruct (nth_error t r) as [us|] eqn:N; [|exfalso; apply nth_error_None in N; assert (r < length out) by (apply nth_error_Some; intros Q; pose proof (eq_trans (eq_sym I) Q) as Q'; discriminate Q'); apply (Nat.lt_irrefl r); apply Nat.lt_le_trans with (length out); [exact H|]; eapply Nat.le_trans; [apply Nat.eq_le_incl, LO|exact N]].
    destruct (R r us N) as (o & SO & NO). pose proof (eq_trans (eq_sym I) NO) as Q. injection Q as <-. rewrite T1 in SO.
    assert (LU : length us = length (t_all (m_tree m))). { destruct RC as [_ RC]. rewrite Forall_forall in RC. rewrite <- LC. apply RC. eapply nth_error_In; eauto. }
    destruct (stochastic_outputs_ok F (m_tree m) GD nl DP V us scale check cols _ CH LU SO) as (P & top' & terms' & row' & S1 & (ks & _ & KS & S2) & L1 & L2 & Q).
    injection Q as -> -> ->. destruct (logit_probable _ _ _ _ _ _ _ GD LU S1) as [B1 B2].
    assert (RW : forall k, In k ks -> In (nth k P f64_zero) P).
    { intros k J. apply nth_In. change (k < @length (num F) P). rewrite L1, LU. apply KS in J. destruct J as (key & id & J & _). apply nth_error_Some. congruence. }
    rewrite Forall_forall in B1. rewrite S2. split; [|intros FT]; apply Forall_forall; intros x J; apply in_map_iff in J; destruct J as (k & <- & J); cbn [snd].
    - apply B1, RW, J.
    - assert (FT' : all_finite terms').
      { assert (MS : map snd (combine cols terms') = (terms' : list float64)); [|pose proof (eq_ind _ (fun l : list float64 => all_finite l) FT _ MS) as FT2; exact FT2]. assert (LX : length cols = length terms') by congruence. clear - LX. revert terms' LX. induction cols as [|c cs IH]; intros [|y ys] LX; try discriminate; auto. cbn in *. f_equal. apply IH. lia. }
      specialize (B2 FT'). rewrite Forall_forall in B2. apply B2, RW, J.
  Qed.
End Whole.
Print Assumptions C92_run_bounds.

(** *** The hypotheses are met: a nested model (A with children C and D, and B), with an exponential taking 0 to 1, -inf to 0,
    +inf to +inf, NaN to NaN and anything else to 2; data are assigned before the last choices are added *)
Definition step_exp_nan (x : float64) : float64 := match x with B754_nan => B754_nan | _ => step_exp x end.
Lemma step_exp_nan_sane : sane_exp step_exp_nan /\ keeps_nan step_exp_nan.
Proof. split; intros x H; destruct x as [s|[|]| |s m e b]; try discriminate; reflexivity. Qed.
Notation stepE := (fenv step_exp_nan (fun x => x)).
Notation stepF := (B64 step_exp_nan (fun x => x)).
Definition c92_ops : list (mop stepE) := two_choices step_exp_nan (fun x => x) ++
  [MTree stepE 0 (@NodeAdd stepF 0 "C" f64_one); MTree stepE 0 (@NodeAdd stepF 0 "D" f64_one); MAppend stepE 0 "x" None].
Definition c92_run := let w := mrun stepE (new_mworld stepE) c92_ops in run_stochastic_all stepE (mheap stepE w) (mcont stepE w 0) (mw_tabs w) (model stepE w 0) None true true true.
Example C92_hypotheses_met :
  numexpr_local stepE /\ tree_history stepE (new_mworld stepE) c92_ops /\
  rmap (map (fun o => map (fun x => B2SF (snd x)) (fst (fst o)))) (snd c92_run) =
    Ok (repeat [B2SF half; B2SF (f64_mul half half); B2SF (f64_mul half half)] 2).
Proof.
  split; [apply e_local|]. split; [|vm_compute; reflexivity].
  unfold c92_ops, two_choices. cbn [app tree_history]. repeat match goal with |- _ /\ _ => split end; unfold tree_orderly; try exact I.
  - split; [repeat constructor; cbn; intuition discriminate|cbn; tauto].
  - exists "A"%string. split; [vm_compute; auto|]. intros H. exfalso. vm_compute in H. intuition discriminate.
  - exists "A"%string. split; [vm_compute; auto|]. intros H. exfalso. vm_compute in H. intuition discriminate.
Qed.
(** an overflow: +inf for both children of A; the inclusive value is +inf too *)
Example C92_nan : match nested_probabilities stepF [-1; -1; 0; 0]%Z [0; 0; 1; 1] [f64_one; f64_one; f64_one; f64_one] [false; true; true; true] true
    [f64_zero; f64_zero; B754_infinity false; f64_zero] true with
  | Ok (P, _, _) => map is_nan P = [false; false; true; true]
  | Err _ => False end.
Proof. vm_compute. reflexivity. Qed.
