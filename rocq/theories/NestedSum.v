(** Lemmas for C95: rounding of the products along the paths of a tree, summed over its leaves. *)
From Coq Require Import Reals Lra Lia Psatz.
From Flocq Require Import Core.Core IEEE754.BinarySingleNaN.
From Flocq Require Import Relative Plus_error.
From Verif Require Import Prelude Arith CoreModel SpecSampling SamplingProofs SpecIeee IeeeProofs PropIeee SpecNested NestedProofs MnlProofs NestedExact NestedIeee.
Local Open Scope R_scope.

(** ** Products *)
Lemma mul_error (a b : float64) : between_0_and_1 a -> between_0_and_1 b ->
  real a * real b * (1 - u) - eta <= real (f64_mul a b) <= real a * real b * (1 + u) + eta.
Proof.
  intros [Fa Ba] [Fb Bb]. unfold real, f64_mul in *. pose proof (Bmult_correct 53 1024 _ _ mode_NE a b) as C. set (q := B2R a * B2R b) in *.
  assert (Q0 : 0 <= q <= 1) by (unfold q; nra).
  assert (RQ : 0 <= round radix2 (SpecFloat.fexp 53 1024) (round_mode mode_NE) q <= 1).
  { split.
    - rewrite <- (round_0 radix2 (SpecFloat.fexp 53 1024) (round_mode mode_NE)). apply round_le; try typeclasses eauto. lra.
    - assert (G1 : generic_format radix2 (SpecFloat.fexp 53 1024) 1). { rewrite <- one_is. apply generic_format_B2R. }
      rewrite <- (round_generic radix2 (SpecFloat.fexp 53 1024) (round_mode mode_NE) 1 G1). apply round_le; try typeclasses eauto. lra. }
  rewrite Rlt_bool_true in C; cycle 1. { rewrite Rabs_pos_eq by lra. eapply Rle_lt_trans; [apply RQ|]. change 1 with (bpow radix2 0). apply bpow_lt. lia. }
  destruct C as (HR & _ & _). rewrite HR.
  destruct (relative_error_N_FLT'_ex radix2 (-1074) 53 ltac:(lia) (fun z => negb (Z.even z)) q) as (eps & et & E1 & E2 & _ & E3).
  change (round radix2 (SpecFloat.fexp 53 1024) (round_mode mode_NE) q) with (round radix2 (FLT_exp (-1074) 53) (Znearest (fun z => negb (Z.even z))) q). rewrite E3.
  apply eps_le in E1. apply Rabs_le_inv in E2. fold eta in E2. nra.
Qed.
Lemma mul_zero (a b : float64) : between_0_and_1 a -> between_0_and_1 b -> real a = 0 \/ real b = 0 -> real (f64_mul a b) = 0.
Proof.
  intros A B Z. unfold real, f64_mul in *. pose proof (Bmult_correct 53 1024 _ _ mode_NE a b) as C.
  replace (B2R a * B2R b) with 0 in C by (destruct Z as [Z|Z]; rewrite Z; ring). rewrite round_0 in C by typeclasses eauto. rewrite Rabs_R0, Rlt_bool_true in C by apply bpow_gt_0. apply C.
Qed.

(** ** Monotone sums *)
Lemma add_mono (a a' x : float64) : f64_nonneg a -> f64_nonneg a' -> f64_nonneg x -> f64_le a a' = true -> f64_le (f64_add a x) (f64_add a' x) = true.
Proof.
  intros Ha Ha' Hx L. destruct (f64_add_nonneg_le a x Ha Hx) as [N1 _]. destruct (f64_add_nonneg_le a' x Ha' Hx) as [N2 _].
  destruct (is_finite (f64_add a' x)) eqn:F'.
  - destruct (add_finite_args a' x Ha' Hx F') as [Fa' Fx]. destruct (le_finite a a' Ha L Fa') as [Fa La].
    unfold f64_add in *. pose proof (Bplus_correct 53 1024 _ _ mode_NE a x Fa Fx) as C. pose proof (Bplus_correct 53 1024 _ _ mode_NE a' x Fa' Fx) as C'.
    pose proof (real_nonneg a Ha Fa) as Pa. pose proof (real_nonneg x Hx Fx) as Px. unfold real in *.
    set (r := round radix2 (SpecFloat.fexp 53 1024) (round_mode mode_NE) (B2R a + B2R x)) in *. set (r' := round radix2 (SpecFloat.fexp 53 1024) (round_mode mode_NE) (B2R a' + B2R x)) in *.
    assert (R1 : 0 <= r) by (unfold r; rewrite <- (round_0 radix2 (SpecFloat.fexp 53 1024) (round_mode mode_NE)); apply round_le; try typeclasses eauto; lra).
    assert (R2 : r <= r') by (unfold r, r'; apply round_le; try typeclasses eauto; lra).
    destruct (Rlt_bool_spec (Rabs r') (bpow radix2 1024)) as [S'|S'].
    + destruct C' as (HR' & _ & _). rewrite Rlt_bool_true in C by (rewrite !Rabs_pos_eq in *; lra). destruct C as (HR & HF & _).
      unfold f64_le. rewrite Bleb_correct by auto. apply Rle_bool_true. rewrite HR, HR'. exact R2.
    + destruct C' as [C' _]. exfalso. destruct (Bplus mode_NE a' x); simpl in *; discriminate.
  - destruct (f64_nonneg_cases _ N2) as [[F2 _]|I]; [congruence|]. rewrite I. destruct (f64_nonneg_cases _ N1) as [[F1 _]|I1].
    + destruct (f64_add a x) as [[]|[]| |[]]; try discriminate; reflexivity.
    + rewrite I1. reflexivity.
Qed.
Lemma sub_sum {A} (f : A -> float64) (b : A -> bool) : forall l (acc acc' : float64), f64_nonneg acc -> f64_nonneg acc' -> Forall (fun j => f64_nonneg (f j)) l -> f64_le acc acc' = true ->
  f64_le (fsum acc (map f (filter b l))) (fsum acc' (map f l)) = true.
Proof.
  induction l as [|j l IH]; intros acc acc' Ha Ha' H L; [exact L|]. inversion_clear H as [|? ? Hj Hl]. cbn [filter map]. change (fsum acc' (f j :: map f l)) with (fsum (f64_add acc' (f j)) (map f l)).
  destruct (f64_add_nonneg_le acc' (f j) Ha' Hj) as [N1 L1]. destruct (b j).
  - cbn [map]. change (fsum acc (f j :: map f (filter b l))) with (fsum (f64_add acc (f j)) (map f (filter b l))). apply IH; auto; [apply f64_add_nonneg_le; auto|now apply add_mono].
  - apply IH; auto. eapply f64_le_trans; eauto.
Qed.
Lemma seq_nth_id (T : list float64) : map (fun j => nth j T f64_zero) (seq 0 (length T)) = T.
Proof.
  apply (nth_ext _ _ f64_zero f64_zero); rewrite map_length, seq_length; auto. intros i Hi. rewrite (nth_indep _ f64_zero (nth 0 T f64_zero)) by (now rewrite map_length, seq_length).
  rewrite (map_nth (fun j => nth j T f64_zero)), seq_nth by auto. reflexivity.
Qed.

Section Total.
  Context (fexp flog : float64 -> float64) (T : list float64) (PT : Forall proper T) (FT : finite_total T).
  Notation F := (B64 fexp flog).
  Lemma total_nonneg : Forall f64_nonneg T.
  Proof.
    assert (NN : is_nan (fsum f64_zero T) = false). { pose proof FT as H. unfold finite_total in H. fold (fsum f64_zero T) in H. destruct (fsum f64_zero T); auto; discriminate. }
    destruct (fsum_no_nan T f64_zero NN) as [_ NW]. rewrite Forall_forall in *. intros x I. destruct (PT x I) as [P|P]; auto. rewrite (NW x I) in P. discriminate.
  Qed.
  Lemma group_finite (b : nat -> bool) : is_finite (group_sum F T (filter b (seq 0 (length T)))) = true.
  Proof.
    rewrite group_fsum. set (f := fun j => nth j T f64_zero). set (l := seq 0 (length T)).
    assert (NF : Forall (fun j => f64_nonneg (f j)) l). { apply Forall_forall. intros j I. apply in_seq in I. pose proof total_nonneg as TN. rewrite Forall_forall in TN. apply TN, nth_In. lia. }
    assert (LE : f64_le (fsum f64_zero (map f (filter b l))) (fsum f64_zero (map f l)) = true) by (apply sub_sum; auto using zero_nonneg; reflexivity).
    assert (ET : map f l = T) by (apply seq_nth_id). rewrite ET in LE. refine (proj1 (le_finite _ _ _ LE FT)). apply fsum_le; [apply zero_nonneg|]. apply Forall_forall. intros x I. apply in_map_iff in I. destruct I as (j & <- & I). apply filter_In in I. rewrite Forall_forall in NF. apply NF, I.
  Qed.
  Lemma terms_finite : all_finite T.
  Proof.
    apply Forall_forall. intros x I. pose proof total_nonneg as TN. assert (L : f64_le x (fsum f64_zero T) = true) by (apply fsum_mem; auto; apply zero_nonneg).
    rewrite Forall_forall in TN. exact (proj1 (le_finite _ _ (TN x I) L FT)).
  Qed.
End Total.

(** finite choice *)
Lemma list_choice {A} (R : nat -> A -> Prop) (d : A) : forall n, (forall i, (i < n)%nat -> exists x, R i x) -> exists l, length l = n /\ forall i, (i < n)%nat -> R i (nth i l d).
Proof.
  induction n as [|n IH]; intros H; [exists []; split; auto; intros; lia|]. destruct IH as (l & L & Hl); [intros; apply H; lia|]. destruct (H n) as [x Hx]; [lia|].
  exists (l ++ [x]). rewrite app_length. split; [cbn; lia|]. intros i Hi. destruct (Nat.eq_dec i n) as [->|N].
  - rewrite app_nth2 by lia. rewrite L, Nat.sub_diag. exact Hx.
  - rewrite app_nth1 by lia. apply Hl. lia.
Qed.

Section Nested.
  Context (fexp flog : float64 -> float64) (n : nat) (h : list Z) (lv : list nat) (bt : list bool) (scaled : bool) (scf : list float64).
  Notation F := (B64 fexp flog).
  Context (SE : sane_exp fexp) (SN : keeps_nan fexp) (EI : exp_at_minus_infinity fexp) (LZ : log_at_zero flog).
  Context (WF : wf_table n h lv bt).
  Context (SC : forall i, (i < n)%nat -> children n h i <> [] -> positive_scale (nth i scf f64_zero)).
  Context (us T : list float64) (NT : nl_terms F n h scf scaled us T) (FT : finite_total T).
  Notation at_ i := (nth i T f64_zero).
  Lemma PAR : forall i p, (i < n)%nat -> parent_of h i = Some p -> (p < n)%nat.
  Proof using WF. intros i p Hi Q. now apply (parent_some n h lv bt WF i p). Qed.
  Lemma LT_ : length T = n. Proof using NT. exact (proj1 NT). Qed.
  Lemma PT : Forall proper T. Proof using NT SE SN. eapply terms_proper; eauto. Qed.

  (** a nest whose children have all term 0 has term 0 *)
  Lemma empty_nest i : (i < n)%nat -> children n h i <> [] -> f64_le (group_sum F T (children n h i)) f64_zero = true -> real (at_ i) = 0.
  Proof using All.
    intros Hi NC Z. assert (DP : positive_scale (divisor F h scf scaled i)).
    { unfold divisor. destruct (parent_of h i) as [p|] eqn:Q; [|split; [reflexivity|change (0 < real f64_one); rewrite one_is; lra]]. destruct scaled; [|split; [reflexivity|change (0 < real f64_one); rewrite one_is; lra]].
      apply SC; [eapply PAR; eauto|]. intros C. assert (J : In i (children n h p)) by (apply in_children; auto). rewrite C in J. destruct J. }
    pose proof (SC i Hi NC) as SP. pose proof (proj2 NT i Hi) as E. destruct (children n h i) as [|k ks] eqn:CH; [congruence|]. rewrite <- CH in *. clear NC.
    set (g := group_sum F T (children n h i)) in *. set (d := divisor F h scf scaled i) in *. cbn [nexp ndiv nadd nmul nlog nzero B64] in E.
    assert (GN : f64_nonneg g). { unfold g. rewrite group_fsum. apply fsum_le; [apply zero_nonneg|]. apply Forall_forall. intros x I. apply in_map_iff in I. destruct I as (j & <- & I). apply in_children in I. pose proof (total_nonneg T PT FT) as TN. rewrite Forall_forall in TN. apply TN, nth_In. rewrite LT_. apply I. }
    assert (GZ : f64_eq g f64_zero = true). { clear - GN Z. unfold f64_nonneg, f64_le, f64_eq in *. destruct g as [[]|[]| |[]]; try discriminate; reflexivity. }
    rewrite (LZ g GZ) in E. clear GN Z GZ. clearbody g d. assert (TF : is_finite (at_ i) = true). { pose proof (terms_finite T PT FT) as TF. unfold all_finite in TF. rewrite Forall_forall in TF. apply TF, nth_In. now rewrite LT_. }
    assert (ARG : f64_div (f64_add (nth i us f64_zero) (f64_mul (nth i scf f64_zero) (B754_infinity true))) d = B754_infinity true \/ is_nan (f64_div (f64_add (nth i us f64_zero) (f64_mul (nth i scf f64_zero) (B754_infinity true))) d) = true).
    { clear - SP DP. destruct SP as [S1 S2], DP as [D1 D2]. generalize (nth i us f64_zero) as x. destruct (nth i scf f64_zero) as [s|s| |s m e B]; try discriminate; [unfold real in S2; simpl in S2; lra|].
      assert (s = false) as -> by (destruct s; auto; exfalso; unfold real in S2; simpl in S2; pose proof (F2R_lt_0 radix2 (Float radix2 (Z.neg m) e) eq_refl); lra).
      cbn [num nzero B64] in *. destruct d as [s|s| |s m' e' B']; try discriminate; [unfold real in D2; simpl in D2; lra|].
      assert (s = false) as -> by (destruct s; auto; exfalso; unfold real in D2; simpl in D2; pose proof (F2R_lt_0 radix2 (Float radix2 (Z.neg m') e') eq_refl); lra).
      intros [[]|[]| |[]]; simpl; auto. }
    change (at_ i = fexp (f64_div (f64_add (nth i us f64_zero) (f64_mul (nth i scf f64_zero) (B754_infinity true))) d)) in E.
    destruct ARG as [A|A].
    - rewrite E, A, EI. reflexivity.
    - apply SN in A. rewrite <- E in A. destruct (at_ i); discriminate.
  Qed.

  (** the probabilities of all the nodes *)
  Context (Q : list float64) (HQ : forall i, (i < n)%nat -> path_prob F n h T i (nth i Q f64_zero)).
  Notation q i := (real (nth i Q f64_zero)).
  Notation c i := (cond F n h T i).
  Lemma path_unique : forall i x y, path_prob F n h T i x -> path_prob F n h T i y -> x = y.
  Proof using Type.
    intros k x y Hx. revert y. induction Hx as [k Ek|k p z Ek Hq IH]; intros y Hy.
    - destruct Hy; auto. congruence.
    - destruct Hy as [k Ek'|k p' q' Ek' Hq']; [congruence|]. assert (p' = p) by congruence. subst p'. f_equal. now apply IH.
  Qed.
  Lemma q_between i : (i < n)%nat -> between_0_and_1 (nth i Q f64_zero).
  Proof using All. intros Hi. eapply (path_between fexp flog n h); eauto using PAR, PT. apply (terms_finite T PT FT). Qed.
  Lemma c_between i : (i < n)%nat -> between_0_and_1 (c i).
  Proof using All. intros Hi. unfold cond. apply (cond_between fexp flog T PT (terms_finite T PT FT)), in_siblings, Hi. Qed.
  Lemma q_top i : (i < n)%nat -> parent_of h i = None -> nth i Q f64_zero = c i.
  Proof using HQ. intros Hi P. eapply path_unique; [apply HQ, Hi|]. now constructor. Qed.
  Lemma q_child i p : (i < n)%nat -> parent_of h i = Some p -> nth i Q f64_zero = f64_mul (c i) (nth p Q f64_zero).
  Proof using HQ WF. intros Hi P. eapply path_unique; [apply HQ, Hi|]. apply (pp_child F n h T i p); auto. apply HQ. eapply PAR; eauto. Qed.

  (** the conditional probabilities of a group *)
  Lemma group_cond (b : nat -> bool) (l := filter b (seq 0 n)) : l <> [] -> (forall j, In j l -> siblings n h j = l) -> f64_le (group_sum F T l) f64_zero = false ->
    let k := INR (length l) in 1 - k * u - k * eta <= SUM (fun j => real (c j)) l /\ (k * u <= / 4 -> SUM (fun j => real (c j)) l <= 1 + 2 * k * u).
  Proof using All.
    intros NE SB Z k. assert (GF : is_finite (group_sum F T l) = true) by (pose proof (group_finite fexp flog T PT FT b) as X; rewrite LT_ in X; exact X).
    set (f := fun j => at_ j). assert (NN : Forall f64_nonneg (map f l)). { apply Forall_forall. intros x I. apply in_map_iff in I. destruct I as (j & <- & I). apply filter_In in I. destruct I as [I _]. apply in_seq in I. pose proof (total_nonneg T PT FT) as TN. rewrite Forall_forall in TN. apply TN, nth_In. rewrite LT_. lia. }
    rewrite group_fsum in Z, GF. fold f in Z, GF. destruct (not_le_zero _ (proj1 (fsum_le _ _ zero_nonneg NN)) Z) as [[_ P]|I]; [|rewrite I in GF; discriminate].
    assert (CS : SUM (fun j => real (c j)) l = real_sum (map (fun e => f64_div e (fsum f64_zero (map f l))) (map f l))).
    { unfold real_sum, SUM. rewrite !map_map. f_equal. apply map_ext_in. intros j I. unfold cond. rewrite (SB j I). change (nle F) with f64_le. rewrite group_fsum. fold f. cbn [nzero B64]. rewrite Z. reflexivity. }
    rewrite CS. unfold k. replace (length l) with (length (map f l)) by now rewrite map_length. destruct (map f l) as [|w ws] eqn:M; [apply map_eq_nil in M; congruence|].
    destruct (probabilities_sum w ws NN GF P) as (_ & _ & A & B & _). split; [exact A|exact B].
  Qed.
  Lemma group_cond_zero (b : nat -> bool) (l := filter b (seq 0 n)) : (forall j, In j l -> siblings n h j = l) -> f64_le (group_sum F T l) f64_zero = true -> forall j, In j l -> real (c j) = 0.
  Proof using Type. intros SB Z j I. unfold cond. rewrite (SB j I). change (nle F) with f64_le. cbn [nzero B64]. rewrite Z. reflexivity. Qed.

  Context (NU : INR n * u <= / 4).
  Lemma length_le (b : nat -> bool) : INR (length (filter b (seq 0 n))) <= INR n.
  Proof using Type. apply le_INR. rewrite <- (seq_length n 0) at 2. generalize (seq 0 n). induction l as [|x l IH]; cbn; auto. destruct (b x); cbn; lia. Qed.
  Lemma SUM_le f g l : (forall i, In i l -> f i <= g i) -> SUM f l <= SUM g l.
  Proof using Type. induction l as [|x l IH]; intros H; [unfold SUM; cbn; lra|]. rewrite !SUM_cons. pose proof (H x (or_introl eq_refl)). specialize (IH (fun i I => H i (or_intror I))). lra. Qed.
  Lemma SUM_const a l : SUM (fun _ => a) l = INR (length l) * a.
  Proof using Type. induction l as [|x l IH]; [unfold SUM; cbn; ring|]. rewrite SUM_cons, IH. change (length (x :: l)) with (S (length l)). rewrite S_INR. ring. Qed.

  (** a nest passes its probability on to its children *)
  Lemma nest_passes i : (i < n)%nat -> children n h i <> [] -> Rabs (SUM (fun j => q j) (children n h i) - q i) <= 4 * INR (length (children n h i)) * u.
  Proof using All.
    intros Hi NC. assert (SB : forall j, In j (children n h i) -> siblings n h j = children n h i) by (intros j I; unfold siblings; apply in_children in I; destruct I as [_ ->]; reflexivity).
    assert (QC : forall j, In j (children n h i) -> nth j Q f64_zero = f64_mul (c j) (nth i Q f64_zero) /\ (j < n)%nat) by (intros j I; apply in_children in I; destruct I as [I1 I2]; split; auto; now apply q_child).
    pose proof (pos_INR (length (children n h i))) as K0. assert (K1 : 1 <= INR (length (children n h i))). { destruct (children n h i) as [|x l]; [congruence|]. change (length (x :: l)) with (S (length l)). rewrite S_INR. pose proof (pos_INR (length l)). lra. }
    pose proof u_pos as U0. pose proof u_small as U1. pose proof eta_pos as E0. pose proof eta_tiny as E1. destruct (q_between i Hi) as [_ B].
    destruct (f64_le (group_sum F T (children n h i)) f64_zero) eqn:Z.
    - assert (S0 : SUM (fun j => q j) (children n h i) = 0).
      { rewrite (SUM_ext _ (fun _ => 0)); [apply SUM_zero|]. intros j I. destruct (QC j I) as [-> Hj]. apply mul_zero; [apply c_between; auto|apply q_between; auto|]. left. exact (group_cond_zero (is_child h i) SB Z j I). }
      assert (Q0 : q i = 0).
      { pose proof (empty_nest i Hi NC Z) as AZ. assert (C0 : real (c i) = 0).
        { unfold cond. change (nle F) with f64_le. cbn [nzero ndiv B64]. destruct (f64_le (group_sum F T (siblings n h i)) f64_zero) eqn:Z'; [reflexivity|].
          assert (EX : exists b, siblings n h i = filter b (seq 0 n)) by (unfold siblings; destruct (parent_of h i); eexists; reflexivity). destruct EX as [b SX].
          assert (GF : is_finite (group_sum F T (siblings n h i)) = true) by (rewrite SX; pose proof (group_finite fexp flog T PT FT b) as X; rewrite LT_ in X; exact X).
          pose proof (total_nonneg T PT FT) as TN. rewrite Forall_forall in TN.
          assert (GN : f64_nonneg (group_sum F T (siblings n h i)) /\ f64_le (at_ i) (group_sum F T (siblings n h i)) = true).
          { rewrite group_fsum. assert (NN : Forall f64_nonneg (map (fun j => at_ j) (siblings n h i))) by (rewrite SX; apply Forall_forall; intros x I; apply in_map_iff in I; destruct I as (j & <- & I); apply filter_In in I; destruct I as [I _]; apply in_seq in I; apply TN, nth_In; rewrite LT_; lia).
            split; [apply fsum_le; auto using zero_nonneg|]. apply fsum_mem; auto using zero_nonneg. apply in_map_iff. exists i. split; auto. now apply in_siblings. }
          destruct GN as [GN GL]. destruct (not_le_zero _ GN Z') as [[_ P]|I]; [|rewrite I in GF; discriminate].
          assert (AN : f64_nonneg (at_ i)) by (apply TN, nth_In; rewrite LT_; auto).
          assert (DV : real (f64_div (at_ i) (group_sum F T (siblings n h i))) = 0); [|exact DV].
          pose proof (Bdiv_correct 53 1024 _ _ mode_NE (at_ i) (group_sum F T (siblings n h i)) ltac:(unfold real in P; lra)) as C. unfold real in AZ. rewrite AZ in C. unfold Rdiv in C. rewrite Rmult_0_l, round_0 in C by typeclasses eauto. rewrite Rabs_R0, Rlt_bool_true in C by apply bpow_gt_0. apply C. }
        destruct (parent_of h i) as [p|] eqn:PP; [|rewrite (q_top i Hi PP); exact C0]. rewrite (q_child i p Hi PP). apply mul_zero; auto; [now apply c_between|apply q_between; eapply PAR; eauto]. }
      rewrite S0, Q0, Rminus_0_r, Rabs_R0. nra.
    - destruct (group_cond (is_child h i) NC SB Z) as [A1 A2]. change (filter (is_child h i) (seq 0 n)) with (children n h i) in A1, A2. set (k := INR (length (children n h i))) in *.
      assert (KU : k * u <= / 4). { pose proof (length_le (is_child h i)) as LL. change (filter (is_child h i) (seq 0 n)) with (children n h i) in LL. fold k in LL. nra. }
      specialize (A2 KU). set (s := SUM (fun j => real (c j)) (children n h i)) in *.
      assert (UP : SUM (fun j => q j) (children n h i) <= q i * (1 + u) * s + k * eta).
      { unfold s, k. rewrite <- SUM_mult, <- SUM_const, <- SUM_plus. apply SUM_le. intros j I. destruct (QC j I) as [-> Hj]. pose proof (mul_error _ _ (c_between j Hj) (q_between i Hi)) as [_ M]. lra. }
      assert (LO : q i * (1 - u) * s - k * eta <= SUM (fun j => q j) (children n h i)).
      { unfold s, k. replace (INR (length (children n h i)) * eta) with (- SUM (fun _ => - eta) (children n h i)) by (rewrite SUM_const; ring). unfold Rminus. rewrite Ropp_involutive, <- SUM_mult, <- SUM_plus. apply SUM_le. intros j I. destruct (QC j I) as [-> Hj]. pose proof (mul_error _ _ (c_between j Hj) (q_between i Hi)) as [M _]. lra. }
      clearbody s. set (x := q i) in *. assert (KE : k * eta <= k * u / 1024) by (unfold Rdiv; nra). set (a := k * u) in *. set (e := k * eta) in *. assert (A0 : u <= a) by (unfold a; nra). assert (E2 : 0 <= e) by (unfold e; nra).
      apply Rabs_le. split.
      + assert (x * (1 - u) * s >= x * (1 - u) * (1 - a - e)) by (apply Rle_ge, Rmult_le_compat_l; [nra|lra]). assert (x * (1 - u) * (1 - a - e) >= x - (u + a + e)). { assert (UE : 0 <= u * (a + e)) by (apply Rmult_le_pos; lra). assert (W : 1 - (u + a + e) <= (1 - u) * (1 - a - e)) by (replace ((1 - u) * (1 - a - e)) with (1 - (u + a + e) + u * (a + e)) by ring; lra).
        apply Rle_ge. rewrite Rmult_assoc. apply Rle_trans with (x * (1 - (u + a + e))); [|apply Rmult_le_compat_l; lra]. assert (x * (u + a + e) <= 1 * (u + a + e)) by (apply Rmult_le_compat_r; lra). lra. } unfold a in *. lra.
      + assert (x * (1 + u) * s <= x * (1 + u) * (1 + 2 * a)) by (apply Rmult_le_compat_l; [nra|unfold a; lra]). assert (x * (1 + u) * (1 + 2 * a) <= x + (u + 2 * a + 2 * a * u)). { assert (0 <= a * u) by (apply Rmult_le_pos; lra). assert (x * (u + 2 * a + 2 * a * u) <= 1 * (u + 2 * a + 2 * a * u)) by (apply Rmult_le_compat_r; lra). replace (x * (1 + u) * (1 + 2 * a)) with (x + x * (u + 2 * a + 2 * a * u)) by ring. lra. } assert (2 * a * u <= a / 512) by (assert (a * u <= a * / 1024) by (apply Rmult_le_compat_l; lra); lra). unfold a in *. lra.
  Qed.

  Context (TOP : f64_le (group_sum F T (tops n h)) f64_zero = false).
  Lemma leaves_close : Rabs (SUM (fun i => q i) (filter (leaf n h) (seq 0 n)) - 1) <= 4 * INR n * u.
  Proof using All.
    pose proof u_pos as U0. pose proof eta_pos as E0. pose proof eta_tiny as E1. assert (SB : forall j, In j (tops n h) -> siblings n h j = tops n h) by (intros j I; unfold siblings; apply in_tops in I; destruct I as [_ ->]; reflexivity).
    assert (NE : tops n h <> []) by (intros Q0; rewrite Q0 in TOP; discriminate TOP).
    destruct (group_cond (is_top h) NE SB TOP) as [A1 A2]. change (filter (is_top h) (seq 0 n)) with (tops n h) in A1, A2.
    pose proof (length_le (is_top h)) as LL. change (filter (is_top h) (seq 0 n)) with (tops n h) in LL. pose proof (pos_INR (length (tops n h))) as K0. specialize (A2 ltac:(nra)).
    rewrite (SUM_ext (fun j => real (c j)) (fun j => q j)) in A1, A2 by (intros j I; apply in_tops in I; destruct I as [I1 I2]; now rewrite (q_top j I1 I2)).
    (* leaves = tops + sum over the nests of what they add *)
    set (g := fun i => q i). change (fun j => q j) with g in A1, A2 |- *.
    pose proof (regroup n h lv bt WF g) as RG. rewrite SUM_filter.
    set (df := fun i => if leaf n h i then 0 else SUM g (children n h i) - g i).
    assert (LV : SUM (fun i => if leaf n h i then g i else 0) (seq 0 n) = SUM g (tops n h) + SUM df (seq 0 n)).
    { assert (X : SUM g (seq 0 n) = SUM (fun i => if leaf n h i then g i else 0) (seq 0 n) + SUM (fun i => if leaf n h i then 0 else g i) (seq 0 n)) by (rewrite <- SUM_plus; apply SUM_ext; intros i _; destruct (leaf n h i); lra).
      assert (Y : SUM (fun i => SUM g (children n h i)) (seq 0 n) = SUM df (seq 0 n) + SUM (fun i => if leaf n h i then 0 else g i) (seq 0 n)).
      { rewrite <- SUM_plus. apply SUM_ext. intros i _. unfold df, leaf. destruct (children n h i) eqn:CH; [unfold SUM; cbn; lra|lra]. }
      lra. }
    rewrite LV. set (w := fun i => 4 * INR (length (children n h i)) * u).
    assert (DF : Rabs (SUM df (seq 0 n)) <= SUM w (seq 0 n)).
    { assert (AB : forall l, Rabs (SUM df l) <= SUM (fun i => Rabs (df i)) l). { induction l as [|x l IH]; [unfold SUM; cbn; rewrite Rabs_R0; lra|]. rewrite !SUM_cons. eapply Rle_trans; [apply Rabs_triang|]. lra. }
      eapply Rle_trans; [apply AB|]. apply SUM_le. intros i I. apply in_seq in I. unfold df, w, leaf. destruct (children n h i) eqn:CH; [rewrite Rabs_R0; cbn; lra|]. rewrite <- CH. apply nest_passes; [lia|congruence]. }
    assert (CT : SUM w (seq 0 n) + 4 * INR (length (tops n h)) * u = 4 * INR n * u).
    { pose proof (regroup n h lv bt WF (fun _ => 1)) as R1. rewrite !SUM_const, seq_length in R1. rewrite (SUM_ext (fun i => SUM (fun _ => 1) (children n h i)) (fun i => INR (length (children n h i)))) in R1 by (intros; rewrite SUM_const; ring).
      unfold w. rewrite (SUM_ext _ (fun i => (4 * u) * INR (length (children n h i)))) by (intros; ring). rewrite SUM_mult. replace (INR n) with (INR n * 1) by ring. rewrite R1. ring. }
    apply Rabs_le_inv in DF. assert (INR (length (tops n h)) * eta <= INR (length (tops n h)) * u) by (apply Rmult_le_compat_l; lra). apply Rabs_le. nra.
  Qed.
End Nested.
