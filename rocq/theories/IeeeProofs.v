(** Rounding of the sums and quotients of nonnegative doubles. *)
From Coq Require Import Reals Lra Lia.
From Flocq Require Import Core.Core IEEE754.BinarySingleNaN.
From Flocq Require Import Relative Plus_error.
From Verif Require Import Prelude Arith CoreModel SpecSampling SamplingProofs SpecIeee.
Local Open Scope R_scope.

Notation u := ulp_half.
Lemma u_pos : 0 < u. Proof. apply bpow_gt_0. Qed.
Lemma u_small : u <= / 1024.
Proof. unfold ulp_half. replace (/ 1024) with (bpow radix2 (-10)) by (simpl; lra). apply bpow_le. lia. Qed.
Definition eta : R := / 2 * bpow radix2 (-1074).
Lemma eta_pos : 0 < eta. Proof. unfold eta. pose proof (bpow_gt_0 radix2 (-1074)). lra. Qed.

Lemma u_ro_is : u_ro radix2 53 = u.
Proof.
  unfold u_ro, ulp_half. change (Z.opp 53 + 1)%Z with (-52)%Z. assert (H : bpow radix2 (-52) = 2 * bpow radix2 (-53)) by (change 2 with (bpow radix2 1); rewrite <- bpow_plus; reflexivity).
  rewrite H. field.
Qed.
Lemma eps_le eps : Rabs eps <= u_ro radix2 53 / (1 + u_ro radix2 53) -> - u <= eps <= u.
Proof.
  rewrite u_ro_is. pose proof u_pos as UP. intros H. assert (Q : u / (1 + u) <= u). { apply Rmult_le_reg_r with (1 + u); [lra|]. unfold Rdiv. rewrite Rmult_assoc, Rinv_l by lra. nra. }
  apply Rabs_le_inv. lra.
Qed.

(** adding nonnegative doubles *)
Lemma add_finite_args (a x : float64) : f64_nonneg a -> f64_nonneg x -> is_finite (f64_add a x) = true -> is_finite a = true /\ is_finite x = true.
Proof.
  intros Ha Hx H. destruct (f64_nonneg_cases a Ha) as [[Fa _]| ->], (f64_nonneg_cases x Hx) as [[Fx _]| ->]; auto.
  - exfalso. destruct a as [[]|[]| |[]]; simpl in *; discriminate.
  - exfalso. destruct x as [[]|[]| |[]]; simpl in *; discriminate.
Qed.
Lemma add_error (a x : float64) : f64_nonneg a -> f64_nonneg x -> is_finite (f64_add a x) = true ->
  (real a + real x) * (1 - u) <= real (f64_add a x) <= (real a + real x) * (1 + u).
Proof.
  intros Ha Hx H. destruct (add_finite_args a x Ha Hx H) as [Fa Fx].
  destruct (f64_nonneg_cases a Ha) as [[_ Pa]| ->]; [|discriminate]. destruct (f64_nonneg_cases x Hx) as [[_ Px]| ->]; [|discriminate].
  unfold real, f64_add in *. pose proof (Bplus_correct 53 1024 _ _ mode_NE a x Fa Fx) as C. destruct (Rlt_bool _ _) eqn:E.
  - destruct C as (HR & _ & _). rewrite HR.
    destruct (FLT_plus_error_N_ex radix2 (-1074) 53 (fun z => negb (Z.even z)) (B2R a) (B2R x)) as (eps & E1 & E2); [apply (generic_format_B2R 53 1024)|apply (generic_format_B2R 53 1024)|].
    change (round radix2 (SpecFloat.fexp 53 1024) (round_mode mode_NE) (B2R a + B2R x)) with (round radix2 (FLT_exp (-1074) 53) (Znearest (fun z => negb (Z.even z))) (B2R a + B2R x)).
    rewrite E2. apply eps_le in E1. nra.
  - destruct C as [C _]. exfalso. destruct (Bplus mode_NE a x); simpl in *; try discriminate.
Qed.
Lemma add_zero (x : float64) : f64_nonneg x -> is_finite x = true -> is_finite (f64_add f64_zero x) = true /\ real (f64_add f64_zero x) = real x.
Proof. intros Hx F. unfold f64_add. destruct x as [[]|[]| |[]]; try discriminate; simpl; split; auto. Qed.
Lemma real_nonneg (x : float64) : f64_nonneg x -> is_finite x = true -> 0 <= real x.
Proof. intros H F. destruct (f64_nonneg_cases x H) as [[_ P]| ->]; [exact P|discriminate]. Qed.
Lemma le_finite (a b : float64) : f64_nonneg a -> f64_le a b = true -> is_finite b = true -> is_finite a = true /\ real a <= real b.
Proof.
  intros Ha L F. destruct (f64_nonneg_cases a Ha) as [[Fa _]| ->].
  - split; auto. unfold f64_le in L. rewrite Bleb_correct in L by auto. destruct (Rle_bool_spec (B2R a) (B2R b)); [auto|discriminate].
  - exfalso. destruct b as [[]|[]| |[]]; unfold f64_le, Bleb in L; simpl in *; discriminate.
Qed.

(** ** Running sums *)
Definition fsum (acc : float64) (l : list float64) : float64 := fold_left f64_add l acc.
Lemma fsum_le l : forall acc, f64_nonneg acc -> Forall f64_nonneg l -> f64_nonneg (fsum acc l) /\ f64_le acc (fsum acc l) = true.
Proof.
  induction l as [|x l IH]; intros acc Ha Hl; cbn; [split; auto; apply f64_le_refl, f64_nonneg_not_nan, Ha|]. inversion_clear Hl as [|? ? Hx Hl']. destruct (f64_add_nonneg_le acc x Ha Hx) as [A B].
  destruct (IH _ A Hl') as [C D]. split; auto. eapply f64_le_trans; eauto.
Qed.
Lemma pow_ge_0 k : 0 <= (1 - u) ^ k.
Proof. apply pow_le. pose proof u_small. lra. Qed.
Lemma pow_ge_1 k : 1 <= (1 + u) ^ k.
Proof. apply pow_R1_Rle. pose proof u_pos. lra. Qed.
Lemma fsum_error l : forall acc, f64_nonneg acc -> Forall f64_nonneg l -> is_finite (fsum acc l) = true ->
  (real acc + real_sum l) * (1 - u) ^ length l <= real (fsum acc l) <= (real acc + real_sum l) * (1 + u) ^ length l /\
  is_finite acc = true /\ Forall (fun x => is_finite x = true) l.
Proof.
  induction l as [|x l IH]; intros acc Ha Hl F; cbn in F.
  - cbn. unfold real_sum. cbn. split; [lra|auto].
  - inversion_clear Hl as [|? ? Hx Hl']. destruct (f64_add_nonneg_le acc x Ha Hx) as [A _]. destruct (IH _ A Hl' F) as ([B1 B2] & FA & FL).
    destruct (add_finite_args acc x Ha Hx FA) as [Facc Fx]. destruct (add_error acc x Ha Hx FA) as [C1 C2]. pose proof (real_nonneg acc Ha Facc). pose proof (real_nonneg x Hx Fx).
    assert (S0 : 0 <= real_sum l). { unfold real_sum. clear - Hl' FL. induction l as [|y l IH]; cbn; [lra|]. inversion_clear Hl'. inversion_clear FL. pose proof (real_nonneg y H H1). specialize (IH H0 H2). lra. }
    split; [|split; auto]. change (fsum acc (x :: l)) with (fsum (f64_add acc x) l). change (real_sum (x :: l)) with (real x + real_sum l). cbn [length pow].
    pose proof u_pos. pose proof u_small. pose proof (pow_ge_0 (length l)) as P0. pose proof (pow_ge_1 (length l)) as P1. split.
    + eapply Rle_trans; [|exact B1]. replace ((real acc + (real x + real_sum l)) * ((1 - u) * (1 - u) ^ length l)) with (((real acc + real x) * (1 - u) + real_sum l * (1 - u)) * (1 - u) ^ length l) by ring.
      apply Rmult_le_compat_r; auto. nra.
    + eapply Rle_trans; [exact B2|]. replace ((real acc + (real x + real_sum l)) * ((1 + u) * (1 + u) ^ length l)) with (((real acc + real x) * (1 + u) + real_sum l * (1 + u)) * (1 + u) ^ length l) by ring.
      apply Rmult_le_compat_r; [lra|]. nra.
Qed.
(** from zero the first addition is exact *)
Lemma total_error x l : Forall f64_nonneg (x :: l) -> is_finite (fsum f64_zero (x :: l)) = true ->
  real_sum (x :: l) * (1 - u) ^ length l <= real (fsum f64_zero (x :: l)) <= real_sum (x :: l) * (1 + u) ^ length l /\ Forall (fun y => is_finite y = true) (x :: l).
Proof.
  intros H F. inversion_clear H as [|? ? Hx Hl]. assert (Z : f64_nonneg f64_zero) by reflexivity. destruct (f64_add_nonneg_le f64_zero x Z Hx) as [A _].
  destruct (fsum_error l _ A Hl F) as (B & FA & FL). destruct (add_finite_args _ x Z Hx FA) as [_ Fx]. destruct (add_zero x Hx Fx) as [_ R]. rewrite R in B. split; [exact B|]. constructor; auto.
Qed.
Lemma pow_lower k : 1 - INR k * u <= (1 - u) ^ k.
Proof.
  pose proof u_pos as U0. pose proof u_small as U1. induction k as [|k IH]; [simpl; lra|]. rewrite S_INR. cbn [pow].
  assert (P : (1 - u) ^ k <= 1) by (pose proof (pow_incr (1 - u) 1 k ltac:(lra)) as H; now rewrite pow1 in H).
  set (X := (1 - u) ^ k) in *. assert (0 <= u * (1 - X)) by (apply Rmult_le_pos; lra). lra.
Qed.
Lemma pow_inverse k : (1 - u) ^ k * (1 + u) ^ k <= 1.
Proof. rewrite <- Rpow_mult_distr. replace ((1 - u) * (1 + u)) with (1 - u * u) by ring. pose proof u_pos. pose proof u_small. pose proof (pow_incr (1 - u * u) 1 k ltac:(nra)) as P. now rewrite pow1 in P. Qed.

(** ** Quotients *)
Lemma one_is : real f64_one = 1.
Proof. unfold real, f64_one. apply Bone_correct. Qed.
Lemma div_between (e s : float64) : f64_nonneg e -> f64_le e s = true -> is_finite s = true -> 0 < real s ->
  between_0_and_1 (f64_div e s) /\ real e / real s * (1 - u) - eta <= real (f64_div e s) <= real e / real s * (1 + u) + eta.
Proof.
  intros He L F P. destruct (le_finite e s He L F) as [Fe Le]. pose proof (real_nonneg e He Fe) as Pe. unfold between_0_and_1, real, f64_div in *.
  assert (Q0 : 0 <= B2R e / B2R s <= 1). { split; [apply Rmult_le_pos; auto; left; now apply Rinv_0_lt_compat|]. apply Rmult_le_reg_r with (B2R s); auto. unfold Rdiv. rewrite Rmult_assoc, Rinv_l; lra. }
  set (q := B2R e / B2R s) in *. pose proof (Bdiv_correct 53 1024 _ _ mode_NE e s ltac:(lra)) as C. fold q in C.
  assert (RQ : 0 <= round radix2 (SpecFloat.fexp 53 1024) (round_mode mode_NE) q <= 1).
  { split.
    - rewrite <- (round_0 radix2 (SpecFloat.fexp 53 1024) (round_mode mode_NE)). apply round_le; try typeclasses eauto. lra.
    - assert (G1 : generic_format radix2 (SpecFloat.fexp 53 1024) 1). { rewrite <- one_is. apply generic_format_B2R. }
      rewrite <- (round_generic radix2 (SpecFloat.fexp 53 1024) (round_mode mode_NE) 1 G1). apply round_le; try typeclasses eauto. lra. }
  rewrite Rlt_bool_true in C; cycle 1. { rewrite Rabs_pos_eq by lra. eapply Rle_lt_trans; [apply RQ|]. change 1 with (bpow radix2 0). apply bpow_lt. lia. }
  destruct C as (HR & HF & _). rewrite HR, HF. split; [split; auto|].
  destruct (relative_error_N_FLT'_ex radix2 (-1074) 53 ltac:(lia) (fun z => negb (Z.even z)) q) as (eps & et & E1 & E2 & _ & E3).
  change (round radix2 (SpecFloat.fexp 53 1024) (round_mode mode_NE) q) with (round radix2 (FLT_exp (-1074) 53) (Znearest (fun z => negb (Z.even z))) q). rewrite E3.
  apply eps_le in E1. apply Rabs_le_inv in E2. fold eta in E2. nra.
Qed.
