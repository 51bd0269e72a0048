(** C86, C87 and C03: the computed (IEEE binary64) multinomial probabilities. *)
From Coq Require Import Reals Lra Lia.
From Flocq Require Import Core.Core IEEE754.BinarySingleNaN.
From Verif Require Import Prelude Arith CoreModel SpecSampling SamplingProofs SpecIeee IeeeProofs.
Local Open Scope R_scope.

(** ** Lists of nonnegative doubles *)
Lemma fsum_mem l : forall acc x, f64_nonneg acc -> Forall f64_nonneg l -> In x l -> f64_le x (fsum acc l) = true.
Proof.
  induction l as [|y l IH]; intros acc x Ha Hl I; [destruct I|]. inversion_clear Hl as [|? ? Hy Hl']. destruct (f64_add_nonneg_le acc y Ha Hy) as [A _]. destruct I as [->|I]; [|apply IH; auto].
  cbn. apply f64_le_trans with (f64_add acc x).
  - clear - Ha Hy. destruct (f64_nonneg_cases acc Ha) as [[Fa Pa]| ->], (f64_nonneg_cases x Hy) as [[Fx Px]| ->].
    + destruct (is_finite (f64_add acc x)) eqn:FS.
      * unfold f64_le. rewrite Bleb_correct by auto. apply Rle_bool_true. unfold f64_add in *. pose proof (Bplus_correct 53 1024 _ _ mode_NE acc x Fa Fx) as C. destruct (Rlt_bool _ _) eqn:E.
        -- destruct C as (HR & _). rewrite HR. assert (Hg : generic_format radix2 (SpecFloat.fexp 53 1024) (B2R x)) by apply generic_format_B2R.
           rewrite <- (round_generic radix2 (SpecFloat.fexp 53 1024) (round_mode mode_NE) (B2R x) Hg) at 1. apply round_le; try typeclasses eauto. lra.
        -- destruct C as [C _]. exfalso. destruct (Bplus mode_NE acc x); simpl in *; discriminate.
      * destruct (f64_add_nonneg_le acc x Ha Hy) as [A _]. destruct (f64_nonneg_cases _ A) as [[Q _]|Q]; [congruence|]. rewrite Q. destruct x as [[]|[]| |[]]; try discriminate; reflexivity.
    + destruct acc as [[]|[]| |[]]; simpl in *; try discriminate; reflexivity.
    + destruct x as [[]|[]| |[]]; simpl in *; try discriminate; reflexivity.
    + reflexivity.
  - apply (fsum_le l _ A Hl').
Qed.
Lemma zero_nonneg : f64_nonneg f64_zero.
Proof. reflexivity. Qed.
Lemma not_le_zero (s : float64) : f64_nonneg s -> f64_le s f64_zero = false -> (is_finite s = true /\ 0 < real s) \/ s = B754_infinity false.
Proof.
  intros H N. destruct (f64_nonneg_cases s H) as [[F P]| ->]; auto. left. split; auto. unfold f64_le in N. rewrite Bleb_correct in N by auto. unfold real.
  destruct (Rle_bool_spec (B2R s) (B2R f64_zero)); [discriminate|exact H0].
Qed.

(** ** C86 *)

(** For utilities without NaN (and an exponential that gives no NaN and nothing negative), every computed
    probability is in [0, 1], or NaN: NaN exactly for the alternatives whose exponential overflows. *)
Theorem C86_bounds_or_nan : forall fexp flog (us : list float64) chk p ls terms,
  sane_exp fexp -> Forall (fun x => is_nan x = false) us ->
  multinomial_probabilities (B64 fexp flog) us chk = Ok (p, ls, terms) ->
  length p = length us /\
  forall i, (i < length us)%nat ->
    if is_finite (fexp (nth i us f64_zero)) then between_0_and_1 (nth i p f64_zero) else is_nan (nth i p f64_zero) = true.
Proof.
  intros fexp flog us chk p ls terms SE NN H. unfold multinomial_probabilities in H. cbn in H. set (ts := map fexp us) in *.
  assert (NT : Forall f64_nonneg ts). { apply Forall_forall. intros x I. apply in_map_iff in I. destruct I as (y & <- & I). apply SE. rewrite Forall_forall in NN. auto. }
  change (nsum (B64 fexp flog) ts) with (fsum f64_zero ts) in H.
  destruct (fsum_le ts f64_zero zero_nonneg NT) as [NS _]. set (s := fsum f64_zero ts) in *.
  assert (MEM : forall i, (i < length us)%nat -> In (fexp (nth i us f64_zero)) ts) by (intros i Hi; apply in_map, nth_In, Hi).
  assert (LE : forall i, (i < length us)%nat -> f64_le (fexp (nth i us f64_zero)) s = true) by (intros i Hi; apply fsum_mem; auto; apply zero_nonneg).
  assert (NE : forall i, (i < length us)%nat -> f64_nonneg (fexp (nth i us f64_zero))) by (intros i Hi; rewrite Forall_forall in NT; apply NT, MEM, Hi).
  destruct (f64_le s f64_zero) eqn:Z.
  - destruct chk; [discriminate|]. injection H as <- _ _. split; [unfold ts; now rewrite !map_length|]. intros i Hi. unfold ts. rewrite map_map.
    pose proof (map_nth (fun _ : float64 => f64_zero) us f64_zero i) as Q. cbn beta in Q. set (g := fun _ : float64 => f64_zero) in Q.
    change (if is_finite (fexp (nth i us f64_zero)) then between_0_and_1 (nth i (map g us) f64_zero) else is_nan (nth i (map g us) f64_zero) = true). rewrite Q. clear Q.
    assert (F : is_finite (fexp (nth i us f64_zero)) = true). { apply (le_finite _ f64_zero (NE i Hi)); [eapply f64_le_trans; [apply LE, Hi|exact Z]|reflexivity]. }
    rewrite F. split; [reflexivity|]. unfold real. simpl. lra.
  - injection H as <- _ _. split; [unfold ts; now rewrite !map_length|]. intros i Hi. unfold ts. rewrite map_map. set (g := fun x => f64_div (fexp x) s).
    assert (Q : nth i (map g us) f64_zero = f64_div (fexp (nth i us f64_zero)) s). { rewrite (nth_indep _ f64_zero (g f64_zero)) by (now rewrite map_length). now rewrite map_nth. }
    change (if is_finite (fexp (nth i us f64_zero)) then between_0_and_1 (nth i (map g us) f64_zero) else is_nan (nth i (map g us) f64_zero) = true). rewrite Q.
    specialize (LE i Hi). specialize (NE i Hi). set (e := fexp (nth i us f64_zero)) in *. destruct (not_le_zero s NS Z) as [[FS PS]|IS].
    + destruct (le_finite e s NE LE FS) as [Fe _]. rewrite Fe. apply div_between; auto.
    + rewrite IS in *. destruct (f64_nonneg_cases e NE) as [[Fe Pe]| ->]; [|reflexivity]. rewrite Fe. unfold between_0_and_1, real.
      destruct e as [[]|[]| |[]]; try discriminate; simpl; split; auto; lra.
Qed.
Print Assumptions C86_bounds_or_nan.

(** ** C87 *)

Lemma div_sum (s : float64) l : Forall f64_nonneg l -> (forall x, In x l -> f64_le x s = true) -> is_finite s = true -> 0 < real s ->
  real_sum l / real s * (1 - u) - INR (length l) * eta <= real_sum (map (fun e => f64_div e s) l) <= real_sum l / real s * (1 + u) + INR (length l) * eta /\
  Forall f64_nonneg (map (fun e => f64_div e s) l).
Proof.
  intros NN LE F P. induction l as [|x l IH]; [unfold real_sum; cbn; split; [lra|constructor]|]. inversion_clear NN as [|? ? Hx Hl]. destruct (IH Hl (fun y I => LE y (or_intror I))) as [B N].
  destruct (div_between x s Hx (LE x (or_introl eq_refl)) F P) as [[Fd Bd] D]. cbn [map length]. rewrite S_INR. change (real_sum (x :: l)) with (real x + real_sum l).
  change (real_sum (f64_div x s :: map (fun e => f64_div e s) l)) with (real (f64_div x s) + real_sum (map (fun e => f64_div e s) l)).
  split; [|constructor; auto]. { unfold Rdiv in *. lra. }
  unfold f64_nonneg, f64_le. rewrite Bleb_correct by auto. apply Rle_bool_true. exact (proj1 Bd).
Qed.
Lemma eta_tiny : eta <= / 1024 * u.
Proof.
  unfold eta, ulp_half. replace (/ 1024) with (bpow radix2 (-10)) by (simpl; lra). replace (/ 2) with (bpow radix2 (-1)) by (simpl; lra). rewrite <- !bpow_plus. apply bpow_le. lia.
Qed.
(** sums of n nonnegative doubles, and the quotients by that sum *)
Lemma probabilities_sum x l : let ws := x :: l in let n := INR (length ws) in
  Forall f64_nonneg ws -> is_finite (fsum f64_zero ws) = true -> 0 < real (fsum f64_zero ws) ->
  let p := map (fun e => f64_div e (fsum f64_zero ws)) ws in
  Forall f64_nonneg p /\ 0 < real_sum ws /\ 1 - n * u - n * eta <= real_sum p /\ (n * u <= / 4 -> real_sum p <= 1 + 2 * n * u) /\ 0 <= real_sum p.
Proof.
  intros ws n NN F P p. destruct (total_error x l NN F) as [[B1 B2] FL]. fold ws in B1, B2, FL. set (s := fsum f64_zero ws) in *. set (T := real_sum ws) in *. set (k := length l) in *.
  assert (NK : n = INR k + 1) by (unfold n, ws, k; cbn [length]; now rewrite S_INR). pose proof (pos_INR k) as K0.
  pose proof u_pos as U0. pose proof u_small as U1. pose proof (pow_ge_0 k) as Q0. pose proof (pow_ge_1 k) as Q1. pose proof eta_pos as E0. pose proof eta_tiny as E1.
  assert (T0 : 0 < T) by nra.
  destruct (div_sum s ws NN) as [[D1 D2] NP]; auto. { intros y I. apply fsum_mem; auto. apply zero_nonneg. }
  fold p in D1, D2, NP. fold T in D1, D2. change (INR (length ws)) with n in D1, D2.
  assert (IS : 0 < / real s) by now apply Rinv_0_lt_compat.
  assert (LB : (1 - u) ^ k <= T / real s).
  { apply Rmult_le_reg_r with (real s); auto. unfold Rdiv. rewrite Rmult_assoc, Rinv_l, Rmult_1_r by lra.
    apply Rle_trans with ((1 - u) ^ k * (T * (1 + u) ^ k)); [apply Rmult_le_compat_l; auto|]. pose proof (pow_inverse k). nra. }
  split; auto. split; auto. split; [|split].
  - pose proof (pow_lower (S k)) as PL. rewrite S_INR in PL. cbn [pow] in PL. rewrite <- NK in PL. assert (T / real s * (1 - u) >= (1 - u) * (1 - u) ^ k) by nra. lra.
  - intros NU. assert (PL := pow_lower k). assert (KU : INR k * u <= / 4) by nra.
    assert (UB : T / real s <= / (1 - INR k * u)).
    { apply Rmult_le_reg_r with (real s); auto. unfold Rdiv. rewrite Rmult_assoc, Rinv_l, Rmult_1_r by lra. apply Rmult_le_reg_l with (1 - INR k * u); [lra|]. rewrite <- Rmult_assoc, Rinv_r by lra. nra. }
    assert (UB2 : / (1 - INR k * u) <= 1 + INR k * u * (4 / 3)).
    { apply Rmult_le_reg_r with (1 - INR k * u); [lra|]. rewrite Rinv_l by lra. assert (0 <= INR k * u) by nra. nra. }
    assert (n * eta <= n * (/ 1024 * u)) by (apply Rmult_le_compat_l; [lra|exact E1]). set (a := INR k * u) in *. assert (A0 : 0 <= a) by (unfold a; nra).
    assert (T / real s * (1 + u) <= (1 + a * (4 / 3)) * (1 + u)) by (apply Rmult_le_compat_r; lra). assert (n * u = a + u) by (rewrite NK; unfold a; ring). nra.
  - clear - NP D1. assert (forall q, Forall f64_nonneg q -> 0 <= real_sum q); [|auto]. induction q as [|y q IH]; intros H; unfold real_sum; cbn; [lra|]. inversion_clear H. specialize (IH H1).
    destruct (f64_nonneg_cases y H0) as [[_ G]| ->]; unfold real_sum, real in *; [|simpl]; lra.
Qed.

(** the sum of the computed probabilities of n alternatives differs from 1 by at most 2n half-units *)
Theorem C87_sum_close_to_one : forall fexp flog (us : list float64) p ls terms,
  sane_exp fexp -> Forall (fun x => is_nan x = false) us -> INR (length us) * ulp_half <= / 4 ->
  multinomial_probabilities (B64 fexp flog) us true = Ok (p, ls, terms) -> is_finite ls = true ->
  Rabs (real_sum p - 1) <= 2 * INR (length us) * ulp_half.
Proof.
  intros fexp flog us p ls terms SE NN NU H F. unfold multinomial_probabilities in H. cbn in H. change (nsum (B64 fexp flog) (map fexp us)) with (fsum f64_zero (map fexp us)) in H.
  destruct (f64_le (fsum f64_zero (map fexp us)) f64_zero) eqn:Z; [discriminate|]. injection H as H1 H2 _. rewrite H2 in H1, Z.
  assert (NT : Forall f64_nonneg (map fexp us)). { apply Forall_forall. intros x I. apply in_map_iff in I. destruct I as (y & <- & I). apply SE. rewrite Forall_forall in NN. auto. }
  destruct us as [|w us]; [cbn in H2; subst ls; discriminate|]. cbn [map] in *. rewrite <- H2 in *.
  destruct (not_le_zero _ (proj1 (fsum_le _ _ zero_nonneg NT)) Z) as [[_ P]|I]; [|rewrite I in F; discriminate].
  destruct (probabilities_sum _ _ NT F P) as (_ & _ & A & B & _).
  assert (HP : map (fun e => f64_div e (fsum f64_zero (fexp w :: map fexp us))) (fexp w :: map fexp us) = p) by exact H1. rewrite HP in A, B. cbn [length] in A, B, NU |- *. rewrite map_length in A, B. specialize (B NU).
  pose proof eta_tiny. pose proof u_pos. pose proof (pos_INR (S (length us))). apply Rabs_le. split; [|lra]. assert (INR (S (length us)) * eta <= INR (S (length us)) * u) by (apply Rmult_le_compat_l; lra). lra.
Qed.
Print Assumptions C87_sum_close_to_one.

(** ** C03: random numbers not extremely close to 1 *)

Lemma running_total (fexp flog : float64 -> float64) (p : list float64) : forall acc : float64, p <> [] -> nth (length p - 1) (cumsum_from (B64 fexp flog) acc p) f64_zero = fsum acc p.
Proof.
  induction p as [|x p IH]; intros acc H; [congruence|]. destruct p as [|y p]; [reflexivity|].
  assert (NP : y :: p <> []) by discriminate. specialize (IH (f64_add acc x) NP). replace (length (x :: y :: p) - 1)%nat with (S (length (y :: p) - 1)) by (cbn [length]; lia).
  exact IH.
Qed.

(** the number selects a position of positive weight, when the probabilities are nonnegative weights divided by their sum *)
Lemma weights_selected (fexp flog : float64 -> float64) (ws : list float64) (ls r : float64) :
  Forall f64_nonneg ws -> fsum f64_zero ws = ls -> is_finite ls = true -> 0 < real ls ->
  f64_le f64_tiny r = true -> is_finite r = true -> real r <= 1 - 2 * INR (length ws) * ulp_half ->
  let p := map (fun e => f64_div e ls) ws in
  exists i, sample_once (B64 fexp flog) p r = Z.of_nat i /\ (i < length ws)%nat /\ f64_eq (nth i p f64_zero) f64_zero = false /\ f64_eq (nth i ws f64_zero) f64_zero = false.
Proof.
  intros NT H2 F P HR FR BR p. destruct ws as [|w us]; [cbn in H2; subst ls; unfold real in P; simpl in P; lra|]. set (ws := w :: us) in *.
  pose proof (probabilities_sum _ _ NT) as PS. cbn zeta in PS. fold ws in PS. rewrite H2 in PS. destruct (PS F P) as (NP & _ & A & _ & _). clear PS.
  fold p in NP, A. change (length ws) with (S (length us)) in A.
  assert (NJ0 : forall j, (j < length ws)%nat -> nth j p f64_zero = f64_div (nth j ws f64_zero) ls).
  { intros j Hj. unfold p. rewrite (nth_indep _ f64_zero (f64_div f64_zero ls)) by (rewrite map_length; auto). now rewrite (map_nth (fun x => f64_div x ls)). }
  assert (LP : length p = length ws) by (unfold p; now rewrite map_length). clearbody p.
  assert (NE : p <> []) by (intros Q; rewrite Q in LP; discriminate).
  destruct (f64_sampled_nonzero_or_last fexp flog p r NE NP HR) as (i & Hi & HL & HZ).
  assert (PZ : forall j, (j < length ws)%nat -> f64_eq (nth j p f64_zero) f64_zero = false -> f64_eq (nth j ws f64_zero) f64_zero = false).
  { intros j Hj Q. destruct (f64_eq (nth j ws f64_zero) f64_zero) eqn:QZ; auto. exfalso.
    assert (NJ : nth j p f64_zero = f64_div (nth j ws f64_zero) ls).
    { now apply NJ0. }
    rewrite NJ in Q. clear - Q QZ P F. destruct (nth j ws f64_zero) as [s|s| |s m e Hb]; unfold f64_eq, Beqb in QZ; simpl in QZ; try discriminate; try (destruct s; discriminate).
    destruct ls as [s'|s'| |s' m e Hb]; try discriminate F; [unfold real in P; simpl in P; lra|]. discriminate Q. }
  assert (HL' : (i < length ws)%nat) by (rewrite <- LP; exact HL).
  destruct HZ as [HZ|HZ]; [exists i; exact (conj Hi (conj HL' (conj HZ (PZ i HL' HZ))))|].
  (* the last one: its running sum is reached *)
  exists i. split; [exact Hi|]. split; [exact HL'|]. assert (GOAL : f64_eq (nth i p f64_zero) f64_zero = false); [|exact (conj GOAL (PZ i HL' GOAL))].
  destruct (f64_eq (nth i p f64_zero) f64_zero) eqn:EZ; auto. exfalso.
  destruct (sample_once_first (B64 fexp flog) p r NE) as (i' & Hi' & _ & FRi). assert (i' = i) by (rewrite Hi in Hi'; lia). subst i'.
  assert (Hmax : pymax (B64 fexp flog) r f64_tiny = r).
  { unfold pymax. simpl. unfold f64_lt, Bltb, SpecFloat.SFltb.
    pose proof (Bcompare_swap 53 1024 f64_tiny r) as Hs. unfold Bcompare in Hs. rewrite Hs.
    unfold f64_le, Bleb, SpecFloat.SFleb in HR. destruct (SpecFloat.SFcompare (B2SF f64_tiny) (B2SF r)) as [[]|]; simpl; auto; discriminate. }
  (* running sums *)
  assert (RT := running_total fexp flog p f64_zero NE). assert (IL : (length p - 1)%nat = i) by (clear - HZ; lia). rewrite IL in RT.
  assert (REACH : f64_le r (fsum f64_zero p) = true).
  { destruct (fsum_le p f64_zero zero_nonneg NP) as [NF _]. destruct (f64_nonneg_cases _ NF) as [[FF _]|IF].
    - unfold f64_le. rewrite Bleb_correct by auto. apply Rle_bool_true. destruct p as [|x q]; [congruence|]. destruct (total_error x q NP FF) as [[B1 _] _]. cbn [length] in LP. 
      assert (LQ : length q = length us) by (unfold ws in LP; cbn in LP; lia). rewrite LQ in B1. apply Rle_trans with (1 - 2 * INR (length ws) * u); [exact BR|]. eapply Rle_trans; [|exact B1].
      assert (PL := pow_lower (length us)). set (k := length us) in *. unfold ws. cbn [length]. fold k. rewrite S_INR in *. pose proof (pos_INR k) as K0. pose proof u_pos as U0. pose proof u_small as U1. pose proof eta_pos as E0. pose proof eta_tiny as E1.
      pose proof (pow_ge_0 k) as Q0. set (X := (1 - u) ^ k) in *. set (K := INR k) in *. set (Sp := real_sum (x :: q)) in *.
      assert (Sp0 : 0 <= Sp). { unfold Sp. clear - NP. revert NP. generalize (x :: q). induction l as [|y l IH]; intros H; unfold real_sum; cbn; [lra|]. inversion_clear H. specialize (IH H1). destruct (f64_nonneg_cases y H0) as [[_ G]| ->]; unfold real_sum, real in *; [|simpl]; lra. }
      destruct (Rle_dec 0 (1 - K * u)) as [KU|KU].
      + apply Rle_trans with (Sp * (1 - K * u)); [|apply Rmult_le_compat_l; auto].
        assert (ET : (K + 1) * eta <= (K + 1) * (/ 1024 * u)) by (apply Rmult_le_compat_l; lra).
        apply Rle_trans with ((1 - (K + 1) * u - (K + 1) * eta) * (1 - K * u)); [|apply Rmult_le_compat_r; auto].
        assert (KU1 : K * u <= 1) by lra. assert (Ke : (K + 1) * eta * (1 - K * u) <= (K + 1) * eta). { assert (Z1 : 0 <= (K + 1) * eta) by (apply Rmult_le_pos; lra). assert (Z2 : 0 <= K * u) by (apply Rmult_le_pos; lra). pose proof (Rmult_le_pos _ _ Z1 Z2). lra. }
        replace ((1 - (K + 1) * u - (K + 1) * eta) * (1 - K * u)) with (1 - (K + 1) * u - K * u + (K + 1) * u * (K * u) - (K + 1) * eta * (1 - K * u)) by ring.
        assert (0 <= (K + 1) * u * (K * u)). { assert (Z1 : 0 <= (K + 1) * u) by (apply Rmult_le_pos; lra). assert (Z2 : 0 <= K * u) by (apply Rmult_le_pos; lra). exact (Rmult_le_pos _ _ Z1 Z2). }
        assert ((K + 1) * eta <= u); [|lra]. assert ((K + 1) * u <= 2) by lra. apply Rle_trans with ((K + 1) * (/ 1024 * (u * u))).
        * apply Rmult_le_compat_l; [lra|]. unfold eta, ulp_half. replace (/ 2) with (bpow radix2 (-1)) by (simpl; lra). replace (/ 1024) with (bpow radix2 (-10)) by (simpl; lra). rewrite <- !bpow_plus. apply bpow_le. lia.
        * replace ((K + 1) * (/ 1024 * (u * u))) with (/ 1024 * ((K + 1) * u) * u) by ring. assert (/ 1024 * ((K + 1) * u) <= 1) by lra. nra.
      + assert (0 <= Sp * X) by (apply Rmult_le_pos; auto). lra.
    - rewrite IF. destruct r as [[]|[]| |[]]; try discriminate; reflexivity. }
  destruct FRi as [[R1 N1]|[_ N]].
  - (* selected because reached, though its probability is zero: the one before was reached *)
    simpl in R1, N1. rewrite Hmax in R1, N1. destruct i as [|i].
    + destruct p as [|y q]; [congruence|]. unfold rd in R1. simpl in R1, EZ. rewrite (f64_draw_not_le_zero r) in R1; auto; [discriminate|]. now apply f64_add_zero_zero.
    + specialize (N1 i ltac:(lia)). unfold nbf_cumsum in *. rewrite (cumsum_S (B64 fexp flog) _ p i f64_zero HL) in R1. simpl in R1.
      rewrite f64_le_add_zero in R1; auto; [exact (eq_true_false_abs _ R1 N1)|].
      apply (cumsum_mono (B64 fexp flog) p f64_nonneg f64_zero); auto; try exact (Nat.lt_succ_l _ _ HL).
      * exact f64_le_trans.
      * intros a Ha. apply f64_le_refl. now apply f64_nonneg_not_nan.
      * exact f64_add_nonneg_le.
      * reflexivity.
  - specialize (N i HL). simpl in N. rewrite Hmax in N. change (f64_le r (nth i (cumsum_from (B64 fexp flog) f64_zero p) f64_zero) = false) in N. rewrite RT in N. exact (eq_true_false_abs _ REACH N).
Qed.
(** A number up to 1 - 2n half-units selects an alternative of positive probability: an alternative of
    utility -inf is then never chosen, the last one included. *)
Theorem C03_below_the_rounding_error_partial : forall fexp flog (us p : list float64) (ls : float64) terms (r : float64),
  sane_exp fexp -> Forall (fun x => is_nan x = false) us ->
  multinomial_probabilities (B64 fexp flog) us true = Ok (p, ls, terms) -> is_finite ls = true ->
  f64_le f64_tiny r = true -> is_finite r = true -> real r <= 1 - 2 * INR (length us) * ulp_half ->
  exists i, sample_once (B64 fexp flog) p r = Z.of_nat i /\ (i < length us)%nat /\
    f64_eq (nth i p f64_zero) f64_zero = false /\ f64_eq (fexp (nth i us f64_zero)) f64_zero = false.
Proof.
  intros fexp flog us p ls terms r SE NN H F HR FR BR. unfold multinomial_probabilities in H. cbn in H. change (nsum (B64 fexp flog) (map fexp us)) with (fsum f64_zero (map fexp us)) in H.
  destruct (f64_le (fsum f64_zero (map fexp us)) f64_zero) eqn:Z; [discriminate|]. injection H as H1 H2 _. rewrite H2 in H1, Z.
  assert (NT : Forall f64_nonneg (map fexp us)). { apply Forall_forall. intros x I. apply in_map_iff in I. destruct I as (y & <- & I). apply SE. rewrite Forall_forall in NN. auto. }
  assert (P : 0 < real ls). { rewrite <- H2 in Z, F. destruct (not_le_zero _ (proj1 (fsum_le _ _ zero_nonneg NT)) Z) as [[A B]|I]; [rewrite H2 in B; auto|rewrite I in F; discriminate]. }
  destruct (weights_selected fexp flog (map fexp us) ls r NT H2 F P HR FR) as (i & A & B & C & D); [now rewrite map_length|].
  assert (HP : map (fun e => f64_div e ls) (map fexp us) = p) by exact H1. rewrite HP in A, C. rewrite map_length in B. exists i. split; [exact A|]. split; [exact B|]. split; [exact C|].
  rewrite (nth_indep _ f64_zero (fexp f64_zero)) in D by (now rewrite map_length). now rewrite map_nth in D.
Qed.
Print Assumptions C03_below_the_rounding_error_partial.


(** *** The hypotheses are met: three alternatives of utilities 0, -inf and 0, with an exponential taking
    0 to 1, -inf to 0 and anything else to 2; and two whose exponential overflows *)
Definition step_exp (x : float64) : float64 :=
  match x with
  | B754_zero _ => f64_one
  | B754_infinity true => f64_zero
  | B754_infinity false => B754_infinity false
  | _ => f64_add f64_one f64_one
  end.
Definition three_utilities : list float64 := [f64_zero; B754_infinity true; f64_zero].
Definition half : float64 := f64_div f64_one (f64_add f64_one f64_one).
Lemma step_exp_sane : sane_exp step_exp.
Proof. intros x H. destruct x as [s|[|]| |s m e b]; try discriminate; reflexivity. Qed.
Example three_probabilities :
  match multinomial_probabilities (B64 step_exp (fun x => x)) three_utilities true with
  | Ok (p, ls, _) => map B2SF p = map B2SF [half; f64_zero; half] /\ is_finite ls = true
  | Err _ => False
  end.
Proof. vm_compute. auto. Qed.
Example three_hypotheses :
  Forall (fun x => is_nan x = false) three_utilities /\ INR (length three_utilities) * ulp_half <= / 4 /\ is_finite (f64_add f64_one f64_one) = true /\
  f64_le f64_tiny half = true /\ is_finite half = true /\ real half <= 1 - 2 * INR (length three_utilities) * ulp_half.
Proof.
  split; [repeat constructor|]. assert (B : ulp_half <= / 1024) by exact u_small. assert (L : INR (length three_utilities) = 3) by (simpl; lra). rewrite L.
  split; [lra|]. split; [vm_compute; reflexivity|]. split; [vm_compute; reflexivity|]. split; [vm_compute; reflexivity|].
  assert (H : real half = / 2). { unfold real. rewrite <- (SF2R_B2SF 53 1024 half). assert (Q : B2SF half = SpecFloat.S754_finite false 4503599627370496 (-53)) by (vm_compute; reflexivity). rewrite Q. unfold SF2R, F2R. simpl. lra. } rewrite H. lra.
Qed.
(** an overflowing exponential: its probability is NaN, the others are 0 *)
Example overflow_probabilities :
  match multinomial_probabilities (B64 step_exp (fun x => x)) [f64_zero; B754_infinity false] true with
  | Ok ([a; b], _, _) => f64_eq a f64_zero = true /\ is_nan b = true
  | _ => False
  end.
Proof. vm_compute. auto. Qed.
