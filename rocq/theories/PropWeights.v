(** C93, C94: sampling from weights (the functions [simple_sample], [simple_multisample] and the worker on top of them). *)
From Coq Require Import Reals Lra Lia.
From Flocq Require Import Core.Core IEEE754.BinarySingleNaN.
From Verif Require Import Prelude Arith CoreModel ParModel ParProofs SpecSampling SamplingProofs MnlProofs PropSampling SpecIeee IeeeProofs PropIeee.
Local Open Scope R_scope.
Local Open Scope list_scope.

(** ** C93, real arithmetic *)

(** the probability of an alternative is its share of the total weight *)
Theorem C93_proportional : forall ws : list R, nonneg ws -> 0 < Rsum ws ->
  simple_probabilities XR (map Fin ws) = map (fun w => Fin (w / Rsum ws)) ws /\
  Rsum (map (fun w => w / Rsum ws) ws) = 1 /\ Forall (fun w => 0 <= w / Rsum ws <= 1) ws.
Proof.
  intros ws N P. split; [|split].
  - unfold simple_probabilities. rewrite nsum_XR, map_map. apply map_ext. intros w. now apply xdiv_pos.
  - rewrite Rsum_map_div. field. lra.
  - apply Forall_forall. intros w I. pose proof (Rsum_ge_elem _ _ N I). unfold nonneg in N. rewrite Forall_forall in N. specialize (N w I). split.
    + apply Rmult_le_pos; auto. left. now apply Rinv_0_lt_compat.
    + apply Rmult_le_reg_r with (Rsum ws); auto. unfold Rdiv. rewrite Rmult_assoc, Rinv_l, Rmult_1_r by lra. lra.
Qed.
Print Assumptions C93_proportional.

Lemma nonneg_div ws c : nonneg ws -> 0 < c -> nonneg (map (fun w => w / c) ws).
Proof.
  intros N P. unfold nonneg in *. rewrite Forall_forall in *. intros x I. apply in_map_iff in I. destruct I as (w & <- & I).
  apply Rmult_le_pos; auto. left. now apply Rinv_0_lt_compat.
Qed.
Lemma partial_div ws c i : partial_sum (map (fun w => w / c) ws) i = partial_sum ws i / c.
Proof. unfold partial_sum. rewrite firstn_map. apply Rsum_map_div. Qed.

(** the random numbers selecting an alternative form an interval whose length is its share *)
Theorem C93_selects_in_proportion : forall (ws : list R) (r : R) (i : nat),
  nonneg ws -> 0 < Rsum ws -> (i < length ws)%nat -> tinyR <= r <= 1 ->
  (simple_sample XR (map Fin ws) (Fin r) = Z.of_nat i <-> partial_sum ws i < r * Rsum ws <= partial_sum ws (S i)).
Proof.
  intros ws r i N P Hi [R1 R2]. destruct (C93_proportional ws N P) as (E & S1 & _). unfold simple_sample. rewrite E.
  rewrite <- (map_map (fun w => w / Rsum ws) Fin). assert (M : Rmax r tinyR = r) by (apply Rmax_left; lra).
  rewrite (C01_cell (map (fun w => w / Rsum ws) ws) r i); [|now apply nonneg_div|now rewrite map_length|rewrite M, S1; lra].
  rewrite M. unfold in_cell. rewrite !partial_div. assert (I0 : 0 < / Rsum ws) by now apply Rinv_0_lt_compat.
  split; intros [A B].
  - apply (Rmult_lt_compat_r (Rsum ws)) in A; auto. apply (Rmult_le_compat_r (Rsum ws)) in B; [|lra].
    unfold Rdiv in A, B. rewrite Rmult_assoc, Rinv_l, Rmult_1_r in A, B by lra. split; lra.
  - split; (apply Rmult_lt_reg_r with (Rsum ws) || apply Rmult_le_reg_r with (Rsum ws)); auto; unfold Rdiv; rewrite Rmult_assoc, Rinv_l, Rmult_1_r by lra; lra.
Qed.
Print Assumptions C93_selects_in_proportion.

(** only the proportions of the weights matter *)
Theorem C93_scale : forall (ws : list R) (c r : R), nonneg ws -> 0 < Rsum ws -> 0 < c ->
  simple_sample XR (map Fin (map (fun w => c * w) ws)) (Fin r) = simple_sample XR (map Fin ws) (Fin r).
Proof.
  intros ws c r N P C. unfold simple_sample. f_equal.
  assert (NC : nonneg (map (fun w => c * w) ws)).
  { unfold nonneg in *. rewrite Forall_forall in *. intros x I. apply in_map_iff in I. destruct I as (w & <- & I). specialize (N w I). nra. }
  assert (PC : 0 < Rsum (map (fun w => c * w) ws)) by (rewrite Rsum_map_mult; nra).
  rewrite (proj1 (C93_proportional _ NC PC)), (proj1 (C93_proportional _ N P)), Rsum_map_mult, map_map. apply map_ext. intros w. f_equal. field. lra.
Qed.
Print Assumptions C93_scale.

Example C93_example : simple_sample XR (map Fin [3; 0; 1]) (Fin (4/5)) = 2%Z.
Proof.
  assert (tinyR < 1/2). { unfold tinyR. replace (1/2) with (bpow radix2 (-1)) by (simpl; lra). apply bpow_lt. lia. }
  apply (C93_selects_in_proportion [3; 0; 1] (4/5) 2); unfold partial_sum; simpl; try lra; try lia. repeat constructor; lra.
Qed.

(** ** C93, computed *)

(** Nonnegative weights with a finite, positive computed total: each computed probability is in [0, 1], their sum is
    close to 1, and a number at some distance from 1 selects an alternative whose weight is not 0. *)
Theorem C93_computed : forall fexp flog (ws : list float64) (r : float64),
  let F := B64 fexp flog in let p := simple_probabilities F ws in
  Forall (fun w => f64_le f64_zero w = true) ws -> is_finite (nsum F ws) = true -> 0 < real (nsum F ws) ->
  Forall between_0_and_1 p /\
  (INR (length ws) * ulp_half <= / 4 -> Rabs (real_sum p - 1) <= 2 * INR (length ws) * ulp_half) /\
  (f64_le f64_tiny r = true -> is_finite r = true -> real r <= 1 - 2 * INR (length ws) * ulp_half ->
    exists i, simple_sample F ws r = Z.of_nat i /\ (i < length ws)%nat /\ f64_eq (nth i ws f64_zero) f64_zero = false).
Proof.
  intros fexp flog ws r F p NN FS PS. change (nsum F ws) with (fsum f64_zero ws) in FS, PS.
  assert (HP : p = map (fun e => f64_div e (fsum f64_zero ws)) ws) by reflexivity.
  split; [|split].
  - rewrite HP. apply Forall_forall. intros x I. apply in_map_iff in I. destruct I as (w & <- & I).
    apply div_between; auto; [rewrite Forall_forall in NN; apply NN, I|]. apply fsum_mem; auto. apply zero_nonneg.
  - intros NU. rewrite HP. destruct ws as [|w ws]; [unfold real in PS; simpl in PS; lra|].
    destruct (probabilities_sum w ws NN FS PS) as (_ & _ & A & B & _). specialize (B NU).
    pose proof eta_tiny. pose proof u_pos. pose proof (pos_INR (length (w :: ws))). apply Rabs_le. split; [|lra].
    assert (INR (length (w :: ws)) * eta <= INR (length (w :: ws)) * u) by (apply Rmult_le_compat_l; lra). lra.
  - intros T FR BR. destruct (weights_selected fexp flog ws _ r NN eq_refl FS PS T FR BR) as (i & A & B & _ & D). exists i. split; [exact A|]. split; auto.
Qed.
Print Assumptions C93_computed.

Definition c93_weights : list float64 := [f64_one; f64_zero; f64_add f64_one f64_one].
Example C93_hypotheses_met : Forall (fun w => f64_le f64_zero w = true) c93_weights /\
  is_finite (nsum (B64 (fun x => x) (fun x => x)) c93_weights) = true /\
  f64_lt f64_zero (nsum (B64 (fun x => x) (fun x => x)) c93_weights) = true /\
  simple_sample (B64 (fun x => x) (fun x => x)) c93_weights half = 2%Z.
Proof. split; [repeat constructor|]. split; [|split]; vm_compute; reflexivity. Qed.
Example C93_real_hypotheses_met : 0 < real (nsum (B64 (fun x => x) (fun x => x)) c93_weights) /\ f64_le f64_tiny half = true /\ is_finite half = true /\
  real half <= 1 - 2 * INR (length c93_weights) * ulp_half.
Proof.
  assert (L : forall x y : float64, is_finite x = true -> is_finite y = true -> f64_lt x y = true -> real x < real y).
  { intros x y FX FY H. unfold f64_lt in H. rewrite Bltb_correct in H by auto. unfold real. destruct (Rlt_bool_spec (B2R x) (B2R y)); [auto|discriminate]. }
  split; [|split; [vm_compute; reflexivity|split; [vm_compute; reflexivity|]]].
  - change 0 with (real f64_zero). apply L; vm_compute; reflexivity.
  - assert (E : B2SF half = SpecFloat.S754_finite false 4503599627370496 (-53)) by (vm_compute; reflexivity).
    unfold real. rewrite <- SF2R_B2SF, E. cbn [SF2R cond_Zopp]. unfold F2R, ulp_half. cbn [Fnum Fexp]. simpl length. pose proof u_small. unfold ulp_half in H. pose proof u_pos as U. unfold ulp_half in U.
    set (b := bpow radix2 (-53)) in *.
    assert (EB : IZR 4503599627370496 * b = / 2). { change 4503599627370496%Z with (Zpower radix2 52). rewrite IZR_Zpower by lia. unfold b. rewrite <- bpow_plus. simpl. lra. }
    change (Z.pos 4503599627370496) with 4503599627370496%Z; rewrite EB. simpl INR. lra.
Qed.

(** ** C94: weights that are all zero *)

Lemma zeros_nan (fexp flog : float64 -> float64) n : simple_probabilities (B64 fexp flog) (repeat f64_zero (S n)) = repeat B754_nan (S n).
Proof.
  unfold simple_probabilities. assert (Z : forall k, fsum f64_zero (repeat f64_zero k) = f64_zero).
  { induction k as [|k IH]; [reflexivity|]. exact IH. }
  change (nsum (B64 fexp flog)) with (fsum f64_zero). rewrite Z. generalize (S n) as k. induction k as [|k IH]; [reflexivity|]. cbn [repeat map]. rewrite IH. reflexivity.
Qed.
(** A row of weights that are all zero gives the last alternative, whatever the random number: no error. *)
Theorem C94_no_weight_at_all_refuted : forall fexp flog n (r : float64),
  simple_sample (B64 fexp flog) (repeat f64_zero (S n)) r = Z.of_nat n.
Proof.
  intros fexp flog n r. unfold simple_sample. rewrite zeros_nan.
  destruct (sample_once_first (B64 fexp flog) (repeat B754_nan (S n)) r) as (i & E & Hi & F); [discriminate|].
  rewrite repeat_length in *. destruct F as [[A _]|[A _]].
  - exfalso. assert (NR : forall k (acc : float64) j, (j < k)%nat -> nth j (cumsum_from (B64 fexp flog) acc (repeat (B754_nan : float64) k)) f64_zero = (B754_nan : float64)).
    { assert (AN : forall acc : float64, f64_add acc B754_nan = B754_nan) by (intros [[]|[]| |[]]; reflexivity).
      induction k as [|k IH]; intros acc j Hj; [lia|]. cbn [repeat cumsum_from]. cbn [nadd B64]. rewrite (AN acc). destruct j as [|j]; [reflexivity|]. cbn [nth]. apply IH. lia. }
    assert (Q : rd (F := B64 fexp flog) (nbf_cumsum (B64 fexp flog) (repeat (B754_nan : float64) (S n))) i = (B754_nan : float64)) by (apply (NR (S n) f64_zero i Hi)).
    assert (LN : forall x y : float64, f64_le x y = true -> y = B754_nan -> False) by (intros x y H ->; destruct x as [[]|[]| |[]]; discriminate H).
    exact (LN _ _ A Q).
  - rewrite E. f_equal. lia.
Qed.
Print Assumptions C94_no_weight_at_all_refuted.

(** ** The worker: every schedule *)

(** Each row gets the alternative selected by its weights and a number that was drawn. *)
Theorem C93_worker_rows : forall F (G : generator F) weights seed r0 m0 m e,
  weighted_sample_once F G weights seed r0 m0 m e ->
  e = false /\
  forall i w, nth_error weights i = Some w -> exists g, m (CRes i 0) = VI (simple_sample F w (fst (guniform G g))).
Proof.
  intros F G weights seed r0 m0 m e (m1 & e1 & r1 & s1 & r2 & s2 & A & B & C & D).
  pose (S1 := fun i a => a = CRand i).
  edestruct (machine_result_gen F G (length weights) (fill_task F) S1 m0) as (gs & X & _ & Y);
    [| |exists r1, s1; split; [exact A|exact B]|].
  - intros i _. unfold fill_task, S1. cbn [owns]. auto.
  - unfold S1. intros i j a _ _ -> E. congruence.
  - assert (Hr : forall i, (i < length weights)%nat -> m1 (CRand i) = VN (fst (guniform G (gs i)))).
    { intros i Hi. rewrite (X i (CRand i) Hi eq_refl). unfold expected, fill_task. cbn [exec fst].
      rewrite wr_eq. reflexivity. }
    assert (e1 = false) as ->.
    { destruct e1; auto. destruct (proj1 Y eq_refl) as (i & _ & Z). discriminate. }
    pose (S2 := fun i a => a = CRand i \/ a = CRes i 0).
    edestruct (machine_result_gen F G (length weights) (weighted_task F weights) S2 m1) as (gs2 & X2 & _ & Y2);
      [| |exists r2, s2; split; [exact C|exact D]|].
    + intros i _. unfold weighted_task, S2. cbn [owns]. split; auto. intros [z|x]; cbn [owns]; auto.
    + unfold S2. intros i j a _ _ [->| ->] [E|E]; congruence.
    + split.
      * destruct e; auto. destruct (proj1 Y2 eq_refl) as (i & Hi & Z). pose proof (Hr i Hi) as Hx.
        unfold raises, weighted_task in Z. cbn [exec] in Z. rewrite Hx in Z. discriminate.
      * intros i w Hw. assert (Hi : (i < length weights)%nat) by (apply nth_error_Some; congruence).
        exists (gs i). rewrite (X2 i (CRes i 0) Hi) by (unfold S2; auto). unfold expected, weighted_task. cbn [exec].
        rewrite (Hr i Hi). cbn [exec fst]. rewrite wr_eq.
        rewrite (nth_error_nth _ _ _ Hw). reflexivity.
Qed.
Print Assumptions C93_worker_rows.

(** So a row without any weight is given its last alternative, under every schedule and generator. *)
Theorem C94_worker_refuted : forall fexp flog (G : generator (B64 fexp flog)) weights seed r0 m0 m e i n,
  weighted_sample_once (B64 fexp flog) G weights seed r0 m0 m e -> nth_error weights i = Some (repeat f64_zero (S n)) ->
  e = false /\ m (CRes i 0) = VI (Z.of_nat n).
Proof.
  intros fexp flog G weights seed r0 m0 m e i n H Hi. destruct (C93_worker_rows _ _ _ _ _ _ _ _ H) as [E X]. split; auto.
  destruct (X i _ Hi) as [g Q]. rewrite Q, C94_no_weight_at_all_refuted. reflexivity.
Qed.
Print Assumptions C94_worker_refuted.
