(** C01-C05: sampling (cheval/core.py 27-119). *)
From Coq Require Import Reals Lra.
From Flocq Require Import Core.Core IEEE754.BinarySingleNaN.
From Verif Require Import Prelude Arith CoreModel SpecSampling SamplingProofs.
Local Open Scope R_scope.

(** ** C01: a single draw implements inverse-CDF sampling *)

Theorem C01_cell : forall (p : list R) (r : R) (i : nat),
  nonneg p -> (i < length p)%nat -> Rmax r tinyR <= Rsum p ->
  (sample_once XR (map Fin p) (Fin r) = Z.of_nat i <-> in_cell p i (Rmax r tinyR)).
Proof. exact sample_once_cell. Qed.
Print Assumptions C01_cell.

Theorem C01_cells_partition : forall (p : list R) (r : R),
  nonneg p -> 0 < r <= Rsum p -> exists! i, (i < length p)%nat /\ in_cell p i r.
Proof. exact cell_exists. Qed.
Print Assumptions C01_cells_partition.

Theorem C01_cell_width : forall (p : list R) (i : nat),
  (i < length p)%nat -> partial_sum p (S i) - partial_sum p i = nth i p 0.
Proof. intros p i H. rewrite partial_sum_S by exact H. lra. Qed.
Print Assumptions C01_cell_width.

Theorem C01_draw_above_total : forall (p : list R) (r : R),
  p <> [] -> nonneg p -> Rsum p < Rmax r tinyR ->
  sample_once XR (map Fin p) (Fin r) = (Z.of_nat (length p) - 1)%Z.
Proof. exact sample_once_over. Qed.
Print Assumptions C01_draw_above_total.

(** The same in the arithmetic of the machine: the first running (rounded) sum that
    reaches the draw, for any arithmetic, any array and any draw. *)
Theorem C01_any_arithmetic : forall (F : arith) (p : list (num F)) (r : num F),
  p <> [] ->
  exists i, sample_once F p r = Z.of_nat i /\
    first_reaching (fun i => nle F (pymax F r (ntiny F)) (rd (nbf_cumsum F p) i)) (length p) i.
Proof. exact sample_once_first. Qed.
Print Assumptions C01_any_arithmetic.

Example C01_example : sample_once XR (map Fin [1/4; 0; 3/4]) (Fin (1/2)) = 2%Z.
Proof.
  pose proof tinyR_pos.
  assert (tinyR < 1/2).
  { unfold tinyR. replace (1/2) with (bpow radix2 (-1)) by (simpl; lra). apply bpow_lt. lia. }
  assert (E : Rmax (1/2) tinyR = 1/2) by (apply Rmax_left; lra).
  apply (C01_cell [1/4; 0; 3/4] (1/2) 2); rewrite ?E.
  - repeat constructor; lra.
  - simpl; lia.
  - simpl; lra.
  - unfold in_cell, partial_sum; simpl; lra.
Qed.

(** ** C02: a zero-probability alternative is never sampled (exact arithmetic) *)

Theorem C02_sampled_has_positive_probability : forall (p : list R) (r : R),
  nonneg p -> Rmax r tinyR <= Rsum p ->
  exists i, sample_once XR (map Fin p) (Fin r) = Z.of_nat i /\ (i < length p)%nat /\ 0 < nth i p 0.
Proof. exact sample_once_positive. Qed.
Print Assumptions C02_sampled_has_positive_probability.

(** ** C03: false in IEEE doubles *)

(** 1 - 2^-53, the largest value [np.random] produces *)
Definition r_max : float64 := binary_normalize 53 1024 _ _ mode_NE (2 ^ 53 - 1) (-53) false.
Definition w7 : list float64 := repeat f64_one 7 ++ [f64_zero].

(** Seven equally weighted alternatives and an eighth of weight 0: the eighth is drawn by
    [r = 1 - 2^-53] although its computed probability is 0, by either sampler. *)
Theorem C03_zero_probability_last_sampled_refuted : forall fexp flog,
  f64_lt r_max f64_one = true /\
  (let p := simple_probabilities (B64 fexp flog) w7 in
   length p = 8%nat /\ f64_eq (nth 7 p f64_one) f64_zero = true /\
   sample_once (B64 fexp flog) p r_max = 7%Z /\
   snd (sample_multi (B64 fexp flog) p [r_max]) = Some [7%Z]).
Proof.
  intros fexp flog. split; [reflexivity|]. cbn zeta.
  split; [reflexivity|]. split; [vm_compute; reflexivity|].
  split; vm_compute; reflexivity.
Qed.
Print Assumptions C03_zero_probability_last_sampled_refuted.

(** The same through the logit model: seven alternatives of utility 0 and a disabled one
    (utility -inf), for every libm with exp(0)=1 and exp(-inf)=0. *)
Theorem C03_infeasible_alternative_chosen_refuted : forall (fexp flog : float64 -> float64),
  fexp f64_zero = f64_one -> fexp (B754_infinity true) = f64_zero ->
  exists p ls terms,
    multinomial_probabilities (B64 fexp flog) (repeat f64_zero 7 ++ [B754_infinity true]) true
      = Ok (p, ls, terms) /\
    f64_eq (nth 7 p f64_one) f64_zero = true /\
    exists ls', multinomial_sample (B64 fexp flog) (repeat f64_zero 7 ++ [B754_infinity true]) r_max
      = Ok (7%Z, ls').
Proof.
  intros fexp flog H0 Hi.
  assert (E : multinomial_probabilities (B64 fexp flog) (repeat f64_zero 7 ++ [B754_infinity true]) true
      = Ok (simple_probabilities (B64 fexp flog) w7, nsum (B64 fexp flog) w7, w7)).
  { assert (Hm : map (nexp (B64 fexp flog)) (repeat f64_zero 7 ++ [B754_infinity true]) = w7).
    { unfold w7. rewrite map_app. simpl. rewrite H0, Hi. reflexivity. }
    unfold multinomial_probabilities. rewrite Hm.
    assert (Hl : nle (B64 fexp flog) (nsum (B64 fexp flog) w7) (nzero (B64 fexp flog)) = false)
      by (vm_compute; reflexivity).
    rewrite Hl. reflexivity. }
  destruct (C03_zero_probability_last_sampled_refuted fexp flog) as (_ & _ & Hz & Hs & _).
  do 3 eexists. split; [exact E|]. split; [exact Hz|].
  eexists. unfold multinomial_sample. rewrite E. cbn [rbind]. rewrite Hs. reflexivity.
Qed.
Print Assumptions C03_infeasible_alternative_chosen_refuted.

(** What does hold in doubles: only the last alternative can be drawn with probability 0. *)
Theorem C03_only_the_last_partial : forall fexp flog (p : list float64) (r : float64),
  p <> [] -> Forall (fun x => f64_le f64_zero x = true) p -> f64_le f64_tiny r = true ->
  exists i, sample_once (B64 fexp flog) p r = Z.of_nat i /\ (i < length p)%nat /\
    (f64_eq (nth i p f64_zero) f64_zero = false \/ S i = length p).
Proof. exact f64_sampled_nonzero_or_last. Qed.
Print Assumptions C03_only_the_last_partial.

Example C03_partial_hypotheses_met :
  w7 <> [] /\ Forall (fun x => f64_le f64_zero x = true) w7 /\ f64_le f64_tiny r_max = true.
Proof. split; [discriminate|]. split; [|vm_compute; reflexivity].
  apply Forall_forall; apply forallb_forall; vm_compute; reflexivity.
Qed.

(** ** C04: binary search *)

Theorem C04_terminates_in_range : forall (F : arith) (r : num F) (cps : list (num F)),
  cps <> [] -> exists i, logarithmic_search F r cps = Some (Z.of_nat i) /\ (i < length cps)%nat.
Proof. exact log_search_in_range. Qed.
Print Assumptions C04_terminates_in_range.

(** [r] below is the draw after the code's replacement of 0 by the smallest normal. *)
Theorem C04_finds_first_cell : forall (F : arith) (r : num F) (cps : list (num F)),
  let r' := if neqb F r (nzero F) then ntiny F else r in
  cps <> [] ->
  (forall i j, (i <= j < length cps)%nat -> nle F r' (rd cps i) = true -> nle F r' (rd cps j) = true) ->
  exists i, logarithmic_search F r cps = Some (Z.of_nat i) /\
    first_reaching (fun i => nle F r' (rd cps i)) (length cps) i.
Proof. intros F r cps r'. exact (log_search_first F r cps). Qed.
Print Assumptions C04_finds_first_cell.

Example C04_example : logarithmic_search (B64 (fun x => x) (fun x => x)) r_max
    [f64_zero; f64_zero; f64_one; f64_one] = Some 2%Z.
Proof. vm_compute. reflexivity. Qed.

(** ** C05: multi-draw and single-draw samplers agree, in doubles *)

Theorem C05_samplers_agree : forall fexp flog (p draws : list float64),
  p <> [] -> Forall (fun x => f64_le f64_zero x = true) p ->
  Forall (fun r => f64_le f64_tiny r = true) draws ->
  snd (sample_multi (B64 fexp flog) p draws) = Some (map (sample_once (B64 fexp flog) p) draws).
Proof. exact f64_samplers_agree. Qed.
Print Assumptions C05_samplers_agree.

Example C05_hypotheses_met :
  let p := simple_probabilities (B64 (fun x => x) (fun x => x)) w7 in
  p <> [] /\ Forall (fun x => f64_le f64_zero x = true) p /\
  Forall (fun r => f64_le f64_tiny r = true) [r_max; f64_tiny].
Proof. cbn zeta. split; [intros E; apply (f_equal (@length _)) in E; unfold simple_probabilities in E; rewrite map_length in E; discriminate|].
  split; apply Forall_forall; apply forallb_forall; vm_compute; reflexivity.
Qed.
