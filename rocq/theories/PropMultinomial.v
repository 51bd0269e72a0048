(** C06-C12: multinomial probabilities (cheval/core.py 131-157). *)
From Coq Require Import Reals Lra Permutation.
From Flocq Require Import Core.Core IEEE754.BinarySingleNaN.
From Verif Require Import Prelude Arith CoreModel SpecSampling SpecLogit SamplingProofs MnlProofs.
Local Open Scope R_scope.

(** ** C06 *)

(** outputs: probabilities, logsum, per-alternative terms *)
Theorem C06_logit_formula : forall (us : list util) (chk : bool),
  some_feasible us ->
  multinomial_probabilities XR (map as_x us) chk =
    Ok (map (fun u => Fin (expu u / total us)) us, Fin (total us), map (fun u => Fin (expu u)) us).
Proof.
  intros us chk H. rewrite mnl_formula by exact H. unfold mnl_result. now rewrite !map_map.
Qed.
Print Assumptions C06_logit_formula.

Theorem C06_sum_to_one_and_bounds : forall (us : list util),
  some_feasible us ->
  Rsum (map (fun u => expu u / total us) us) = 1 /\
  Forall (fun p => 0 <= p <= 1) (map (fun u => expu u / total us) us).
Proof.
  intros us H. split; [exact (mnl_sum us H)|].
  apply Forall_map, Forall_forall. intros u Hu. exact (mnl_bounds us u H Hu).
Qed.
Print Assumptions C06_sum_to_one_and_bounds.

Example C06_hypothesis_met : some_feasible [None; Some 1; Some (-2)].
Proof. exists 1. simpl; auto. Qed.

(** ** C07 *)

Theorem C07_infeasible_iff : forall (us : list util),
  (multinomial_probabilities XR (map as_x us) true = Err UtilityBounds <-> none_feasible us).
Proof.
  intros us. split.
  - intros H. destruct (feasible_dec us) as [Hf|]; auto. rewrite mnl_formula in H by auto. discriminate.
  - intros H. now rewrite mnl_infeasible.
Qed.
Print Assumptions C07_infeasible_iff.

Theorem C07_unchecked : forall (us : list util),
  none_feasible us ->
  multinomial_probabilities XR (map as_x us) false =
    Ok (map (fun _ => Fin 0) us, Fin 0, map (fun _ => Fin 0) us).
Proof. intros us H. now rewrite mnl_infeasible. Qed.
Print Assumptions C07_unchecked.

Theorem C07_flag_irrelevant_otherwise : forall (us : list util),
  ~ none_feasible us ->
  exists out, multinomial_probabilities XR (map as_x us) true = Ok out /\
              multinomial_probabilities XR (map as_x us) false = Ok out.
Proof.
  intros us H. destruct (feasible_dec us) as [Hf|]; [|tauto].
  exists (mnl_result us). split; now apply mnl_formula.
Qed.
Print Assumptions C07_flag_irrelevant_otherwise.

Example C07_none : none_feasible [None; None].
Proof. intros u [<-|[<-|[]]]; auto. Qed.

(** ** C08 *)

Theorem C08_shift_invariance : forall (us : list util) (c : R) (chk : bool),
  some_feasible us ->
  exists p ls terms ls' terms',
    multinomial_probabilities XR (map as_x us) chk = Ok (p, Fin ls, terms) /\
    multinomial_probabilities XR (map as_x (map (shift c) us)) chk = Ok (p, Fin ls', terms') /\
    ls' = exp c * ls.
Proof.
  intros us c chk H. do 5 eexists. split; [rewrite mnl_formula by auto; reflexivity|].
  split; [|apply total_shift].
  rewrite mnl_formula by (now apply some_feasible_shift). unfold mnl_result.
  rewrite mnl_shift by auto. reflexivity.
Qed.
Print Assumptions C08_shift_invariance.

(** ** C09 *)

(** ratio of two feasible alternatives; the rest of the list is arbitrary *)
Theorem C09_ratio : forall (us : list util) (i j : nat) (x y : R) (chk : bool),
  nth_error us i = Some (Some x) -> nth_error us j = Some (Some y) ->
  exists p ls terms,
    multinomial_probabilities XR (map as_x us) chk = Ok (map Fin p, ls, terms) /\
    prob p i / prob p j = exp (x - y).
Proof.
  intros us i j x y chk Hi Hj.
  assert (Hil : (i < length us)%nat) by (apply nth_error_Some; congruence).
  assert (Hjl : (j < length us)%nat) by (apply nth_error_Some; congruence).
  assert (Hf : some_feasible us) by (exists x; apply nth_error_In with i; auto).
  exists (map (mnl us) us). do 2 eexists. split; [rewrite mnl_formula by auto; reflexivity|].
  rewrite !prob_mnl by auto. apply nth_error_nth with (d := None) in Hi, Hj. rewrite Hi, Hj.
  pose proof (total_pos us Hf). unfold mnl; simpl. unfold Rminus. rewrite exp_plus, exp_Ropp.
  pose proof (exp_pos y). field. lra.
Qed.
Print Assumptions C09_ratio.

(** an alternative at -inf might as well be absent *)
Theorem C09_disable_equals_remove : forall (a b : list util) (chk : bool),
  some_feasible (a ++ b) ->
  exists pa pb ls terms terms',
    length pa = length a /\
    multinomial_probabilities XR (map as_x (a ++ b)) chk = Ok (pa ++ pb, ls, terms) /\
    multinomial_probabilities XR (map as_x (a ++ None :: b)) chk = Ok (pa ++ Fin 0 :: pb, ls, terms').
Proof.
  intros a b chk Hf.
  assert (Hf' : some_feasible (a ++ None :: b)).
  { destruct Hf as [x Hx]. exists x. apply in_or_app. apply in_app_or in Hx. simpl. tauto. }
  pose proof (total_pos _ Hf).
  exists (map Fin (map (mnl (a ++ b)) a)), (map Fin (map (mnl (a ++ b)) b)). do 3 eexists.
  split; [now rewrite !map_length|].
  split; [rewrite mnl_formula by auto; unfold mnl_result; rewrite (map_app (mnl _)), (map_app Fin); reflexivity|].
  rewrite mnl_formula by auto. unfold mnl_result. rewrite (map_app (mnl _)), (map_app Fin). simpl.
  replace (total (a ++ None :: b)) with (total (a ++ b)).
  2: { rewrite !total_app. unfold total at 4. simpl. fold (total b). lra. }
  do 3 f_equal. f_equal.
  - do 1 f_equal. apply map_ext. intros; apply mnl_drop.
  - f_equal.
    + unfold mnl; simpl. f_equal. unfold Rdiv. ring.
    + f_equal. apply map_ext. intros; apply mnl_drop.
Qed.
Print Assumptions C09_disable_equals_remove.

(** ** C10 *)

(** [upd us k v] replaces the utility of alternative [k] by [v]; raising means
    a larger exponential (also from -inf to a number). *)
Theorem C10_own_probability_increases : forall (us : list util) (k : nat) (v : util) (chk : bool),
  (k < length us)%nat -> expu (nth k us None) < expu v ->
  (exists j x, j <> k /\ nth j us None = Some x) ->
  exists p p' ls ls' terms terms',
    multinomial_probabilities XR (map as_x us) chk = Ok (map Fin p, ls, terms) /\
    multinomial_probabilities XR (map as_x (upd us k v)) chk = Ok (map Fin p', ls', terms') /\
    prob p k < prob p' k.
Proof.
  intros us k v chk Hk Hv (j & x & Hjk & Hj).
  assert (Hjl : (j < length us)%nat).
  { destruct (Nat.lt_ge_cases j (length us)); auto. rewrite nth_overflow in Hj by auto. discriminate. }
  assert (Hf : some_feasible us) by (exists x; rewrite <- Hj; now apply nth_In).
  assert (Hf' : some_feasible (upd us k v)).
  { exists x. rewrite <- Hj. rewrite <- (nth_upd_neq us k j v None) by auto. apply nth_In. now rewrite upd_length. }
  exists (map (mnl us) us), (map (mnl (upd us k v)) (upd us k v)). do 4 eexists.
  split; [rewrite mnl_formula by auto; reflexivity|].
  split; [rewrite mnl_formula by auto; reflexivity|].
  rewrite !prob_mnl by (rewrite ?upd_length; auto). rewrite nth_upd_eq by auto.
  apply mnl_raise_own; eauto.
Qed.
Print Assumptions C10_own_probability_increases.

Theorem C10_others_do_not_increase : forall (us : list util) (k j : nat) (v : util) (chk : bool),
  (k < length us)%nat -> (j < length us)%nat -> expu (nth k us None) <= expu v -> j <> k ->
  some_feasible us ->
  exists p p' ls ls' terms terms',
    multinomial_probabilities XR (map as_x us) chk = Ok (map Fin p, ls, terms) /\
    multinomial_probabilities XR (map as_x (upd us k v)) chk = Ok (map Fin p', ls', terms') /\
    prob p' j <= prob p j.
Proof.
  intros us k j v chk Hk Hj Hv Hjk Hf.
  assert (Hf' : some_feasible (upd us k v)).
  { apply total_pos_iff. rewrite total_upd by auto. pose proof (total_pos us Hf). lra. }
  exists (map (mnl us) us), (map (mnl (upd us k v)) (upd us k v)). do 4 eexists.
  split; [rewrite mnl_formula by auto; reflexivity|].
  split; [rewrite mnl_formula by auto; reflexivity|].
  rewrite !prob_mnl by (rewrite ?upd_length; auto). now apply mnl_raise_other.
Qed.
Print Assumptions C10_others_do_not_increase.

Example C10_hypotheses_met :
  let us := [None; Some 0; Some 1] in
  (0 < length us)%nat /\ expu (nth 0 us None) < expu (Some 2) /\
  exists j x, j <> 0%nat /\ nth j us None = Some x.
Proof. cbn zeta. split; [simpl; lia|]. split; [simpl; apply exp_pos|]. exists 1%nat, 0. split; auto. Qed.

(** ** C11 *)

(** [map (fun i => nth i l d) sigma] is the list [l] reordered by the permutation [sigma] *)
Theorem C11_order_irrelevant : forall (us : list util) (sigma : list nat) (chk : bool) p ls terms,
  Permutation sigma (seq 0 (length us)) ->
  multinomial_probabilities XR (map as_x us) chk = Ok (p, ls, terms) ->
  multinomial_probabilities XR (map as_x (map (fun i => nth i us None) sigma)) chk
    = Ok (map (fun i => nth i p (Fin 0)) sigma, ls, map (fun i => nth i terms (Fin 0)) sigma).
Proof. exact mnl_permute. Qed.
Print Assumptions C11_order_irrelevant.

Example C11_hypotheses_met :
  Permutation [2;0;1]%nat (seq 0 (length [Some 1; None; Some 2])).
Proof. simpl. apply perm_trans with [0;2;1]%nat; [apply perm_swap|apply perm_skip, perm_swap]. Qed.

(** ** C12 *)

(** a +inf utility gives NaN in exact arithmetic with IEEE special values *)
Theorem C12_infinite_utility_refuted : exists p ls terms,
  multinomial_probabilities XR [PInf; Fin 0] true = Ok (p, ls, terms) /\ nth 0 p (Fin 0) = NaN.
Proof.
  unfold multinomial_probabilities. simpl. do 3 eexists. split; reflexivity.
Qed.
Print Assumptions C12_infinite_utility_refuted.

(** in doubles a finite utility whose exponential overflows (any u > 709.79) suffices *)
Theorem C12_overflow_refuted : forall (fexp flog : float64 -> float64) (u : float64),
  is_finite u = true -> fexp u = B754_infinity false -> fexp f64_zero = f64_one ->
  exists p ls terms,
    multinomial_probabilities (B64 fexp flog) [u; f64_zero] true = Ok (p, ls, terms) /\
    is_nan (nth 0 p f64_zero) = true.
Proof.
  intros fexp flog u _ Hu H0. unfold multinomial_probabilities. simpl. rewrite Hu, H0.
  do 3 eexists. split; reflexivity.
Qed.
Print Assumptions C12_overflow_refuted.

(** The part that holds: finite or -inf utilities never give NaN (exact arithmetic). *)
Theorem C12_no_nan_partial : forall (us : list util) chk p ls terms,
  multinomial_probabilities XR (map as_x us) chk = Ok (p, ls, terms) ->
  Forall (fun x => x <> NaN) p /\ ls <> NaN /\ Forall (fun x => x <> NaN) terms.
Proof.
  intros us chk p ls terms H. destruct (feasible_dec us) as [Hf|Hf].
  - rewrite mnl_formula in H by auto. injection H as <- <- <-.
    split; [|split]; [| discriminate |]; apply Forall_map, Forall_map, Forall_forall; discriminate.
  - rewrite mnl_infeasible in H by auto. destruct chk; [discriminate|]. injection H as <- <- <-.
    split; [|split]; [| discriminate |]; apply Forall_map, Forall_forall; discriminate.
Qed.
Print Assumptions C12_no_nan_partial.
