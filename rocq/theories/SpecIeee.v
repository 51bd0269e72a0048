(** Specification for the properties of computed (IEEE binary64) probabilities, C86 and C87. *)
From Coq Require Import List Reals.
From Flocq Require Import Core.Core IEEE754.BinarySingleNaN.
From Verif Require Import Arith SpecSampling.
Import ListNotations.
Local Open Scope R_scope.

(** What is assumed of the exponential of the C library: no NaN from a number, never negative. *)
Definition sane_exp (fexp : float64 -> float64) : Prop :=
  forall u, is_nan u = false -> f64_le f64_zero (fexp u) = true.
(** the real number a finite double stands for *)
Definition real (x : float64) : R := B2R x.
(** a double in [0, 1] *)
Definition between_0_and_1 (x : float64) : Prop := is_finite x = true /\ 0 <= real x <= 1.
(** half a unit in the last place of 1 *)
Definition ulp_half : R := bpow radix2 (-53).
(** the sum of a list of doubles, as real numbers *)
Definition real_sum (l : list float64) : R := Rsum (map real l).

(** ** C92 *)
(** moreover the exponential of a NaN is a NaN *)
Definition keeps_nan (fexp : float64 -> float64) : Prop := forall u, is_nan u = true -> is_nan (fexp u) = true.
(** a double in [0, 1], or NaN *)
Definition nan_or_between (x : float64) : Prop := is_nan x = true \/ between_0_and_1 x.
Definition all_finite (l : list float64) : Prop := Forall (fun x => is_finite x = true) l.

(** ** C95 *)
(** the exponential of minus infinity is 0 and the logarithm of 0 is minus infinity (the code relies on it, core.py 196-199) *)
Definition exp_at_minus_infinity (fexp : float64 -> float64) : Prop := fexp (B754_infinity true) = f64_zero.
Definition log_at_zero (flog : float64 -> float64) : Prop := forall x, f64_eq x f64_zero = true -> flog x = B754_infinity true.
Definition positive_scale (s : float64) : Prop := is_finite s = true /\ 0 < real s.
(** the doubles, added from the left, do not overflow (in particular, all are numbers) *)
Definition finite_total (l : list float64) : Prop := is_finite (fold_left f64_add l f64_zero) = true.

(** ** C96 *)
(** a number that [numpy] may draw: 0, or at least the smallest normal number; the code takes the latter for 0 *)
Definition drawable (x : float64) : Prop := is_finite x = true /\ (f64_eq x f64_zero = true \/ f64_le f64_tiny x = true).
Definition floored (x : float64) : float64 := if f64_eq x f64_zero then f64_tiny else x.
