(** The arithmetic the numerical code runs in.

    [cheval/core.py] computes in IEEE binary64.  The functions of the model take the
    arithmetic as a parameter, so that one definition is used with
    - [XR]: exact extended reals (no rounding, no overflow; NaN and infinities follow the
      IEEE special-value rules; the sign of zero is not represented), and
    - [B64 fexp flog]: IEEE binary64 with round-to-nearest-even (Flocq), with arbitrary
      functions for [np.exp] and [np.log] (the platform's libm is not modelled). *)
From Coq Require Import Reals Lra.
From Flocq Require Import Core.Core IEEE754.BinarySingleNaN.
From Verif Require Import Prelude.

Record arith : Type := Arith {
  num : Type;
  nzero : num;                       (* 0.0 *)
  none_ : num;                       (* 1.0 *)
  ntiny : num;                       (* np.finfo(np.float64).tiny, cheval/core.py 17 *)
  nadd : num -> num -> num;
  nmul : num -> num -> num;
  ndiv : num -> num -> num;
  nexp : num -> num;
  nlog : num -> num;
  nle : num -> num -> bool;          (* <=, false when an operand is NaN *)
  nlt : num -> num -> bool;          (* < *)
  neqb : num -> num -> bool          (* == *)
}.

(** ** Exact extended reals *)

Inductive xr : Type := Fin (r : R) | PInf | NInf | NaN.

Definition Rleb (a b : R) : bool := if Rle_dec a b then true else false.
Definition Rltb (a b : R) : bool := if Rlt_dec a b then true else false.
Definition Reqb (a b : R) : bool := if Req_EM_T a b then true else false.

Definition xadd (a b : xr) : xr :=
  match a, b with
  | NaN, _ | _, NaN => NaN
  | PInf, NInf | NInf, PInf => NaN
  | PInf, _ | _, PInf => PInf
  | NInf, _ | _, NInf => NInf
  | Fin x, Fin y => Fin (x + y)
  end.

(** the infinity with the sign of [x] ([NaN] for 0, i.e. 0 * inf) *)
Definition xsigninf (x : R) (pos : bool) : xr :=
  if Reqb x 0 then NaN else if Bool.eqb (Rltb 0 x) pos then PInf else NInf.

Definition xmul (a b : xr) : xr :=
  match a, b with
  | NaN, _ | _, NaN => NaN
  | Fin x, Fin y => Fin (x * y)
  | Fin x, PInf | PInf, Fin x => xsigninf x true
  | Fin x, NInf | NInf, Fin x => xsigninf x false
  | PInf, PInf | NInf, NInf => PInf
  | PInf, NInf | NInf, PInf => NInf
  end.

(** division; a zero divisor counts as +0 *)
Definition xdiv (a b : xr) : xr :=
  match a, b with
  | NaN, _ | _, NaN => NaN
  | Fin x, Fin y =>
      if Reqb y 0 then xsigninf x true else Fin (x / y)
  | Fin _, (PInf | NInf) => Fin 0
  | PInf, Fin y => if Rltb y 0 then NInf else PInf
  | NInf, Fin y => if Rltb y 0 then PInf else NInf
  | (PInf | NInf), (PInf | NInf) => NaN
  end.

Definition xexp (a : xr) : xr :=
  match a with Fin x => Fin (exp x) | PInf => PInf | NInf => Fin 0 | NaN => NaN end.

Definition xlog (a : xr) : xr :=
  match a with
  | Fin x => if Rltb 0 x then Fin (ln x) else if Reqb x 0 then NInf else NaN
  | PInf => PInf | NInf => NaN | NaN => NaN
  end.

Definition xle (a b : xr) : bool :=
  match a, b with
  | NaN, _ | _, NaN => false
  | NInf, _ | _, PInf => true
  | Fin x, Fin y => Rleb x y
  | _, _ => false
  end.
Definition xlt (a b : xr) : bool :=
  match a, b with
  | NaN, _ | _, NaN => false
  | NInf, NInf | PInf, PInf => false
  | NInf, _ | _, PInf => true
  | Fin x, Fin y => Rltb x y
  | _, _ => false
  end.
Definition xeqb (a b : xr) : bool :=
  match a, b with
  | Fin x, Fin y => Reqb x y
  | PInf, PInf | NInf, NInf => true
  | _, _ => false
  end.

(** [np.finfo(np.float64).tiny] = 2^-1022 *)
Definition tinyR : R := bpow radix2 (-1022).

Definition XR : arith :=
  {| num := xr; nzero := Fin 0; none_ := Fin 1; ntiny := Fin tinyR;
     nadd := xadd; nmul := xmul; ndiv := xdiv; nexp := xexp; nlog := xlog;
     nle := xle; nlt := xlt; neqb := xeqb |}.

(** ** IEEE binary64 *)

Definition float64 := binary_float 53 1024.
#[global] Instance prec53_gt_0 : Prec_gt_0 53 := eq_refl.
#[global] Instance prec53_lt_1024 : Prec_lt_emax 53 1024 := eq_refl.

Definition f64_zero : float64 := B754_zero false.
Definition f64_one : float64 := Bone.
(** 2^-1022 = 2^52 * 2^-1074 *)
Definition f64_tiny : float64 := binary_normalize 53 1024 _ _ mode_NE 1 (-1022) false.
Definition f64_add (a b : float64) : float64 := Bplus mode_NE a b.
Definition f64_mul (a b : float64) : float64 := Bmult mode_NE a b.
Definition f64_div (a b : float64) : float64 := Bdiv mode_NE a b.
Definition f64_le (a b : float64) : bool := Bleb a b.
Definition f64_lt (a b : float64) : bool := Bltb a b.
Definition f64_eq (a b : float64) : bool := Beqb a b.

Definition B64 (fexp flog : float64 -> float64) : arith :=
  {| num := float64; nzero := f64_zero; none_ := f64_one; ntiny := f64_tiny;
     nadd := f64_add; nmul := f64_mul; ndiv := f64_div; nexp := fexp; nlog := flog;
     nle := f64_le; nlt := f64_lt; neqb := f64_eq |}.
