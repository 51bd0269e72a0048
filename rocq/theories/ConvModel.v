(** Model of cheval/utils.py 23-66 [convert_series]: how the data of a Series reaches numexpr.  This is what
    [VectorSymbol.assign] (api.py 308) and [TableSymbol._get] (api.py 402) do with the values of a Series; ScopeModel.v
    and LdfModel.v take the converted values as the cells.
    Of pandas and numpy the following is assumed.  [.str.len()] is the number of characters of a text and NaN for anything
    else; with NaN among them the maximum is a float, which gives the dtype "S3.0", which numpy does not know (TypeError);
    [.str] exists when there is a text or nothing but missing values.  A cast to "S<n>" encodes as ASCII (UnicodeEncodeError, a
    ValueError, otherwise), cuts after n bytes, and drops zero bytes at the end; "S0" does not cut.  The cast of a
    categorical casts all its categories; a missing value becomes the text of NaN in the new dtype with pandas up to 1.2
    ([old_pandas]), and an array of objects, which numexpr refuses, with later ones.  A text is a list of code points. *)
From Coq Require Import ZArith.
From Flocq Require Import IEEE754.BinarySingleNaN.
From Verif Require Import Prelude Arith.
Local Open Scope nat_scope.
Local Open Scope list_scope.

(** a cell of an object column: a text, None or NaN, something else *)
Inductive pycell : Type := Text (s : list nat) | Missing | Thing.
(** the categories of a categorical: of dtype object, or integers *)
Inductive labels : Type := LObj (l : list pycell) | LInt (l : list Z).
(** a Series, by dtype; a categorical has for every row the number of its category, or none *)
Inductive series : Type :=
| SInt (l : list (option Z)) | SFloat (l : list float64) | SBool (l : list bool)
| SCat (cats : labels) (codes : list (option nat)) | SObj (l : list pycell) | SDatetime | STimedelta.
(** a value of the array *)
Inductive avalue : Type := AInt (z : Z) | AFloat (x : float64) | ABool (b : bool) | ABytes (s : list nat).

(** [float(z)] *)
Definition float_of (z : Z) : float64 := binary_normalize 53 1024 prec53_gt_0 prec53_lt_1024 mode_NE z 0 false.
Definition is_text (c : pycell) : bool := match c with Text _ => true | _ => false end.
Definition text_len (c : pycell) : nat := match c with Text s => length s | _ => 0 end.

(** utils.py 42-43 and 51-55: the width in the name of the dtype *)
Definition width (l : list pycell) : res nat :=
  if existsb is_text l then
    if forallb is_text l then Ok (fold_right Nat.max 0 (map text_len l)) else Err TypeError
  else if forallb (fun c => match c with Missing => true | _ => false end) l then Err TypeError else Err AttributeError.

(** the cast of a text to [S<width>] *)
Fixpoint strip_nul (s : list nat) : list nat :=
  match s with
  | [] => []
  | c :: t => match strip_nul t with [] => if c =? 0 then [] else [c] | t' => c :: t' end
  end.
Definition cut (w : nat) (s : list nat) : list nat := strip_nul (if w =? 0 then s else firstn w s).
Definition to_bytes (w : nat) (c : pycell) : res (list nat) :=
  match c with
  | Text s => if forallb (fun x => x <? 128) s then Ok (cut w s) else Err ValueError
  | _ => Err TypeError
  end.
(** "nan" *)
Definition nan_text : list nat := [110; 97; 110].

(** a partial function on every element *)
Fixpoint each {A B} (f : A -> res B) (l : list A) : res (list B) :=
  match l with [] => Ok [] | a :: t => do b <- f a; do t' <- each f t; Ok (b :: t') end.

(** utils.py 23-66; [allow_raw] is never used with another value than False *)
Definition convert_series (old_pandas : bool) (s : series) : res (list avalue) :=
  match s with
  | SInt l =>                                                                             (* 26-35 *)
      if forallb (fun o => match o with Some _ => true | None => false end) l
      then Ok (map (fun o => match o with Some z => AInt z | None => AInt 0 end) l)
      else Ok (map (fun o => match o with Some z => AFloat (float_of z) | None => AFloat B754_nan end) l)
  | SCat (LObj cats) codes =>                                                             (* 36-47 *)
      do w <- width cats;
      do texts <- each (to_bytes w) cats;
      if forallb (fun o => match o with Some _ => true | None => false end) codes || old_pandas
      then Ok (map (fun o => match o with Some k => ABytes (nth k texts []) | None => ABytes (cut w nan_text) end) codes)
      else Err ValueError
  | SCat (LInt cats) codes =>
      each (fun o => match o with Some k => Ok (AInt (nth k cats 0%Z)) | None => Err ValueError end) codes
  | SObj l =>                                                                             (* 48-55 *)
      do w <- width l;
      each (fun c => rmap ABytes (to_bytes w c)) l
  | SDatetime | STimedelta => Err TypeError                                               (* 56-59 *)
  | SFloat l => Ok (map AFloat l)                                                         (* 60-61 *)
  | SBool l => Ok (map ABool l)
  end.

(** api.py 268-274 [NumberSymbol.assign]: [float(data)].  Of a text, [parse_float] is what float reads in it, if anything. *)
Inductive scalar : Type := PyInt (z : Z) | PyFloat (x : float64) | PyBool (b : bool) | PyText (s : list nat) | PyOther.
Definition number_value (parse_float : list nat -> option float64) (v : scalar) : res float64 :=
  match v with
  | PyInt z => if Z.abs z <? 2 ^ 1024 - 2 ^ 970 then Ok (float_of z) else Err ValueError     (* an OverflowError *)
  | PyFloat x => Ok x
  | PyBool b => Ok (float_of (if b then 1 else 0))
  | PyText s => match parse_float s with Some x => Ok x | None => Err ValueError end
  | PyOther => Err TypeError
  end%Z.
