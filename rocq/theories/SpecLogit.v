(** Independent specification of the multinomial logit model (C06-C12).
    A utility is a real number or [None] = minus infinity (alternative not available). *)
From Coq Require Import List Reals.
From Verif Require Import Arith SpecSampling.
Import ListNotations.
Local Open Scope R_scope.

Notation util := (option R) (only parsing).

(** the corresponding floating-point value *)
Definition as_x (u : util) : xr := match u with Some x => Fin x | None => NInf end.

(** e^u, with e^-inf = 0 *)
Definition expu (u : util) : R := match u with Some x => exp x | None => 0 end.

(** sum of e^u over all alternatives *)
Definition total (us : list util) : R := Rsum (map expu us).

Definition mnl (us : list util) (u : util) : R := expu u / total us.

Definition some_feasible (us : list util) : Prop := exists x, In (Some x) us.
Definition none_feasible (us : list util) : Prop := forall u, In u us -> u = None.

(** adding a constant to a utility *)
Definition shift (c : R) (u : util) : util := match u with Some x => Some (x + c) | None => None end.

(** probability of alternative [i] in a list of probabilities *)
Definition prob (p : list R) (i : nat) : R := nth i p 0.
