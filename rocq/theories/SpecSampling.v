(** Independent specification of sampling, used in the statements of C01-C05.
    Nothing here refers to the model. *)
From Coq Require Import List Reals.
Import ListNotations.

(** [first_reaching reach n i]: [i] is the first of the positions [0..n-1] satisfying
    [reach]; when there is none it is the last position. *)
Definition first_reaching (reach : nat -> bool) (n i : nat) : Prop :=
  i < n /\
  ((reach i = true /\ forall j, j < i -> reach j = false)
   \/ (i = n - 1 /\ forall j, j < n -> reach j = false)).

Local Open Scope R_scope.

(** sum of a list of reals, and of its first [i] entries *)
Fixpoint Rsum (l : list R) : R := match l with [] => 0 | x :: t => x + Rsum t end.
Definition partial_sum (p : list R) (i : nat) : R := Rsum (firstn i p).

(** the cell of draws assigned to alternative [i]: (p0+..+p(i-1), p0+..+pi] *)
Definition in_cell (p : list R) (i : nat) (r : R) : Prop :=
  partial_sum p i < r <= partial_sum p (S i).

Definition nonneg (p : list R) : Prop := Forall (fun x => 0 <= x) p.
