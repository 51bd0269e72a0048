(** Independent specification for C100-C102: changing the utilities of elemental choices. *)
From Coq Require Import List ZArith Reals.
From Verif Require Import SpecLogit SpecNested.
Import ListNotations.
Local Open Scope R_scope.

(** the constant [c] added to the utility of every elemental choice (node without children) *)
Definition add_elemental (n : nat) (h : list Z) (c : R) (us : list util) : list util :=
  map (fun i => match children n h i with
                | [] => shift c (nth i us None)
                | _ => nth i us None
                end) (seq 0 n).

(** product of the scales of all nests above node [i] *)
Inductive path_scale (h : list Z) (scales : list R) : nat -> R -> Prop :=
| ps_top i : parent_of h i = None -> path_scale h scales i 1
| ps_child i p w : parent_of h i = Some p -> path_scale h scales p w ->
                   path_scale h scales i (nth p scales 0 * w).

(** the scale against which that of nest [p] is to be compared: that of the nest it is in when
    utilities are scaled, and otherwise 1 *)
Definition outer_scale (h : list Z) (scaled : bool) (scales : list R) (p : nat) : R :=
  match parent_of h p with
  | Some g => if scaled then nth g scales 0 else 1
  | None => 1
  end.

(** every nest's scale is at most its outer scale *)
Definition scales_fall (n : nat) (h : list Z) (scaled : bool) (scales : list R) : Prop :=
  forall p, (p < n)%nat -> children n h p <> [] -> nth p scales 0 <= outer_scale h scaled scales p.

(** [part_of n h scales us n' h' scales' us' s]: the first node table is part of the second, node
    [i] of the first being node [s i] of the second: same parent and utility, for nests the same
    scale, and a node without children in one has none in the other. *)
Definition part_of (n : nat) (h : list Z) (scales : list R) (us : list util)
                   (n' : nat) (h' : list Z) (scales' : list R) (us' : list util) (s : nat -> nat) : Prop :=
  (forall i j, (i < n)%nat -> (j < n)%nat -> s i = s j -> i = j) /\
  forall i, (i < n)%nat ->
    (s i < n')%nat /\
    parent_of h' (s i) = option_map s (parent_of h i) /\
    (children n h i <> [] -> nth (s i) scales' 0 = nth i scales 0) /\
    nth (s i) us' None = nth i us None /\
    (children n h i = [] <-> children n' h' (s i) = []).

(** node [j] of the second table comes from the first *)
Definition kept (n : nat) (s : nat -> nat) (j : nat) : Prop := exists i, (i < n)%nat /\ s i = j.

(** the utility of node [i] together with those of all nests above it (minus infinity if one of them is) *)
Definition add_util (a b : util) : util :=
  match a, b with Some x, Some y => Some (x + y) | _, _ => None end.
Inductive path_utility (h : list Z) (us : list util) : nat -> util -> Prop :=
| pu_top i : parent_of h i = None -> path_utility h us i (nth i us None)
| pu_child i p w : parent_of h i = Some p -> path_utility h us p w ->
                   path_utility h us i (add_util (nth i us None) w).

(** the elemental choices: nodes without children *)
Definition elemental (n : nat) (h : list Z) : list nat :=
  filter (fun i => match children n h i with [] => true | _ => false end) (seq 0 n).
