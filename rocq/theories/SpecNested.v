(** Independent specification of the nested logit model on a node table (C13-C18).
    A node table has [n] nodes in order; [h] gives each node's parent position, or a
    negative number for a top-level node.  Everything is stated over an arithmetic [F];
    sums run in node order, starting from 0. *)
From Coq Require Import List ZArith Bool Arith.
From Verif Require Import Arith.
Import ListNotations.

Definition parent_of (h : list Z) (i : nat) : option nat :=
  let z := nth i h (-1)%Z in if (z <? 0)%Z then None else Some (Z.to_nat z).

Definition is_child (h : list Z) (i j : nat) : bool :=
  match parent_of h j with Some p => Nat.eqb p i | None => false end.
Definition is_top (h : list Z) (j : nat) : bool :=
  match parent_of h j with Some _ => false | None => true end.

(** children of node [i], and top-level nodes, in node order *)
Definition children (n : nat) (h : list Z) (i : nat) : list nat := filter (is_child h i) (seq 0 n).
Definition tops (n : nat) (h : list Z) : list nat := filter (is_top h) (seq 0 n).
Definition siblings (n : nat) (h : list Z) (i : nat) : list nat :=
  match parent_of h i with Some p => children n h p | None => tops n h end.

(** Well-formed node table: [lv] are the depths and [bt] marks the childless nodes. *)
Definition wf_table (n : nat) (h : list Z) (lv : list nat) (bt : list bool) : Prop :=
  0 < n /\ length h = n /\ length lv = n /\ length bt = n /\
  (forall i, i < n ->
     match parent_of h i with
     | None => nth i h (-1)%Z = (-1)%Z /\ nth i lv 0 = 0
     | Some p => p < n /\ nth i lv 0 = S (nth p lv 0)
     end) /\
  (forall i, i < n -> (nth i bt true = true <-> children n h i = [])).

Section NL.
  Context (F : arith) (n : nat) (h : list Z) (scales : list (num F)) (scaled : bool).
  Notation num := (num F).
  Notation at_ l i := (nth i l (nzero F)).

  Definition group_sum (E : list num) (nodes : list nat) : num :=
    fold_left (fun a j => nadd F a (at_ E j)) nodes (nzero F).

  (** the divisor applied to the utility of node [i] *)
  Definition divisor (i : nat) : num :=
    match parent_of h i with
    | Some p => if scaled then at_ scales p else none_ F
    | None => none_ F
    end.

  (** the exponentiated utilities: with inclusive value for a node with children *)
  Definition nl_terms (u E : list num) : Prop :=
    length E = n /\
    forall i, i < n ->
      at_ E i =
      match children n h i with
      | [] => nexp F (ndiv F (at_ u i) (divisor i))
      | kids => nexp F (ndiv F (nadd F (at_ u i) (nmul F (at_ scales i) (nlog F (group_sum E kids)))) (divisor i))
      end.

  (** conditional probability of node [i] within its sibling group *)
  Definition cond (E : list num) (i : nat) : num :=
    let g := group_sum E (siblings n h i) in
    if nle F g (nzero F) then nzero F else ndiv F (at_ E i) g.

  (** product of the conditional probabilities along the path from the top *)
  Inductive path_prob (E : list num) : nat -> num -> Prop :=
  | pp_top i : parent_of h i = None -> path_prob E i (cond E i)
  | pp_child i p q : parent_of h i = Some p -> path_prob E p q ->
                     path_prob E i (nmul F (cond E i) q).

  (** probabilities [P], top-level sum [top] and terms [E] solve the nested logit
      equations for utilities [u] *)
  Definition nl_solution (u P : list num) (top : num) (E : list num) : Prop :=
    nl_terms u E /\ top = group_sum E (tops n h) /\ length P = n /\
    forall i, i < n ->
      match children n h i with
      | [] => path_prob E i (at_ P i)
      | _ => at_ P i = nzero F
      end.
End NL.

(** ** Feasibility, for utilities that are real or [None] = minus infinity *)
Section Feasible.
  Context (n : nat) (h : list Z) (us : list (option Rdefinitions.R)).

  (** a childless node is feasible when its utility is not -inf; a nest when moreover
      one of its children is feasible *)
  Inductive feasible : nat -> Prop :=
  | fs_leaf i : children n h i = [] -> nth i us None <> None -> feasible i
  | fs_nest i j : nth i us None <> None -> In j (children n h i) -> feasible j -> feasible i.

  (** feasible together with every nest above it *)
  Inductive available : nat -> Prop :=
  | av_top i : parent_of h i = None -> feasible i -> available i
  | av_child i p : parent_of h i = Some p -> available p -> feasible i -> available i.

  (** [below i j]: node [j] is a strict descendant of [i] *)
  Inductive below (i : nat) : nat -> Prop :=
  | below_child j : parent_of h j = Some i -> below i j
  | below_step j p : parent_of h j = Some p -> below i p -> below i j.
End Feasible.
