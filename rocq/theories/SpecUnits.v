(** Specification for C108: two decision units, perhaps of different models, with the same data. *)
From Verif Require Import Prelude Arith TreeModel ExprModel ScopeModel SpecScope ModelModel SpecModel.
Local Open Scope nat_scope.

Section Spec.
  Context {L : Type} {F : arith} {D cell : Type} (E : env L F D cell).
  Notation symbol := (symbol (num:=num F) (ev_frames E)).
  (** symbol [s] for unit [r] and symbol [s'] for unit [r'] have the same values, for all of the [k] choices: by themselves,
      and through every attribute, path of links and aggregation *)
  Definition same_values (k : nat) (s : symbol) (r : nat) (s' : symbol) (r' : nat) : Prop :=
    (forall c, c < k -> symbol_cell E s r c = symbol_cell E s' r' c) /\
    (forall ct c, c < k -> attribute_cell E s ct r c = attribute_cell E s' ct r' c).
  (** this holds of all the [names] *)
  Definition same_data (names : string -> Prop) (k : nat) (scope : dict string symbol) (r : nat) (scope' : dict string symbol) (r' : nat) : Prop :=
    forall name, names name ->
      match dget String.eqb scope name, dget String.eqb scope' name with
      | Some s, Some s' => same_values k s r s' r'
      | None, None => True
      | _, _ => False
      end.
  (** the symbols that a run evaluates: used by themselves ([simple]) or with attributes *)
  Definition evaluated_names (simple : list string) (xs : list (@expression L)) (name : string) : Prop :=
    In name simple \/ exists x, In x xs /\ In name (dkeys (e_chains x)).
End Spec.
