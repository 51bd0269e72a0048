(** Specification for C110: set-up calls that do not concern each other, and reordered sequences of calls. *)
From Verif Require Import Prelude Arith TreeModel ExprModel ScopeModel ModelModel.
Local Open Scope nat_scope.
Local Open Scope list_scope.

Section Spec.
  Context {L : Type} {F : arith} {D cell : Type} (E : env L F D cell).
  Notation mop := (mop E).

  (** what a set-up call is about *)
  Inductive topic : Type :=
  | Texts                       (* adding and removing expressions *)
  | Choices                     (* adding choices *)
  | Units                       (* setting the decision units *)
  | Declares (name : string)    (* declaring or emptying a symbol *)
  | Assigns (name : string)     (* assigning data to a symbol, which must fit the units and the choices *)
  | AllSymbols.                 (* clearing the scope *)
  (** the model and the topic of a call; [None] for calls that are not set-up calls: new models, runs, copies,
      pre-evaluations, tables of utilities *)
  Definition set_up (o : mop) : option (nat * topic) :=
    match o with
    | MTree _ i _ => Some (i, Choices)
    | MUnits _ i _ => Some (i, Units)
    | MDeclare _ i x _ | MEmpty _ i x => Some (i, Declares x)
    | MAssign _ i x _ => Some (i, Assigns x)
    | MClearScope _ i => Some (i, AllSymbols)
    | MAppend _ i _ _ | MClearExprs _ i | MDropGroup _ i _ => Some (i, Texts)
    | _ => None
    end.
  (** topics that do not concern each other, within one model *)
  Inductive apart : topic -> topic -> Prop :=
  | ap_texts t : t <> Texts -> apart Texts t
  | ap_choices_units : apart Choices Units
  | ap_choices_declares x : apart Choices (Declares x)
  | ap_choices_all : apart Choices AllSymbols
  | ap_units_declares x : apart Units (Declares x)
  | ap_units_all : apart Units AllSymbols
  | ap_declares x y : x <> y -> apart (Declares x) (Declares y)
  | ap_declares_assigns x y : x <> y -> apart (Declares x) (Assigns y)
  | ap_assigns x y : x <> y -> apart (Assigns x) (Assigns y).
  (** two set-up calls that do not concern each other: of one model and apart; of two models and not both about texts *)
  Definition unrelated (a b : mop) : Prop :=
    match set_up a, set_up b with
    | Some (i, s), Some (j, t) => apart s t \/ apart t s \/ (i <> j /\ ~ (s = Texts /\ t = Texts))
    | _, _ => False
    end.
  (** the same calls in another order: neighbouring unrelated calls have been exchanged, any number of times *)
  Inductive reordered : list mop -> list mop -> Prop :=
  | same_order l : reordered l l
  | exchange before a b after : unrelated a b -> reordered (before ++ a :: b :: after) (before ++ b :: a :: after)
  | again l1 l2 l3 : reordered l1 l2 -> reordered l2 l3 -> reordered l1 l3.
End Spec.
