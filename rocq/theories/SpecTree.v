(** Small specification vocabulary for the choice tree (C24-C31), stated on the attributes a
    user can read off the node objects: name, parent, scale, and the model's mapping from full
    names to nodes. *)
From Coq Require Import Ascii.
From Verif Require Import Prelude Arith TreeModel.
Local Open Scope string_scope.
Local Open Scope nat_scope.

Section SpecTree.
  Context {F : arith}.
  Implicit Types (t : tree F) (heap : list (node F)).

  (** node [i] is in the model *)
  Definition in_model t (i : nat) : Prop := exists key, In (key, i) (t_all t).

  (** [parts] are the names on the way from the top of the tree to node [i] *)
  Inductive spells heap : nat -> list string -> Prop :=
  | spells_top i nd : nth_error heap i = Some nd -> nd_parent nd = None -> spells heap i [nd_name nd]
  | spells_child i nd p parts : nth_error heap i = Some nd -> nd_parent nd = Some p ->
      spells heap p parts -> spells heap i (parts ++ [nd_name nd])%list.

  (** some node of the model names [i] as its parent *)
  Definition has_child t (i : nat) : Prop :=
    exists c nd, in_model t c /\ nth_error (t_heap t) c = Some nd /\ nd_parent nd = Some i.

  (** the two ways of writing a full name *)
  Definition spec_key t (name : string) (parent : option nat) (key : string) : Prop :=
    match parent with
    | None => key = name
    | Some p => exists pkey, In (pkey, p) (t_all t) /\ key = pkey ++ "." ++ name
    end.

  (** The consistency of C24 *)
  Definition tree_consistent t : Prop :=
    NoDup (map fst (t_all t)) /\ NoDup (map snd (t_all t)) /\
    (forall i, In i (t_top t) <-> exists nd, in_model t i /\ nth_error (t_heap t) i = Some nd /\ nd_parent nd = None) /\
    forall key i, In (key, i) (t_all t) ->
      exists nd, nth_error (t_heap t) i = Some nd /\
        spec_key t (nd_name nd) (nd_parent nd) key /\
        (nd_level nd = match nd_parent nd with
                       | None => 1
                       | Some p => S (level_of (t_heap t) p) end) /\
        (nd_children nd <> [] <-> has_child t i) /\
        nlt F (nzero F) (nd_scale nd) = true /\ nle F (nd_scale nd) (none_ F) = true /\
        has_dot (nd_name nd) = false /\ nd_name nd <> "_".

  (** ** Histories: the calls allowed in the claim.  A call may fail (the model then keeps the
      state the failing call leaves); handles are nodes currently in the model; a name is new,
      or (with valid arguments) names a childless choice. *)
  Definition valid_args (name : string) (scale : num F) : Prop :=
    has_dot name = false /\ name <> "_" /\
    nlt F (nzero F) scale = true /\ nle F scale (none_ F) = true.

  Definition is_key t (key : string) : Prop := In key (map fst (t_all t)).

  (** every name is new *)
  Definition fresh_op t (o : op F) : Prop :=
    match o with
    | AddChoice name _ => ~ is_key t name
    | AddChoices names _ _ => NoDup names /\ forall name, In name names -> ~ is_key t name
    | NodeAdd p name _ => p < length (t_heap t) /\ forall pkey, In (pkey, p) (t_all t) -> ~ is_key t (pkey ++ "." ++ name)
    | SetScale p _ => p < length (t_heap t)
    | PartialUtilities => True
    end.

  (** additionally, a childless choice may be replaced *)
  Definition replacing_op t (o : op F) : Prop :=
    match o with
    | AddChoice name scale =>
        is_key t name -> valid_args name scale /\ forall i, In (name, i) (t_all t) -> ~ has_child t i
    | AddChoices names _ _ => NoDup names /\ forall name, In name names -> ~ is_key t name
    | NodeAdd p name scale =>
        exists pkey, In (pkey, p) (t_all t) /\
          (is_key t (pkey ++ "." ++ name) -> valid_args name scale /\
             forall i, In (pkey ++ "." ++ name, i) (t_all t) -> ~ has_child t i)
    | SetScale p _ => in_model t p
    | PartialUtilities => True
    end.

  Fixpoint history (allowed : tree F -> op F -> Prop) t (l : list (op F)) : Prop :=
    match l with
    | [] => True
    | o :: rest => allowed t o /\ history allowed (run_op F t o) rest
    end.

  (** the label of a node in a model of the given depth: its name in a flat model, else the
      names on its path padded with "." *)
  Definition label_spec t (depth i : nat) (lab : label) : Prop :=
    exists parts, spells (t_heap t) i parts /\
      lab = if depth =? 1 then Flat (last parts "") else Tup (parts ++ repeat "." (depth - length parts))%list.

  (** a choice is feasible when its utility is not -inf and, if it is a nest, one of its
      children is feasible; [us] lists the utilities in the order of the model's choices *)
  Inductive choice_feasible t (us : list (option Rdefinitions.R)) : nat -> Prop :=
  | cf_leaf k i : nth_error (map snd (t_all t)) k = Some i -> nth k us None <> None ->
      ~ has_child t i -> choice_feasible t us i
  | cf_nest k i c nd : nth_error (map snd (t_all t)) k = Some i -> nth k us None <> None ->
      nth_error (t_heap t) c = Some nd -> nd_parent nd = Some i -> choice_feasible t us c ->
      choice_feasible t us i.
End SpecTree.
