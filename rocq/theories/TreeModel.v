(** Model of the choice tree: ChoiceNode (cheval/api.py 24-109) and the tree operations of
    ChoiceModel (cheval/model.py 77-215, 341-349, 614-620).

    Python objects live in a heap: a node is its position in the list [t_heap] (allocation
    order; nothing is ever freed).  Every operation returns the new state together with its
    result, so a state left behind by a raised exception is visible. *)
From Coq Require Import Ascii.
From Verif Require Import Prelude Arith CoreModel.
Local Open Scope string_scope.
Local Open Scope nat_scope.

(** ['.' in name] *)
Fixpoint has_dot (s : string) : bool :=
  match s with
  | EmptyString => false
  | String c t => if Ascii.eqb c "."%char then true else has_dot t
  end.

(** ['.'.join(ids)] *)
Fixpoint join (l : list string) : string :=
  match l with
  | [] => ""
  | [x] => x
  | x :: t => x ++ "." ++ join t
  end.

Section Tree.
  Context (F : arith).
  Notation num := (num F).

  (** api.py 32-39: the attributes of a ChoiceNode ([_root] is the model) *)
  Record node : Type := Node {
    nd_name : string;
    nd_parent : option nat;
    nd_scale : num;
    nd_level : nat;
    nd_children : dict string nat
  }.

  (** column labels: [pd.Index(names)] for a flat model, tuples for a nested one *)
  Inductive label : Type := Flat (name : string) | Tup (parts : list string).

  (** model.py 31-45.  [t_cached]: columns of [_cached_utils], when a table is cached
      ([_cached_cols] is never assigned anything but None). *)
  Record tree : Type := Tree {
    t_heap : list node;
    t_all : dict string nat;                (* _all_nodes: full name -> node *)
    t_top : list nat;                       (* _top_nodes, a set *)
    t_cached : option (list label)
  }.
  Definition new_tree : tree := Tree [] [] [] None.

  (** api.py 74-80 [full_name]: names from the top down to the node; the walk up the parents
      is bounded by the number of allocated nodes (parents are allocated before children) *)
  Fixpoint path_of (fuel : nat) (heap : list node) (id : nat) : list string :=
    match fuel with
    | O => []
    | S fuel' =>
        match nth_error heap id with
        | None => []
        | Some nd =>
            match nd_parent nd with
            | None => [nd_name nd]
            | Some p => path_of fuel' heap p ++ [nd_name nd]
            end
        end
    end.
  Definition path (heap : list node) (id : nat) : list string := path_of (S id) heap id.
  Definition full_name (heap : list node) (id : nat) : string := join (path heap id).

  (** api.py 28-30: the assertions of ChoiceNode.__init__ (and of the scale setter, 50) *)
  Definition scale_ok (s : num) : bool := andb (nlt F (nzero F) s) (nle F s (none_ F)).
  Definition name_ok (name : string) : bool := andb (negb (has_dot name)) (negb (String.eqb name "_")).

  (** set removal; [None] when absent (KeyError) *)
  Fixpoint set_remove (l : list nat) (x : nat) : option (list nat) :=
    match l with
    | [] => None
    | y :: t => if Nat.eqb x y then Some t
                else match set_remove t x with Some t' => Some (y :: t') | None => None end
    end.
  Definition set_add (l : list nat) (x : nat) : list nat := if existsb (Nat.eqb x) l then l else l ++ [x].

  Definition level_of (heap : list node) (id : nat) : nat :=
    match nth_error heap id with Some nd => nd_level nd | None => 0 end.

  (** model.py 90-93 and api.py 26-39: construct the node and register it *)
  Definition new_node (t : tree) (key name : string) (scale : num) (parent : option nat) (level : nat)
    : tree * res nat :=
    if andb (name_ok name) (scale_ok scale) then
      let id := length (t_heap t) in
      (Tree (t_heap t ++ [Node name parent scale level []]) (dset String.eqb (t_all t) key id)
            (t_top t) (t_cached t), Ok id)
    else (t, Err AssertionError).

  (** model.py 79-93 [_create_node] *)
  Definition create_node (t : tree) (name : string) (scale : num) (parent : option nat) : tree * res nat :=
    match parent with
    | None =>
        match dget String.eqb (t_all t) name with
        | Some old =>
            let t1 := Tree (t_heap t) (ddel String.eqb (t_all t) name) (t_top t) (t_cached t) in
            match set_remove (t_top t) old with
            | None => (t1, Err KeyError)
            | Some top' => new_node (Tree (t_heap t) (t_all t1) top' (t_cached t)) name name scale None 1
            end
        | None => new_node t name name scale None 1
        end
    | Some p =>
        let key := full_name (t_heap t) p ++ "." ++ name in
        let t1 := if dmem String.eqb (t_all t) key
                  then Tree (t_heap t) (ddel String.eqb (t_all t) key) (t_top t) (t_cached t) else t in
        new_node t1 key name scale (Some p) (S (level_of (t_heap t) p))
    end.

  Definition drop_cache (t : tree) : tree := Tree (t_heap t) (t_all t) (t_top t) None.
  Definition add_top (t : tree) (id : nat) : tree :=
    Tree (t_heap t) (t_all t) (set_add (t_top t) id) (t_cached t).

  (** model.py 95-118 [ChoiceModel.add_choice] *)
  Definition add_choice (t : tree) (name : string) (scale : num) : tree * res nat :=
    match create_node (drop_cache t) name scale None with
    | (t', Ok id) => (add_top t' id, Ok id)
    | (t', Err e) => (t', Err e)
    end.

  (** model.py 142-146: the loop of [add_choices] *)
  Fixpoint add_pairs (t : tree) (l : list (string * num)) : tree * res (list nat) :=
    match l with
    | [] => (t, Ok [])
    | (name, scale) :: rest =>
        match create_node t name scale None with
        | (t', Err e) => (t', Err e)
        | (t', Ok id) =>
            match add_pairs (add_top t' id) rest with
            | (t'', Ok ids) => (t'', Ok (id :: ids))
            | (t'', Err e) => (t'', Err e)
            end
        end
    end.

  (** model.py 120-146 [ChoiceModel.add_choices].  [once]: [names] is a one-shot iterator
      (a generator), which [[1.0 for _ in names]] exhausts. *)
  Definition add_choices (t : tree) (names : list string) (once : bool) (scales : option (list num))
    : tree * res (list nat) :=
    let '(names', scales') :=
      match scales with
      | Some s => (names, s)
      | None => (if once then [] else names, map (fun _ => none_ F) names)
      end in
    add_pairs (drop_cache t) (combine names' scales').

  (** api.py 103-106 [ChoiceNode.add_choice] on the node [p] *)
  Definition set_child (heap : list node) (p : nat) (name : string) (id : nat) : list node :=
    match nth_error heap p with
    | Some nd => upd heap p (Node (nd_name nd) (nd_parent nd) (nd_scale nd) (nd_level nd)
                                  (dset String.eqb (nd_children nd) name id))
    | None => heap
    end.
  Definition node_add_choice (t : tree) (p : nat) (name : string) (scale : num) : tree * res nat :=
    match create_node t name scale (Some p) with
    | (t', Ok id) => (Tree (set_child (t_heap t') p name id) (t_all t') (t_top t') (t_cached t'), Ok id)
    | (t', Err e) => (t', Err e)
    end.

  (** api.py 48-51: the [logsum_scale] setter of the node [p] *)
  Definition set_scale (t : tree) (p : nat) (scale : num) : tree * res unit :=
    if scale_ok scale then
      match nth_error (t_heap t) p with
      | Some nd => (Tree (upd (t_heap t) p (Node (nd_name nd) (nd_parent nd) scale (nd_level nd) (nd_children nd)))
                         (t_all t) (t_top t) (t_cached t), Ok tt)
      | None => (t, Ok tt)
      end
    else (t, Err AssertionError).

  (** api.py 66-71 *)
  Definition n_children (heap : list node) (id : nat) : nat :=
    match nth_error heap id with Some nd => length (nd_children nd) | None => 0 end.
  Definition is_parent (heap : list node) (id : nat) : bool := negb (Nat.eqb (n_children heap id) 0).

  (** the nodes in the order of [_all_nodes] *)
  Definition ids (t : tree) : list nat := dvals (t_all t).

  (** model.py 345-349: the tree part of [validate] *)
  Definition validate_tree (t : tree) : res unit :=
    if negb (2 <=? length (t_top t)) then Err ModelNotReady
    else if existsb (fun id => Nat.eqb (n_children (t_heap t) id) 1) (ids t) then Err ModelNotReady
    else Ok tt.

  (** model.py 186-188 [depth]: [max] of an empty sequence raises ValueError *)
  Definition depth (t : tree) : res nat :=
    match ids t with
    | [] => Err ValueError
    | l => Ok (fold_left Nat.max (map (level_of (t_heap t)) l) 0)
    end.

  (** api.py 93-101 [nested_id].  The slices cover the same positions on both sides; the store
      at [cutoff - 2] is in range because the level is at most [max_level]. *)
  Fixpoint nested_id_of (fuel : nat) (heap : list node) (max_level id : nat) : list string :=
    match fuel with
    | O => []
    | S fuel' =>
        match nth_error heap id with
        | None => []
        | Some nd =>
            let retval := repeat "." max_level in
            match nd_parent nd with
            | None => upd retval 0 (nd_name nd)
            | Some p =>
                let cutoff := nd_level nd + 1 in
                upd (firstn cutoff (nested_id_of fuel' heap max_level p) ++ skipn cutoff retval)
                    (cutoff - 2) (nd_name nd)
            end
        end
    end.
  Definition nested_id (heap : list node) (max_level id : nat) : list string :=
    nested_id_of (S id) heap max_level id.

  (** model.py 148-166 [choices] *)
  Definition choices (t : tree) : res (list label) :=
    do _ <- validate_tree t;
    do d <- depth t;
    Ok (if d =? 1 then map Flat (dkeys (t_all t))
        else map (fun id => Tup (nested_id (t_heap t) d id)) (ids t)).

  (** model.py 168-183 [elemental_choices] *)
  Definition elemental_choices (t : tree) : res (list label) :=
    do d <- depth t;
    if d =? 1 then choices t
    else Ok (map (fun id => Tup (nested_id (t_heap t) d id))
                 (filter (fun id => negb (is_parent (t_heap t) id)) (ids t))).

  (** model.py 201: [{node.full_name: i for i, node in enumerate(...)}] *)
  Definition node_positions (t : tree) : dict string nat :=
    fold_left (fun d (iv : nat * nat) => dset String.eqb d (full_name (t_heap t) (snd iv)) (fst iv))
              (combine (seq 0 (length (ids t))) (ids t)) [].

  (** model.py 203-213: one node of the loop of [_flatten] *)
  Definition flat := (list Z * list nat * list num * list bool)%type.
  Definition flatten_node (t : tree) (np : dict string nat) (acc : res flat) (id : nat) : res flat :=
    do (h, lv, sc, bt) <- acc;
    match nth_error (t_heap t) id, dget String.eqb np (full_name (t_heap t) id) with
    | Some nd, Some pos =>
        let lv' := upd lv pos (nd_level nd - 1) in
        do h' <- match nd_parent nd with
                 | None => Ok h
                 | Some p => match dget String.eqb np (full_name (t_heap t) p) with
                             | Some pp => Ok (upd h pos (Z.of_nat pp))
                             | None => Err KeyError
                             end
                 end;
        if is_parent (t_heap t) id
        then Ok (h', lv', upd sc pos (nd_scale nd), upd bt pos false)
        else Ok (h', lv', sc, bt)
    | _, _ => Err KeyError
    end.

  (** model.py 190-215 [_flatten] *)
  Definition flatten (t : tree) : res flat :=
    do max_level <- depth t;
    if negb (1 <? max_level) then Err AssertionError
    else
      let n := length (t_all t) in
      fold_left (flatten_node t (node_positions t)) (ids t)
        (Ok (repeat (-1)%Z n, repeat 0 n, repeat (none_ F) n, repeat true n)).

  (** model.py 65-75 [_partial_utilities]: only the columns of the cached table are tracked
      here (the decision units are assumed to be set) *)
  Definition partial_utilities (t : tree) : tree * res (list label) :=
    match validate_tree t with
    | Err e => (t, Err e)
    | Ok _ =>
        match t_cached t with
        | Some cols => (t, Ok cols)
        | None =>
            match choices t with
            | Err e => (t, Err e)
            | Ok cols => (Tree (t_heap t) (t_all t) (t_top t) (Some cols), Ok cols)
            end
        end
    end.

  Definition label_eqb (a b : label) : bool :=
    match a, b with
    | Flat x, Flat y => String.eqb x y
    | Tup x, Tup y => if list_eq_dec string_dec x y then true else false
    | _, _ => false
    end.

  (** model.py 614-620 [_build_nested_stochastic_frame], one row: the (label, value) pairs whose
      label is among the elemental choices *)
  Definition nested_frame_row (t : tree) (row : list num) : res (list (label * num)) :=
    do elemental <- elemental_choices t;
    do cols <- choices t;
    Ok (filter (fun lv => existsb (label_eqb (fst lv)) elemental) (combine cols row)).

  (** model.py 597-612: one row of the probability table of [run_stochastic], from its
      evaluated utilities *)
  Definition stochastic_row (t : tree) (utilities : list num) (scale_utilities check_infeasible : bool)
    : res (list (label * num)) :=
    do d <- depth t;
    if 1 <? d then
      do (h, lv, sc, bt) <- flatten t;
      do (p, _, _) <- nested_probabilities F h lv sc bt scale_utilities utilities check_infeasible;
      nested_frame_row t p
    else
      do (p, _, _) <- multinomial_probabilities F utilities check_infeasible;
      do cols <- choices t;
      Ok (combine cols p).

  (** ** Histories of tree operations *)
  Inductive op : Type :=
  | AddChoice (name : string) (scale : num)
  | AddChoices (names : list string) (once : bool) (scales : option (list num))
  | NodeAdd (p : nat) (name : string) (scale : num)
  | SetScale (p : nat) (scale : num)
  | PartialUtilities.

  Definition run_op (t : tree) (o : op) : tree :=
    match o with
    | AddChoice name scale => fst (add_choice t name scale)
    | AddChoices names once scales => fst (add_choices t names once scales)
    | NodeAdd p name scale => fst (node_add_choice t p name scale)
    | SetScale p scale => fst (set_scale t p scale)
    | PartialUtilities => fst (partial_utilities t)
    end.
  Definition run_ops (t : tree) (l : list op) : tree := fold_left run_op l t.
End Tree.

Arguments Node {F}. Arguments nd_name {F}. Arguments nd_parent {F}. Arguments nd_scale {F}.
Arguments nd_level {F}. Arguments nd_children {F}.
Arguments Tree {F}. Arguments t_heap {F}. Arguments t_all {F}. Arguments t_top {F}. Arguments t_cached {F}.
Arguments new_tree {F}. Arguments path {F}. Arguments full_name {F}. Arguments level_of {F}.
Arguments n_children {F}. Arguments is_parent {F}. Arguments ids {F}. Arguments nested_id {F}.
Arguments depth {F}. Arguments choices {F}. Arguments elemental_choices {F}. Arguments validate_tree {F}.
Arguments AddChoice {F}. Arguments AddChoices {F}. Arguments NodeAdd {F}. Arguments SetScale {F}. Arguments PartialUtilities {F}.
