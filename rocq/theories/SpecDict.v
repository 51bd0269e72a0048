(** Specification of dict literals over choices. *)
From Verif Require Import Prelude ExprModel SpecExpr.
Local Open Scope string_scope.
Local Open Scope nat_scope.
Local Open Scope list_scope.

(** [p] is a node strictly below [k] (paths from the top) *)
Fixpoint below (k p : list string) : bool :=
  match k, p with
  | [], _ :: _ => true
  | x :: k', y :: p' => if string_dec x y then below k' p' else false
  | _, [] => false
  end.

(** How a key of a dict literal concerns the node with path [p]:
    - the key [A.B] gives its value to the node A.B;
    - the key [A.B._] gives its value to every node strictly below A.B and (as the code does it)
      resets A.B itself to 0. *)
Inductive effect := Gives | Resets | Nothing.
Fixpoint wildcard (key : list string) : option (list string) :=
  match key with
  | [] => None
  | k :: t => if string_dec k "_" then Some [] else match wildcard t with Some l => Some (k :: l) | None => None end
  end.
Definition concerns (key p : list string) : effect :=
  match wildcard key with
  | Some k => if list_eq_dec string_dec k p then Resets else if below k p then Gives else Nothing
  | None => if list_eq_dec string_dec key p then Gives else Nothing
  end.
(** the node a key is about *)
Definition about (key : list string) : list string := match wildcard key with Some k => k | None => key end.

Section Values.
  Context {L V : Type} (zero : V) (value : bool -> L -> V).
  (** flat model: the last value given for the choice, or 0 *)
  Definition flat_value (l : list (list string * (bool * L))) (c : string) : V :=
    match last_value [c] l with Some (neg, n) => value neg n | None => zero end.
  (** nested model: the entries take effect in order *)
  Definition node_value (l : list (list string * (bool * L))) (p : list string) : V :=
    fold_left (fun acc e => match concerns (fst e) p with
                            | Gives => value (fst (snd e)) (snd (snd e))
                            | Resets => zero
                            | Nothing => acc
                            end) l zero.
End Values.

(** the paths of the nodes of a tree with at most [n] levels *)
Definition tree_paths (n : nat) (nodes : list (list string)) : Prop :=
  NoDup nodes /\ Forall (fun p => p <> [] /\ length p <= n /\ ~ In "." p) nodes.
(** the label of a node: its path padded with "." *)
Definition padded (n : nat) (p : list string) : list string := p ++ repeat "." (n - length p).
