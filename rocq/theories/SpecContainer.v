(** Specification of expression containers: plain values, nothing shared. *)
From Verif Require Import Prelude.
Local Open Scope string_scope.
Local Open Scope nat_scope.
Local Open Scope list_scope.

Section Plain.
  Context {X : Type}.
  (** the expressions without a group, and the groups in order of first use *)
  Record plain_container : Type := PlainContainer { p_ungrouped : list X; p_groups : list (string * list X) }.
  Definition empty_container : plain_container := PlainContainer [] [].

  Fixpoint add_to (g : string) (x : X) (l : list (string * list X)) : list (string * list X) :=
    match l with
    | [] => [(g, [x])]
    | (n, xs) :: t => if string_dec n g then (n, xs ++ [x]) :: t else (n, xs) :: add_to g x t
    end.
  Definition p_append (x : X) (group : option string) (c : plain_container) : plain_container :=
    match group with
    | None => PlainContainer (p_ungrouped c ++ [x]) (p_groups c)
    | Some g => PlainContainer (p_ungrouped c) (add_to g x (p_groups c))
    end.
  Definition p_drop (g : string) (c : plain_container) : plain_container :=
    PlainContainer (p_ungrouped c) (filter (fun p => negb (if string_dec (fst p) g then true else false)) (p_groups c)).
  (** every expression, in order of evaluation *)
  Definition p_all (c : plain_container) : list X := p_ungrouped c ++ concat (map snd (p_groups c)).
  Fixpoint p_group (g : string) (l : list (string * list X)) : option (list X) :=
    match l with [] => None | (n, xs) :: t => if string_dec n g then Some xs else p_group g t end.

  (** several containers *)
  Inductive plain_op : Type :=
  | PNew
  | PAppend (i : nat) (x : X) (g : option string)
  | PRejected (i : nat)
  | PClear (i : nat)
  | PDrop (i : nat) (g : string)
  | PCopy (i : nat).
  Definition p_step (w : list plain_container) (o : plain_op) : list plain_container :=
    match o with
    | PNew => w ++ [empty_container]
    | PAppend i x g => upd w i (p_append x g (nth i w empty_container))
    | PRejected _ => w
    | PClear i => upd w i empty_container
    | PDrop i g => upd w i (p_drop g (nth i w empty_container))
    | PCopy i => w ++ [nth i w empty_container]
    end.
  Definition p_run (ops : list plain_op) : list plain_container := fold_left p_step ops [].
End Plain.
Arguments plain_container : clear implicits. Arguments plain_op : clear implicits.
