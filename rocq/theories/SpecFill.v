(** Specification vocabulary for fill values: what a history of settings amounts to.  A history is the list
    of its operations with what each of them returned. *)
From Verif Require Import Prelude ExprModel ScopeModel LdfModel SpecLdf.
Local Open Scope string_scope.
Local Open Scope nat_scope.
Local Open Scope list_scope.

Section Fill.
  Context {L V : Type} (E : venv L V).
  Notation done := (prod (@lop L V) (res (@lout V))).

  (** the operations of a history with their results *)
  Definition trace (fuel : nat) (os : list (@lop L V)) : list done := combine os (snd (lrun E fuel (new_lworld E) os)).

  (** the last [set_column_fill] of this column of the frame that did not raise *)
  Definition column_setting (tr : list done) (g : nat) (s : string) : option V :=
    fold_left (fun cur p => match p with
      | (LColumnFill f s' x, Ok _) => if andb (f =? g) (String.eqb s' s) then Some x else cur
      | _ => cur
      end) tr None.

  (** the keyword arguments of [set_fill_defaults] before the first unknown name (which raises KeyError) *)
  Fixpoint accepted (kw : list (string * V)) : list (string * V) :=
    match kw with
    | [] => []
    | (s, x) :: t => match dtype_named s with Some _ => (s, x) :: accepted t | None => [] end
    end.
  Definition named (s : string) (d : dtype) : bool := match dtype_named s with Some d' => dtype_eqb d' d | None => false end.
  Definition set_default (kw : list (string * V)) (d : dtype) (cur : V) : V :=
    fold_left (fun cur p => if named (fst p) d then snd p else cur) (accepted kw) cur.

  (** [set_fill_defaults] and [reset_fill_defaults] of one frame: the last one counts *)
  Definition instance_setting (tr : list done) (g : nat) (d : dtype) : V :=
    fold_left (fun cur p => match p with
      | (LFill f kw, Ok _) | (LFill f kw, Err KeyError) => if f =? g then set_default kw d cur else cur
      | (LReset f, Ok _) => if f =? g then v_default E d else cur
      | _ => cur
      end) tr (v_default E d).

  (** [LinkedDataFrame.set_fill_defaults] and [LinkedDataFrame.reset_fill_defaults] *)
  Definition class_setting (tr : list done) (d : dtype) : V :=
    fold_left (fun cur p => match p with
      | (LClassFill kw, _) => set_default kw d cur
      | (LClassReset, _) => v_default E d
      | _ => cur
      end) tr (v_default E d).

  (** the documented precedence *)
  Definition documented_fill (tr : list done) (g : nat) (is_ldf : bool) (s : string) (d : dtype) : V :=
    if is_ldf then match column_setting tr g s with Some x => x | None => instance_setting tr g d end
    else class_setting tr d.

  Definition sets_fill (o : @lop L V) : bool :=
    match o with LColumnFill _ _ _ | LFill _ _ | LReset _ | LClassFill _ | LClassReset => true | _ => false end.
End Fill.
