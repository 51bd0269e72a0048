(** Specification vocabulary for the scope: labelled matrices, row and column vectors. *)
From Verif Require Import Prelude ExprModel ScopeModel.
Local Open Scope nat_scope.
Local Open Scope list_scope.

(** entry (r, c) of a matrix given by its rows *)
Definition at2 {A} (m : list (list A)) (r c : nat) : option A :=
  match nth_error m r with Some row => nth_error row c | None => None end.

Definition rectangle {A} (n k : nat) (m : list (list A)) : Prop :=
  length m = n /\ Forall (fun row => length row = k) m.

(** [d] is the column of the values [v], or the row of the values [v] *)
Definition column_vector {cell num} (v : list cell) (d : data (cell:=cell) (num:=num)) : Prop :=
  exists m, d = DArr (length v) 1 m /\ rectangle (length v) 1 m /\ forall r, at2 m r 0 = nth_error v r.
Definition row_vector {cell num} (v : list cell) (d : data (cell:=cell) (num:=num)) : Prop :=
  exists m, d = DArr 1 (length v) m /\ rectangle 1 (length v) m /\ forall c, at2 m 0 c = nth_error v c.

Section Frames.
  Context {L D cell num : Type} (FR : frames L D cell).
  (** a DataFrame without repeated labels *)
  Record proper_frame (t : fr FR) : Prop := ProperFrame {
    pf_cells : rectangle (length (fr_index FR t)) (length (fr_columns FR t)) (fr_cells FR t);
    pf_index : NoDup (fr_index FR t);
    pf_columns : NoDup (fr_columns FR t)
  }.
  (** The labels of a matrix symbol's data along the decision units and along the choices, and the entry at
      two positions; with [orientation] = 1 the frame is given transposed. *)
  Definition unit_labels (orientation : bool) (t : fr FR) : list D := if orientation then fr_columns FR t else fr_index FR t.
  Definition choice_labels (orientation : bool) (t : fr FR) : list D := if orientation then fr_index FR t else fr_columns FR t.
  Definition entry_at (orientation : bool) (t : fr FR) (i j : nat) : option cell :=
    if orientation then at2 (fr_cells FR t) j i else at2 (fr_cells FR t) i j.

  (** [m] holds, for every decision unit and choice, the entry of the frame with these labels, and the
      fill value when the frame has none *)
  Definition aligned_by_label (orientation : bool) (t : fr FR) (rows cols : list D) (fill : cell) (m : list (list cell)) : Prop :=
    rectangle (length rows) (length cols) m /\
    forall r c x y, nth_error rows r = Some x -> nth_error cols c = Some y ->
      (forall i j, nth_error (unit_labels orientation t) i = Some x -> nth_error (choice_labels orientation t) j = Some y ->
         at2 m r c = entry_at orientation t i j) /\
      (~ In x (unit_labels orientation t) \/ ~ In y (choice_labels orientation t) -> at2 m r c = Some fill).
End Frames.
