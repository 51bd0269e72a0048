(** Specification for C89: utilities given as tables, by label. *)
From Verif Require Import Prelude Arith TreeModel ParModel ScopeModel SpecScope ModelModel SpecModel.
Local Open Scope nat_scope.
Local Open Scope list_scope.

Section Spec.
  Context {L : Type} {F : arith} {D cell : Type} (E : env L F D cell).
  (** a table: labels of its rows, labels of its columns, cells *)
  Record given : Type := Given { gv_rows : list D; gv_cols : list D; gv_cells : list (list (num F)) }.
  Definition well_given (g : given) : Prop := NoDup (gv_rows g) /\ NoDup (gv_cols g) /\ rectangle (length (gv_rows g)) (length (gv_cols g)) (gv_cells g).
  (** what the table says about decision unit [r] and the choice labelled [c]; nothing if it does not mention them *)
  Definition says (g : given) (r c : D) (v : option (num F)) : Prop :=
    (exists i j, nth_error (gv_rows g) i = Some r /\ nth_error (gv_cols g) j = Some c /\ v = Some (tcell (gv_cells g) i j)) \/
    (~ (In r (gv_rows g) /\ In c (gv_cols g)) /\ v = None).
  (** the tables added up one after the other, from [acc] *)
  Inductive given_total (r c : D) : list given -> num F -> num F -> Prop :=
  | gt_nil acc : given_total r c [] acc acc
  | gt_cons g gs v acc z : says g r c v -> given_total r c gs (match v with Some x => nadd F acc x | None => acc end) z -> given_total r c (g :: gs) acc z.

  (** Histories in which [add_partial_utilities] leaves what its parallel loop can leave: some schedule of the
      threads, with any number of them, ends with these utilities. *)
  Definition real_outcome (G : generator F) (w : mworld E) (o : mop E) : Prop :=
    match o with
    | MGive _ i rows cols cells rr rc outcome =>
        let after := give E (mw_tabs w) (model E w i) rows cols cells rr rc outcome in
        exists r, add_partial E G (mw_tabs w) (model E w i) rows cols cells rr rc (fst after) (snd after) r
    | _ => True
    end.
  Fixpoint real_history (G : generator F) (w : mworld E) (l : list (mop E)) : Prop :=
    match l with [] => True | o :: l => real_outcome G w o /\ real_history G (mstep E w o) l end.
End Spec.
Arguments given {F D}. Arguments Given {F D}.
