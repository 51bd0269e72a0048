(** Model of more methods of linked frames: [link_summary], [get_link_target], [pivot_table] and
    [temporary_fill_defaults]. *)
From Verif Require Import Prelude ExprModel ScopeModel LdfModel.
Local Open Scope string_scope.
Local Open Scope nat_scope.
Local Open Scope list_scope.

(** one row of the table that [link_summary] gives (api.py 764-774).  The texts of 771-772 are functions of
    the labels and of the flag that they are made of (43-46), which stand for them. *)
Record summary_row : Type := SummaryRow {
  sr_name : string;
  sr_shape : nat * nat;
  sr_self : meta;
  sr_other : meta;
  sr_chained : bool;
  sr_agg : bool;
  sr_preindexed : bool
}.

(** what [pivot_table] is given for [values], [index] or [columns]: nothing, a name, a list or a tuple of
    names, an array or a Series.  Other objects (groupers, functions, dicts) are not modelled. *)
Inductive pitem : Type := PNone | PStr (s : string) | PList (l : list string) | PTuple (l : list string) | PArray.

Section More.
  Context {L V : Type} (E : venv L V).
  Notation key := (list V).
  Notation lworld := (@lworld V).
  Notation fills := (dtype -> V).

  (** api.py 831-845 [get_link_target]; a plain frame has no such method *)
  Definition get_link_target (w : lworld) (f : nat) (name : string) : res nat :=
    do fr <- get_frame w f;
    do _ <- check (f_ldf fr) AttributeError;
    do lk <- get_link w f name;
    Ok (lk_other lk).

  (** api.py 752-778 [link_summary] *)
  Definition link_summary (w : lworld) (f : nat) : res (list summary_row) :=
    do fr <- get_frame w f;
    do _ <- check (f_ldf fr) AttributeError;
    rmapl (fun p : string * link => let (name, lk) := p in
      do gr <- get_frame w (lk_other lk);
      Ok (SummaryRow name (nrows gr, length (f_cols gr)) (lk_self lk) (lk_target lk) (lk_chained lk) (lk_agg lk)
                     (match lk_flat lk with Some _ => true | None => false end))) (f_links fr).

  (** api.py 824-828: the loop over the items of a list or of a tuple.  824 tests whether the whole
      collection is a column: a list cannot be hashed, and a tuple is not a name *)
  Fixpoint resolve_items (fuel : nat) (w : lworld) (f : nat) (hashable : bool) (l : list string) (cols : dict string (@item V)) : lworld * res (dict string (@item V)) :=
    match l with
    | [] => (w, Ok cols)
    | s :: t =>
        if hashable then
          match evaluate E fuel w f (XText s) [] with
          | (w1, Ok c) => resolve_items fuel w1 f hashable t (dset String.eqb cols s (ISeries c))
          | (w1, Err x) => (w1, Err x)
          end
        else (w, Err TypeError)
    end.
  (** api.py 806-829 [_resolve_columns], added to the columns found before (794-800) *)
  Definition resolve_columns (fuel : nat) (w : lworld) (f : nat) (i : pitem) (cols : dict string (@item V)) : lworld * res (dict string (@item V)) :=
    match i with
    | PNone | PArray => (w, Ok cols)
    | PStr s =>
        match get_frame w f with
        | Err x => (w, Err x)
        | Ok fr =>
            if dmem String.eqb (f_cols fr) s then
              match frame_item w f s with
              | Ok it => (w, Ok (dset String.eqb cols s it))
              | Err x => (w, Err x)
              end
            else match evaluate E fuel w f (XText s) [] with
                 | (w1, Ok c) => (w1, Ok (dset String.eqb cols s (ISeries c)))
                 | (w1, Err x) => (w1, Err x)
                 end
        end
    | PList l => resolve_items fuel w f false l cols
    | PTuple l => resolve_items fuel w f true l cols
    end.
  (** api.py 792-804 [pivot_table]; [pandas] is [DataFrame(columns, index).pivot_table(...)] of pandas *)
  Definition pivot_table {T} (pandas : dict string (@item V) -> list (option string) -> list key -> pitem -> pitem -> pitem -> res T)
      (fuel : nat) (w : lworld) (f : nat) (values index columns : pitem) : lworld * res T :=
    match (do fr <- get_frame w f; do _ <- check (f_ldf fr) AttributeError; Ok fr) with
    | Err x => (w, Err x)
    | Ok fr =>
        match resolve_columns fuel w f values [] with
        | (w1, Err x) => (w1, Err x)
        | (w1, Ok c1) =>
            match resolve_columns fuel w1 f index c1 with
            | (w2, Err x) => (w2, Err x)
            | (w2, Ok c2) =>
                match resolve_columns fuel w2 f columns c2 with
                | (w3, Err x) => (w3, Err x)
                | (w3, Ok c3) => (w3, pandas c3 (f_levels fr) (f_index fr) values index columns)
                end
            end
        end
    end.

  (** missing_data.py 82-93 [SeriesFillManager.temporary_fill_defaults].  There is no [yield] in it, so the
      decorator of 82 makes calling it run the whole of 84-93, and entering what it returns raises
      TypeError.  Lines 86-90: *)
  Fixpoint temporary_set (m : fills) (previous : dict dtype V) (kw : list (string * V)) : fills * dict dtype V * res unit :=
    match kw with
    | [] => (m, previous, Ok tt)
    | (s, x) :: t =>
        match dtype_named s with
        | None => (m, previous, Err KeyError)
        | Some d => temporary_set (fun d' => if dtype_eqb d d' then x else m d') (dset dtype_eqb previous d (m d)) t
        end
    end.
  Definition restore (m : fills) (previous : dict dtype V) : fills :=
    fold_left (fun m p => fun d' => if dtype_eqb (fst p) d' then snd p else m d') previous m.
  Definition temporary_fill_defaults (m : fills) (kw : list (string * V)) : fills * res unit :=
    match temporary_set m [] kw with (m1, previous, r) => (restore m1 previous, r) end.
  (** [with manager.temporary_fill_defaults(...): body]; the body is never reached *)
  Definition with_manager {B} (m : fills) (kw : list (string * V)) (body : fills -> fills * res B) : fills * res B :=
    match temporary_fill_defaults m kw with
    | (m1, Err x) => (m1, Err x)
    | (m1, Ok _) => (m1, Err TypeError)
    end.
  (** api.py 387-389: a generator function.  [with frame.temporary_fill_defaults(...): body] calls it, which
      runs nothing, and fails because a generator has no [__enter__] *)
  Definition with_frame {B} (w : lworld) (f : nat) (kw : list (string * V)) (body : lworld -> lworld * res B) : lworld * res B :=
    (w, Err AttributeError).
End More.
