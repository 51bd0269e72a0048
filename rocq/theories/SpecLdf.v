(** Specification vocabulary for linked frames: the key of a row, the rows that match, what a chain of
    links reaches, the history of fill settings. *)
From Verif Require Import Prelude ExprModel ScopeModel LdfModel.
Local Open Scope string_scope.
Local Open Scope nat_scope.
Local Open Scope list_scope.

Section Spec.
  Context {L V : Type} (E : venv L V).
  Notation key := (list V).
  Notation frame := (@frame V).
  Notation lworld := (@lworld V).
  Notation column := (prod dtype (list V)).

  Definition is_frame (w : lworld) (f : nat) (fr : frame) : Prop := nth_error (lw_frames w) f = Some fr.
  Definition is_link (w : lworld) (f : nat) (name : string) (lk : link) : Prop :=
    exists fr, is_frame w f fr /\ dget String.eqb (f_links fr) name = Some lk.
  Definition is_column (fr : frame) (s : string) (c : column) : Prop := dget String.eqb (f_cols fr) s = Some c.

  (** the value in a column, or in a level of the index, at a row *)
  Definition column_value (fr : frame) (l : llabel) (i : nat) (v : V) : Prop :=
    exists s d vals, l = LName s /\ is_column fr s (d, vals) /\ nth_error vals i = Some v.
  Definition level_number (fr : frame) (l : llabel) (n : nat) : Prop :=
    n < length (f_levels fr) /\
    match l with
    | LName s => nth_error (f_levels fr) n = Some (Some s) /\ forall m, nth_error (f_levels fr) m = Some (Some s) -> m = n
    | LPos z => z = Z.of_nat n \/ z = (Z.of_nat n - Z.of_nat (length (f_levels fr)))%Z
    end.
  Definition level_value (fr : frame) (l : llabel) (i : nat) (v : V) : Prop :=
    exists n row, level_number fr l n /\ nth_error (f_index fr) i = Some row /\ nth_error row n = Some v.

  (** [k] is the key of row [i]: the whole index, or the given columns, or the given levels *)
  Definition row_key (fr : frame) (m : meta) (i : nat) (k : key) : Prop :=
    match me_labels m with
    | None => nth_error (f_index fr) i = Some k
    | Some ls => Forall2 (fun l v => if me_rows m then level_value fr l i v else column_value fr l i v) ls k
    end.

  (** row [i] of frame [f] has the key of row [j] of the target of its link *)
  Definition matches (w : lworld) (f : nat) (lk : link) (i j : nat) : Prop :=
    exists fr gr k, is_frame w f fr /\ is_frame w (lk_other lk) gr /\
      row_key fr (lk_self lk) i k /\ row_key gr (lk_target lk) j k.

  (** the frame that a chain of lookups ends in *)
  Inductive leads (w : lworld) : nat -> list string -> nat -> Prop :=
  | leads_here f : leads w f [] f
  | leads_on f s path lk g : is_link w f s lk -> leads w (lk_other lk) path g -> leads w f (s :: path) g.
  (** following the keys from row [i] of [f] along a chain of lookups: [Some j], row [j] of the last
      frame; [None], a step has no matching row *)
  Inductive reach (w : lworld) : nat -> list string -> nat -> option nat -> Prop :=
  | reach_here f i : reach w f [] i (Some i)
  | reach_on f s path lk i j o : is_link w f s lk -> matches w f lk i j -> reach w (lk_other lk) path j o -> reach w f (s :: path) i o
  | reach_missing f s path lk i : is_link w f s lk -> (forall j, ~ matches w f lk i j) -> reach w f (s :: path) i None.

  (** the fill value of a column that is the target of a link *)
  Definition fill_of (w : lworld) (gr : frame) (s : string) (d : dtype) : V :=
    if f_ldf gr then match dget String.eqb (f_colfill gr) s with Some x => x | None => f_fill gr d end
    else lw_class w d.

  (** no link of the frame has the name of one of the columns that make the key *)
  Definition unshadowed (fr : frame) (m : meta) : Prop :=
    forall ls s, me_labels m = Some ls -> me_rows m = false -> In (LName s) ls -> dget String.eqb (f_links fr) s = None.
  (** a link whose indexer is stored or can be computed when it is needed *)
  Definition readable (w : lworld) (lk : link) : Prop :=
    lk_flat lk <> None \/
    ((forall fr, is_frame w (lk_owner lk) fr -> unshadowed fr (lk_self lk)) /\ (forall gr, is_frame w (lk_other lk) gr -> unshadowed gr (lk_target lk))).
  (** a chain of links that do not aggregate, and whose targets have rows when there is something to look up *)
  Inductive lookups (w : lworld) : nat -> list string -> nat -> Prop :=
  | lookups_here f : lookups w f [] f
  | lookups_on f s path lk g fr gr : is_link w f s lk -> lk_agg lk = false -> readable w lk -> is_frame w f fr -> is_frame w (lk_other lk) gr ->
      (nrows gr = 0 -> nrows fr = 0) -> lookups w (lk_other lk) path g -> lookups w f (s :: path) g.

  (** [after os]: the state after a history *)
  Definition after (fuel : nat) (os : list lop) : lworld := fst (lrun E fuel (new_lworld E) os).
  Definition reachable (fuel : nat) (w : lworld) : Prop := exists os, w = after fuel os.

  (** two states that differ only in the stored indexers of links *)
  Definition drop_caches (fr : frame) : frame := with_links fr (map (fun p => (fst p, copy_meta (snd p))) (f_links fr)).
  Definition same_data (w w' : lworld) : Prop :=
    map drop_caches (lw_frames w) = map drop_caches (lw_frames w') /\ lw_class w = lw_class w'.
End Spec.

(** Histories that keep links in order: nobody edits a column or an index that a link depends on; rows are
    selected from frames whose links have their indexers stored (the column [preindexed] of
    [link_summary()]); nothing but a frame without links goes through pandas operations that the class
    does not know (such as [sort_values]) or is reindexed to other labels; refreshing is only asked of
    the frame the links were made for. *)
Section Orderly.
  Context {L V : Type} (E : venv L V).
  Notation lworld := (@lworld V).
  Definition uses_column (s : string) (m : meta) : Prop :=
    me_rows m = false /\ exists ls, me_labels m = Some ls /\ In (LName s) ls.
  Definition uses_index (m : meta) : Prop := me_labels m = None \/ me_rows m = true.
  (** a link depends on this part of the frame *)
  Definition needed (w : lworld) (f : nat) (Q : meta -> Prop) : Prop :=
    exists h name lk, is_link w h name lk /\
      (((h = f \/ lk_owner lk = f) /\ Q (lk_self lk)) \/ (lk_other lk = f /\ Q (lk_target lk))).
  Definition preindexed (w : lworld) (f : nat) : Prop := forall name lk, is_link w f name lk -> lk_flat lk <> None.
  Definition orderly (w : lworld) (o : @lop L V) : Prop :=
    match o with
    | LSetColumn f s _ => ~ needed w f (uses_column s)
    | LSetIndex f _ _ => ~ needed w f uses_index
    | LTake f _ | LGroup f _ => preindexed w f
    | LReindex f index => (forall fr, is_frame w f fr -> index = f_index fr) \/ forall name lk, ~ is_link w f name lk
    | LDerive f _ _ => forall name lk, ~ is_link w f name lk
    | LCompute f true => forall name lk, is_link w f name lk -> lk_owner lk = f
    | _ => True
    end.
  Fixpoint orderly_run (fuel : nat) (w : lworld) (os : list lop) : Prop :=
    match os with
    | [] => True
    | o :: t => orderly w o /\ orderly_run fuel (fst (lstep E fuel w o)) t
    end.
End Orderly.
