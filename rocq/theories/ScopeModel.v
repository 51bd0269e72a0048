(** Model of the scope symbols: cheval/api.py 246-489 (NumberSymbol, VectorSymbol, TableSymbol,
    MatrixSymbol), and of the pandas operations they use.

    Parameters: [D] labels of an index (decision units, or choices through [choice_label]);
    [cell] what a cell of an array holds (a number, a truth value, a text); [num] the numbers of
    the utility table.  Array contents are values: the code never writes into an assigned array.
    That an assigned array may share memory with the caller's is not modelled. *)
From Coq Require Import Ascii.
From Verif Require Import Prelude ExprModel TreeModel.
Local Open Scope string_scope.
Local Open Scope nat_scope.
Local Open Scope list_scope.

(** [a[mask]] for a boolean mask *)
Fixpoint keep {A} (mask : list bool) (l : list A) : list A :=
  match mask, l with
  | b :: m, x :: t => if b then x :: keep m t else keep m t
  | _, _ => []
  end.

(** DataFrames, plain and linked, as the symbols use them: [index], [columns], [to_numpy(frame)]
    (rows of cells), [isinstance(frame, LinkedDataFrame)], [name in frame],
    [convert_series(frame[name])], the walk through linked frames of api.py 378-385 followed by
    [convert_series] (attributes outermost last-accessed first, optional aggregation), and
    [frame.loc[mask]]. *)
Record frames (L D cell : Type) : Type := Frames {
  fr : Type;
  fr_index : fr -> list D;
  fr_columns : fr -> list D;
  fr_cells : fr -> list (list cell);
  fr_linked : fr -> bool;
  fr_has : fr -> string -> bool;
  fr_col : fr -> string -> res (list cell);
  fr_walk : fr -> list string -> option (string * expr L) -> res (list cell);
  fr_loc : list bool -> fr -> fr
}.
Arguments fr {L D cell}. Arguments fr_index {L D cell}. Arguments fr_columns {L D cell}. Arguments fr_cells {L D cell}.
Arguments fr_linked {L D cell}. Arguments fr_has {L D cell}. Arguments fr_col {L D cell}. Arguments fr_walk {L D cell}.
Arguments fr_loc {L D cell}.

Section Scope.
  Context {L D cell num : Type} (deq : D -> D -> bool) (FR : frames L D cell).
  Notation frame := (fr FR).

  (** [Index.equals] *)
  Fixpoint index_equals (a b : list D) : bool :=
    match a, b with
    | [], [] => true
    | x :: a', y :: b' => andb (deq x y) (index_equals a' b')
    | _, _ => false
    end.
  (** position of a label in a list *)
  Fixpoint position (l : list D) (x : D) : option nat :=
    match l with
    | [] => None
    | y :: t => if deq x y then Some 0 else match position t x with Some i => Some (S i) | None => None end
    end.
  Fixpoint unique (l : list D) : bool :=
    match l with [] => true | x :: t => andb (negb (existsb (deq x) t)) (unique t) end.
  (** [Index.get_indexer]: positions, -1 when absent; an index with repeated labels raises
      (InvalidIndexError, here ValueError) *)
  Definition get_indexer (index labels : list D) : res (list Z) :=
    if unique index
    then Ok (map (fun x => match position index x with Some i => Z.of_nat i | None => (-1)%Z end) labels)
    else Err ValueError.

  (** what [assign] may be given: something [float()] accepts, a Series, a 1D array, an array with
      another number of dimensions, a DataFrame, anything else *)
  Inductive value : Type :=
  | VFloat (x : num)
  | VSeries (index : list D) (cells : list cell)
  | VArray1 (cells : list cell)
  | VArrayN
  | VFrame (t : frame)
  | VOther.

  (** what [_get] gives: a float, a two-dimensional array, or None *)
  Inductive data : Type :=
  | DNum (x : num)
  | DArr (rows cols : nat) (cells : list (list cell))
  | DNone.

  (** api.py 268-291, 294-351, 353-421, 424-489.  Orientation: [false] = 0 (rows), [true] = 1.
      A stored matrix comes with its number of columns. *)
  Inductive symbol : Type :=
  | SNumber (v : option num)
  | SVector (orient : bool) (v : option (list cell))
  | STable (orient : bool) (mandatory : list string) (allow_links : bool) (t : option frame)
  | SMatrix (orient reindex_cols reindex_rows : bool) (fill : cell) (m : option (nat * list (list cell))).

  (** the [filled] properties *)
  Definition filled (s : symbol) : bool :=
    match s with
    | SNumber (Some _) | SVector _ (Some _) | STable _ _ _ (Some _) | SMatrix _ _ _ _ (Some _) => true
    | _ => false
    end.

  (** the [empty] methods *)
  Definition empty (s : symbol) : symbol :=
    match s with
    | SNumber _ => SNumber None
    | SVector o _ => SVector o None
    | STable o ma al _ => STable o ma al None
    | SMatrix o rc rr f _ => SMatrix o rc rr f None
    end.

  (** the parent's [decision_units] and [choices] properties, as the symbols read them *)
  Context (units choices : res (list D)).

  Definition guard (b : bool) (e : exn) : res unit := if b then Ok tt else Err e.

  (** api.py 303-324 [VectorSymbol.assign].  The conversion of the cells by
      [convert_series] is modelled in ConvModel.v (C114); the sharing of memory in AliasModel.v (C117). *)
  Definition vector_assign (orient : bool) (v : value) : res (list cell) :=
    do idx <- (if orient then choices else units);
    match v with
    | VSeries index cells => do _ <- guard (index_equals idx index) AssertionError; Ok cells
    | VArray1 cells => do _ <- guard (Nat.eqb (length cells) (length idx)) AssertionError; Ok cells
    | VArrayN => Err AssertionError
    | _ => Err TypeError
    end.

  (** api.py 367-379 [TableSymbol.assign] *)
  Definition table_assign (orient : bool) (mandatory : list string) (allow_links : bool) (v : value) : res frame :=
    match v with
    | VFrame t =>
        do idx <- (if orient then choices else units);
        do _ <- guard (index_equals (fr_index FR t) idx) AssertionError;
        do _ <- guard (forallb (fr_has FR t) mandatory) AssertionError;
        do _ <- guard (negb (andb (negb allow_links) (negb (fr_linked FR t)))) TypeError;
        Ok t
    | _ => Err AssertionError
    end.

  (** [data.transpose()] of a frame with [n] rows and the given columns *)
  Definition column (cells : list (list cell)) (j : nat) : list cell :=
    concat (map (fun row => match nth_error row j with Some x => [x] | None => [] end) cells).
  Definition transpose (ncols : nat) (cells : list (list cell)) : list (list cell) :=
    map (column cells) (seq 0 ncols).

  (** [matrix[rows, :] = data] with an integer array: row [i] of the data goes to row [rows[i]]
      (numpy: a later row overwrites) *)
  Fixpoint put_rows (m : list (list cell)) (rows : list nat) (data : list (list cell)) : list (list cell) :=
    match rows, data with
    | r :: rs, d :: ds => put_rows (upd m r d) rs ds
    | _, _ => m
    end.
  (** [matrix[:, cols] = data]: entry [j] of each row of the data goes to column [cols[j]] *)
  Fixpoint put_cells (row : list cell) (cols : list nat) (data : list cell) : list cell :=
    match cols, data with
    | c :: cs, d :: ds => put_cells (upd row c d) cs ds
    | _, _ => row
    end.
  Fixpoint put_cols (m : list (list cell)) (cols : list nat) (data : list (list cell)) : list (list cell) :=
    match m, data with
    | row :: m', d :: data' => put_cells row cols d :: put_cols m' cols data'
    | _, _ => m
    end.

  (** [matrix[rows, cols] = data] with two integer arrays (numpy "advanced indexing"): the two index
      arrays are broadcast together to a vector of length [k], and the [n] x [p] data must broadcast to
      shape [(k,)], which needs [n <= 1] (leading axes of length 1 are dropped in an assignment) and [p = k] or [p = 1]. *)
  Definition broadcast2 (a b : nat) : option nat :=
    if a =? b then Some a else if a =? 1 then Some b else if b =? 1 then Some a else None.
  Definition pick (l : list nat) (i : nat) : nat := if length l =? 1 then nth 0 l 0 else nth i l 0.
  Definition put_paired (m : list (list cell)) (rows cols : list nat) (data : list (list cell)) : res (list (list cell)) :=
    match broadcast2 (length rows) (length cols) with
    | None => Err IndexError
    | Some k =>
        match data with
        | [d] =>
            if orb (length d =? k) (length d =? 1) then
              Ok (fold_left (fun m i => match (if length d =? 1 then nth_error d 0 else nth_error d i) with
                                        | Some x => let r := pick rows i in upd m r (upd (nth r m []) (pick cols i) x)
                                        | None => m
                                        end) (seq 0 k) m)
            else Err ValueError
        | _ => Err ValueError
        end
    end.

  (** api.py 452-465 / 457-463: one axis of a matrix; [None] = [slice(None)] *)
  Definition axis (allowed : bool) (index labels : list D) : res (option (list nat)) :=
    if index_equals index labels then Ok None
    else
      do _ <- guard allowed AssertionError;
      do zs <- get_indexer index labels;
      do _ <- guard (forallb (fun z => (0 <=? z)%Z) zs) NotImplementedErr;
      Ok (Some (map Z.to_nat zs)).

  (** api.py 437-477 [MatrixSymbol.assign].  The assertions on the length of an indexer hold by
      construction; dtypes are not modelled. *)
  Definition matrix_assign (orient reindex_cols reindex_rows : bool) (fill : cell) (v : value) : res (nat * list (list cell)) :=
    do rows <- units;
    do cols <- choices;
    match v with
    | VFrame t =>
        let '(ri, ci, dat) :=
          if orient then (fr_columns FR t, fr_index FR t, transpose (length (fr_columns FR t)) (fr_cells FR t))
          else (fr_index FR t, fr_columns FR t, fr_cells FR t) in
        if andb (index_equals rows ri) (index_equals cols ci) then Ok (length cols, dat)
        else
          let matrix := repeat (repeat fill (length cols)) (length rows) in
          do cx <- axis reindex_cols cols ci;
          do rx <- axis reindex_rows rows ri;
          do m <- match rx, cx with
                  | None, None => Ok dat
                  | Some r, None => Ok (put_rows matrix r dat)
                  | None, Some c => Ok (put_cols matrix c dat)
                  | Some r, Some c => put_paired matrix r c dat
                  end;
          Ok (length cols, m)
    | VSeries _ _ | VArray1 _ | VArrayN => Err TypeError
    | _ => Err (if orient then AttributeError else TypeError)
    end.

  (** [symbol.assign(data)] *)
  Definition assign (s : symbol) (v : value) : res symbol :=
    match s with
    | SNumber _ => match v with VFloat x => Ok (SNumber (Some x)) | _ => Err TypeError end
    | SVector o _ => do c <- vector_assign o v; Ok (SVector o (Some c))
    | STable o ma al _ => do t <- table_assign o ma al v; Ok (STable o ma al (Some t))
    | SMatrix o rc rr f _ => do m <- matrix_assign o rc rr f v; Ok (SMatrix o rc rr f (Some m))
    end.

  (** a vector as an array: one column for orientation 0, one row for orientation 1 *)
  Definition as_array (orient : bool) (c : list cell) : data :=
    if orient then DArr 1 (length c) [c] else DArr (length c) 1 (map (fun x => [x]) c).

  (** [symbol._get()] as called for the simple symbols (model.py 474) *)
  Definition get_simple (s : symbol) : res data :=
    match s with
    | SNumber None | SVector _ None => Err ModelNotReady
    | SNumber (Some x) => Ok (DNum x)
    | SVector o (Some c) => Ok (as_array o c)
    | STable _ _ _ _ => Err AssertionError
    | SMatrix _ _ _ _ None => Ok DNone
    | SMatrix _ _ _ _ (Some (cols, m)) => Ok (DArr (length m) cols m)
    end.

  (** [symbol._get(chain_info=...)] (model.py 496): only tables take the argument.  api.py 381-403:
      a chain of one attribute reads the column (and ignores an aggregation); a longer chain needs
      a LinkedDataFrame; an unassigned table ([None]) is not subscriptable. *)
  Definition get_chain (s : symbol) (ct : @chaint L) : res data :=
    match s with
    | STable o _ _ t =>
        do c <- match ch_chain ct with
                | [] => Err IndexError
                | [a] => match t with Some t => fr_col FR t a | None => Err TypeError end
                | chain =>
                    match t with
                    | Some t => do _ <- guard (fr_linked FR t) AssertionError; fr_walk FR t chain (ch_func ct)
                    | None => Err AssertionError
                    end
                end;
        Ok (as_array o c)
    | _ => Err TypeError
    end.

  (** the [copy] methods: api.py 282-287, 336-347, 408-416, 481-489 *)
  Definition copy_symbol (copy_data : bool) (mask : option (list bool)) (s : symbol) : symbol :=
    if copy_data then
      match s with
      | SNumber v => SNumber v
      | SVector o (Some c) => SVector o (Some (match o, mask with false, Some k => keep k c | _, _ => c end))
      | STable o ma al (Some t) => STable o ma al (Some (match o, mask with false, Some k => fr_loc FR k t | _, _ => t end))
      | SMatrix o rc rr f (Some (cols, m)) => SMatrix o rc rr f (Some (cols, match mask with Some k => keep k m | None => m end))
      | _ => s
      end
    else empty s.
End Scope.

Arguments SNumber {L D cell num FR}. Arguments SVector {L D cell num FR}. Arguments STable {L D cell num FR}. Arguments SMatrix {L D cell num FR}.
Arguments VFloat {L D cell num FR}. Arguments VSeries {L D cell num FR}. Arguments VArray1 {L D cell num FR}. Arguments VArrayN {L D cell num FR}.
Arguments VFrame {L D cell num FR}. Arguments VOther {L D cell num FR}.
Arguments DNum {cell num}. Arguments DArr {cell num}. Arguments DNone {cell num}.
