(** Model of linked frames: cheval/ldf/api.py 24-790, cheval/ldf/missing_data.py 16-96, and of the
    pandas and numpy operations they use.

    A [DataFrame] is an object: links refer to their owner and to their target by reference, so the
    model keeps a heap of frames and names a frame by its position in it.  [_LinkMeta] objects are
    never shared between frames (every assignment to [_links] stores a fresh copy, api.py 112-117,
    628, 645, 651, 686), so they are kept in the frame that holds them.

    Parameters ([venv]): the values [V] of cells and labels, with what pandas and numpy do on them.
    Memory shared between frames ([copy(deep=False)], views) is not modelled: cells are only changed
    by assigning whole columns.  The pandas version assumed is the newest one that setup.py line 19
    admits (1.4). *)
From Verif Require Import Prelude ExprModel ScopeModel.
Local Open Scope string_scope.
Local Open Scope nat_scope.
Local Open Scope list_scope.

(** missing_data.py 21-30 [PandasDtype] *)
Inductive dtype : Type := DInt | DUint | DFloat | DBool | DText | DObj | DCat | DTime.
Definition dtype_eqb (a b : dtype) : bool :=
  match a, b with
  | DInt, DInt | DUint, DUint | DFloat, DFloat | DBool, DBool | DText, DText | DObj, DObj | DCat, DCat | DTime, DTime => true
  | _, _ => false
  end.
(** [PandasDtype[type_name]]: members are looked up by NAME *)
Definition dtype_named (s : string) : option dtype :=
  dget String.eqb [("INT_NAME", DInt); ("UINT_NAME", DUint); ("FLOAT_NAME", DFloat); ("BOOL_NAME", DBool);
                   ("TEXT_NAME", DText); ("OBJ_NAME", DObj); ("CAT_NAME", DCat); ("TIME_NAME", DTime)] s.

(** api.py 24-27.  [nth] is not modelled: it needs a keyword argument and does not reduce. *)
Inductive aggf : Type := FMax | FMin | FMean | FMedian | FProd | FStd | FSum | FVar | FQuantile | FCount | FFirst | FLast.
Definition numeric_only (f : aggf) : bool := match f with FCount | FFirst | FLast => false | _ => true end.
Definition numeric_type (d : dtype) : bool := match d with DInt | DUint | DFloat | DBool => true | _ => false end.
(** the attribute of a [_LeafAggregation] with this name; [None]: not a supported aggregation *)
Definition aggf_named (s : string) : option aggf :=
  dget String.eqb [("max", FMax); ("min", FMin); ("mean", FMean); ("median", FMedian); ("prod", FProd); ("std", FStd);
                   ("sum", FSum); ("var", FVar); ("quantile", FQuantile); ("count", FCount); ("first", FFirst); ("last", FLast)] s.

(** a label given to [link_to]: a name or a level number *)
Inductive llabel : Type := LName (s : string) | LPos (z : Z).
(** an argument of [link_to]: absent, a string, an integer, or a list *)
Inductive larg : Type := ANone | AStr (s : string) | AInt (z : Z) | AList (l : list llabel).

(** an operand of [ne.evaluate] *)
Inductive operand (V : Type) : Type := OScalar (x : V) | OCol (d : dtype) (l : list V).
Arguments OScalar {V}. Arguments OCol {V}.

(** the expression given to an aggregation: a text, or the source of a parsed expression (identified
    with the tree, see ExprModel.v; it ends with a newline, so it is not the name of a column) *)
Inductive aggarg (L : Type) : Type := XText (s : string) | XTree (e : expr L).
Arguments XText {L}. Arguments XTree {L}.

(** What pandas, numpy and numexpr do with values:
    [v_eq] equality of labels in an index (NaN equals NaN); [v_null] missing labels; [v_nan] NaN;
    [v_ninf] minus infinity; [v_m1] the integer -1 (the default of [int_fill], api.py 537); [v_store d x] the cast of [x] when it is assigned into an array of dtype
    [d] (done even when no position is assigned); [v_default] missing_data.py 55-59; [v_upcast] the
    dtype of a column after missing rows are introduced; [v_agg] the reduction of one group;
    [v_aggtype] the dtype of its result; [v_conv] [utils.convert_series] (a copy in a dtype numexpr
    accepts, or TypeError); [v_ne] [ne.evaluate]; [v_eval] [DataFrame.eval]; [v_fn] the functions of
    numexpr; [v_parse] [ast.parse]. *)
Record venv (L V : Type) : Type := VEnv {
  v_eq : V -> V -> bool;
  v_null : V -> bool;
  v_nan : V;
  v_ninf : V;
  v_m1 : V;
  v_store : dtype -> V -> res V;
  v_default : dtype -> V;
  v_upcast : dtype -> dtype;
  v_agg : aggf -> list V -> V;
  v_aggtype : aggf -> dtype -> dtype;
  v_conv : dtype -> list V -> res (operand V);
  v_ne : expr L -> (string -> option (operand V)) -> res (operand V);
  v_eval : aggarg L -> (string -> option (dtype * list V)) -> res (operand V);
  v_dtype : V -> dtype;
  v_fn : string -> bool;
  v_parse : string -> res (expr L)
}.
Arguments v_eq {L V}. Arguments v_null {L V}. Arguments v_nan {L V}. Arguments v_ninf {L V}. Arguments v_m1 {L V}. Arguments v_store {L V}. Arguments v_default {L V}.
Arguments v_upcast {L V}. Arguments v_agg {L V}. Arguments v_aggtype {L V}. Arguments v_conv {L V}. Arguments v_ne {L V}.
Arguments v_eval {L V}. Arguments v_dtype {L V}. Arguments v_fn {L V}. Arguments v_parse {L V}.

(** [guard] of ScopeModel.v, without its section parameters *)
Definition check (b : bool) (e : exn) : res unit := if b then Ok tt else Err e.

(** one entry of an array with numpy's negative positions *)
Definition np_at {A} (l : list A) (z : Z) : res A :=
  let i := if (z <? 0)%Z then (z + Z.of_nat (length l))%Z else z in
  if (i <? 0)%Z then Err IndexError
  else match nth_error l (Z.to_nat i) with Some x => Ok x | None => Err IndexError end.
(** [array[indices]] *)
Fixpoint np_take {A} (l : list A) (ix : list Z) : res (list A) :=
  match ix with
  | [] => Ok []
  | z :: t => do x <- np_at l z; do r <- np_take l t; Ok (x :: r)
  end.
(** the positions that hold [true]: [np.nonzero(...)[0]] *)
Fixpoint nonzero_from (i : nat) (l : list bool) : list nat :=
  match l with
  | [] => []
  | b :: t => if b then i :: nonzero_from (S i) t else nonzero_from (S i) t
  end.
Definition nonzero (l : list bool) : list nat := nonzero_from 0 l.

(** one result per element, stopping at the first exception *)
Fixpoint rmapl {A B} (f : A -> res B) (l : list A) : res (list B) :=
  match l with
  | [] => Ok []
  | a :: t => do b <- f a; do r <- rmapl f t; Ok (b :: r)
  end.

Section Ldf.
  Context {L V : Type} (E : venv L V).
  Notation key := (list V).
  Notation column := (prod dtype (list V)).
  Notation fills := (dtype -> V).

  (** equality of the labels of an index with one or more levels *)
  Definition keq : key -> key -> bool := index_equals (v_eq E).
  (** labels that [Index.factorize] leaves out: missing ones, in an index with one level *)
  Definition key_null (k : key) : bool := match k with [v] => v_null E v | _ => false end.

  (** api.py 30-41 [_IndexMeta] *)
  Record meta : Type := Meta { me_labels : option (list llabel); me_rows : bool }.
  (** An integer is kept as the labels; [nlevels] (79), called first, then fails on it. *)
  Definition mk_meta (a : larg) (rows : bool) : res meta :=
    match a with
    | ANone => Ok (Meta None true)
    | AStr s => Ok (Meta (Some [LName s]) rows)
    | AList l => Ok (Meta (Some l) rows)
    | AInt _ => Err TypeError
    end.

  (** api.py 91-128 [_LinkMeta]; frames are named by their position in the heap *)
  Record link : Type := Link {
    lk_owner : nat;
    lk_other : nat;
    lk_self : meta;
    lk_target : meta;
    lk_chained : bool;                       (* _other_has_links *)
    lk_agg : bool;                           (* aggregation_required *)
    lk_flat : option (list Z);               (* flat_indexer *)
    lk_grouper : option (list Z);            (* other_grouper *)
    lk_missing : option (list nat)           (* _missing_indices *)
  }.

  (** A frame: whether it is a LinkedDataFrame, the names of the levels of its index, its labels (one
      entry per level), its columns, and api.py 264-270.  The names of columns are strings. *)
  Record frame : Type := Frame {
    f_ldf : bool;
    f_levels : list (option string);
    f_index : list key;
    f_cols : dict string column;
    f_links : dict string link;
    f_fill : fills;                          (* _instance_filler *)
    f_colfill : dict string V                (* _column_fills *)
  }.
  Definition with_links (fr : frame) (ls : dict string link) : frame :=
    Frame (f_ldf fr) (f_levels fr) (f_index fr) (f_cols fr) ls (f_fill fr) (f_colfill fr).

  (** the heap of frames, and [LinkedDataFrame._class_filler] *)
  Record lworld : Type := LWorld { lw_frames : list frame; lw_class : fills }.
  Definition new_lworld : lworld := LWorld [] (v_default E).
  (** a reference always points to a frame; the exception is never seen *)
  Definition get_frame (w : lworld) (f : nat) : res frame :=
    match nth_error (lw_frames w) f with Some fr => Ok fr | None => Err AttributeError end.
  Definition set_frame (w : lworld) (f : nat) (fr : frame) : lworld := LWorld (upd (lw_frames w) f fr) (lw_class w).
  Definition add_frame (w : lworld) (fr : frame) : lworld := LWorld (lw_frames w ++ [fr]) (lw_class w).
  Definition get_link (w : lworld) (f : nat) (name : string) : res link :=
    do fr <- get_frame w f;
    match dget String.eqb (f_links fr) name with Some lk => Ok lk | None => Err KeyError end.
  Definition set_link (w : lworld) (f : nat) (name : string) (lk : link) : lworld :=
    match nth_error (lw_frames w) f with
    | Some fr => set_frame w f (with_links fr (dset String.eqb (f_links fr) name lk))
    | None => w
    end.

  Definition nrows (fr : frame) : nat := length (f_index fr).

  Definition same_level (a b : option string) : bool := match a, b with Some x, Some y => String.eqb x y | _, _ => false end.
  (** [Index.get_level_values(label)], with the handler of api.py 60-63; a name that several levels
      bear raises ValueError, which is not handled *)
  Definition level_values (fr : frame) (l : llabel) : res (list V) :=
    let n := length (f_levels fr) in
    let values i := map (fun k => nth i k (v_nan E)) (f_index fr) in
    match l with
    | LName s =>
        match position same_level (f_levels fr) (Some s) with
        | Some i => if length (filter (same_level (Some s)) (f_levels fr)) =? 1 then Ok (values i) else Err ValueError
        | None => Err LinkageSpec
        end
    | LPos z =>
        let i := if (z <? 0)%Z then (z + Z.of_nat n)%Z else z in
        if orb (i <? 0)%Z (Z.of_nat n <=? i)%Z then Err IndexError else Ok (values (Z.to_nat i))
    end.
  (** api.py 66-69: [label in frame] looks at the columns; [frame[label]] gives a link of that name
      when there is one, and [to_numpy] fails on it *)
  Definition column_values (fr : frame) (l : llabel) : res (list V) :=
    match l with
    | LPos _ => Err LinkageSpec
    | LName s =>
        match dget String.eqb (f_cols fr) s with
        | None => Err LinkageSpec
        | Some (_, vals) => if dmem String.eqb (f_links fr) s then Err AttributeError else Ok vals
        end
    end.
  (** the labels made of the given arrays, one per level *)
  Definition keys_of (n : nat) (arrays : list (list V)) : list key :=
    map (fun i => map (fun a => nth i a (v_nan E)) arrays) (seq 0 n).
  (** api.py 48-74 [_IndexMeta.get_indexer] *)
  Definition get_keys (m : meta) (fr : frame) : res (list key) :=
    match me_labels m with
    | None => Ok (f_index fr)
    | Some ls =>
        do arrays <- (if me_rows m then
                        do _ <- check (length ls <=? length (f_levels fr)) LinkageSpec;
                        rmapl (level_values fr) ls
                      else rmapl (column_values fr) ls);
        match arrays with
        | [] => Err ValueError
        | _ => Ok (keys_of (nrows fr) arrays)
        end
    end.
  (** api.py 76-79 *)
  Definition nlevels (m : meta) (fr : frame) : nat :=
    match me_labels m with None => length (f_levels fr) | Some ls => length ls end.

  (** [Index.factorize()]: the labels in order of first appearance without the missing ones, and for
      each row the position of its label, -1 for a missing label *)
  Fixpoint uniques (seen : list key) (ks : list key) : list key :=
    match ks with
    | [] => seen
    | k :: t => if orb (key_null k) (existsb (keq k) seen) then uniques seen t else uniques (seen ++ [k]) t
    end.
  Definition pos_or_missing (ks : list key) (k : key) : Z :=
    match position keq ks k with Some i => Z.of_nat i | None => (-1)%Z end.
  Definition factorize (ks : list key) : list Z * list key :=
    let u := uniques [] ks in (map (fun k => if key_null k then (-1)%Z else pos_or_missing u k) ks, u).

  (** api.py 153-165 [_make_indexer]; the target's labels may have come to repeat since the link was
      made, and then [get_indexer] raises (InvalidIndexError, here ValueError) *)
  Definition make_indexer (lk : link) (self other : list key) : res link :=
    if lk_agg lk then
      let (codes, order) := factorize other in
      do flat <- get_indexer keq order self;
      Ok (Link (lk_owner lk) (lk_other lk) (lk_self lk) (lk_target lk) (lk_chained lk) (lk_agg lk) (Some flat) (Some codes) (lk_missing lk))
    else
      do flat <- (if index_equals keq self other then Ok (map Z.of_nat (seq 0 (length other))) else get_indexer keq other self);
      Ok (Link (lk_owner lk) (lk_other lk) (lk_self lk) (lk_target lk) (lk_chained lk) (lk_agg lk) (Some flat) (lk_grouper lk) (lk_missing lk)).

  (** api.py 150-151, 184-186 [precompute] *)
  Definition precompute (w : lworld) (lk : link) : res link :=
    do owner <- get_frame w (lk_owner lk);
    do self <- get_keys (lk_self lk) owner;
    do other <- get_frame w (lk_other lk);
    do target <- get_keys (lk_target lk) other;
    make_indexer lk self target.

  (** api.py 103-148 [_LinkMeta.create], [_determine_aggregation] *)
  Definition create (w : lworld) (f g : nat) (sa : larg) (srows : bool) (oa : larg) (orows : bool) (pre : bool) : res link :=
    do fr <- get_frame w f;
    do gr <- get_frame w g;
    do sm <- mk_meta sa srows;
    do om <- mk_meta oa orows;
    do _ <- check (nlevels sm fr =? nlevels om gr) AssertionError;
    do self <- get_keys sm fr;
    do other <- get_keys om gr;
    let su := unique keq self in
    let ou := unique keq other in
    do agg <- (if andb su ou then Ok false else if su then Ok true else if ou then Ok false else Err RuntimeError);
    let lk := Link f g sm om (f_ldf gr) agg None None None in
    if pre then make_indexer lk self other else Ok lk.

  (** the arguments of [link_to] *)
  Record largs : Type := LArgs { a_on : larg; a_levels : larg; a_on_self : larg; a_on_other : larg; a_self_levels : larg; a_other_levels : larg }.
  Definition given (a : larg) : bool := match a with ANone => false | _ => true end.
  (** api.py 323-349: for each side, the labels and whether they come from the rows *)
  Definition resolve_args (a : largs) : res ((larg * bool) * (larg * bool)) :=
    if andb (given (a_on a)) (given (a_levels a)) then Err LinkageSpec
    else
      let on_self := if given (a_on a) then a_on a else a_on_self a in
      let on_other := if given (a_on a) then a_on a else a_on_other a in
      let self_levels := if given (a_levels a) then a_levels a else a_self_levels a in
      let other_levels := if given (a_levels a) then a_levels a else a_other_levels a in
      let side on levels := if andb (given on) (given levels) then Err LinkageSpec
                            else if given levels then Ok (levels, true) else Ok (on, false) in
      do s <- side on_self self_levels;
      do o <- side on_other other_levels;
      Ok (s, o).

  (** api.py 272-357 [link_to]: [f.link_to(g, name, ...)]; the result tells whether aggregation is
      required.  Multi-level columns (320) are not modelled. *)
  Definition link_to (w : lworld) (f g : nat) (name : string) (a : largs) (pre : bool) : lworld * res bool :=
    match (do fr <- get_frame w f;
           do _ <- check (f_ldf fr) AttributeError;
           do (s, o) <- resolve_args a;
           create w f g (fst s) (snd s) (fst o) (snd o) pre) with
    | Ok lk => (set_link w f name lk, Ok (lk_agg lk))
    | Err x => (w, Err x)
    end.

  (** api.py 167-182: fill the caches of a link when they are empty *)
  Definition indexer_and_missing (w : lworld) (f : nat) (name : string) : lworld * res (list Z * list nat) :=
    match get_link w f name with
    | Err x => (w, Err x)
    | Ok lk0 =>
        match (match lk_flat lk0 with Some _ => Ok lk0 | None => precompute w lk0 end) with
        | Err x => (w, Err x)
        | Ok lk =>
            match lk_flat lk with
            | None => (w, Err TypeError)            (* not reached *)
            | Some flat =>
                let miss := match lk_missing lk with Some m => m | None => nonzero (map (fun z => (z =? -1)%Z) flat) end in
                (set_link w f name (Link (lk_owner lk) (lk_other lk) (lk_self lk) (lk_target lk) (lk_chained lk) (lk_agg lk)
                                         (lk_flat lk) (lk_grouper lk) (Some miss)), Ok (flat, miss))
            end
        end
    end.

  (** [series[missing] = fill_value] *)
  Definition fill_at (d : dtype) (vals : list V) (miss : list nat) (fill : V) : res (list V) :=
    do x <- v_store E d fill;
    do _ <- check (forallb (fun i => i <? length vals) miss) IndexError;
    Ok (fold_left (fun l i => upd l i x) miss vals).

  (** api.py 461-468 [_resolve_history]: [hist] is the history, the last link first; a link is named
      by the frame that holds it and by its name in it *)
  Fixpoint resolve (w : lworld) (hist : list (nat * string)) (d : dtype) (vals : list V) (fill : V) : lworld * res (list V) :=
    match hist with
    | [] => (w, Ok vals)
    | (f, name) :: h =>
        match indexer_and_missing w f name with
        | (w1, Err x) => (w1, Err x)
        | (w1, Ok (ix, miss)) =>
            match (do vs <- np_take vals ix; fill_at d vs miss fill) with
            | Err x => (w1, Err x)
            | Ok vs => resolve w1 h d vs fill
            end
        end
    end.
  (** [Series(series, index=self._root_index)] *)
  Definition resolve_root (w : lworld) (root : nat) (hist : list (nat * string)) (c : column) (fill : V) : lworld * res column :=
    match resolve w hist (fst c) (snd c) fill with
    | (w1, Err x) => (w1, Err x)
    | (w1, Ok vs) =>
        match (do fr <- get_frame w root; check (length vs =? nrows fr) ValueError) with
        | Err x => (w1, Err x)
        | Ok _ => (w1, Ok (fst c, vs))
        end
    end.

  (** api.py 446-569: what a subscript of a linked frame gives.  A node keeps the index of the frame
      it started from; reading is modelled as one step, so the frame itself stands for its index. *)
  Inductive item : Type :=
  | ILeaf (root : nat) (hist : list (nat * string))       (* _LinkLeaf *)
  | INode (root : nat) (hist : list (nat * string))       (* _LinkNode *)
  | IAgg (root : nat) (hist : list (nat * string))        (* _LeafAggregation *)
  | ISeries (c : column).

  Definition make_node (lk : link) (root : nat) (hist : list (nat * string)) : item :=
    if lk_agg lk then IAgg root hist else if lk_chained lk then INode root hist else ILeaf root hist.

  (** [DataFrame.__getitem__] with the name of a column *)
  Definition get_column (fr : frame) (s : string) : res column :=
    match dget String.eqb (f_cols fr) s with Some c => Ok c | None => Err KeyError end.

  (** api.py 408-427: [frame[name]] *)
  Definition frame_item (w : lworld) (f : nat) (s : string) : res item :=
    do fr <- get_frame w f;
    match dget String.eqb (f_links fr) s with
    | Some lk => Ok (make_node lk f [(f, s)])
    | None => do c <- get_column fr s; Ok (ISeries c)
    end.

  (** api.py 399-402 [_get_fill]; 395-397 [_get_class_fill] *)
  Definition column_fill (fr : frame) (d : dtype) (s : string) : V :=
    match dget String.eqb (f_colfill fr) s with Some x => x | None => f_fill fr d end.

  (** the frame that the first link of a history leads to ([self._top.other]) *)
  Definition top_other (w : lworld) (hist : list (nat * string)) : res (link * nat) :=
    match hist with
    | [] => Err IndexError
    | (f, name) :: _ => do lk <- get_link w f name; Ok (lk, lk_other lk)
    end.

  (** api.py 483-489, 498-517: [node[name]].  An aggregation node has no subscripts; a series has no
      label of that name (its labels are not modelled as names: KeyError). *)
  Definition item_item (w : lworld) (i : item) (s : string) : lworld * res item :=
    match i with
    | ISeries _ => (w, Err KeyError)
    | IAgg _ _ => (w, Err TypeError)
    | ILeaf root hist =>
        match (do (lk, g) <- top_other w hist; do gr <- get_frame w g; get_column gr s) with
        | Err x => (w, Err x)
        | Ok c => match resolve_root w root hist c (lw_class w (fst c)) with
                  | (w1, Ok c') => (w1, Ok (ISeries c')) | (w1, Err x) => (w1, Err x)
                  end
        end
    | INode root hist =>
        match (do (lk, g) <- top_other w hist; do gr <- get_frame w g; Ok (g, gr)) with
        | Err x => (w, Err x)
        | Ok (g, gr) =>
            match dget String.eqb (f_links gr) s with
            | Some lk => (w, Ok (make_node lk root ((g, s) :: hist)))
            | None =>
                match get_column gr s with
                | Err x => (w, Err x)
                | Ok c => match resolve_root w root hist c (column_fill gr (fst c) s) with
                          | (w1, Ok c') => (w1, Ok (ISeries c')) | (w1, Err x) => (w1, Err x)
                          end
                end
            end
        end
    end.

  (** [frame[a][b][c]...] *)
  Fixpoint walk (w : lworld) (i : item) (path : list string) : lworld * res item :=
    match path with
    | [] => (w, Ok i)
    | s :: t => match item_item w i s with
                | (w1, Err x) => (w1, Err x)
                | (w1, Ok i') => walk w1 i' t
                end
    end.
  Definition subscript (w : lworld) (f : nat) (path : list string) : lworld * res item :=
    match path with
    | [] => (w, Err KeyError)                        (* not an expression of the API *)
    | s :: t => match frame_item w f s with Err x => (w, Err x) | Ok i => walk w i t end
    end.

  (** [evaluation.groupby(grouper).func()] as an array: one entry per code, in increasing order; all
      codes that occur are groups, also -1.  [groupby(None)] raises TypeError; a grouper of another
      length ValueError. *)
  Definition group_codes (codes : list Z) : list Z :=
    filter (fun c => existsb (Z.eqb c) codes) (map (fun i => (Z.of_nat i - 1)%Z) (seq 0 (S (length codes)))).
  Definition group_of (codes : list Z) (vals : list V) (c : Z) : list V :=
    map snd (filter (fun p => Z.eqb (fst p) c) (combine codes vals)).
  Definition group_reduce (func : aggf) (grouper : option (list Z)) (c : column) : res column :=
    match grouper with
    | None => Err TypeError
    | Some codes =>
        do _ <- check (length codes =? length (snd c)) ValueError;
        Ok (v_aggtype E func (fst c), map (fun z => v_agg E func (group_of codes (snd c) z)) (group_codes codes))
    end.

  (** a scalar becomes a whole column: api.py 548-549, 746 *)
  Definition as_series (n : nat) (o : operand V) : res column :=
    match o with
    | OScalar x => Ok (v_dtype E x, repeat x n)
    | OCol d l => do _ <- check (length l =? n) ValueError; Ok (d, l)
    end.

  (** api.py 537-567 [_Aggregator.__call__], given how to evaluate an expression over a linked frame.
      An AttributeError of [evaluate] (plain frames have no such method) makes it try
      [DataFrame.eval].  A column with the name of a link of the target gives the link (541-549): not a
      number, rejected here for every aggregation. *)
  Definition aggregate (evaluate : lworld -> nat -> aggarg L -> lworld * res column)
      (w : lworld) (root : nat) (hist : list (nat * string)) (func : aggf) (a : aggarg L) (int_fill : V) : lworld * res column :=
    match (do (lk, g) <- top_other w hist; do gr <- get_frame w g; Ok (g, gr)) with
    | Err x => (w, Err x)
    | Ok (g, gr) =>
        let pandas_eval := do o <- v_eval E a (dget String.eqb (f_cols gr)); as_series (nrows gr) o in
        let '(w1, r) :=
          match a with
          | XText s => match dget String.eqb (f_cols gr) s with
                       | Some c => if dmem String.eqb (f_links gr) s then (w, Err RuntimeError) else (w, Ok c)
                       | None => if f_ldf gr then match evaluate w g a with
                                                  | (w1, Err AttributeError) => (w1, pandas_eval) | p => p end
                                 else (w, pandas_eval)
                       end
          | XTree _ => if f_ldf gr then match evaluate w g a with
                                        | (w1, Err AttributeError) => (w1, pandas_eval) | p => p end
                       else (w, pandas_eval)
          end in
        match (do c <- r;
               do _ <- check (orb (negb (numeric_only func)) (numeric_type (fst c))) RuntimeError;
               do fill <- match fst c with DInt | DUint | DBool => Ok int_fill | DTime => Err NotImplementedErr | _ => Ok (v_nan E) end;
               do (lk, _) <- top_other w1 hist;
               do grouped <- group_reduce func (lk_grouper lk) c;
               Ok (grouped, fill)) with
        | Err x => (w1, Err x)
        | Ok (grouped, fill) => resolve_root w1 root hist grouped fill
        end
    end.

  (** expressions.py 38-48 without prior sets, for a text or for the source of a tree *)
  Definition parse_arg (a : aggarg L) : res (@expression L) :=
    match a with
    | XText s => snd (parse (v_fn E) (v_parse E) s [] [])
    | XTree e => match visit (v_fn E) e (VSt [] [] [] [] []) with
                 | (st, Ok e') => Ok (Expression "" e' (v_ch st) (v_dl st) None (v_vis st))
                 | (_, Err x) => Err x
                 end
    end.

  Definition to_operand (i : item) : res (operand V) :=
    match i with
    | ISeries c => v_conv E (fst c) (snd c)
    | _ => Err AttributeError                        (* a node has no dtype *)
    end.

  (** api.py 719-724 *)
  Fixpoint eval_symbols (w : lworld) (f : nat) (syms : list string) (ld : dict string (operand V)) : res (dict string (operand V)) :=
    match syms with
    | [] => Ok ld
    | s :: t =>
        match (do i <- frame_item w f s; to_operand i) with
        | Ok o => eval_symbols w f t (dset String.eqb ld s o)
        | Err KeyError => if dmem String.eqb ld s then eval_symbols w f t ld else Err KeyError
        | Err x => Err x
        end
    end.

  (** [getattr(node, func)(args)], api.py 735: on a node that does not aggregate there is no such
      attribute (a column of that name is not modelled); a series reduces itself, which fails on the
      argument ("No axis named ...", ValueError) *)
  Definition call_method (evaluate : lworld -> nat -> aggarg L -> lworld * res column) (w : lworld) (i : item) (func : string) (e : expr L) : lworld * res column :=
    match i with
    | IAgg root hist =>
        match aggf_named func with
        | Some f => aggregate evaluate w root hist f (XTree e) (v_m1 E)
        | None => (w, Err AttributeError)
        end
    | ISeries _ => (w, Err ValueError)
    | _ => (w, Err AttributeError)
    end.

  (** api.py 729-739 *)
  Fixpoint eval_chain (evaluate : lworld -> nat -> aggarg L -> lworld * res column) (w : lworld) (f : nat) (name : string)
      (subs : list (string * @chaint L)) (ld : dict string (operand V)) : lworld * res (dict string (operand V)) :=
    match subs with
    | [] => (w, Ok ld)
    | (sub, ct) :: t =>
        match subscript w f (name :: rev (ch_chain ct)) with
        | (w1, Err x) => (w1, Err x)
        | (w1, Ok i) =>
            let '(w2, r) := match ch_func ct with
                            | Some (func, e) => match call_method evaluate w1 i func e with
                                                | (w2, Ok c) => (w2, to_operand (ISeries c)) | (w2, Err x) => (w2, Err x) end
                            | None => (w1, to_operand i)
                            end in
            match r with
            | Err x => (w2, Err x)
            | Ok o => eval_chain evaluate w2 f name t (dset String.eqb ld sub o)
            end
        end
    end.
  (** api.py 726-739 *)
  Fixpoint eval_chains (evaluate : lworld -> nat -> aggarg L -> lworld * res column) (w : lworld) (f : nat)
      (chains : dict string (dict string (@chaint L))) (ld : dict string (operand V)) : lworld * res (dict string (operand V)) :=
    match chains with
    | [] => (w, Ok ld)
    | (name, subs) :: t =>
        match (do fr <- get_frame w f; check (dmem String.eqb (f_links fr) name) AssertionError) with
        | Err x => (w, Err x)
        | Ok _ => match eval_chain evaluate w f name subs ld with
                  | (w1, Err x) => (w1, Err x)
                  | (w1, Ok ld1) => eval_chains evaluate w1 f t ld1
                  end
        end
    end.

  (** api.py 694-746 [evaluate] (without [out]); [fuel] bounds the nesting of aggregations.
      parsing/constants.py 11-14: the names of NaN and minus infinity *)
  Fixpoint evaluate (fuel : nat) (w : lworld) (f : nat) (a : aggarg L) (local : dict string (operand V)) : lworld * res column :=
    match fuel with
    | O => (w, Err RuntimeError)
    | S n =>
        match (do fr <- get_frame w f; do _ <- check (f_ldf fr) AttributeError;
               do ex <- parse_arg a;
               let ld0 := dset String.eqb (dset String.eqb local "NEG_INF" (OScalar (v_ninf E))) "NAN" (OScalar (v_nan E)) in
               do ld <- eval_symbols w f (e_symbols ex) ld0; Ok (fr, ex, ld)) with
        | Err x => (w, Err x)
        | Ok (fr, ex, ld) =>
            match eval_chains (fun w f a => evaluate n w f a []) w f (e_chains ex) ld with
            | (w1, Err x) => (w1, Err x)
            | (w1, Ok ld1) => (w1, do o <- v_ne E (e_trans ex) (dget String.eqb ld1); as_series (nrows fr) o)
            end
        end
    end.

  (** * Slicing and copying *)

  (** api.py 188-191 [copy_meta] *)
  Definition copy_meta (lk : link) : link :=
    Link (lk_owner lk) (lk_other lk) (lk_self lk) (lk_target lk) (lk_chained lk) (lk_agg lk) None None None.
  (** api.py 193-207 [copy] *)
  Definition copy_link (indices : option (list Z)) (lk : link) : res link :=
    do flat <- match lk_flat lk, indices with
               | Some fl, Some ix => do l <- np_take fl ix; Ok (Some l)
               | fl, None => Ok fl
               | None, _ => Ok None
               end;
    Ok (Link (lk_owner lk) (lk_other lk) (lk_self lk) (lk_target lk) (lk_chained lk) (lk_agg lk) flat (lk_grouper lk)
             (match indices with None => lk_missing lk | Some _ => None end)).
  Definition copy_links (indices : option (list Z)) (ls : dict string link) : res (dict string link) :=
    rmapl (fun p => do lk <- copy_link indices (snd p); Ok (fst p, lk)) ls.

  (** the rows of a frame at the given positions (pandas) *)
  Definition rows_at {A} (ps : list nat) (l : list A) : res (list A) := np_take l (map Z.of_nat ps).
  Definition take_cols (ps : list nat) (cols : dict string column) : res (dict string column) :=
    rmapl (fun p => do vs <- rows_at ps (snd (snd p)); Ok (fst p, (fst (snd p), vs))) cols.

  (** A frame derived from another one is a new LinkedDataFrame ([_constructor], api.py 259-270: fresh
      fill settings), with the given links. *)
  Definition derived (fr : frame) (index : list key) (cols : dict string column) (links : dict string link) : frame :=
    Frame (f_ldf fr) (f_levels fr) index cols (if f_ldf fr then links else []) (v_default E) [].

  (** api.py 649-679 [_take_with_is_copy], [_slice], [_reindex_with_indexers] with labels that all
      exist: boolean indexing, [.loc[labels]], slices, [head], [tail].  [ps]: the positions of the rows. *)
  Definition take_frame (w : lworld) (f : nat) (ps : list nat) : res lworld :=
    do fr <- get_frame w f;
    do index <- rows_at ps (f_index fr);
    do cols <- take_cols ps (f_cols fr);
    do links <- copy_links (Some (map Z.of_nat ps)) (f_links fr);
    Ok (add_frame w (derived fr index cols links)).

  (** api.py 613-631 [__finalize__] alone: the rows at the positions [ps] and the columns [names], with
      the links copied by [copy_meta]: [sort_values], [sort_index], [take], selections of columns, ... *)
  Definition derive_frame (w : lworld) (f : nat) (ps : list nat) (names : list string) : res lworld :=
    do fr <- get_frame w f;
    do index <- rows_at ps (f_index fr);
    do cols0 <- rmapl (fun s => do c <- get_column fr s; Ok (s, c)) names;
    do cols <- take_cols ps cols0;
    Ok (add_frame w (derived fr index cols (map (fun p => (fst p, copy_meta (snd p))) (f_links fr)))).

  (** api.py 633-647 with [__finalize__(method="groupby")]: one group of an iteration over a groupby.
      pandas 1.1.5 to 1.4: the iterator finalises every group with the frame that was grouped. *)
  Definition group_frame (w : lworld) (f : nat) (ps : list nat) : res lworld :=
    do fr <- get_frame w f;
    do index <- rows_at ps (f_index fr);
    do cols <- take_cols ps (f_cols fr);
    do links <- (if f_ldf fr then do ix <- get_indexer keq (f_index fr) index; copy_links (Some ix) (f_links fr) else Ok []);
    Ok (add_frame w (derived fr index cols links)).

  (** api.py 665-671 and 613-631 [reindex(new_index)], with an index that has the names of the levels of
      the old one.  pandas: an identical index gives [copy()]; repeated labels in the old index raise; a row
      for a new label holds NaN; the result of [_reindex_with_indexers] is finalised, so that [copy_meta]
      replaces the links that 665-671 made. *)
  Definition reindex_col (ix : list Z) (c : column) : res column :=
    do vs <- rmapl (fun z => if (z =? -1)%Z then Ok (v_nan E) else np_at (snd c) z) ix;
    Ok (if existsb (fun z => (z =? -1)%Z) ix then v_upcast E (fst c) else fst c, vs).
  Definition reindex_frame (w : lworld) (f : nat) (index : list key) : res lworld :=
    do fr <- get_frame w f;
    if index_equals keq (f_index fr) index then
      do links <- copy_links None (f_links fr);
      Ok (add_frame w (derived fr (f_index fr) (f_cols fr) links))
    else
      do ix <- get_indexer keq (f_index fr) index;
      do cols <- rmapl (fun p => do c <- reindex_col ix (snd p); Ok (fst p, c)) (f_cols fr);
      Ok (add_frame w (derived fr index cols (map (fun p => (fst p, copy_meta (snd p))) (f_links fr)))).

  (** api.py 681-688 [copy] *)
  Definition copy_frame (w : lworld) (f : nat) : res lworld :=
    do fr <- get_frame w f;
    do links <- copy_links None (f_links fr);
    Ok (add_frame w (derived fr (f_index fr) (f_cols fr) links)).

  (** api.py 780-790 [compute_indexers]; links are taken in order, the earlier ones keep their new
      indexers when a later one raises *)
  Fixpoint compute_list (w : lworld) (f : nat) (refresh : bool) (names : list string) : lworld * res unit :=
    match names with
    | [] => (w, Ok tt)
    | s :: t =>
        match get_link w f s with
        | Err x => (w, Err x)
        | Ok lk =>
            if orb refresh (match lk_flat lk with None => true | Some _ => false end) then
              match precompute w lk with
              | Err x => (w, Err x)
              | Ok lk' => compute_list (set_link w f s lk') f refresh t
              end
            else compute_list w f refresh t
        end
    end.
  Definition compute_indexers (w : lworld) (f : nat) (refresh : bool) : lworld * res unit :=
    match get_frame w f with
    | Err x => (w, Err x)
    | Ok fr => compute_list w f refresh (dkeys (f_links fr))
    end.

  (** * Fill values *)

  (** missing_data.py 77-80: settings are applied in order; an unknown name raises after the earlier
      ones have been applied *)
  Fixpoint set_fills (m : fills) (kw : list (string * V)) : fills * res unit :=
    match kw with
    | [] => (m, Ok tt)
    | (s, x) :: t =>
        match dtype_named s with
        | None => (m, Err KeyError)
        | Some d => set_fills (fun d' => if dtype_eqb d d' then x else m d') t
        end
    end.
  Definition with_fill (fr : frame) (m : fills) : frame :=
    Frame (f_ldf fr) (f_levels fr) (f_index fr) (f_cols fr) (f_links fr) m (f_colfill fr).

  (** * Histories *)

  Inductive lop : Type :=
  | LNew (ldf : bool) (levels : list (option string)) (index : list key) (cols : dict string column)
  | LLink (f g : nat) (name : string) (a : largs) (pre : bool)
  | LSetColumn (f : nat) (s : string) (c : column)          (* frame[s] = array *)
  | LSetIndex (f : nat) (levels : list (option string)) (index : list key)   (* frame.index = ... *)
  | LTake (f : nat) (ps : list nat)
  | LDerive (f : nat) (ps : list nat) (names : list string)
  | LGroup (f : nat) (ps : list nat)
  | LReindex (f : nat) (index : list key)
  | LCopy (f : nat)
  | LCompute (f : nat) (refresh : bool)
  | LColumnFill (f : nat) (s : string) (x : V)
  | LFill (f : nat) (kw : list (string * V))                (* instance.set_fill_defaults *)
  | LReset (f : nat)
  | LClassFill (kw : list (string * V))                     (* LinkedDataFrame.set_fill_defaults *)
  | LClassReset
  | LRead (f : nat) (path : list string)
  | LAgg (f : nat) (path : list string) (func : aggf) (a : aggarg L) (int_fill : V)
  | LEval (f : nat) (text : string) (local : dict string (operand V)).

  Inductive lout : Type := RNone | RFrame (f : nat) | RAgg (b : bool) | RCol (c : column) | RItem.

  (** lengths fit, and the names of the columns are distinct *)
  Definition frame_fits (levels : list (option string)) (index : list key) (cols : dict string column) : bool :=
    andb (negb (length levels =? 0))
      (andb (forallb (fun k => length k =? length levels) index)
         (andb (forallb (fun p => length (snd (snd p)) =? length index) cols) (unique String.eqb (dkeys cols)))).

  Definition keep_world (w : lworld) (r : res lworld) : lworld * res lout :=
    match r with Ok w' => (w', Ok (RFrame (length (lw_frames w)))) | Err x => (w, Err x) end.

  Definition out_item (p : lworld * res item) : lworld * res lout :=
    match p with
    | (w, Ok (ISeries c)) => (w, Ok (RCol c)) | (w, Ok _) => (w, Ok RItem) | (w, Err x) => (w, Err x)
    end.
  Definition out_col (p : lworld * res column) : lworld * res lout :=
    match p with (w, Ok c) => (w, Ok (RCol c)) | (w, Err x) => (w, Err x) end.

  Definition on_frame (w : lworld) (f : nat) (k : frame -> lworld * res lout) : lworld * res lout :=
    match get_frame w f with Ok fr => k fr | Err x => (w, Err x) end.

  (** [fuel]: nesting of aggregations in an expression *)
  Definition lstep (fuel : nat) (w : lworld) (o : lop) : lworld * res lout :=
    match o with
    | LNew ldf levels index cols =>
        if frame_fits levels index cols
        then (add_frame w (Frame ldf levels index cols [] (v_default E) []), Ok (RFrame (length (lw_frames w))))
        else (w, Err ValueError)
    | LLink f g name a pre =>
        match link_to w f g name a pre with (w', Ok b) => (w', Ok (RAgg b)) | (w', Err x) => (w', Err x) end
    | LSetColumn f s c =>
        on_frame w f (fun fr =>
          if length (snd c) =? nrows fr
          then (set_frame w f (Frame (f_ldf fr) (f_levels fr) (f_index fr) (dset String.eqb (f_cols fr) s c) (f_links fr) (f_fill fr) (f_colfill fr)), Ok RNone)
          else (w, Err ValueError))
    | LSetIndex f levels index =>
        on_frame w f (fun fr =>
          if andb (length index =? nrows fr) (frame_fits levels index [])
          then (set_frame w f (Frame (f_ldf fr) levels index (f_cols fr) (f_links fr) (f_fill fr) (f_colfill fr)), Ok RNone)
          else (w, Err ValueError))
    | LTake f ps => keep_world w (take_frame w f ps)
    | LDerive f ps names => keep_world w (do _ <- check (unique String.eqb names) ValueError; derive_frame w f ps names)
    | LGroup f ps => keep_world w (group_frame w f ps)
    | LReindex f index =>
        on_frame w f (fun fr =>
          keep_world w (do _ <- check (frame_fits (f_levels fr) index []) ValueError; reindex_frame w f index))
    | LCopy f => keep_world w (copy_frame w f)
    | LCompute f refresh => on_frame w f (fun fr => if f_ldf fr then
          match compute_indexers w f refresh with (w', Ok _) => (w', Ok RNone) | (w', Err x) => (w', Err x) end else (w, Err AttributeError))
    | LColumnFill f s x =>                                    (* api.py 365-378 *)
        on_frame w f (fun fr =>
          if negb (f_ldf fr) then (w, Err AttributeError)
          else if dmem String.eqb (f_cols fr) s
          then (set_frame w f (Frame (f_ldf fr) (f_levels fr) (f_index fr) (f_cols fr) (f_links fr) (f_fill fr) (dset String.eqb (f_colfill fr) s x)), Ok RNone)
          else (w, Err KeyError))
    | LFill f kw =>                                           (* api.py 383-385 *)
        on_frame w f (fun fr =>
          if negb (f_ldf fr) then (w, Err AttributeError)
          else let (m, r) := set_fills (f_fill fr) kw in (set_frame w f (with_fill fr m), do _ <- r; Ok RNone))
    | LReset f =>                                             (* api.py 391-393 *)
        on_frame w f (fun fr => if f_ldf fr then (set_frame w f (with_fill fr (v_default E)), Ok RNone) else (w, Err AttributeError))
    | LClassFill kw => let (m, r) := set_fills (lw_class w) kw in (LWorld (lw_frames w) m, do _ <- r; Ok RNone)
    | LClassReset => (LWorld (lw_frames w) (v_default E), Ok RNone)
    | LRead f path => out_item (subscript w f path)
    | LAgg f path func a int_fill =>
        match subscript w f path with
        | (w1, Ok (IAgg root hist)) => out_col (aggregate (fun w f a => evaluate fuel w f a []) w1 root hist func a int_fill)
        | (w1, Ok _) => (w1, Err AttributeError)
        | (w1, Err x) => (w1, Err x)
        end
    | LEval f text local => out_col (evaluate fuel w f (XText text) local)
    end.

  Fixpoint lrun (fuel : nat) (w : lworld) (os : list lop) : lworld * list (res lout) :=
    match os with
    | [] => (w, [])
    | o :: t => let (w1, r) := lstep fuel w o in let (w2, rs) := lrun fuel w1 t in (w2, r :: rs)
    end.
End Ldf.
