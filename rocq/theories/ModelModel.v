(** Model of ChoiceModel (cheval/model.py 27-75 and 217-782): scope, validation, evaluation of
    utilities, runs, preval, copies, external partial utilities.

    The utility table is the one array the code writes into, so tables live in a heap
    ([mw_tabs]) and a model refers to its cached table; all other data are values.  Operations
    return the new state together with their result, so that the state left by an exception is
    visible.  [debug_id] is in DebugModel.v.  Not modelled: [logger], thread counts, dtypes (one arithmetic [F]
    for tables of either precision). *)
From Coq Require Import Ascii.
From Verif Require Import Prelude Arith CoreModel TreeModel ParModel ExprModel SpecExpr ScopeModel.
Local Open Scope string_scope.
Local Open Scope nat_scope.
Local Open Scope list_scope.

(** What the code is run with: labels and their equality, the label of a choice in a pandas
    index, cells, DataFrames, the constants of parsing/constants.py, the conversion of dict
    values (ast_transformer.py 190-192), numexpr and the parser.

    [ev_ne e rho]: the value numexpr gives the expression [e] in one cell, as a number of the
    table, when [rho] maps names to the contents of the operands in that cell; [None] when
    numexpr rejects the types of the operands. *)
Record env (L : Type) (F : arith) (D cell : Type) : Type := Env {
  ev_eq : D -> D -> bool;
  ev_label : label -> D;
  ev_num : num F -> cell;
  ev_nan : num F;
  ev_ninf : num F;
  ev_f32 : bool -> L -> num F;
  ev_ne : expr L -> (string -> option cell) -> option (num F);
  ev_fn : string -> bool;
  ev_parse : string -> res (expr L);
  ev_frames : frames L D cell
}.
Arguments ev_eq {L F D cell}. Arguments ev_label {L F D cell}. Arguments ev_num {L F D cell}. Arguments ev_nan {L F D cell}.
Arguments ev_ninf {L F D cell}. Arguments ev_f32 {L F D cell}. Arguments ev_ne {L F D cell}. Arguments ev_fn {L F D cell}.
Arguments ev_parse {L F D cell}. Arguments ev_frames {L F D cell}.

(** parsing/constants.py 11 *)
Definition reserved (x : string) : bool := mem x ["NAN"; "OUT"; "NEG_INF"].

(** [str.split('.')] *)
Fixpoint split_dot (s : string) : list string :=
  match s with
  | EmptyString => [EmptyString]
  | String c t =>
      if Ascii.eqb c "."%char then EmptyString :: split_dot t
      else match split_dot t with [] => [String c EmptyString] | p :: ps => String c p :: ps end
  end.

Fixpoint sequence {A} (l : list (option A)) : option (list A) :=
  match l with
  | [] => Some []
  | o :: t => match o, sequence t with Some x, Some xs => Some (x :: xs) | _, _ => None end
  end.
Fixpoint map_res {A B} (f : A -> res B) (l : list A) : res (list B) :=
  match l with [] => Ok [] | x :: t => do y <- f x; do ys <- map_res f t; Ok (y :: ys) end.

Section Model.
  Context {L : Type} {F : arith} {D cell : Type} (E : env L F D cell).
  Notation num := (num F).
  Notation FR := (ev_frames E).
  Notation symbol := (symbol (num:=num) FR).
  Notation value := (value (num:=num) FR).
  Notation data := (data (cell:=cell) (num:=num)).
  Notation expression := (@expression L).
  Notation container := (@container L).
  Notation exprs := (list (@subgroup L)).
  Notation table := (list (list num)).
  Notation tables := (list (list (list num))).
  Notation tree := (tree F).

  (** a cached utility table: where its cells are, its index and its columns *)
  Record utab : Type := UTab { u_ref : nat; u_index : list D; u_cols : list label }.
  (** model.py 31-45, without the expressions (kept in [mw_ex]) *)
  Record cm : Type := CM {
    m_tree : tree;
    m_scope : dict string symbol;
    m_du : option (list D);
    m_utils : option utab
  }.
  Definition new_cm : cm := CM new_tree [] None None.
  Definition with_scope (m : cm) (s : dict string symbol) : cm := CM (m_tree m) s (m_du m) (m_utils m).
  Definition with_utils (m : cm) (u : option utab) : cm := CM (m_tree m) (m_scope m) (m_du m) u.

  (** model.py 220-226 [decision_units] *)
  Definition units (m : cm) : res (list D) := match m_du m with Some d => Ok d | None => Err ModelNotReady end.
  (** [choices] as a pandas index *)
  Definition choice_index (m : cm) : res (list D) := rmap (map (ev_label E)) (choices (m_tree m)).

  (** model.py 228-242 *)
  Definition is_number (s : symbol) : bool := match s with SNumber _ => true | _ => false end.
  Definition set_units (m : cm) (d : list D) : cm :=
    CM (m_tree m) (map (fun p => (fst p, if is_number (snd p) then snd p else empty FR (snd p))) (m_scope m))
       (Some d) (m_utils m).

  (** model.py 244-301: the declarations; [orientation] must be 0 or 1 (api.py 301, 360, 431) *)
  Inductive decl : Type :=
  | DeclNumber
  | DeclVector (orientation : nat)
  | DeclTable (orientation : nat) (mandatory : list string) (allow_links : bool)
  | DeclMatrix (orientation : nat) (reindex_cols reindex_rows : bool) (fill : cell).
  Definition new_symbol (d : decl) : res symbol :=
    let orient n := if n =? 0 then Ok false else if n =? 1 then Ok true else Err AssertionError in
    match d with
    | DeclNumber => Ok (SNumber None)
    | DeclVector o => do b <- orient o; Ok (SVector b None)
    | DeclTable o ma al => do b <- orient o; Ok (STable b ma al None)
    | DeclMatrix o rc rr f => do b <- orient o; Ok (SMatrix b rc rr f None)
    end.
  Definition declare (m : cm) (name : string) (d : decl) : cm * res unit :=
    if reserved name then (m, Err SyntaxErr)
    else match new_symbol d with
         | Err x => (m, Err x)
         | Ok s => (with_scope m (dset String.eqb (m_scope m) name s), Ok tt)
         end.

  (** [model[name].assign(value)]: model.py 303-305 and the [assign] methods *)
  Definition assign_symbol (m : cm) (name : string) (v : value) : cm * res unit :=
    match dget String.eqb (m_scope m) name with
    | None => (m, Err KeyError)
    | Some s =>
        match assign (ev_eq E) FR (units m) (choice_index m) s v with
        | Err x => (m, Err x)
        | Ok s' => (with_scope m (dset String.eqb (m_scope m) name s'), Ok tt)
        end
    end.

  (** model.py 307-308 *)
  Definition clear_scope (m : cm) : cm := with_scope m [].

  (** model.py 357-358 *)
  Definition symbols_to_check (h : exprs) (c : container) (group : option string) : res (list string) :=
    match group with
    | None => Ok (itersimple h c true ++ iterchained h c true)
    | Some g => do s <- get_group h c g; Ok (sg_simple s ++ sg_chained s)
    end.
  (** model.py 360-365 *)
  Definition check_symbol (scope : dict string symbol) (assignment : bool) (name : string) : res unit :=
    if reserved name then Ok tt
    else match dget String.eqb scope name with
         | None => Err ModelNotReady
         | Some s => if andb assignment (negb (filled FR s)) then Err ModelNotReady else Ok tt
         end.
  Fixpoint check_symbols (scope : dict string symbol) (assignment : bool) (l : list string) : res unit :=
    match l with
    | [] => Ok tt
    | x :: t => do _ <- check_symbol scope assignment x; check_symbols scope assignment t
    end.
  (** model.py 322-365 [validate] *)
  Definition validate_gen (tree decision_units expressions assignment : bool)
             (h : exprs) (c : container) (m : cm) (group : option string) : res unit :=
    do _ <- (if tree then validate_tree (m_tree m) else Ok tt);
    do _ <- (if decision_units then rmap (fun _ => tt) (units m) else Ok tt);
    if andb (negb expressions) (negb assignment) then Ok tt
    else do l <- symbols_to_check h c group; check_symbols (m_scope m) assignment l.
  Definition validate := validate_gen true true true true.

  Definition zeros (n k : nat) : table := repeat (repeat (nzero F) k) n.

  (** model.py 65-75 [_partial_utilities] *)
  Definition partial_utilities (ts : tables) (m : cm) : tables * cm * res utab :=
    match validate_tree (m_tree m), units m with
    | Err x, _ | Ok _, Err x => (ts, m, Err x)
    | Ok _, Ok d =>
        match m_utils m with
        | Some u => (ts, m, Ok u)
        | None =>
            match choices (m_tree m) with
            | Err x => (ts, m, Err x)
            | Ok cols =>
                let u := UTab (length ts) d cols in
                (ts ++ [zeros (length d) (length cols)], with_utils m (Some u), Ok u)
            end
        end
    end.

  (** the labels of the choice index as lists of parts *)
  Definition label_parts (l : label) : list string := match l with Flat x => [x] | Tup p => p end.

  (** model.py 435-448 [_make_column_mask]; [nlevels] is the depth of the tree *)
  Definition column_mask (nlevels : nat) (cols : list label) (flt : option string) : res (option nat) :=
    match flt with
    | None => Ok None
    | Some f =>
        let parts := split_dot f in
        do key <- (if nlevels =? 1
                   then do _ <- guard (length parts =? 1) AssertionError; Ok parts
                   else do _ <- guard (length parts <=? nlevels) AssertionError; Ok (pad nlevels parts));
        match loc (map label_parts cols) key with Some i => Ok (Some i) | None => Err KeyError end
    end.

  (** model.py 468-474: the shared locals.  [OUT] is the table itself, which changes as
      expressions are evaluated: its entry is put in by [locals_for]. *)
  Notation locals := (dict string data).
  Definition base_locals : locals := [("NAN", DNum (ev_nan E)); ("OUT", DNone); ("NEG_INF", DNum (ev_ninf E))].
  Fixpoint shared_locals (scope : dict string symbol) (names : list string) (acc : locals) : res locals :=
    match names with
    | [] => Ok acc
    | x :: t =>
        if dmem String.eqb acc x then shared_locals scope t acc
        else match dget String.eqb scope x with
             | None => Err KeyError
             | Some s => do d <- get_simple FR s; shared_locals scope t (dset String.eqb acc x d)
             end
    end.

  (** model.py 490 with expressions.py 54-62: dict literals, as arrays of one row *)
  Fixpoint literal_locals (nlevels : nat) (cols : list label) (dls : dict string (@literal L)) (acc : locals) : res locals :=
    match dls with
    | [] => Ok acc
    | (sub, lit) :: t =>
        do arr <- expand_literal (nzero F) (ev_f32 E) nlevels (map label_parts cols) lit;
        literal_locals nlevels cols t (dset String.eqb acc sub (DArr 1 (length arr) [map (ev_num E) arr]))
    end.

  (** model.py 493-497: chains *)
  Fixpoint usage_locals (s : symbol) (usages : dict string (@chaint L)) (acc : locals) : res locals :=
    match usages with
    | [] => Ok acc
    | (sub, ct) :: t => do d <- get_chain FR s ct; usage_locals s t (dset String.eqb acc sub d)
    end.
  Fixpoint chain_locals (scope : dict string symbol) (chains : dict string (dict string (@chaint L))) (acc : locals)
    : res locals :=
    match chains with
    | [] => Ok acc
    | (name, usages) :: t =>
        match dget String.eqb scope name with
        | None => Err KeyError
        | Some s => do acc' <- usage_locals s usages acc; chain_locals scope t acc'
        end
    end.

  (** model.py 487-497: the local dictionary of one expression *)
  Definition locals_for (scope : dict string symbol) (nlevels : nat) (cols : list label) (shared : locals)
             (u : table) (ncols : nat) (x : expression) : res locals :=
    let l := dset String.eqb shared "OUT" (DArr (length u) ncols (map (map (ev_num E)) u)) in
    do l <- literal_locals nlevels cols (e_dl x) l;
    chain_locals scope (e_chains x) l.

  (** model.py 519-526: with a column selected, every array gives one column.  A vector is
      represented by an array of one column; an array without columns stays as it is. *)
  Definition cell_at (cells : list (list cell)) (r c : nat) : cell := nth c (nth r cells []) (ev_num E (ev_nan E)).
  Definition select_column (c : nat) (d : data) : res data :=
    match d with
    | DArr rows cols cells =>
        if 1 <? cols then
          if c <? cols then Ok (DArr rows 1 (map (fun r => [cell_at cells r c]) (seq 0 rows))) else Err IndexError
        else Ok d
    | _ => Ok d
    end.
  Definition select_locals (c : nat) (l : locals) : res locals :=
    map_res (fun kv => do d <- select_column c (snd kv); Ok (fst kv, d)) l.

  (** numpy broadcasting of an operand to the shape of [out] *)
  Definition fits (n k : nat) (d : data) : res unit :=
    match d with
    | DNum _ => Ok tt
    | DNone => Err TypeError
    | DArr rows cols _ =>
        guard (andb (orb (rows =? n) (rows =? 1)) (orb (cols =? k) (cols =? 1))) ValueError
    end.
  Definition operand (d : data) (r c : nat) : option cell :=
    match d with
    | DNum x => Some (ev_num E x)
    | DNone => None
    | DArr rows cols cells => Some (cell_at cells (if rows =? 1 then 0 else r) (if cols =? 1 then 0 else c))
    end.
  Definition cell_env (l : locals) (r c : nat) : string -> option cell :=
    fun x => match dget String.eqb l x with Some d => operand d r c | None => None end.

  (** [ne.evaluate]: the names of the expression are looked up in the local dictionary (then in the
      globals of model.py, which is not modelled), the operands must broadcast to [out] *)
  Fixpoint check_names (l : locals) (n k : nat) (names : list string) : res unit :=
    match names with
    | [] => Ok tt
    | x :: t => match dget String.eqb l x with
                | None => Err KeyError
                | Some d => do _ <- fits n k d; check_names l n k t
                end
    end.

  (** model.py 516-529 [_kernel_eval] on the table [u] with [k] columns: [OUT + (expr)] *)
  Definition kernel (e : expr L) (l : locals) (u : table) (k : nat) (col : option nat) : res table :=
    let n := length u in
    match col with
    | None =>
        do _ <- check_names l n k ("OUT" :: free_names e);
        match sequence (map (fun r => sequence (map (fun c =>
                option_map (nadd F (nth c (nth r u []) (nzero F))) (ev_ne E e (cell_env l r c)))
              (seq 0 k))) (seq 0 n)) with
        | Some u' => Ok u'
        | None => Err TypeError
        end
    | Some c =>
        do l' <- select_locals c l;
        do _ <- guard (c <? k) IndexError;
        do _ <- check_names l' n 1 ("OUT" :: free_names e);
        match sequence (map (fun r =>
                option_map (fun v => upd (nth r u []) c (nadd F (nth c (nth r u []) (nzero F)) v))
                           (ev_ne E e (cell_env l' r 0)))
              (seq 0 n)) with
        | Some u' => Ok u'
        | None => Err TypeError
        end
    end.

  (** model.py 480-499: one expression, then all of them; the table keeps what was added before an
      exception *)
  Definition eval_one (scope : dict string symbol) (nlevels : nat) (cols : list label) (shared : locals) (k : nat)
             (u : table) (x : expression) : res table :=
    do col <- column_mask nlevels cols (e_filter x);
    do l <- locals_for scope nlevels cols shared u k x;
    kernel (e_trans x) l u k col.
  Fixpoint eval_all (scope : dict string symbol) (nlevels : nat) (cols : list label) (shared : locals) (k : nat)
           (u : table) (xs : list expression) : table * res unit :=
    match xs with
    | [] => (u, Ok tt)
    | x :: t =>
        match eval_one scope nlevels cols shared k u x with
        | Err e => (u, Err e)
        | Ok u' => eval_all scope nlevels cols shared k u' t
        end
    end.

  (** [np.isnan] *)
  Definition is_nan (x : num) : bool := negb (neqb F x x).

  Definition deref_tab (ts : tables) (r : nat) : table := nth r ts [].

  (** model.py 450-514 [_evaluate_utilities] of expressions with the given simple symbols *)
  Definition evaluate (ts : tables) (m : cm) (simple : list string) (xs : list expression) : tables * cm * res utab :=
    match m_du m with
    | None => (ts, m, Err ModelNotReady)
    | Some d =>
        match choices (m_tree m), depth (m_tree m) with
        | Err x, _ | Ok _, Err x => (ts, m, Err x)
        | Ok cols, Ok nlevels =>
            match partial_utilities ts m with
            | (ts1, m1, Err x) => (ts1, m1, Err x)
            | (ts1, m1, Ok u) =>
                match shared_locals (m_scope m) simple base_locals with
                | Err x => (ts1, m1, Err x)
                | Ok shared =>
                    let k := length (u_cols u) in
                    let '(t, r) := eval_all (m_scope m) nlevels cols shared k (deref_tab ts1 (u_ref u)) xs in
                    let ts2 := upd ts1 (u_ref u) t in
                    (ts2, m1,
                     do _ <- r;
                     if existsb (existsb is_nan) t then Err UtilityBounds
                     else do _ <- guard (andb (length t =? length d) (k =? length cols)) ValueError;
                          Ok (UTab (u_ref u) d cols))
                end
            end
        end
    end.

  (** the simple symbols and the expressions of the whole container or of a group
      (model.py 415, 592, 647) *)
  Definition selection (h : exprs) (c : container) (group : option string) : res (list string * list expression) :=
    match group with
    | None => Ok (itersimple h c true, iter h c true)
    | Some g => do s <- get_group h c g; Ok (sg_simple s, sg_exprs s)
    end.

  (** model.py 589-595 (and 403, 415-417): validate, evaluate, clear the scope; the evaluated table *)
  Definition run_utilities (h : exprs) (c : container) (ts : tables) (m : cm) (group : option string) (clear : bool)
    : tables * cm * res table :=
    match validate h c m group with
    | Err x => (ts, m, Err x)
    | Ok _ =>
        match selection h c group with
        | Err x => (ts, m, Err x)
        | Ok (simple, xs) =>
            match evaluate ts m simple xs with
            | (ts', m', Err x) => (ts', m', Err x)
            | (ts', m', Ok u) => (ts', if clear then clear_scope m' else m', Ok (deref_tab ts' (u_ref u)))
            end
        end
    end.

  (** model.py 558-612 [run_stochastic]: the rows of the probability table (the workers compute
      them row by row, PropParallel.v; the logsum tables are left out) *)
  Definition run_stochastic (h : exprs) (c : container) (ts : tables) (m : cm) (group : option string)
             (clear scale_utilities check_infeasible : bool) : tables * cm * res (list (list (label * num))) :=
    match run_utilities h c ts m group clear with
    | (ts', m', Err x) => (ts', m', Err x)
    | (ts', m', Ok u) => (ts', m', map_res (fun row => stochastic_row F (m_tree m') row scale_utilities check_infeasible) u)
    end.

  (** model.py 403-417: [run_discrete] up to the evaluated utilities.  The seed is an argument of
      the sampling. *)
  Definition run_discrete_utilities (h : exprs) (c : container) (ts : tables) (m : cm) (n_draws : Z) (clear : bool)
    : tables * cm * res table :=
    match validate h c m None with
    | Err x => (ts, m, Err x)
    | Ok _ => if (n_draws <? 1)%Z then (ts, m, Err ValueError) else run_utilities h c ts m None clear
    end.

  (** model.py 419-428: the body of the sampling loop *)
  Definition sampling_task (G : generator F) (t : tree) (utilities : table) (n_draws : nat) (seed : Z)
             (scale_utilities : bool) : res (nat -> prog F) :=
    do d <- depth t;
    if 1 <? d then
      do (h, lv, sc, bt) <- flatten F t;
      Ok (worker_nested_sample F G utilities h lv sc bt n_draws seed scale_utilities)
    else Ok (worker_multinomial_sample F G utilities n_draws seed).

  (** model.py 531-556 [_convert_result]: a Series or a DataFrame over the decision units; an entry
      is a position or a label *)
  Inductive entry : Type := Pos (z : Z) | Lab (l : label).
  Inductive discrete_result : Type :=
  | RSeries (index : list D) (values : list entry)
  | RFrame (index : list D) (ncols : nat) (columns : list (list entry)).
  (** [lookup_table.take([z])]: negative positions count from the end *)
  Definition take_label (cols : list label) (z : Z) : res entry :=
    let z' := if (z <? 0)%Z then (z + Z.of_nat (length cols))%Z else z in
    if (z' <? 0)%Z then Err IndexError
    else match nth_error cols (Z.to_nat z') with Some l => Ok (Lab l) | None => Err IndexError end.
  Definition raw_column (raw : list (list Z)) (j : nat) : list Z := map (fun row => nth j row 0%Z) raw.
  Definition convert_result (m : cm) (raw : list (list Z)) (n_draws : nat) (as_index squeeze : bool) : res discrete_result :=
    do d <- units m;
    if as_index then
      Ok (if andb squeeze (n_draws =? 1) then RSeries d (map Pos (raw_column raw 0))
          else RFrame d n_draws (map (fun j => map Pos (raw_column raw j)) (seq 0 n_draws)))
    else
      do cols <- choices (m_tree m);
      do l <- map_res (fun j => map_res (take_label cols) (raw_column raw j)) (seq 0 n_draws);
      match l with
      | [] => Err ValueError                                    (* pd.concat of nothing *)
      | c0 :: _ => Ok (if andb (n_draws =? 1) squeeze then RSeries d c0 else RFrame d n_draws l)
      end.

  (** ** Advanced functions *)

  Definition sdiff (a b : list string) : list string := filter (fun x => negb (mem x b)) a.
  (** model.py 653-659: set algebra; a set is a list without repetitions *)
  Definition symbols_to_clear (h : exprs) (c : container) (s : @subgroup L) : list string :=
    let all_symbols := itersimple h c true ++ itersimple h c true in
    let ungrouped := iterchained h c false ++ itersimple h c false in
    let group := sunion [] (sg_chained s ++ sg_simple s) in
    let other := sdiff (sdiff all_symbols ungrouped) group in
    sdiff (sdiff group ungrouped) other.
  (** model.py 661-662 (the order of a set is not specified; it matters only for what is left after
      a KeyError) *)
  Fixpoint del_symbols (scope : dict string symbol) (l : list string) : dict string symbol * res unit :=
    match l with
    | [] => (scope, Ok tt)
    | x :: t => if dmem String.eqb scope x then del_symbols (ddel String.eqb scope x) t else (scope, Err KeyError)
    end.

  (** model.py 626-665 [preval] *)
  Definition preval (h : exprs) (c : container) (ts : tables) (m : cm) (g : string) (drop cleanup : bool)
    : tables * container * cm * res unit :=
    match validate h c m (Some g), get_group h c g with
    | Err x, _ | Ok _, Err x => (ts, c, m, Err x)
    | Ok _, Ok s =>
        match evaluate ts m (sg_simple s) (sg_exprs s) with
        | (ts1, m1, Err x) => (ts1, c, m1, Err x)
        | (ts1, m1, Ok u) =>
            let m2 := with_utils m1 (Some u) in
            let '(scope', r) := if cleanup then del_symbols (m_scope m2) (symbols_to_clear h c s) else (m_scope m2, Ok tt) in
            let m3 := with_scope m2 scope' in
            match r with
            | Err x => (ts1, c, m3, Err x)
            | Ok _ => if drop then let '(c', r') := drop_group c g in (ts1, c', m3, r') else (ts1, c, m3, Ok tt)
            end
        end
    end.

  Definition copy_scope (data : bool) (mask : option (list bool)) (s : dict string symbol) : dict string symbol :=
    map (fun p => (fst p, copy_symbol FR data mask (snd p))) s.

  (** model.py 667-710 [copy], without the expressions.  The nodes of the tree are shared by the
      copies; here the copy has its own (adding nodes below a shared node is not modelled). *)
  Record copy_flags : Type := CopyFlags { cf_units : bool; cf_declared : bool; cf_assigned : bool; cf_exprs : bool; cf_utils : bool }.
  Definition default_flags : copy_flags := CopyFlags true true true true true.
  Definition copy_model (ts : tables) (m : cm) (f : copy_flags) : tables * cm :=
    let scope := if orb (cf_declared f) (cf_assigned f) then copy_scope (cf_assigned f) None (m_scope m) else [] in
    let du := if orb (cf_units f) (cf_assigned f) then m_du m else None in
    match m_utils m with
    | Some u => if cf_utils f
                then (ts ++ [deref_tab ts (u_ref u)], CM (m_tree m) scope du (Some (UTab (length ts) (u_index u) (u_cols u))))
                else (ts, CM (m_tree m) scope du None)
    | None => (ts, CM (m_tree m) scope du None)
    end.

  (** model.py 712-750 [copy_subset].  [mask.index] and the values.  [_cached_utils.loc[mask]]
      aligns the mask with the table's index by label; here they must be equal (pandas would also
      accept a permutation). *)
  Definition copy_subset (ts : tables) (m : cm) (mask_index : list D) (mask : list bool) : tables * res cm :=
    match units m with
    | Err x => (ts, Err x)
    | Ok d =>
        if index_equals (ev_eq E) mask_index d then
          let du := keep mask d in
          let scope := copy_scope true (Some mask) (m_scope m) in
          match m_utils m with
          | None => (ts, Ok (CM (m_tree m) scope (Some du) None))
          | Some u =>
              if index_equals (ev_eq E) mask_index (u_index u) then
                (ts ++ [keep mask (deref_tab ts (u_ref u))],
                 Ok (CM (m_tree m) scope (Some du) (Some (UTab (length ts) (keep mask (u_index u)) (u_cols u)))))
              else (ts, Err IndexError)
          end
        else (ts, Err AssertionError)
    end.

  (** model.py 765-777: the indexers of [add_partial_utilities] *)
  Definition add_axis (index labels : list D) (allowed : bool) : res (option (list Z)) :=
    if index_equals (ev_eq E) index labels then Ok None
    else if allowed then rmap Some (get_indexer (ev_eq E) index labels) else Err KeyError.
  (** model.py 752-780 up to the loop of [fast_indexed_add]: the table written to and the loop *)
  Definition add_partial_prepare (ts : tables) (m : cm) (rows cols : list D) (cells : table) (reindex_rows reindex_cols : bool)
    : tables * cm * res (utab * (option (list Z) * option (list Z)) * (nat * (nat -> prog F))) :=
    match validate_tree (m_tree m), units m, choices (m_tree m) with
    | Err x, _, _ | Ok _, Err x, _ | Ok _, Ok _, Err x => (ts, m, Err x)
    | Ok _, Ok d, Ok ch =>
        match add_axis d rows reindex_rows with
        | Err x => (ts, m, Err x)
        | Ok ri =>
            match add_axis (map (ev_label E) ch) cols reindex_cols with
            | Err x => (ts, m, Err x)
            | Ok ci =>
                match partial_utilities ts m with
                | (ts1, m1, Err x) => (ts1, m1, Err x)
                | (ts1, m1, Ok u) =>
                    (ts1, m1,
                     do p <- fast_indexed_add F (length (deref_tab ts1 (u_ref u))) (length (u_cols u)) cells (length cols) ri ci;
                     Ok (u, (ri, ci), p))
                end
            end
        end
    end.
  (** the table as shared memory and back *)
  Definition memory_of (u : table) : ParModel.mem F :=
    fun a => match a with COut i j => VN (nth j (nth i u []) (nzero F)) | _ => VI 0%Z end.
  Definition table_of (n k : nat) (m : ParModel.mem F) : table :=
    map (fun i => map (fun j => match m (COut i j) with VN x => x | VI _ => nzero F end) (seq 0 k)) (seq 0 n).
  (** [add_partial_utilities]: the outcomes of all schedules of the parallel loop *)
  Inductive add_partial (G : generator F) (ts : tables) (m : cm) (rows cols : list D) (cells : table)
            (reindex_rows reindex_cols : bool) : tables -> cm -> res unit -> Prop :=
  | add_rejected ts' m' x :
      add_partial_prepare ts m rows cols cells reindex_rows reindex_cols = (ts', m', Err x) ->
      add_partial G ts m rows cols cells reindex_rows reindex_cols ts' m' (Err x)
  | add_done ts' m' u ix n task r0 mem' e :
      add_partial_prepare ts m rows cols cells reindex_rows reindex_cols = (ts', m', Ok (u, ix, (n, task))) ->
      parallel_for F G n task r0 (memory_of (deref_tab ts' (u_ref u))) mem' e ->
      add_partial G ts m rows cols cells reindex_rows reindex_cols
        (upd ts' (u_ref u) (table_of (length (deref_tab ts' (u_ref u))) (length (u_cols u)) mem')) m' (Ok tt).

  (** [add_partial_utilities] when the parallel loop leaves the memory [outcome]; in a history the outcome
      is part of the call (every schedule has one, [give_outcomes]) *)
  Definition give (ts : tables) (m : cm) (rows cols : list D) (cells : table) (reindex_rows reindex_cols : bool)
             (outcome : ParModel.mem F) : tables * cm :=
    match add_partial_prepare ts m rows cols cells reindex_rows reindex_cols with
    | (ts', m', Err _) => (ts', m')
    | (ts', m', Ok (u, _, _)) =>
        (upd ts' (u_ref u) (table_of (length (deref_tab ts' (u_ref u))) (length (u_cols u)) outcome), m')
    end.
  Lemma give_outcomes (G : generator F) ts m rows cols cells rr rc ts' m' r :
    add_partial G ts m rows cols cells rr rc ts' m' r -> exists outcome, give ts m rows cols cells rr rc outcome = (ts', m').
  Proof.
    intros H. unfold give. inversion H as [a b x P|a b u ix n task r0 mem' e P PF]; subst; rewrite P.
    - exists (fun _ => VI 0%Z). reflexivity.
    - destruct ix. exists mem'. reflexivity.
  Qed.

  (** [model[name].empty()]: model.py 303-305 and the [empty] methods *)
  Definition empty_symbol (m : cm) (name : string) : cm * res unit :=
    match dget String.eqb (m_scope m) name with
    | None => (m, Err KeyError)
    | Some s => (with_scope m (dset String.eqb (m_scope m) name (empty FR s)), Ok tt)
    end.

  (** ** Several models: histories of calls *)
  (** Model [i] uses container [i] of [mw_ex]. *)
  Record mworld : Type := MWorld { mw_ex : @world L; mw_tabs : tables; mw_models : list cm }.
  Definition new_mworld : mworld := MWorld new_world [] [].
  Definition model (w : mworld) (i : nat) : cm := nth i (mw_models w) new_cm.
  Definition mcont (w : mworld) (i : nat) : container := cont (mw_ex w) i.
  Definition mheap (w : mworld) : exprs := w_heap (mw_ex w).

  (** the tree operations of TreeModel.v; [add_choice] and [add_choices] drop the cached table *)
  Definition set_cached (t : tree) (c : option (list label)) : tree := Tree (t_heap t) (t_all t) (t_top t) c.
  Definition tree_op (m : cm) (o : op F) : cm :=
    let t' := run_op F (set_cached (m_tree m) (option_map u_cols (m_utils m))) o in
    CM t' (m_scope m) (m_du m) (match t_cached t' with None => None | Some _ => m_utils m end).

  Inductive mop : Type :=
  | MNew
  | MTree (i : nat) (o : op F)
  | MUnits (i : nat) (d : list D)
  | MDeclare (i : nat) (name : string) (d : decl)
  | MAssign (i : nat) (name : string) (v : value)
  | MClearScope (i : nat)
  | MAppend (i : nat) (text : string) (g : option string)
  | MClearExprs (i : nat)
  | MDropGroup (i : nat) (g : string)
  | MStochastic (i : nat) (g : option string) (clear scale check : bool)
  | MDiscrete (i : nat) (n_draws : Z) (clear : bool)
  | MPreval (i : nat) (g : string) (drop cleanup : bool)
  | MCopy (i : nat) (f : copy_flags)
  | MSubset (i : nat) (mask_index : list D) (mask : list bool)
  | MEmpty (i : nat) (name : string)
  | MGive (i : nat) (rows cols : list D) (cells : table) (reindex_rows reindex_cols : bool) (outcome : ParModel.mem F).

  Definition set_model (w : mworld) (ts : tables) (i : nat) (m : cm) : mworld :=
    MWorld (mw_ex w) ts (upd (mw_models w) i m).
  Definition set_exprs (w : mworld) (o : cop) : mworld :=
    MWorld (cstep (ev_fn E) (ev_parse E) (mw_ex w) o) (mw_tabs w) (mw_models w).

  (** The effect of a call on the state (results are ignored).  A [MTree] operation on a table
      is not among the tree operations. *)
  Definition mstep (w : mworld) (o : mop) : mworld :=
    match o with
    | MNew => MWorld (cstep (ev_fn E) (ev_parse E) (mw_ex w) ONew) (mw_tabs w) (mw_models w ++ [new_cm])
    | MTree i o => match o with
                   | PartialUtilities => w
                   | _ => set_model w (mw_tabs w) i (tree_op (model w i) o)
                   end
    | MUnits i d => set_model w (mw_tabs w) i (set_units (model w i) d)
    | MDeclare i name d => set_model w (mw_tabs w) i (fst (declare (model w i) name d))
    | MAssign i name v => set_model w (mw_tabs w) i (fst (assign_symbol (model w i) name v))
    | MClearScope i => set_model w (mw_tabs w) i (clear_scope (model w i))
    | MAppend i text g => set_exprs w (OAppend i text g)
    | MClearExprs i => set_exprs w (OClear i)
    | MDropGroup i g => set_exprs w (ODrop i g)
    | MStochastic i g clear scale check =>
        let '(ts, m, _) := run_stochastic (mheap w) (mcont w i) (mw_tabs w) (model w i) g clear scale check in
        set_model w ts i m
    | MDiscrete i n clear =>
        let '(ts, m, _) := run_discrete_utilities (mheap w) (mcont w i) (mw_tabs w) (model w i) n clear in
        set_model w ts i m
    | MPreval i g drop cleanup =>
        let '(ts, c, m, _) := preval (mheap w) (mcont w i) (mw_tabs w) (model w i) g drop cleanup in
        MWorld (World (mheap w) (upd (w_conts (mw_ex w)) i c)) ts (upd (mw_models w) i m)
    | MCopy i f =>
        let '(ts, m) := copy_model (mw_tabs w) (model w i) f in
        MWorld (cstep (ev_fn E) (ev_parse E) (mw_ex w) (if cf_exprs f then OCopy i else ONew)) ts (mw_models w ++ [m])
    | MSubset i mi mask =>
        match copy_subset (mw_tabs w) (model w i) mi mask with
        | (ts, Err _) => MWorld (mw_ex w) ts (mw_models w)
        | (ts, Ok m) => MWorld (cstep (ev_fn E) (ev_parse E) (mw_ex w) (OCopy i)) ts (mw_models w ++ [m])
        end
    | MEmpty i name => set_model w (mw_tabs w) i (fst (empty_symbol (model w i) name))
    | MGive i rows cols cells rr rc outcome =>
        let '(ts, m) := give (mw_tabs w) (model w i) rows cols cells rr rc outcome in set_model w ts i m
    end.
  Definition mrun (w : mworld) (l : list mop) : mworld := fold_left mstep l w.
End Model.

Arguments CM {L F D cell E}. Arguments m_tree {L F D cell E}. Arguments m_scope {L F D cell E}. Arguments m_du {L F D cell E}. Arguments m_utils {L F D cell E}.
Arguments UTab {D}. Arguments u_ref {D}. Arguments u_index {D}. Arguments u_cols {D}.
Arguments MWorld {L F D cell E}. Arguments mw_ex {L F D cell E}. Arguments mw_tabs {L F D cell E}. Arguments mw_models {L F D cell E}.
