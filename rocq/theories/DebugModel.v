(** Model of the debugging record of ChoiceModel: [debug_id] and [debug_results] (cheval/model.py 29, 51-52, 459-464, 501-507,
    682, 732).  The rest of the evaluation is as in ModelModel.v. *)
From Verif Require Import Prelude Arith CoreModel TreeModel ParModel ExprModel SpecExpr ScopeModel ModelModel.
Local Open Scope string_scope.
Local Open Scope nat_scope.
Local Open Scope list_scope.

Section Debug.
  Context {L : Type} {F : arith} {D cell : Type} (E : env L F D cell).
  (** [bool(label)]: the code tests [if self.debug_id] (463, 502, 506) *)
  Context (truthy : D -> bool).
  Notation num := (num F).
  Notation FR := (ev_frames E).
  Notation symbol := (symbol (num:=num) FR).
  Notation expression := (@expression L).
  Notation container := (@container L).
  Notation exprs := (list (@subgroup L)).
  Notation table := (list (list num)).
  Notation tables := (list (list (list num))).
  Notation locals := (dict string (data (cell:=cell) (num:=num))).
  Notation cm := (cm E).

  (** [debug_results]: its columns and its rows, each labelled by the text of an expression *)
  Record trace : Type := Trace { tr_cols : list label; tr_rows : list (string * list num) }.
  (** model.py 51-52 *)
  Record dbg : Type := Dbg { db_id : option D; db_results : option trace }.
  Definition no_debug : dbg := Dbg None None.
  (** the label to be traced, if any *)
  Definition traced (b : dbg) : option D := match db_id b with Some x => if truthy x then Some x else None | None => None end.

  (** model.py 480-504: [utilities[debug_label].copy()] after each expression *)
  Fixpoint eval_all_debug (p : nat) (scope : dict string symbol) (nlevels : nat) (cols : list label) (shared : locals) (k : nat)
           (u : table) (xs : list expression) : table * res (list (string * list num)) :=
    match xs with
    | [] => (u, Ok [])
    | x :: t =>
        match eval_one E scope nlevels cols shared k u x with
        | Err e => (u, Err e)
        | Ok u' =>
            match nth_error u' p with
            | None => (u', Err IndexError)
            | Some row =>
                let '(v, r) := eval_all_debug p scope nlevels cols shared k u' t in
                (v, do rows <- r; Ok ((e_raw x, row) :: rows))
            end
        end
    end.

  (** model.py 450-514 with 459-464 and 501-507.  [get_loc] (464) is the position of the label; when the label occurs several
      times the code gets a slice or a mask instead (not modelled: the theorems assume that the decision units are distinct).
      A DataFrame whose rows do not have one cell for each column is refused (507). *)
  Definition evaluate_debug (ts : tables) (m : cm) (b : dbg) (simple : list string) (xs : list expression) : tables * cm * dbg * res utab :=
    match traced b with
    | None => let '(ts', m', r) := evaluate E ts m simple xs in (ts', m', b, r)
    | Some x =>
        match m_du m with
        | None => (ts, m, b, Err ModelNotReady)
        | Some d =>
            match choices (m_tree m), depth (m_tree m) with
            | Err e, _ | Ok _, Err e => (ts, m, b, Err e)
            | Ok cols, Ok nlevels =>
                match position (ev_eq E) d x with
                | None => (ts, m, b, Err KeyError)
                | Some p =>
                    match partial_utilities E ts m with
                    | (ts1, m1, Err e) => (ts1, m1, b, Err e)
                    | (ts1, m1, Ok u) =>
                        match shared_locals E (m_scope m) simple (base_locals E) with
                        | Err e => (ts1, m1, b, Err e)
                        | Ok shared =>
                            let k := length (u_cols u) in
                            let '(t, r) := eval_all_debug p (m_scope m) nlevels cols shared k (deref_tab ts1 (u_ref u)) xs in
                            let ts2 := upd ts1 (u_ref u) t in
                            match r with
                            | Err e => (ts2, m1, b, Err e)
                            | Ok rows =>
                                if forallb (fun row => length (snd row) =? length cols) rows then
                                  (ts2, m1, Dbg (db_id b) (Some (Trace cols rows)),
                                   if existsb (existsb is_nan) t then Err UtilityBounds
                                   else do _ <- guard (andb (length t =? length d) (k =? length cols)) ValueError;
                                        Ok (UTab (u_ref u) d cols))
                                else (ts2, m1, b, Err ValueError)
                            end
                        end
                    end
                end
            end
        end
    end.

  (** [run_utilities], [run_stochastic], [run_discrete_utilities] and [preval] of ModelModel.v with that evaluation
      (model.py 415, 592, 647) *)
  Definition run_utilities_debug (h : exprs) (c : container) (ts : tables) (m : cm) (b : dbg) (group : option string) (clear : bool)
    : tables * cm * dbg * res table :=
    match validate E h c m group with
    | Err x => (ts, m, b, Err x)
    | Ok _ =>
        match selection h c group with
        | Err x => (ts, m, b, Err x)
        | Ok (simple, xs) =>
            match evaluate_debug ts m b simple xs with
            | (ts', m', b', Err x) => (ts', m', b', Err x)
            | (ts', m', b', Ok u) => (ts', if clear then clear_scope E m' else m', b', Ok (deref_tab ts' (u_ref u)))
            end
        end
    end.
  Definition run_stochastic_debug (h : exprs) (c : container) (ts : tables) (m : cm) (b : dbg) (group : option string)
             (clear scale_utilities check_infeasible : bool) : tables * cm * dbg * res (list (list (label * num))) :=
    match run_utilities_debug h c ts m b group clear with
    | (ts', m', b', Err x) => (ts', m', b', Err x)
    | (ts', m', b', Ok u) => (ts', m', b', map_res (fun row => stochastic_row F (m_tree m') row scale_utilities check_infeasible) u)
    end.
  Definition run_discrete_debug (h : exprs) (c : container) (ts : tables) (m : cm) (b : dbg) (n_draws : Z) (clear : bool)
    : tables * cm * dbg * res table :=
    match validate E h c m None with
    | Err x => (ts, m, b, Err x)
    | Ok _ => if (n_draws <? 1)%Z then (ts, m, b, Err ValueError) else run_utilities_debug h c ts m b None clear
    end.
  Definition preval_debug (h : exprs) (c : container) (ts : tables) (m : cm) (b : dbg) (g : string) (drop cleanup : bool)
    : tables * container * cm * dbg * res unit :=
    match validate E h c m (Some g), get_group h c g with
    | Err x, _ | Ok _, Err x => (ts, c, m, b, Err x)
    | Ok _, Ok s =>
        match evaluate_debug ts m b (sg_simple s) (sg_exprs s) with
        | (ts1, m1, b1, Err x) => (ts1, c, m1, b1, Err x)
        | (ts1, m1, b1, Ok u) =>
            let m2 := with_utils E m1 (Some u) in
            let '(scope', r) := if cleanup then del_symbols E (m_scope m2) (symbols_to_clear h c s) else (m_scope m2, Ok tt) in
            let m3 := with_scope E m2 scope' in
            match r with
            | Err x => (ts1, c, m3, b1, Err x)
            | Ok _ => if drop then let '(c', r') := drop_group c g in (ts1, c', m3, b1, r') else (ts1, c, m3, b1, Ok tt)
            end
        end
    end.

  (** Histories: the state of ModelModel.v and one record for each model; [DDebug] is [model.debug_id = label].  Copies have
      the label of the original and no results (682, 732). *)
  Record dworld : Type := DWorld { dw_world : mworld E; dw_dbg : list dbg }.
  Definition new_dworld : dworld := DWorld (new_mworld E) [].
  Definition record (w : dworld) (i : nat) : dbg := nth i (dw_dbg w) no_debug.
  Inductive dop : Type := DDebug (i : nat) (label : option D) | DOp (o : mop E).
  Definition copied_record (b : dbg) : dbg := Dbg (db_id b) None.
  Definition dstep (w : dworld) (o : dop) : dworld :=
    let mw := dw_world w in
    match o with
    | DDebug i x => DWorld mw (upd (dw_dbg w) i (Dbg x (db_results (record w i))))
    | DOp (MNew _) => DWorld (mstep E mw (MNew E)) (dw_dbg w ++ [no_debug])
    | DOp (MStochastic _ i g clear scale check) =>
        let '(ts, m, b, _) := run_stochastic_debug (mheap E mw) (mcont E mw i) (mw_tabs mw) (model E mw i) (record w i) g clear scale check in
        DWorld (set_model E mw ts i m) (upd (dw_dbg w) i b)
    | DOp (MDiscrete _ i n clear) =>
        let '(ts, m, b, _) := run_discrete_debug (mheap E mw) (mcont E mw i) (mw_tabs mw) (model E mw i) (record w i) n clear in
        DWorld (set_model E mw ts i m) (upd (dw_dbg w) i b)
    | DOp (MPreval _ i g drop cleanup) =>
        let '(ts, c, m, b, _) := preval_debug (mheap E mw) (mcont E mw i) (mw_tabs mw) (model E mw i) (record w i) g drop cleanup in
        DWorld (MWorld (World (mheap E mw) (upd (w_conts (mw_ex mw)) i c)) ts (upd (mw_models mw) i m)) (upd (dw_dbg w) i b)
    | DOp (MCopy _ i f) => DWorld (mstep E mw (MCopy E i f)) (dw_dbg w ++ [copied_record (record w i)])
    | DOp (MSubset _ i mi mask) =>
        DWorld (mstep E mw (MSubset E i mi mask))
          (match copy_subset E (mw_tabs mw) (model E mw i) mi mask with (_, Ok _) => dw_dbg w ++ [copied_record (record w i)] | (_, Err _) => dw_dbg w end)
    | DOp o => DWorld (mstep E mw o) (dw_dbg w)
    end.
  Definition drun (w : dworld) (l : list dop) : dworld := fold_left dstep l w.
End Debug.
Arguments Dbg {F D}. Arguments db_id {F D}. Arguments db_results {F D}. Arguments Trace {F}. Arguments tr_cols {F}. Arguments tr_rows {F}. Arguments no_debug {F D}.
Arguments DWorld {L F D cell E}. Arguments dw_world {L F D cell E}. Arguments dw_dbg {L F D cell E}. Arguments record {L F D cell E}.
