(** Model of everything [run_stochastic] and [run_discrete] return (cheval/model.py 371-433 and
    558-622): probabilities or choices, together with the logsum outputs. *)
From Verif Require Import Prelude Arith CoreModel TreeModel ParModel ExprModel ScopeModel ModelModel.
Local Open Scope nat_scope.

Section Out.
  Context {L : Type} {F : arith} {D cell : Type} (E : env L F D cell).
  Notation num := (num F).
  Notation tree := (tree F).
  Notation table := (list (list num)).
  Notation container := (@container L).
  Notation exprs := (list (@subgroup L)).

  (** model.py 596-605: probabilities, top-level value and terms of one row of utilities *)
  Definition row_outputs (t : tree) (utilities : list num) (scale_utilities check_infeasible : bool)
    : res (list num * num * list num) :=
    do d <- depth t;
    if 1 <? d then
      do (h, lv, sc, bt) <- flatten F t;
      nested_probabilities F h lv sc bt scale_utilities utilities check_infeasible
    else multinomial_probabilities F utilities check_infeasible.

  (** model.py 597-610: the row of the three returned objects: probabilities by choice
      ([_build_nested_stochastic_frame] keeps the elemental choices), the entry of the Series, the
      row of the frame of terms *)
  Definition stochastic_outputs (t : tree) (utilities : list num) (scale_utilities check_infeasible : bool)
    : res (list (label * num) * num * list (label * num)) :=
    do (p, top, terms) <- row_outputs t utilities scale_utilities check_infeasible;
    do d <- depth t;
    do row <- (if 1 <? d then nested_frame_row F t p else do cols <- choices t; Ok (combine cols p));
    do cols <- choices t;
    Ok (row, top, combine cols terms).

  (** model.py 558-612: as [run_stochastic] of ModelModel.v, with all three outputs *)
  Definition run_stochastic_all (h : exprs) (c : container) (ts : list table) (m : cm E) (group : option string)
             (clear scale_utilities check_infeasible : bool)
    : list table * cm E * res (list (list (label * num) * num * list (label * num))) :=
    match run_utilities E h c ts m group clear with
    | (ts', m', Err x) => (ts', m', Err x)
    | (ts', m', Ok u) => (ts', m', map_res (fun row => stochastic_outputs (m_tree m') row scale_utilities check_infeasible) u)
    end.

  (** the arrays [result] and [ls_array] after the parallel loop (core.py 332-351, 380-406) *)
  Definition int_cell (v : ParModel.val F) : Z := match v with VI z => z | VN _ => 0%Z end.
  Definition num_cell (v : ParModel.val F) : num := match v with VN x => x | VI _ => nzero F end.
  Definition result_array (m : ParModel.mem F) (rows n_draws : nat) : list (list Z) :=
    map (fun i => map (fun j => int_cell (m (CRes i j))) (seq 0 n_draws)) (seq 0 rows).
  Definition logsum_array (m : ParModel.mem F) (rows : nat) : list num := map (fun i => num_cell (m (CLs i))) (seq 0 rows).

  (** model.py 371-433 [run_discrete], with the seed already an integer (404-409).  A relation: the
      parallel loop runs under any schedule, from any state of the threads' generators; when an
      iteration raises, the call raises. *)
  Definition run_discrete (G : generator F) (h : exprs) (c : container) (ts : list table) (m : cm E) (n_draws : Z)
             (clear : bool) (seed : Z) (scale_utilities as_index squeeze : bool)
             (ts' : list table) (m' : cm E) (out : res (discrete_result (D:=D) * list num)) : Prop :=
    match run_discrete_utilities E h c ts m n_draws clear with
    | (ts1, m1, Err x) => ts' = ts1 /\ m' = m1 /\ out = Err x
    | (ts1, m1, Ok u) =>
        ts' = ts1 /\ m' = m1 /\
        let n := Z.to_nat n_draws in
        match sampling_task G (m_tree m1) u n seed scale_utilities with
        | Err x => out = Err x
        | Ok task =>
            exists r0 m0 mem e, parallel_for F G (length u) task r0 m0 mem e /\
            if e then exists x, out = Err x
            else out = (do r <- convert_result E m1 (result_array mem (length u) n) n as_index squeeze;
                        Ok (r, logsum_array mem (length u)))
        end
    end.
End Out.
