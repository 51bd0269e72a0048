(** Model of the parallel functions of cheval/core.py (307-504): [prange] loops executed by
    any number of threads, with thread-local random state.

    One iteration of a [prange] loop is a program (a tree of primitive actions); the machine
    lets idle threads pick waiting iterations in any order and interleaves the actions of
    running iterations arbitrarily.  Memory is sequentially consistent (the relaxed memory
    model of the hardware is not modelled: the iterations of all but one of these loops touch
    disjoint cells). *)
From Verif Require Import Prelude Arith CoreModel.
Local Open Scope nat_scope.

Section Par.
  Context (F : arith).
  Notation num := (num F).

  (** numba's per-thread generator: [np.random.seed], [np.random.uniform(tiny, 1)],
      [np.random.randint(0, MAX)]; an arbitrary deterministic generator. *)
  Record generator : Type := Generator {
    gstate : Type;
    gseed : Z -> gstate;
    guniform : gstate -> num * gstate;
    grandint : gstate -> Z * gstate
  }.
  Context (G : generator).
  Notation gst := (gstate G).

  (** cells of the shared arrays: [result[i, j]], [ls_array[i]]/[top_ls_array[i]],
      [nested_ls_terms[i, j]], [out[i, j]], [r_array[i]] *)
  Inductive cell : Type :=
  | CRes (i j : nat) | CLs (i : nat) | CTerm (i j : nat) | COut (i j : nat) | CRand (i : nat).
  Inductive val : Type := VI (z : Z) | VN (x : num).
  Definition mem := cell -> val.

  Definition cell_eqb (a b : cell) : bool :=
    match a, b with
    | CRes i j, CRes i' j' | CTerm i j, CTerm i' j' | COut i j, COut i' j' =>
        andb (Nat.eqb i i') (Nat.eqb j j')
    | CLs i, CLs i' | CRand i, CRand i' => Nat.eqb i i'
    | _, _ => false
    end.
  Definition wr (m : mem) (a : cell) (v : val) : mem := fun b => if cell_eqb a b then v else m b.

  (** body of one loop iteration *)
  Inductive prog : Type :=
  | Done
  | Raise (e : exn)
  | Seed (s : Z) (k : prog)                 (* np.random.seed(s) in the executing thread *)
  | Draw (k : num -> prog)                  (* np.random.uniform(tiny, 1.0, 1)[0] *)
  | Read (a : cell) (k : val -> prog)
  | Write (a : cell) (v : val) (k : prog).

  (** ** The machine *)
  Inductive status : Type := Waiting | Running (t : nat) (p : prog) | Finished.
  Record config : Type := Config {
    c_mem : mem; c_err : bool;              (* an iteration has raised *)
    c_rng : nat -> gst;                     (* generator of each thread *)
    c_st : nat -> status                    (* status of each iteration *)
  }.
  Definition fupd {A} (f : nat -> A) (i : nat) (x : A) : nat -> A :=
    fun j => if Nat.eqb i j then x else f j.

  Inductive step (n : nat) (task : nat -> prog) : config -> config -> Prop :=
  | st_start m e r s i t : i < n -> s i = Waiting -> (forall j p, s j <> Running t p) ->
      step n task (Config m e r s) (Config m e r (fupd s i (Running t (task i))))
  | st_done m e r s i t : s i = Running t Done ->
      step n task (Config m e r s) (Config m e r (fupd s i Finished))
  | st_raise m e r s i t x : s i = Running t (Raise x) ->
      step n task (Config m e r s) (Config m true r (fupd s i Finished))
  | st_seed m e r s i t z k : s i = Running t (Seed z k) ->
      step n task (Config m e r s) (Config m e (fupd r t (gseed G z)) (fupd s i (Running t k)))
  | st_draw m e r s i t k : s i = Running t (Draw k) ->
      step n task (Config m e r s)
           (Config m e (fupd r t (snd (guniform G (r t)))) (fupd s i (Running t (k (fst (guniform G (r t)))))))
  | st_read m e r s i t a k : s i = Running t (Read a k) ->
      step n task (Config m e r s) (Config m e r (fupd s i (Running t (k (m a)))))
  | st_write m e r s i t a v k : s i = Running t (Write a v k) ->
      step n task (Config m e r s) (Config (wr m a v) e r (fupd s i (Running t k))).

  Inductive steps (n : nat) (task : nat -> prog) : config -> config -> Prop :=
  | steps_refl c : steps n task c c
  | steps_step c d f : step n task c d -> steps n task d f -> steps n task c f.

  (** A completed parallel loop over [n] iterations, started with memory [m0] and thread
      generators in arbitrary states [r0], ending with memory [m] ([e]: some iteration raised). *)
  Definition parallel_for (n : nat) (task : nat -> prog) (r0 : nat -> gst) (m0 : mem)
             (m : mem) (e : bool) : Prop :=
    exists r s, steps n task (Config m0 false r0 (fun _ => Waiting)) (Config m e r s) /\
                forall i, i < n -> s i = Finished.

  (** ** Draws made by a single thread *)
  Fixpoint uniforms (g : gst) (n : nat) : list num :=
    match n with O => [] | S k => let (x, g') := guniform G g in x :: uniforms g' k end.
  Fixpoint randints (g : gst) (n : nat) : list Z :=
    match n with O => [] | S k => let (x, g') := grandint G g in x :: randints g' k end.

  (** core.py 90-101: seeded arrays filled by the calling thread *)
  Definition generate_rand_ints_for_parallel (seed : Z) (n : nat) : list Z := randints (gseed G seed) n.
  Definition generate_rand_floats_for_parallel (seed : Z) (n : nat) : list num := uniforms (gseed G seed) n.

  (** assignment of a row: [table[i, :] = values], element by element *)
  Fixpoint write_row (mk : nat -> cell) (vals : list num) (j : nat) (k : prog) : prog :=
    match vals with
    | [] => k
    | v :: t => Write (mk j) (VN v) (write_row mk t (S j) k)
    end.

  (** ** Workers *)

  (** core.py 361-371 and 413-425: body of the probability workers, [f] being the row function *)
  Definition prob_task (f : list num -> res (list num * num * list num)) (utilities : list (list num))
             (i : nat) : prog :=
    match f (nth i utilities []) with
    | Err e => Raise e
    | Ok (p, ls, terms) =>
        write_row (CRes i) p 0 (Write (CLs i) (VN ls) (write_row (CTerm i) terms 0 Done))
    end.

  (** core.py 335-343, 386-396: body of the one-draw workers *)
  Definition sample_task (f : list num -> num -> res (Z * num)) (utilities : list (list num))
             (r_array : list num) (i : nat) : prog :=
    match f (nth i utilities []) (nth i r_array (nzero F)) with
    | Err e => Raise e
    | Ok (z, ls) => Write (CRes i 0) (VI z) (Write (CLs i) (VN ls) Done)
    end.

  (** core.py 104-119 [sample_multi] with [out = result[i, :]]: seed the executing thread, then
      one draw and one search per output; [cps] are the cumulated probabilities *)
  Fixpoint multi_loop (i : nat) (cps : list num) (n j : nat) (k : prog) : prog :=
    match n with
    | O => k
    | S n' => Draw (fun r =>
                match logarithmic_search F r cps with
                | Some z => Write (CRes i j) (VI z) (multi_loop i cps n' (S j) k)
                | None => Raise IndexError   (* empty row; numba reads out of bounds *)
                end)
    end.

  (** core.py 344-351, 397-406: body of the multi-draw workers *)
  Definition multisample_task (f : list num -> res (list num * num * list num))
             (utilities : list (list num)) (n : nat) (seed_array : list Z) (i : nat) : prog :=
    match f (nth i utilities []) with
    | Err e => Raise e
    | Ok (p, ls, _) =>
        Seed (nth i seed_array 0%Z)
             (multi_loop i (nbf_cumsum F p) n 0 (Write (CLs i) (VN ls) Done))
    end.

  (** core.py 328-351 [worker_multinomial_sample] and 374-406 [worker_nested_sample]: the loop
      body for [n] draws; [f]/[fs] are the row functions (probabilities, single sample) *)
  Definition discrete_task (f : list num -> res (list num * num * list num))
             (fs : list num -> num -> res (Z * num))
             (utilities : list (list num)) (n : nat) (seed : Z) : nat -> prog :=
    if n <=? 1
    then sample_task fs utilities (generate_rand_floats_for_parallel seed (length utilities))
    else multisample_task f utilities n (generate_rand_ints_for_parallel seed (length utilities)).

  (** core.py 354-371 *)
  Definition worker_multinomial_probabilities (utilities : list (list num)) (check_infeasible : bool) : nat -> prog :=
    prob_task (fun u => multinomial_probabilities F u check_infeasible) utilities.
  (** core.py 409-425 *)
  Definition worker_nested_probabilities (utilities : list (list num)) (parents : list Z) (levels : list nat)
      (ls_scales : list num) (bottom_flags : list bool) (scale_utilities check_infeasible : bool) : nat -> prog :=
    prob_task (fun u => nested_probabilities F parents levels ls_scales bottom_flags scale_utilities u check_infeasible)
              utilities.
  (** core.py 328-351; the rows are sampled with [check_infeasible] true (260-273) *)
  Definition worker_multinomial_sample (utilities : list (list num)) (n : nat) (seed : Z) : nat -> prog :=
    discrete_task (fun u => multinomial_probabilities F u true) (multinomial_sample F) utilities n seed.
  (** core.py 374-406; likewise (280-299) *)
  Definition worker_nested_sample (utilities : list (list num)) (parents : list Z) (levels : list nat)
      (ls_scales : list num) (bottom_flags : list bool) (n : nat) (seed : Z) (scale_utilities : bool) : nat -> prog :=
    discrete_task
      (fun u => nested_probabilities F parents levels ls_scales bottom_flags scale_utilities u true)
      (fun u r => nested_sample F u r parents levels ls_scales bottom_flags scale_utilities) utilities n seed.

  (** ** core.py 307-325 [worker_weighted_sample] *)
  (** Numba turns [np.random.uniform(tiny, 1.0, n_rows)] inside a [parallel=True] function into
      a parallel loop: every element is drawn by the thread that executes it. *)
  Definition fill_task (i : nat) : prog := Draw (fun x => Write (CRand i) (VN x) Done).
  Definition weighted_task (weights : list (list num)) (i : nat) : prog :=
    Read (CRand i) (fun v => match v with
      | VN r => Write (CRes i 0) (VI (simple_sample F (nth i weights []) r)) Done
      | VI _ => Raise TypeError
      end).
  (** line 324 unpacks the returned array of [n] positions into two variables *)
  Definition weighted_multi_task (weights : list (list num)) (n : nat) (seed_array : list Z) (i : nat) : prog :=
    Seed (nth i seed_array 0%Z)
         (multi_loop i (nbf_cumsum F (simple_probabilities F (nth i weights []))) n 0
            (if n =? 2 then Done else Raise ValueError)).

  (** a complete call with one draw: seed the calling thread (thread 0), fill, sample *)
  Definition weighted_sample_once (weights : list (list num)) (seed : Z) (r0 : nat -> gst)
             (m0 m : mem) (e : bool) : Prop :=
    exists m1 e1 r1 s1 r2 s2,
      steps (length weights) fill_task
            (Config m0 false (fupd r0 0 (gseed G seed)) (fun _ => Waiting)) (Config m1 e1 r1 s1) /\
      (forall i, i < length weights -> s1 i = Finished) /\
      steps (length weights) (weighted_task weights)
            (Config m1 e1 r1 (fun _ => Waiting)) (Config m e r2 s2) /\
      (forall i, i < length weights -> s2 i = Finished).

  (** ** core.py 431-504 [fast_indexed_add] *)

  (** Minimum and maximum of an indexer; [None] when it is empty ([.min()] raises ValueError). *)
  Definition zmin (l : list Z) : option Z :=
    match l with [] => None | x :: t => Some (fold_left Z.min t x) end.
  Definition zmax (l : list Z) : option Z :=
    match l with [] => None | x :: t => Some (fold_left Z.max t x) end.

  (** core.py 436-446: the assertions on one axis *)
  Definition check_axis (n_add n_out : nat) (index : option (list Z)) : res unit :=
    match index with
    | None => if n_add =? n_out then Ok tt else Err AssertionError
    | Some l =>
        if negb (length l =? n_add) then Err AssertionError
        else match zmin l, zmax l with
             | Some a, Some b =>
                 if andb (0 <=? a)%Z (b <? Z.of_nat n_out)%Z then Ok tt else Err AssertionError
             | _, _ => Err ValueError
             end
    end.

  (** target position of the [i]-th row/column of the addition *)
  Definition target (index : option (list Z)) (i : nat) : nat :=
    match index with None => i | Some l => Z.to_nat (nth i l 0%Z) end.

  (** core.py 461-504: one iteration; [out[tr, tc] += a] is a load, an addition and a store *)
  Definition add_task (addition : list (list num)) (cols_a : nat) (ri ci : option (list Z)) (offset : nat) : prog :=
    let row := offset / cols_a in
    let col := offset mod cols_a in
    let a := COut (target ri row) (target ci col) in
    Read a (fun v => match v with
      | VN x => Write a (VN (nadd F x (nth col (nth row addition []) (nzero F)))) Done
      | VI _ => Raise TypeError
      end).

  (** core.py 431-458: number of iterations and loop body, or the exception raised before it *)
  Definition fast_indexed_add (rows_o cols_o : nat) (addition : list (list num)) (cols_a : nat)
             (ri ci : option (list Z)) : res (nat * (nat -> prog)) :=
    let rows_a := length addition in
    do _ <- check_axis rows_a rows_o ri;
    do _ <- check_axis cols_a cols_o ci;
    Ok (rows_a * cols_a, add_task addition cols_a ri ci).
End Par.

Arguments Done {F}. Arguments Raise {F} e. Arguments Seed {F} s k. Arguments Draw {F} k.
Arguments Read {F} a k. Arguments Write {F} a v k. Arguments VI {F} z. Arguments VN {F} x.
Arguments Config {F G}. Arguments Waiting {F}. Arguments Running {F} t p. Arguments Finished {F}.
Arguments gseed {F} g. Arguments guniform {F} g. Arguments grandint {F} g. Arguments gstate {F} g.
Arguments c_mem {F G}. Arguments c_err {F G}. Arguments c_rng {F G}. Arguments c_st {F G}.
