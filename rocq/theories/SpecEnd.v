(** Specification of a whole run: what the texts of the expressions mean in one cell of the utility table, when
    every symbol stands for the data assigned to it.

    From the model files only data types are used, with [split_filter] (the '@' filter, C37), [split_dot]/[pad]
    (the parts of a filter) and [expand_literal] (dict literals, C38). *)
From Coq Require Import Sorted.
From Verif Require Import Prelude Arith TreeModel SpecTree SpecNested SpecSampling ParModel SpecDraws ExprModel SpecExpr ScopeModel SpecScope ModelModel SpecModel.
Local Open Scope string_scope.
Local Open Scope nat_scope.
Local Open Scope list_scope.

Section Spec.
  (** cells hold truth values, texts, numbers of a type [N], or null *)
  Context {L : Type} {F : arith} {D N : Type} (E : env L F D (val N)) (O : ops L N) (as_num : val N -> option (num F)).
  Notation num := (num F).
  Notation FR := (ev_frames E).
  Notation symbol := (symbol (num:=num) FR).

  (** numexpr evaluates cell by cell with the operations [O], and stores the value as a number of the table *)
  Definition numexpr_computes : Prop := forall e rho, ev_ne E e rho = obind (neval O rho e) as_num.

  Definition the (o : option (val N)) : val N := match o with Some v => v | None => VNull end.
  Definition at_entry (orientation : bool) (v : res (list (val N))) (r c : nat) : option (val N) :=
    match v with Ok l => nth_error l (if orientation then c else r) | Err _ => None end.

  (** the value of [s.path] and of [s.path.f(e)]: a column, or what is reached through the links *)
  Definition path_value (s : symbol) (path : list string) (fn : option (string * expr L)) (r c : nat) : option (val N) :=
    match s with
    | STable orientation _ _ (Some t) =>
        at_entry orientation (match path, fn with [a], None => fr_col FR t a | _, _ => fr_walk FR t (rev path) fn end) r c
    | _ => None
    end.

  Context (scope : dict string symbol) (nlevels : nat) (cols : list label) (r : nat).
  Section Cell.
  Context (c : nat).
  (** what the symbols stand for in cell (r, c), where the utility computed so far is [sofar] *)
  Definition cell_symbols (sofar : num) : symbols L N := Symbols
    (fun x => if String.eqb x "OUT" then ev_num E sofar else if String.eqb x "NEG_INF" then ev_num E (ev_ninf E)
              else if String.eqb x "NAN" then ev_num E (ev_nan E)
              else the (obind (dget String.eqb scope x) (fun s => symbol_cell E s r c)))
    (fun x path => the (obind (dget String.eqb scope x) (fun s => path_value s path None r c)))
    (fun x path f e => the (obind (dget String.eqb scope x) (fun s => path_value s path (Some (f, e)) r c)))
    (fun lit => the (match expand_literal (nzero F) (ev_f32 E) nlevels (map label_parts cols) lit with
                     | Ok values => option_map (ev_num E) (nth_error values c) | Err _ => None end)).

  (** the number a text stands for in this cell *)
  Definition text_value (text : string) (sofar : num) : option num :=
    match split_filter text with
    | Ok (body, _) => match ev_parse E body with Ok tree => obind (pyval O (cell_symbols sofar) tree) as_num | Err _ => None end
    | Err _ => None
    end.
  (** does it apply to the choice [l]: no filter, or the filter spells the choice *)
  Definition text_applies (l : label) (text : string) : bool :=
    match split_filter text with
    | Ok (_, None) => true
    | Ok (_, Some f) => eq_strs (label_parts l) (if nlevels =? 1 then split_dot f else pad nlevels (split_dot f))
    | Err _ => false
    end.
  (** the sum of the texts that apply, in order, starting from [acc] *)
  Fixpoint texts_total (l : label) (texts : list string) (acc : num) : option num :=
    match texts with
    | [] => Some acc
    | x :: t => if text_applies l x then obind (text_value x acc) (fun v => texts_total l t (nadd F acc v)) else texts_total l t acc
    end.
  End Cell.
  (** [us] are these sums for all the choices *)
  Definition texts_row (texts : list string) (us : list num) : Prop :=
    length us = length cols /\
    forall c l, nth_error cols c = Some l -> texts_total c l texts (nzero F) = Some (nth c us (nzero F)).
End Spec.

(** an aggregation comes after at least two attributes ([df.link.f(e)] is not evaluated, see C74) *)
Definition deep_aggregations {L} (x : @expression L) : Prop :=
  forall name usages sub ct, In (name, usages) (e_chains x) -> In (sub, ct) usages -> ch_func ct <> None -> 2 <= length (ch_chain ct).

(** ** Outputs *)
Section Outputs.
  Context (F : arith).
  Notation num := (num F).

  (** the multinomial logit equations: terms, their sum, the quotients (0 when the sum is not positive) *)
  Definition mnl_solution (us P : list num) (top : num) (terms : list num) : Prop :=
    terms = map (nexp F) us /\ top = fold_left (nadd F) terms (nzero F) /\
    P = map (fun e => if nle F top (nzero F) then nzero F else ndiv F e top) terms.

  (** [h] and [sc] are the parents (as positions among the choices, -1 for none) and scales of the nodes *)
  Definition encodes (t : tree F) (h : list Z) (sc : list num) : Prop :=
    length h = length (t_all t) /\ length sc = length (t_all t) /\
    forall k key i nd, nth_error (t_all t) k = Some (key, i) -> nth_error (t_heap t) i = Some nd ->
      match nd_parent nd with
      | None => nth k h 0%Z = (-1)%Z
      | Some p => exists q pkey, nth_error (t_all t) q = Some (pkey, p) /\ nth k h (-1)%Z = Z.of_nat q
      end /\
      (has_child t i -> nth k sc (nzero F) = nd_scale nd).

  (** the logit equations of a tree of depth [nl]; [us] are the utilities of all its nodes *)
  Definition logit_solution (t : tree F) (nl : nat) (scaled : bool) (us P : list num) (top : num) (terms : list num) : Prop :=
    if 1 <? nl then exists h sc, encodes t h sc /\ nl_solution F (length us) h sc scaled us P top terms
    else mnl_solution us P top terms.

  (** position [k] among the choices is a node without children *)
  Definition end_node (t : tree F) (k : nat) : Prop := exists key i, nth_error (t_all t) k = Some (key, i) /\ ~ has_child t i.
  (** the row of [values] restricted to the end nodes, in order *)
  Definition end_row (t : tree F) (cols : list label) (values : list num) (row : list (label * num)) : Prop :=
    exists ks, StronglySorted lt ks /\ (forall k, In k ks <-> end_node t k) /\
      row = map (fun k => (nth k cols (Flat ""), nth k values (nzero F))) ks.
End Outputs.

(** one entry of the result of a discrete run: decision unit [r], draw [j] *)
Definition result_entry {D} (res : @discrete_result D) (r j : nat) : option entry :=
  match res with
  | RSeries _ values => if j =? 0 then nth_error values r else None
  | RFrame _ _ columns => at2 columns j r
  end.
(** the decision units it is labelled with *)
Definition result_units {D} (res : @discrete_result D) : list D := match res with RSeries d _ => d | RFrame d _ _ => d end.
(** an entry shows the choice at position [i]: the position itself, or the label *)
Definition shows (cols : list label) (as_index : bool) (e : entry) (i : nat) : Prop :=
  if as_index then e = Pos (Z.of_nat i) else exists l, nth_error cols i = Some l /\ e = Lab l.

(** ** Draws *)
Section Draws.
  Context (F : arith) (G : generator F).
  Notation num := (num F).
  (** p(0) + ... + p(k), added from the left *)
  Definition running (P : list num) (k : nat) : num := fold_left (nadd F) (firstn (S k) P) (nzero F).
  (** the random number for draw [j] of unit [r], from the seed alone: with one draw the [r]-th of the
      sequence started by the seed, with several the [j]-th of the unit's own sequence, whose seed is the
      [r]-th random integer *)
  Definition random_number (seed : Z) (units n_draws r j : nat) : num :=
    if n_draws =? 1 then kth_uniform G (gseed G seed) r
    else kth_uniform G (gseed G (kth_integer G (gseed G seed) r)) j.
  (** the position chosen by the number [x]: the first whose running sum reaches it, or the last; with several
      draws (binary search) when the running sums, once they reach it, keep doing so *)
  Definition chosen (n_draws : nat) (P : list num) (x : num) (i : nat) : Prop :=
    if n_draws =? 1
    then let x' := if nlt F x (ntiny F) then ntiny F else x in first_reaching (fun k => nle F x' (running P k)) (length P) i
    else let x' := if neqb F x (nzero F) then ntiny F else x in
         i < length P /\
         ((forall a b, a <= b < length P -> nle F x' (running P a) = true -> nle F x' (running P b) = true) ->
          first_reaching (fun k => nle F x' (running P k)) (length P) i).
End Draws.
