(** Specification of utility evaluation: what the symbols of an expression mean in one cell of the
    utility table, and the sum of the contributions of the expressions.

    From the model files only data types are used, with [reserved] (the reserved words), [split_dot]/[pad]
    (the parts of a filter) and [expand_literal] (dict literals, whose meaning is C38). *)
From Verif Require Import Prelude Arith CoreModel TreeModel ExprModel SpecExpr ScopeModel SpecScope ModelModel.
Local Open Scope string_scope.
Local Open Scope nat_scope.
Local Open Scope list_scope.

(** entry of a table of numbers *)
Definition tcell {F : arith} (u : list (list (num F))) (r c : nat) : num F := nth c (nth r u []) (nzero F).

Section Spec.
  Context {L : Type} {F : arith} {D cell : Type} (E : env L F D cell).
  Notation num := (num F).
  Notation FR := (ev_frames E).
  Notation symbol := (symbol (num:=num) FR).
  Notation expression := (@expression L).

  (** numexpr gives the same value when the names in the expression have the same values *)
  Definition numexpr_local : Prop := forall e rho1 rho2,
    (forall x, In x (free_names e) -> rho1 x = rho2 x) -> ev_ne E e rho1 = ev_ne E e rho2.

  (** the value of a symbol used by itself for decision unit [r] and choice [c] *)
  Definition symbol_cell (s : symbol) (r c : nat) : option cell :=
    match s with
    | SNumber (Some x) => Some (ev_num E x)
    | SVector false (Some v) => nth_error v r
    | SVector true (Some v) => nth_error v c
    | SMatrix _ _ _ _ (Some (_, m)) => at2 m r c
    | _ => None
    end.
  (** the value of [s.a], [s.a.b], [s.a.f(e)]: with one attribute the column (even with an aggregation,
      see C74), else the walk through the links *)
  Definition attribute_cell (s : symbol) (ct : @chaint L) (r c : nat) : option cell :=
    match s with
    | STable orientation _ _ (Some t) =>
        match (match ch_chain ct with [a] => fr_col FR t a | p => fr_walk FR t p (ch_func ct) end) with
        | Ok v => nth_error v (if orientation then c else r)
        | Err _ => None
        end
    | _ => None
    end.

  (** [rho] gives the names of expression [x] their meaning in cell (r, c), where the utility computed so
      far is [sofar].  [simple]: the names of the symbols used by themselves. *)
  Record meaning (scope : dict string symbol) (nlevels : nat) (cols : list label) (simple : list string) (x : expression)
         (sofar : num) (r c : nat) (rho : string -> option cell) : Prop := Meaning {
    mn_out : rho "OUT" = Some (ev_num E sofar);
    mn_nan : rho "NAN" = Some (ev_num E (ev_nan E));
    mn_ninf : rho "NEG_INF" = Some (ev_num E (ev_ninf E));
    mn_simple : forall name s, In name simple -> reserved name = false ->
        dget String.eqb scope name = Some s -> rho name = symbol_cell s r c;
    mn_literal : forall sub lit values, In (sub, lit) (e_dl x) ->
        expand_literal (nzero F) (ev_f32 E) nlevels (map label_parts cols) lit = Ok values ->
        rho sub = option_map (ev_num E) (nth_error values c);
    mn_chain : forall name usages sub ct s, In (name, usages) (e_chains x) -> In (sub, ct) usages ->
        dget String.eqb scope name = Some s -> rho sub = attribute_cell s ct r c
  }.

  (** the names substituted in an expression *)
  Definition substitutions (x : expression) : list string :=
    concat (map (fun p => dkeys (snd p)) (e_chains x)) ++ dkeys (e_dl x).
  (** they differ from each other and from the names of symbols *)
  Record names_apart (simple : list string) (x : expression) : Prop := NamesApart {
    na_nodup : NoDup (substitutions x);
    na_reserved : forall s, In s (substitutions x) -> reserved s = false;
    na_simple : forall s, In s (substitutions x) -> ~ In s simple
  }.

  (** does the expression apply to this choice: no filter, or the filter spells the choice (missing levels
      are written '.') *)
  Definition applies (nlevels : nat) (l : label) (x : expression) : bool :=
    match e_filter x with
    | None => true
    | Some f => eq_strs (label_parts l) (if nlevels =? 1 then split_dot f else pad nlevels (split_dot f))
    end.

  (** the sum of the values of the expressions that apply, in order, starting from [acc]; [None] when
      a value is not defined *)
  Fixpoint total (app : expression -> bool) (value : expression -> num -> option num) (xs : list expression) (acc : num) : option num :=
    match xs with
    | [] => Some acc
    | x :: t => if app x then match value x acc with Some v => total app value t (nadd F acc v) | None => None end
                else total app value t acc
    end.

  (** every assigned symbol has the shape of [n] decision units and [k] choices; the columns of a frame and
      what is reached through its links have as many values as it has rows *)
  Definition frame_columns (t : fr FR) : Prop :=
    (forall a v, fr_col FR t a = Ok v -> length v = length (fr_index FR t)) /\
    (forall p f v, fr_walk FR t p f = Ok v -> length v = length (fr_index FR t)).
  Definition aligned_symbol (n k : nat) (s : symbol) : Prop :=
    match s with
    | SVector false (Some v) => length v = n
    | SVector true (Some v) => length v = k
    | STable orientation _ _ (Some t) => length (fr_index FR t) = (if orientation then k else n) /\ frame_columns t
    | SMatrix _ _ _ _ (Some (j, m)) => j = k /\ rectangle n k m
    | _ => True
    end.
  Definition aligned (n k : nat) (scope : dict string symbol) : Prop := forall name s, In (name, s) scope -> aligned_symbol n k s.
End Spec.
