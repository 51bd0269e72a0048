(** Model of the expression front end: cheval/parsing/ast_transformer.py,
    cheval/parsing/expressions.py, cheval/parsing/expr_items.py and the expression containers
    of cheval/api.py 113-241.

    Syntax trees are those of Python's [ast] (3.7: numbers and strings are [Num] and [Str]).
    The parser [ast.parse] is a parameter.  Source text produced by [astor.to_source]
    (the rewritten expression, the argument of an aggregation) is represented by the tree it
    was produced from.  Strings are sequences of ASCII characters.  Python sets are lists read
    up to membership. *)
From Coq Require Import Ascii DecimalString Decimal DecimalNat.
From Verif Require Import Prelude.
Local Open Scope string_scope.
Local Open Scope nat_scope.
Local Open Scope list_scope.

(** * Syntax trees *)

Inductive cmpop := CEq | CNotEq | CLt | CLtE | CGt | CGtE | CIs | CIsNot | CIn | CNotIn.
Inductive binop := Add | Sub | Mult | Div | FloorDiv | Mod | Pow | BitAnd | BitOr | BitXor
                 | LShift | RShift | MatMult.
Inductive unop := Not | USub | Invert | UAdd.
Inductive boolop := And | Or.

(** [L] is the type of numeric literals.
    [EConst]: [True], [False], [None], [...];  [EUnsup k]: a node of one of the classes of
    [_UNSUPPORTED_NODES] (ast_transformer.py 15-16);  [EGen k l]: a node of any other class
    without a visitor of its own, with its child nodes in field order (a list or tuple display has
    its [Load] context as last child). *)
Inductive expr (L : Type) : Type :=
| EName (id : string)
| ENum (n : L)
| EStr (s : string)
| EBytes (s : string)
| EConst (k : string)
| EAttr (v : expr L) (attr : string)
| ECall (f : expr L) (args : list (expr L)) (kws : list (string * expr L))
| EUn (op : unop) (e : expr L)
| EBool (op : boolop) (vs : list (expr L))
| ECmp (l : expr L) (ops : list cmpop) (rs : list (expr L))
| EBin (op : binop) (l r : expr L)
| EDict (ks vs : list (expr L))
| EUnsup (k : string)
| EGen (k : string) (l : list (expr L)).
Arguments EName {L}. Arguments ENum {L}. Arguments EStr {L}. Arguments EBytes {L}. Arguments EConst {L}.
Arguments EAttr {L}. Arguments ECall {L}. Arguments EUn {L}. Arguments EBool {L}. Arguments ECmp {L}.
Arguments EBin {L}. Arguments EDict {L}. Arguments EUnsup {L}. Arguments EGen {L}.

Definition eq_strs (a b : list string) : bool := if list_eq_dec string_dec a b then true else false.

(** ['%s' % n] for a non-negative integer *)
Definition dec (n : nat) : string := NilZero.string_of_uint (Nat.to_uint n).

(** membership and insertion in a set of strings *)
Definition mem (x : string) (l : list string) : bool := existsb (String.eqb x) l.
Definition sadd (x : string) (l : list string) : list string := if mem x l then l else l ++ [x].
Definition sunion (l m : list string) : list string := fold_left (fun acc x => sadd x acc) m l.

(** [str.lower] on ASCII *)
Definition lower_char (c : ascii) : ascii :=
  let n := nat_of_ascii c in
  if andb (65 <=? n) (n <=? 90) then ascii_of_nat (n + 32) else c.
Fixpoint lower (s : string) : string :=
  match s with EmptyString => EmptyString | String c t => String (lower_char c) (lower t) end.

(** ast_transformer.py 17 [_NAN_REPRESENTATIONS] *)
Definition nan_like (s : string) : bool := mem (lower s) ["none"; "nan"].
(** ast_transformer.py 19-21 [_SUPPORTED_AGGREGATIONS] *)
Definition supported_agg (f : string) : bool :=
  mem f ["count"; "first"; "last"; "max"; "min"; "mean"; "median"; "prod"; "std"; "sum"; "var"].

Section Expr.
  Context {L : Type}.
  Notation expr := (expr L).
  (** ast_transformer.py 18: the keys of [numexpr.expressions.functions] *)
  Context (numexpr_fn : string -> bool).

  (** expr_items.py 6, 20-24: a chain of attribute names (outermost first), with the aggregation
      function and its argument when there is one *)
  Record chaint : Type := Chain { ch_chain : list string; ch_func : option (string * expr) }.

  (** a number of a dict literal: negated or not ([-n] or [n]) *)
  Definition dval : Type := bool * L.
  Definition literal : Type := dict (list string) dval.

  (** ast_transformer.py 28-38: the attributes of an ExpressionParser *)
  Record vst : Type := VSt {
    v_simple : list string;                                (* simple_symbols *)
    v_allch : list string;                                 (* all_chained_symbols *)
    v_ch : dict string (dict string chaint);               (* chained_symbols *)
    v_vis : list string;                                   (* visited_simple *)
    v_dl : dict string literal                             (* dict_literals *)
  }.

  (** expr_items.py 26-30 [_make_sub] *)
  Definition make_sub (name : string) (n : nat) : string := ("__sub_" ++ name ++ dec n)%string.
  (** ast_transformer.py 178 *)
  Definition dict_sub (n : nat) : string := ("__dict" ++ dec n)%string.

  (** ast_transformer.py 243-253 [__get_name_from_attribute]: the symbol and the attributes,
      outermost first *)
  Fixpoint attr_name (e : expr) : res (string * list string) :=
    match e with
    | EName x => Ok (x, [])
    | EAttr v a => do (x, c) <- attr_name v; Ok (x, a :: c)
    | _ => Err UnsupportedSyntax
    end.

  (** ast_transformer.py 230-241 and 273-285 with expr_items.py 15-18: register a chain *)
  Definition add_chain (st : vst) (name : string) (ct : chaint) : vst * res expr :=
    if mem name (v_simple st) then (st, Err UnsupportedSyntax)
    else
      let lookups := match dget String.eqb (v_ch st) name with Some l => l | None => [] end in
      let sub := make_sub name (length lookups) in
      (VSt (v_simple st) (sadd name (v_allch st))
           (dset String.eqb (v_ch st) name (dset String.eqb lookups sub ct)) (v_vis st) (v_dl st),
       Ok (EName sub)).

  (** ast_transformer.py 137-150 [__get_dict_key] *)
  Fixpoint dict_key_attr (e : expr) : res (list string) :=
    match e with
    | EName x => Ok [x]
    | EAttr v a => do l <- dict_key_attr v; Ok (l ++ [a])
    | _ => Err AttributeError
    end.
  Definition dict_key (e : expr) : res (list string) :=
    match e with
    | EName x => Ok [x]
    | EStr s => Ok [s]
    | EAttr _ _ => dict_key_attr e
    | _ => Err UnsupportedSyntax
    end.

  (** ast_transformer.py 187-194: the value of an entry (the AssertionError and the ValueError
      become UnsupportedSyntaxError at 202-204).  The conversion to float32 is applied when the
      literal is expanded, see [expand_literal]. *)
  Definition dict_val (e : expr) : res dval :=
    match e with
    | EUn USub (ENum n) => Ok (true, n)
    | ENum n => Ok (false, n)
    | _ => Err UnsupportedSyntax
    end.

  (** ast_transformer.py 182-196: entries are taken in order, a repeated key is overwritten *)
  Fixpoint dict_entries (ks vs : list expr) (acc : literal) : res literal :=
    match ks, vs with
    | k :: ks', v :: vs' =>
        do key <- dict_key k; do val <- dict_val v;
        dict_entries ks' vs' (dset eq_strs acc key val)
    | _, _ => Ok acc
    end.

  (** ast_transformer.py 174-204 [visit_dict].  The test at 175, [not mode != UTILITIES], never
      holds: the callers pass the string 'cheval' (expressions.py 39) or DATAFRAME (ldf/api.py 713). *)
  Definition visit_dict (st : vst) (ks vs : list expr) : vst * res expr :=
    let sub := dict_sub (length (v_dl st)) in
    match dict_entries ks vs [] with
    | Err x => (st, Err x)
    | Ok lit => (VSt (v_simple st) (v_allch st) (v_ch st) (v_vis st) (dset String.eqb (v_dl st) sub lit),
                 Ok (EName sub))
    end.

  (** ast_transformer.py 210-221 [visit_name] *)
  Definition visit_name (st : vst) (x : string) : vst * res expr :=
    if nan_like x then (st, Ok (EName "NAN"))
    else if mem x (v_allch st) then (st, Err UnsupportedSyntax)
    else (VSt (sadd x (v_simple st)) (v_allch st) (v_ch st) (sadd x (v_vis st)) (v_dl st), Ok (EName x)).

  (** ast_transformer.py 255-285 [__visit_method] *)
  Definition visit_method (st : vst) (f : expr) (args : list expr) (kws : list (string * expr)) : vst * res expr :=
    match attr_name f with
    | Err x => (st, Err x)
    | Ok (name, chain) =>
        match chain with
        | [] => (st, Err IndexError)                 (* not reached: [f] is an Attribute *)
        | func :: chain' =>
            if negb (supported_agg func) then (st, Err UnsupportedSyntax)
            else if negb (Nat.eqb (length kws) 0) then (st, Err UnsupportedSyntax)
            else match args with
                 | [] => (st, Err IndexError)
                 | a :: _ => add_chain st name (Chain chain' (Some (func, a)))
                 end
        end
    end.

  (** ast_transformer.py 60-79: [and]/[or] become a left-nested tree of [&]/[|] *)
  Definition bool_tree (op : boolop) (l : list expr) : res expr :=
    match l with
    | [] => Err IndexError
    | v :: vs => Ok (fold_left (fun left right => EBin (match op with And => BitAnd | Or => BitOr end) left right) vs v)
    end.

  (** ast_transformer.py 92-97: pairwise comparisons *)
  Fixpoint pairwise (left : expr) (rs : list expr) (ops : list cmpop) : list expr :=
    match rs, ops with
    | r :: rs', op :: ops' => ECmp left [op] [r] :: pairwise r rs' ops'
    | _, _ => []
    end.
  (** ast_transformer.py 86-104 [visit_compare], after visiting the operands *)
  Definition cmp_tree (left : expr) (rs : list expr) (ops : list cmpop) : res expr :=
    match rs with
    | [r] => Ok (ECmp left ops [r])
    | _ =>
        match pairwise left rs ops with
        | n0 :: n1 :: ns => Ok (fold_left (fun b r => EBin BitAnd b r) ns (EBin BitAnd n0 n1))
        | _ => Err AssertionError
        end
    end.

  (** visit a list of nodes in order *)
  Definition visit_list (visit : expr -> vst -> vst * res expr) : list expr -> vst -> vst * res (list expr) :=
    fix go (l : list expr) (st : vst) {struct l} :=
      match l with
      | [] => (st, Ok [])
      | e :: t =>
          match visit e st with
          | (st1, Err x) => (st1, Err x)
          | (st1, Ok e') =>
              match go t st1 with
              | (st2, Err x) => (st2, Err x)
              | (st2, Ok t') => (st2, Ok (e' :: t'))
              end
          end
      end.
  Definition visit_kws (visit : expr -> vst -> vst * res expr)
    : list (string * expr) -> vst -> vst * res (list (string * expr)) :=
    fix go (l : list (string * expr)) (st : vst) {struct l} :=
      match l with
      | [] => (st, Ok [])
      | (k, e) :: t =>
          match visit e st with
          | (st1, Err x) => (st1, Err x)
          | (st1, Ok e') =>
              match go t st1 with
              | (st2, Err x) => (st2, Err x)
              | (st2, Ok t') => (st2, Ok ((k, e') :: t'))
              end
          end
      end.

  Definition bind_st {A B} (r : vst * res A) (k : A -> vst -> vst * res B) : vst * res B :=
    match r with (st, Ok a) => k a st | (st, Err x) => (st, Err x) end.

  (** ast_transformer.py 40-47 [visit], dispatching to the visitors *)
  Fixpoint visit (e : expr) (st : vst) {struct e} : vst * res expr :=
    match e with
    | EUnsup _ => (st, Err UnsupportedSyntax)                                   (* 44-45 *)
    | EStr s => (st, Ok (EBytes s))                                             (* 51-54 *)
    | EUn Not a => bind_st (visit a st) (fun a' st' => (st', Ok (EUn Invert a')))      (* 56-59 *)
    | EUn USub a => (st, Ok (EUn USub a))                                       (* 60-61 *)
    | EUn _ _ => (st, Err NotImplementedErr)                                    (* 62 *)
    | EBool op vs => bind_st (visit_list visit vs st) (fun vs' st' => (st', bool_tree op vs'))   (* 64-82 *)
    | ECmp l ops rs =>                                                          (* 84-106 *)
        bind_st (visit l st) (fun l' st1 =>
        bind_st (visit_list visit rs st1) (fun rs' st2 => (st2, cmp_tree l' rs' ops)))
    | ECall f args kws =>                                                       (* 109-131 *)
        match f with
        | EName fn =>
            if numexpr_fn fn
            then bind_st (visit_list visit args st) (fun args' st' => (st', Ok (ECall f args' kws)))
            else (st, Err UnsupportedSyntax)
        | EAttr _ _ => visit_method st f args kws
        | _ =>
            bind_st (visit f st) (fun f' st1 =>
            bind_st (visit_list visit args st1) (fun args' st2 =>
            bind_st (visit_kws visit kws st2) (fun kws' st3 => (st3, Ok (ECall f' args' kws')))))
        end
    | EDict ks vs => visit_dict st ks vs
    | EName x => visit_name st x
    | EAttr v a =>                                                              (* 227-241 *)
        match attr_name e with
        | Err x => (st, Err x)
        | Ok (name, chain) => add_chain st name (Chain chain None)
        end
    | EBin op l r =>                                                            (* generic_visit *)
        bind_st (visit l st) (fun l' st1 =>
        bind_st (visit r st1) (fun r' st2 => (st2, Ok (EBin op l' r'))))
    | EGen k l => bind_st (visit_list visit l st) (fun l' st' => (st', Ok (EGen k l')))   (* generic_visit *)
    | ENum _ | EBytes _ | EConst _ => (st, Ok e)                                (* generic_visit *)
    end.

  (** * expressions.py *)

  (** [str.split('@')] *)
  Fixpoint split_at (s : string) : list string :=
    match s with
    | EmptyString => [EmptyString]
    | String c t =>
        if Ascii.eqb c "@"%char then EmptyString :: split_at t
        else match split_at t with
             | [] => [String c EmptyString]
             | p :: ps => String c p :: ps
             end
    end.
  (** [str.strip()]: ASCII white space is 9-13, 28-31 and 32 *)
  Definition is_space (c : ascii) : bool :=
    let n := nat_of_ascii c in
    orb (andb (9 <=? n) (n <=? 13)) (andb (28 <=? n) (n <=? 32)).
  Fixpoint lstrip (s : string) : string :=
    match s with
    | EmptyString => EmptyString
    | String c t => if is_space c then lstrip t else s
    end.
  Fixpoint rstrip (s : string) : string :=
    match s with
    | EmptyString => EmptyString
    | String c t =>
        match rstrip t with
        | EmptyString => if is_space c then EmptyString else String c EmptyString
        | t' => String c t'
        end
    end.
  Definition strip (s : string) : string := rstrip (lstrip s).

  (** expressions.py 16-24 [_split_filter] *)
  Definition split_filter (e : string) : res (string * option string) :=
    match split_at e with
    | [_] => Ok (e, None)
    | [a; b] => Ok (strip a, Some (strip b))
    | _ => Err UnsupportedSyntax
    end.

  (** expressions.py 27-36 *)
  Record expression : Type := Expression {
    e_raw : string;
    e_trans : expr;
    e_chains : dict string (dict string chaint);
    e_dl : dict string literal;
    e_filter : option string;
    e_symbols : list string
  }.

  (** [ast.parse(text, mode='eval').body] *)
  Context (pyparse : string -> res expr).

  (** expressions.py 38-48 [Expression.parse]: the two prior sets are changed in place, also when
      an exception is raised.  Returns the sets and the result. *)
  Definition parse (e : string) (simple chained : list string)
    : (list string * list string) * res expression :=
    match split_filter e with
    | Err x => ((simple, chained), Err x)
    | Ok (text, flt) =>
        match pyparse text with
        | Err x => ((simple, chained), Err x)
        | Ok tree =>
            match visit tree (VSt simple chained [] [] []) with
            | (st, Err x) => ((v_simple st, v_allch st), Err x)
            | (st, Ok tree') =>
                ((v_simple st, v_allch st),
                 Ok (Expression e tree' (v_ch st) (v_dl st) flt (v_vis st)))
            end
        end
    end.

  (** expressions.py 50-52 [all_symbols] *)
  Definition all_symbols (x : expression) : list string := sunion (e_symbols x) (dkeys (e_chains x)).

  (** * The containers, api.py 113-241 *)

  (** api.py 115-120 *)
  Record subgroup : Type := SubGroup {
    sg_name : string;
    sg_simple : list string;
    sg_chained : list string;
    sg_exprs : list expression
  }.
  Definition new_subgroup (name : string) : subgroup := SubGroup name [] [] [].
  (** api.py 122-126 [ExpressionSubGroup.append] *)
  Definition sg_append (s : subgroup) (x : expression) : subgroup :=
    SubGroup (sg_name s) (sunion (sg_simple s) (e_symbols x)) (sunion (sg_chained s) (dkeys (e_chains x)))
             (sg_exprs s ++ [x]).
  (** api.py 128-134 [__add__] *)
  Definition sg_add (a b : subgroup) : subgroup :=
    fold_left sg_append (sg_exprs b) (fold_left sg_append (sg_exprs a) (new_subgroup (sg_name a))).

  (** api.py 148-152.  Subgroups are objects: [c_subs] maps a group name to the position of the
      subgroup in the heap. *)
  Record container : Type := Container {
    c_ungrouped : list expression;
    c_simple : list string;
    c_chained : list string;
    c_subs : dict string nat
  }.
  Definition new_container : container := Container [] [] [] [].
  Notation heap := (list subgroup).
  Definition deref (h : heap) (r : nat) : subgroup := nth r h (new_subgroup "").

  (** api.py 154-170 [append] *)
  Definition append (h : heap) (c : container) (e : string) (group : option string)
    : heap * container * res unit :=
    match parse e (c_simple c) (c_chained c) with
    | ((s, ch), Err x) => (h, Container (c_ungrouped c) s ch (c_subs c), Err x)
    | ((s, ch), Ok ex) =>
        match group with
        | Some g =>
            match dget String.eqb (c_subs c) g with
            | Some r => (upd h r (sg_append (deref h r) ex), Container (c_ungrouped c) s ch (c_subs c), Ok tt)
            | None => (h ++ [sg_append (new_subgroup g) ex],
                       Container (c_ungrouped c) s ch (dset String.eqb (c_subs c) g (length h)), Ok tt)
            end
        | None =>
            (h, Container (c_ungrouped c ++ [ex]) (sunion s (e_symbols ex))
                          (sunion ch (dkeys (e_chains ex))) (c_subs c), Ok tt)
        end
    end.

  (** api.py 172-176 *)
  Definition clear (c : container) : container := new_container.

  (** api.py 178-197: [itersimple], [iterchained], [__iter__] *)
  Definition subs_of (h : heap) (c : container) : list subgroup := map (deref h) (dvals (c_subs c)).
  Definition itersimple (h : heap) (c : container) (groups : bool) : list string :=
    c_simple c ++ (if groups then concat (map sg_simple (subs_of h c)) else []).
  Definition iterchained (h : heap) (c : container) (groups : bool) : list string :=
    c_chained c ++ (if groups then concat (map sg_chained (subs_of h c)) else []).
  Definition iter (h : heap) (c : container) (groups : bool) : list expression :=
    c_ungrouped c ++ (if groups then concat (map sg_exprs (subs_of h c)) else []).

  (** api.py 219-220 *)
  Definition tolist (c : container) : list expression := c_ungrouped c.
  (** api.py 222-223 *)
  Definition get_group (h : heap) (c : container) (g : string) : res subgroup :=
    match dget String.eqb (c_subs c) g with Some r => Ok (deref h r) | None => Err KeyError end.
  (** api.py 225-226 *)
  Definition drop_group (c : container) (g : string) : container * res unit :=
    if dmem String.eqb (c_subs c) g
    then (Container (c_ungrouped c) (c_simple c) (c_chained c) (ddel String.eqb (c_subs c) g), Ok tt)
    else (c, Err KeyError).

  (** api.py 199-217 [__add__].  [keys] is the iteration order of the set of all group names. *)
  Fixpoint add_subs (h : heap) (a b : container) (keys : list string) (acc : dict string nat) : heap * dict string nat :=
    match keys with
    | [] => (h, acc)
    | k :: ks =>
        match dget String.eqb (c_subs a) k, dget String.eqb (c_subs b) k with
        | Some ra, Some rb =>
            add_subs (h ++ [sg_add (deref h ra) (deref h rb)]) a b ks (dset String.eqb acc k (length h))
        | Some ra, None => add_subs h a b ks (dset String.eqb acc k ra)
        | None, Some rb => add_subs h a b ks (dset String.eqb acc k rb)
        | None, None => add_subs h a b ks acc
        end
    end.
  Definition add (h : heap) (a b : container) (keys : list string) : heap * container :=
    let '(h', subs) := add_subs h a b keys [] in
    (h', Container (c_ungrouped a ++ c_ungrouped b) (sunion (c_simple a) (c_simple b))
                   (sunion (c_chained a) (c_chained b)) subs).

  (** api.py 228-241 [copy] *)
  Fixpoint copy_subs (h : heap) (l : list (string * nat)) (acc : dict string nat) : heap * dict string nat :=
    match l with
    | [] => (h, acc)
    | (name, r) :: t =>
        copy_subs (h ++ [fold_left sg_append (sg_exprs (deref h r)) (new_subgroup name)]) t
                  (dset String.eqb acc name (length h))
    end.
  Definition copy (h : heap) (c : container) : heap * container :=
    let '(h', subs) := copy_subs h (c_subs c) [] in
    (h', Container (c_ungrouped c)
                   (fold_left (fun s x => sunion s (e_symbols x)) (c_ungrouped c) [])
                   (fold_left (fun s x => sunion s (dkeys (e_chains x))) (c_ungrouped c) [])
                   subs).

  (** ** Several containers: histories of calls *)
  Record world : Type := World { w_heap : heap; w_conts : list container }.
  Definition new_world : world := World [] [].
  Definition cont (w : world) (i : nat) : container := nth i (w_conts w) new_container.
  Inductive cop : Type :=
  | ONew
  | OAppend (i : nat) (e : string) (g : option string)
  | OClear (i : nat)
  | ODrop (i : nat) (g : string)
  | OCopy (i : nat)
  | OAdd (i j : nat) (keys : list string).
  Definition cstep (w : world) (o : cop) : world :=
    match o with
    | ONew => World (w_heap w) (w_conts w ++ [new_container])
    | OAppend i e g =>
        let '(h, c, _) := append (w_heap w) (cont w i) e g in World h (upd (w_conts w) i c)
    | OClear i => World (w_heap w) (upd (w_conts w) i (clear (cont w i)))
    | ODrop i g => World (w_heap w) (upd (w_conts w) i (fst (drop_group (cont w i) g)))
    | OCopy i => let '(h, c) := copy (w_heap w) (cont w i) in World h (w_conts w ++ [c])
    | OAdd i j keys => let '(h, c) := add (w_heap w) (cont w i) (cont w j) keys in World h (w_conts w ++ [c])
    end.
  Definition crun (w : world) (l : list cop) : world := fold_left cstep l w.

  (** * Dict literals, expressions.py 54-107 *)

  Context {V : Type} (vzero : V) (f32 : bool -> L -> V).

  (** The choice index: [nlevels] and the labels (a one-element list for a flat index).
      pandas [get_loc] of a full label: the position of the label in the (duplicate-free) index *)
  Fixpoint loc (index : list (list string)) (key : list string) : option nat :=
    match index with
    | [] => None
    | k :: t => if eq_strs k key then Some 0 else match loc t key with Some i => Some (S i) | None => None end
    end.
  (** pandas [MultiIndex.get_loc] of a partial label: every position whose label starts with it *)
  Fixpoint prefixb (p l : list string) : bool :=
    match p, l with
    | [], _ => true
    | x :: p', y :: l' => andb (String.eqb x y) (prefixb p' l')
    | _, [] => false
    end.
  Definition locs (index : list (list string)) (key : list string) : list nat :=
    filter (fun i => prefixb key (nth i index [])) (seq 0 (length index)).

  (** expressions.py 88-94: the part of the key before the first ['_'] *)
  Fixpoint before_underscore (key : list string) : list string * bool :=
    match key with
    | [] => ([], false)
    | k :: t => if String.eqb k "_" then ([], true)
                else let '(l, p) := before_underscore t in (k :: l, p)
    end.

  Definition pad (nlevels : nat) (key : list string) : list string := key ++ repeat "." (nlevels - length key).

  (** expressions.py 64-107 [_insert_dict_val] *)
  Definition insert_dict_val (nlevels : nat) (index : list (list string)) (key : list string) (v : V)
             (arr : list V) : res (list V) :=
    if Nat.eqb nlevels 1 then
      if Nat.eqb (length key) 1 then
        match loc index key with Some i => Ok (upd arr i v) | None => Err KeyError end
      else Err AssertionError
    else
      let '(key', partial) := before_underscore key in
      if partial then
        match locs index key' with
        | [] => Err KeyError
        | ls =>
            match loc index (pad nlevels key') with
            | None => Err KeyError
            | Some p => Ok (upd (fold_left (fun a i => upd a i v) ls arr) p vzero)
            end
        end
      else
        match loc index (pad nlevels key') with Some i => Ok (upd arr i v) | None => Err KeyError end.

  (** expressions.py 54-62 [_prepare_dict_literals], for one literal; the values are converted by
      [np.float32] at ast_transformer.py 190/192 ([f32 negated literal]) *)
  Fixpoint insert_all (nlevels : nat) (index : list (list string)) (lit : literal) (arr : list V) : res (list V) :=
    match lit with
    | [] => Ok arr
    | (key, (neg, n)) :: t =>
        do arr' <- insert_dict_val nlevels index key (f32 neg n) arr; insert_all nlevels index t arr'
    end.
  Definition expand_literal (nlevels : nat) (index : list (list string)) (lit : literal) : res (list V) :=
    insert_all nlevels index lit (repeat vzero (length index)).
End Expr.
