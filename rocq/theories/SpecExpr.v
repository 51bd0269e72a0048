(** Specification vocabulary for expressions: what an expression means in Python, what the
    rewritten expression means to numexpr, which symbols an expression uses.  Only the syntax
    trees of ExprModel.v are used. *)
From Coq Require Import Ascii.
From Verif Require Import Prelude ExprModel.
Local Open Scope string_scope.
Local Open Scope nat_scope.
Local Open Scope list_scope.

(** ** Values *)

(** The value of an expression in one cell of the utility table: a truth value, a text, or a
    number of any type [N]. *)
Inductive val (N : Type) : Type := VBool (b : bool) | VStr (s : string) | VNum (n : N) | VNull.
Arguments VBool {N}. Arguments VStr {N}. Arguments VNum {N}. Arguments VNull {N}.

Definition obind {A B} (o : option A) (f : A -> option B) : option B :=
  match o with Some a => f a | None => None end.

(** [x] spells the lower-case [word], each letter small or capital *)
Fixpoint spells (word x : string) : bool :=
  match word, x with
  | EmptyString, EmptyString => true
  | String l w, String c t =>
      andb (orb (Ascii.eqb c l) (nat_of_ascii c + 32 =? nat_of_ascii l)) (spells w t)
  | _, _ => false
  end.
(** [nan], [NaN], [None], [NONE], ...: the names that mean the null value *)
Definition null_spelling (x : string) : bool := orb (spells "nan" x) (spells "none" x).

Section Meaning.
  Context {L N : Type}.
  Notation expr := (expr L).
  Notation val := (val N).

  (** Operations on cells shared by Python and numexpr: arithmetic, comparison, functions.
      [None] is "not defined".  The Boolean operations are not among them, see below. *)
  Record ops : Type := Ops {
    o_lit : L -> N;
    o_bin : binop -> val -> val -> option val;      (* everything but & and | on truth values *)
    o_cmp : cmpop -> val -> val -> option val;
    o_neg : val -> option val;
    o_inv : val -> option val;                      (* ~ on anything but a truth value *)
    o_const : string -> option val;                 (* True, False *)
    o_fn : string -> list val -> option val
  }.
  (** What the symbols of the model mean in this cell. *)
  Record symbols : Type := Symbols {
    s_name : string -> val;                                   (* x *)
    s_attr : string -> list string -> val;                    (* x.a.b : path [a; b] *)
    s_agg : string -> list string -> string -> expr -> val;   (* x.a.f(e) : path [a], f, e *)
    s_dict : list (list string * (bool * L)) -> val           (* {k: v, ...}: the pairs of the dict, in order *)
  }.
  Context (O : ops) (S : symbols).

  Definition as_bool (v : val) : option bool := match v with VBool b => Some b | _ => None end.

  (** [&], [|], [~] *)
  Definition bin_val (op : binop) (a b : val) : option val :=
    match op, a, b with
    | BitAnd, VBool x, VBool y => Some (VBool (x && y))
    | BitOr, VBool x, VBool y => Some (VBool (x || y))
    | _, _, _ => o_bin O op a b
    end.
  Definition inv_val (a : val) : option val :=
    match a with VBool x => Some (VBool (negb x)) | _ => o_inv O a end.

  (** the dotted path of an attribute access [x.a.b]: (x, [a; b]) *)
  Fixpoint dotted (e : expr) : option (string * list string) :=
    match e with
    | EName x => Some (x, [])
    | EAttr v a => obind (dotted v) (fun '(x, p) => Some (x, p ++ [a]))
    | _ => None
    end.

  (** the entries of a dict display with constant keys and values *)
  Definition entry_key (e : expr) : option (list string) :=
    match e with
    | EStr s => Some [s]
    | _ => obind (dotted e) (fun '(x, p) => Some (x :: p))
    end.
  Definition entry_val (e : expr) : option (bool * L) :=
    match e with EUn USub (ENum n) => Some (true, n) | ENum n => Some (false, n) | _ => None end.
  Fixpoint entries (ks vs : list expr) : option (list (list string * (bool * L))) :=
    match ks, vs with
    | [], _ | _, [] => Some []
    | k :: ks', v :: vs' =>
        obind (entry_key k) (fun key => obind (entry_val v) (fun x =>
        obind (entries ks' vs') (fun l => Some ((key, x) :: l))))
    end.

  (** a repeated key keeps its first position and takes its last value *)
  Fixpoint last_value (k : list string) (l : list (list string * (bool * L))) : option (bool * L) :=
    match l with
    | [] => None
    | (k', v) :: t =>
        match last_value k t with
        | Some w => Some w
        | None => if list_eq_dec string_dec k k' then Some v else None
        end
    end.
  Fixpoint py_dict (seen : list (list string)) (l : list (list string * (bool * L)))
    : list (list string * (bool * L)) :=
    match l with
    | [] => []
    | (k, v) :: t =>
        if in_dec (list_eq_dec string_dec) k seen then py_dict seen t
        else (k, match last_value k t with Some w => w | None => v end) :: py_dict (k :: seen) t
    end.

  Fixpoint all_vals (l : list (option val)) : option (list val) :=
    match l with
    | [] => Some []
    | o :: t => obind o (fun v => obind (all_vals t) (fun vs => Some (v :: vs)))
    end.
  Fixpoint all_bools (l : list val) : option (list bool) :=
    match l with
    | [] => Some []
    | v :: t => obind (as_bool v) (fun b => obind (all_bools t) (fun bs => Some (b :: bs)))
    end.
  (** a < b < c is (a < b) and (b < c) *)
  Fixpoint cmp_chain (left : val) (ops : list cmpop) (rs : list val) : option (list val) :=
    match ops, rs with
    | [], [] => Some []
    | op :: ops', r :: rs' =>
        obind (o_cmp O op left r) (fun v => obind (cmp_chain r ops' rs') (fun vs => Some (v :: vs)))
    | _, _ => None
    end.

  (** The Python meaning of an expression whose and/or/not operands (and the parts of a chained
      comparison) are truth values.  [nan], [None] and [none] in any capitalisation as a name are the null value. *)
  Fixpoint pyval (e : expr) : option val :=
    match e with
    | EName x => Some (if null_spelling x then VNull else s_name S x)
    | ENum n => Some (VNum (o_lit O n))
    | EStr s | EBytes s => Some (VStr s)
    | EConst k => o_const O k
    | EAttr _ _ => obind (dotted e) (fun '(x, p) => Some (s_attr S x p))
    | ECall (EName f) args [] => obind (all_vals (map pyval args)) (o_fn O f)
    | ECall (EAttr v f) [arg] [] => obind (dotted v) (fun '(x, p) => Some (s_agg S x p f arg))
    | ECall _ _ _ => None
    | EUn Not a => obind (obind (pyval a) as_bool) (fun b => Some (VBool (negb b)))
    | EUn USub a => obind (pyval a) (o_neg O)
    | EUn Invert a => obind (pyval a) inv_val
    | EUn UAdd a => pyval a
    | EBool op vs =>
        match vs with
        | [] => None
        | _ => obind (obind (all_vals (map pyval vs)) all_bools)
                     (fun bs => Some (VBool (match op with And => forallb (fun b => b) bs | Or => existsb (fun b => b) bs end)))
        end
    | ECmp l ops rs =>
        obind (pyval l) (fun a => obind (all_vals (map pyval rs)) (fun vs =>
        obind (cmp_chain a ops vs) (fun res =>
        match res with
        | [] => None
        | [v] => Some v
        | _ => obind (all_bools res) (fun bs => Some (VBool (forallb (fun b => b) bs)))
        end)))
    | EBin op l r => obind (pyval l) (fun a => obind (pyval r) (bin_val op a))
    | EDict ks vs => obind (entries ks vs) (fun l => Some (s_dict S (py_dict [] l)))
    | EUnsup _ | EGen _ _ => None
    end.

  (** The meaning of an expression given to numexpr: names are looked up in the local dictionary;
      no attributes, no [and]/[or]/[not], no chained comparison, no dict display, no text but
      bytes. *)
  Context (rho : string -> option val).
  Fixpoint neval (e : expr) : option val :=
    match e with
    | EName x => rho x
    | ENum n => Some (VNum (o_lit O n))
    | EBytes s => Some (VStr s)
    | EConst k => o_const O k
    | ECall (EName f) args [] => obind (all_vals (map neval args)) (o_fn O f)
    | EUn USub a => obind (neval a) (o_neg O)
    | EUn Invert a => obind (neval a) inv_val
    | ECmp l [op] [r] => obind (neval l) (fun a => obind (neval r) (o_cmp O op a))
    | EBin op l r => obind (neval l) (fun a => obind (neval r) (bin_val op a))
    | _ => None
    end.
End Meaning.

(** The local dictionary [rho] gives numexpr what the rewritten expression's symbols,
    substituted chains and substituted dict literals stand for. *)
Record reads {L N : Type} (S : symbols) (chains : dict string (dict string (@chaint L)))
       (dls : dict string (@literal L)) (simple : list string) (rho : string -> option (val N)) : Prop := Reads {
  r_null : rho "NAN" = Some VNull;
  r_simple : forall x, In x simple -> rho x = Some (s_name S x);
  r_chain : forall name l sub ct, In (name, l) chains -> In (sub, ct) l ->
      rho sub = Some (match ch_func ct with
                      | None => s_attr S name (rev (ch_chain ct))
                      | Some (f, a) => s_agg S name (rev (ch_chain ct)) f a
                      end);
  r_dict : forall sub lit, In (sub, lit) dls -> rho sub = Some (s_dict S lit)
}.
Arguments ops : clear implicits. Arguments symbols : clear implicits.

(** ** The symbols an expression uses *)
Section Uses.
  Context {L : Type}.
  Notation expr := (expr L).

  Definition base (e : expr) : list string :=
    match dotted e with Some (x, _) => [x] | None => [] end.

  (** The operands of unary minus, and the keyword arguments of functions, are left out of
      [simple_uses] and [chain_uses]; [hidden e] says whether there is a symbol in them. *)
  (** [x] used by itself *)
  Fixpoint simple_uses (e : expr) : list string :=
    match e with
    | EName x => if null_spelling x then [] else [x]
    | ECall (EName _) args _ => concat (map simple_uses args)
    | ECall (EAttr _ _) _ _ => []
    | ECall f args kws => simple_uses f ++ concat (map simple_uses args) ++ concat (map (fun kv => simple_uses (snd kv)) kws)
    | EUn USub _ => []
    | EUn _ a => simple_uses a
    | EBool _ vs => concat (map simple_uses vs)
    | ECmp l _ rs => simple_uses l ++ concat (map simple_uses rs)
    | EBin _ l r => simple_uses l ++ simple_uses r
    | EGen _ l => concat (map simple_uses l)
    | _ => []
    end.
  (** [x] used as [x.a], [x.a.b], [x.a.f(...)] *)
  Fixpoint chain_uses (e : expr) : list string :=
    match e with
    | EAttr _ _ => base e
    | ECall (EName _) args _ => concat (map chain_uses args)
    | ECall (EAttr v _) _ _ => base v
    | ECall f args kws => chain_uses f ++ concat (map chain_uses args) ++ concat (map (fun kv => chain_uses (snd kv)) kws)
    | EUn USub _ => []
    | EUn _ a => chain_uses a
    | EBool _ vs => concat (map chain_uses vs)
    | ECmp l _ rs => chain_uses l ++ concat (map chain_uses rs)
    | EBin _ l r => chain_uses l ++ chain_uses r
    | EGen _ l => concat (map chain_uses l)
    | _ => []
    end.

  (** every name in value position (not the name of a called function), at any depth *)
  Fixpoint free_names (e : expr) : list string :=
    match e with
    | EName x => [x]
    | EAttr v _ => free_names v
    | ECall (EName _) args kws => concat (map free_names args) ++ concat (map (fun kv => free_names (snd kv)) kws)
    | ECall f args kws => free_names f ++ concat (map free_names args) ++ concat (map (fun kv => free_names (snd kv)) kws)
    | EUn _ a => free_names a
    | EBool _ vs => concat (map free_names vs)
    | ECmp l _ rs => free_names l ++ concat (map free_names rs)
    | EBin _ l r => free_names l ++ free_names r
    | EDict ks vs => concat (map free_names ks) ++ concat (map free_names vs)
    | EGen _ l => concat (map free_names l)
    | _ => []
    end.
  (** the names below a unary minus or in a keyword argument of a function *)
  Fixpoint hidden_names (e : expr) : list string :=
    match e with
    | ECall (EName _) args kws => concat (map hidden_names args) ++ concat (map (fun kv => free_names (snd kv)) kws)
    | ECall (EAttr _ _) _ _ => []
    | ECall f args kws => hidden_names f ++ concat (map hidden_names args) ++ concat (map (fun kv => hidden_names (snd kv)) kws)
    | EUn USub a => free_names a
    | EUn _ a => hidden_names a
    | EBool _ vs => concat (map hidden_names vs)
    | ECmp l _ rs => hidden_names l ++ concat (map hidden_names rs)
    | EBin _ l r => hidden_names l ++ hidden_names r
    | EGen _ l => concat (map hidden_names l)
    | _ => []
    end.

  (** an expression numexpr can read as it stands: arithmetic, single comparisons and functions of
      names that do not spell null, numbers and bytes *)
  Inductive plain : expr -> Prop :=
  | PName x : null_spelling x = false -> plain (EName x)
  | PNum n : plain (ENum n)
  | PBytes s : plain (EBytes s)
  | PConst k : plain (EConst k)
  | PCall f args : Forall plain args -> plain (ECall (EName f) args [])
  | PNeg a : plain a -> plain (EUn USub a)
  | PCmp l op r : plain l -> plain r -> plain (ECmp l [op] [r])
  | PBin op l r : plain l -> plain r -> plain (EBin op l r).

  (** the operands of unary minus are plain and functions have no keyword arguments *)
  Fixpoint neg_plain (e : expr) : Prop :=
    match e with
    | ECall (EName _) args kws => fold_right (fun a P => neg_plain a /\ P) True args /\ kws = []
    | ECall _ _ _ => True
    | EUn USub a => plain a
    | EUn _ a => neg_plain a
    | EBool _ vs => fold_right (fun a P => neg_plain a /\ P) True vs
    | ECmp l _ rs => neg_plain l /\ fold_right (fun a P => neg_plain a /\ P) True rs
    | EBin _ l r => neg_plain l /\ neg_plain r
    | _ => True
    end.
End Uses.

(** a set of strings, as a list *)
Definition same_set (a b : list string) : Prop := forall x, In x a <-> In x b.
