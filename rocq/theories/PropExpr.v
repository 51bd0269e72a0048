(** C32, C33, C36, C37: rewriting of expressions (cheval/parsing/ast_transformer.py,
    expressions.py 16-48, expr_items.py). *)
From Coq Require Import Ascii.
From Verif Require Import Prelude DictProofs ExprModel SpecExpr ExprProofs ExprUses ExprMeaning ExprNames ExprContainer.
Local Open Scope string_scope.
Local Open Scope nat_scope.
Local Open Scope list_scope.

(** * C32 *)

(** Parsing a text gives an expression that numexpr evaluates to the value the tree of the text has
    in Python, when the local dictionary reads the symbols of the expression as they are.
    [neg_plain] is what is missing: see [C32_rewriting_preserves_meaning_refuted]. *)
Theorem C32_rewriting_preserves_meaning_partial
  (L N : Type) (nfn : string -> bool) (pyparse : string -> res (expr L)) (O : ops L N) (S : symbols L N)
  text body flt tree simple chained sets x rho v :
  split_filter text = Ok (body, flt) -> pyparse body = Ok tree ->
  parse nfn pyparse text simple chained = (sets, Ok x) ->
  neg_plain tree ->
  reads S (e_chains x) (e_dl x) (e_symbols x) rho ->
  (forall y, In y (hidden_names tree) -> rho y = Some (s_name S y)) ->
  pyval O S tree = Some v ->
  neval O rho (e_trans x) = Some v.
Proof.
  intros SF PP P NP R H V. destruct sets as [s' c']. apply parse_ok in P.
  destruct P as (e & st & T & Vi & _ & _ & E1 & E2 & E3 & _).
  unfold tree_of in T. rewrite SF, PP in T. injection T as <-.
  eapply (visit_keeps nfn O S rho tree); eauto using wf_init.
  apply env_iff. unfold env_ok. rewrite <- E1, <- E2, <- E3. exact R.
Qed.
Print Assumptions C32_rewriting_preserves_meaning_partial.

(** Such a local dictionary exists, unless names clash: symbols spelt like the generated names, or
    the clash of C36. *)
Definition reserved_prefix (x : string) : Prop := x = "NAN" \/ (exists y, x = ("__sub_" ++ y)%string) \/ (exists y, x = ("__dict" ++ y)%string).

Section Env.
  Context {L N : Type} (S : symbols L N).
  Fixpoint lookup (l : list (string * val N)) (x : string) : option (val N) :=
    match l with [] => None | (y, v) :: t => if string_dec x y then Some v else lookup t x end.
  Lemma lookup_in l x v : NoDup (map fst l) -> In (x, v) l -> lookup l x = Some v.
  Proof.
    induction l as [|[y w] l IH]; simpl; intros D H; [destruct H|]. inversion D as [|? ? H1 H2]; subst. destruct H as [E|I].
    - injection E as -> ->. destruct (string_dec x x); congruence.
    - destruct (string_dec x y) as [->|]; auto. exfalso. apply H1. apply (in_map fst) in I. exact I.
  Qed.
  Lemma lookup_none l x : ~ In x (map fst l) -> lookup l x = None.
  Proof. induction l as [|[y w] l IH]; simpl; auto. intros H. destruct (string_dec x y); [subst; tauto|]. tauto. Qed.
  Definition chain_val (name : string) (ct : @chaint L) : val N :=
    match ch_func ct with None => s_attr S name (rev (ch_chain ct)) | Some (f, a) => s_agg S name (rev (ch_chain ct)) f a end.
  Definition env_list (chains : dict string (dict string (@chaint L))) (dls : dict string (@literal L)) : list (string * val N) :=
    ("NAN", VNull) :: concat (map (fun p => map (fun q => (fst q, chain_val (fst p) (snd q))) (snd p)) chains)
      ++ map (fun p => (fst p, s_dict S (snd p))) dls.
  Lemma env_list_keys chains dls : map fst (env_list chains dls) = "NAN" :: sub_names chains ++ dkeys dls.
  Proof.
    unfold env_list, sub_names, dkeys. simpl. f_equal. rewrite map_app, concat_map, !map_map. f_equal; auto.
    f_equal. apply map_ext. intros p. now rewrite map_map.
  Qed.
End Env.

Theorem C32_environment_exists
  (L N : Type) (nfn : string -> bool) (pyparse : string -> res (expr L)) (S : symbols L N)
  text tree simple chained sets x :
  (exists body flt, split_filter text = Ok (body, flt) /\ pyparse body = Ok tree) ->
  parse nfn pyparse text simple chained = (sets, Ok x) ->
  (forall y, In y (chain_uses tree) -> ends_in_digit y = false) ->
  (forall y, In y (simple_uses tree) \/ In y (hidden_names tree) -> ~ reserved_prefix y) ->
  exists rho, reads S (e_chains x) (e_dl x) (e_symbols x) rho /\
    (forall y, In y (hidden_names tree) -> rho y = Some (s_name S y)).
Proof.
  intros (body & flt & SF & PP) P D NR. destruct sets as [s' c'].
  destruct (parse_uses _ _ _ _ _ _ _ _ P) as (e & T & U1 & U2 & _).
  assert (e = tree) by (unfold tree_of in T; rewrite SF, PP in T; congruence). subst e.
  apply parse_ok in P. destruct P as (e & st & T' & Vi & _ & _ & E1 & E2 & E3 & _).
  assert (e = tree) by congruence. subst e.
  destruct (visit_inv _ _ _ _ _ Vi (wf_init simple chained)) as (W & _ & _).
  set (l := env_list S (e_chains x) (e_dl x)).
  assert (DG : forall y, In y (dkeys (v_ch st)) -> ends_in_digit y = false).
  { intros y I. apply D. apply U2. now rewrite E1. }
  pose proof (wf_all_subs st W DG) as ND. rewrite <- E1, <- E2 in ND.
  assert (GN : forall y, In y (sub_names (e_chains x) ++ dkeys (e_dl x)) -> reserved_prefix y /\ y <> "NAN").
  { intros y I. apply in_app_or in I. destruct W as (W1 & W2 & W3). destruct I as [I|I].
    - unfold sub_names in I. apply in_concat in I. destruct I as (k & I & J). apply in_map_iff in I.
      destruct I as ([m d] & <- & I). rewrite E1 in I. simpl in J. rewrite (W2 m d I) in J. apply in_map_iff in J.
      destruct J as (i & <- & _). unfold make_sub. split; [right; left; eauto|discriminate].
    - rewrite E2, W3 in I. apply in_map_iff in I. destruct I as (i & <- & _). unfold dict_sub. split; [right; right; eauto|discriminate]. }
  assert (NDl : NoDup (map fst l)).
  { unfold l. rewrite env_list_keys. constructor; auto. intros I. now apply GN in I. }
  assert (RES : forall y, In y (map fst l) -> reserved_prefix y).
  { intros y. unfold l. rewrite env_list_keys. intros [<-|I]; [now left|]. now apply GN. }
  exists (fun y => match lookup l y with Some v => Some v | None => Some (s_name S y) end).
  assert (LK : forall y v, In (y, v) l -> lookup l y = Some v) by (intros; now apply lookup_in).
  split; [constructor|].
  - rewrite (LK "NAN" VNull); auto. left. auto.
  - intros y I. rewrite lookup_none; auto. intros J. apply RES in J. apply (NR y); auto. left. now apply U1.
  - intros name d sub ct I J. rewrite (LK sub (chain_val S name ct)); auto. right. apply in_or_app. left.
    apply in_concat. exists (map (fun q => (fst q, chain_val S name (snd q))) d). split.
    + apply in_map_iff. exists (name, d). auto.
    + apply in_map_iff. exists (sub, ct). auto.
  - intros sub lit I. rewrite (LK sub (s_dict S lit)); auto. right. apply in_or_app. right.
    apply in_map_iff. exists (sub, lit). auto.
  - intros y I. rewrite lookup_none; auto. intros J. apply RES in J. apply (NR y); auto.
Qed.
Print Assumptions C32_environment_exists.

(** An expression with everything in it:
    (a > 1 and b.c < 2 < d) * {A: 1, B: -2} + b.sum(z) + -x *)
Definition ex_tree : expr nat :=
  EBin Add
    (EBin Add
       (EBin Mult
          (EBool And [ECmp (EName "a") [CGt] [ENum 1];
                      ECmp (EAttr (EName "b") "c") [CLt; CLt] [ENum 2; EName "d"]])
          (EDict [EName "A"; EName "B"] [ENum 1; EUn USub (ENum 2)]))
       (ECall (EAttr (EName "b") "sum") [EName "z"] []))
    (EUn USub (EName "x")).
Definition ex_text : string := "(a > 1 and b.c < 2 < d) * {A: 1, B: -2} + b.sum(z) + -x".
Definition ex_pyparse (s : string) : res (expr nat) := if String.eqb s ex_text then Ok ex_tree else Err SyntaxErr.
Definition ex_ops : ops nat Z := Ops Z.of_nat
  (fun op a b => match a, b with
                 | VBool x, VNum m => match op with Mult => Some (VNum (if x then m else 0%Z)) | _ => None end
                 | VNum n, VNum m => match op with Add => Some (VNum (n + m)%Z) | Mult => Some (VNum (n * m)%Z) | _ => None end
                 | _, _ => None end)
  (fun op a b => match a, b with
                 | VNum n, VNum m => match op with CGt => Some (VBool (m <? n)%Z) | CLt => Some (VBool (n <? m)%Z) | _ => None end
                 | _, _ => None end)
  (fun a => match a with VNum n => Some (VNum (- n)%Z) | _ => None end)
  (fun _ => None) (fun _ => None) (fun _ _ => None).
Definition ex_symbols : symbols nat Z := Symbols
  (fun x => VNum (if String.eqb x "a" then 5 else if String.eqb x "d" then 9 else if String.eqb x "x" then 4 else 0)%Z)
  (fun _ _ => VNum 1%Z) (fun _ _ _ _ => VNum 100%Z) (fun l => VNum (Z.of_nat (length l) * 10)%Z).
Definition ex_parsed := parse (fun _ => false) ex_pyparse ex_text [] [].

Example C32_hypotheses_met :
  split_filter ex_text = Ok (ex_text, None) /\ ex_pyparse ex_text = Ok ex_tree /\
  neg_plain ex_tree /\ pyval ex_ops ex_symbols ex_tree = Some (VNum 116%Z) /\
  (exists sets x, ex_parsed = (sets, Ok x) /\ length (e_chains x) = 1 /\ length (e_dl x) = 1) /\
  (forall y, In y (chain_uses ex_tree) -> ends_in_digit y = false) /\
  (forall y, In y (simple_uses ex_tree) \/ In y (hidden_names ex_tree) -> ~ reserved_prefix y).
Proof.
  split; [reflexivity|]. split; [reflexivity|]. split; [vm_compute; repeat split; constructor; reflexivity|].
  split; [vm_compute; reflexivity|]. split; [eexists; eexists; vm_compute; repeat split|]. split.
  - intros y. vm_compute. intros [<-|[<-|[]]]; reflexivity.
  - intros y H R. vm_compute in H. destruct H as [[<-|[<-|[]]]|[<-|[]]]; destruct R as [R|[[z R]|[z R]]]; discriminate.
Qed.

(** C32 is false with a chain under unary minus: [-df.a] reaches numexpr as it stands, and numexpr
    has no attributes. *)
Theorem C32_rewriting_preserves_meaning_refuted :
  ~ (forall (L N : Type) (nfn : string -> bool) (pyparse : string -> res (expr L)) (O : ops L N) (S : symbols L N)
       text body flt tree simple chained sets x v,
      split_filter text = Ok (body, flt) -> pyparse body = Ok tree ->
      parse nfn pyparse text simple chained = (sets, Ok x) ->
      pyval O S tree = Some v ->
      exists rho, neval O rho (e_trans x) = Some v).
Proof.
  intros H.
  pose (tree := EUn USub (EAttr (EName "df") "a") : expr nat).
  destruct (H nat Z (fun _ => false) (fun _ => Ok tree) ex_ops ex_symbols "-df.a" "-df.a" None tree [] [] ([], [])
              (Expression "-df.a" tree [] [] None []) (VNum (-1)%Z)) as [rho E]; try reflexivity.
  simpl in E. discriminate.
Qed.
Print Assumptions C32_rewriting_preserves_meaning_refuted.

(** * C33 *)

(** Everything numexpr will look up in the rewritten expression is a registered simple symbol, a
    registered substitution or the reserved NAN; except the names below a unary minus and in the
    keyword arguments of functions, which are not visited. *)
Theorem C33_symbols_registered_partial
  (L : Type) (nfn : string -> bool) (pyparse : string -> res (expr L)) text body flt tree simple chained sets x :
  split_filter text = Ok (body, flt) -> pyparse body = Ok tree ->
  parse nfn pyparse text simple chained = (sets, Ok x) ->
  same_set (e_symbols x) (simple_uses tree) /\
  same_set (dkeys (e_chains x)) (chain_uses tree) /\
  incl (e_symbols x) (fst sets) /\ incl (dkeys (e_chains x)) (snd sets) /\
  forall y, In y (free_names (e_trans x)) ->
    y = "NAN" \/ In y (e_symbols x) \/
    (exists name l ct, In (name, l) (e_chains x) /\ In (y, ct) l) \/ In y (dkeys (e_dl x)) \/
    In y (hidden_names tree).
Proof.
  intros SF PP P. destruct sets as [s' c']. simpl.
  destruct (parse_uses _ _ _ _ _ _ _ _ P) as (e & T & U1 & U2 & U3 & U4).
  assert (e = tree) by (unfold tree_of in T; rewrite SF, PP in T; congruence). subst e.
  apply parse_ok in P. destruct P as (e & st & T' & Vi & _ & _ & E1 & E2 & E3 & _).
  assert (e = tree) by congruence. subst e.
  split; auto. split; auto. split; [intros y I; apply U3, U1, I|]. split; [intros y I; apply U4, U2, I|].
  intros y I. destruct (visit_free nfn tree _ _ _ (wf_init simple chained) Vi y I) as [K|[K|[[(n & ct & l & A & B)|K]|K]]]; auto.
  - right. left. now apply U1.
  - right. right. left. rewrite E1. eauto.
  - rewrite E2. auto.
Qed.
Print Assumptions C33_symbols_registered_partial.

(** What an accepted expression reports as its symbols are the names it uses, by themselves or
    with attributes. *)
Theorem C33_all_symbols
  (L : Type) (nfn : string -> bool) (pyparse : string -> res (expr L)) text body flt tree simple chained sets x :
  split_filter text = Ok (body, flt) -> pyparse body = Ok tree ->
  parse nfn pyparse text simple chained = (sets, Ok x) ->
  same_set (all_symbols x) (simple_uses tree ++ chain_uses tree).
Proof.
  intros SF PP P. destruct (C33_symbols_registered_partial _ _ _ _ _ _ _ _ _ _ _ SF PP P) as (A & B & _).
  intros y. unfold all_symbols. rewrite in_sunion, in_app_iff. specialize (A y). specialize (B y). tauto.
Qed.
Print Assumptions C33_all_symbols.

Example C33_hypotheses_met : exists sets x, ex_parsed = (sets, Ok x) /\
  e_symbols x = ["a"; "d"] /\ dkeys (e_chains x) = ["b"] /\
  free_names (e_trans x) = ["a"; "__sub_b0"; "d"; "__dict0"; "__sub_b1"; "x"].
Proof. eexists; eexists. vm_compute. repeat split. Qed.

(** With no unary minus over a symbol and no keyword arguments, nothing is left out. *)
Theorem C33_symbols_registered_without_negation
  (L : Type) (nfn : string -> bool) (pyparse : string -> res (expr L)) text body flt tree simple chained sets x :
  split_filter text = Ok (body, flt) -> pyparse body = Ok tree ->
  parse nfn pyparse text simple chained = (sets, Ok x) ->
  hidden_names tree = [] ->
  forall y, In y (free_names (e_trans x)) ->
    y = "NAN" \/ In y (e_symbols x) \/ In y (sub_names (e_chains x)) \/ In y (dkeys (e_dl x)).
Proof.
  intros SF PP P H y I.
  destruct (C33_symbols_registered_partial _ _ _ _ _ _ _ _ _ _ _ SF PP P) as (_ & _ & _ & _ & F).
  destruct (F y I) as [K|[K|[(n & l & ct & A & B)|[K|K]]]]; auto.
  - right. right. left. unfold sub_names. apply in_concat. exists (dkeys l). split; [apply in_map_iff; exists (n, l); auto|eapply in_keys; eauto].
  - rewrite H in K. destruct K.
Qed.
Print Assumptions C33_symbols_registered_without_negation.

(** C33 is false: [-x] reads x, which is registered nowhere. *)
Theorem C33_symbols_registered_refuted :
  exists (tree : expr nat) x sets,
    parse (fun _ => false) (fun _ => Ok tree) "-x" [] [] = (sets, Ok x) /\
    In "x" (free_names (e_trans x)) /\ ~ In "x" (all_symbols x) /\ e_chains x = [] /\ e_dl x = [] /\ sets = ([], []).
Proof.
  exists (EUn USub (EName "x")). eexists. eexists. split; [reflexivity|]. simpl. repeat split; auto.
Qed.
Print Assumptions C33_symbols_registered_refuted.

(** * C36 *)

(** Within one expression the substitution names are pairwise distinct, one for each chained usage,
    if no chained symbol ends in a digit; the names for one symbol are always distinct. *)
Theorem C36_substitution_names_distinct_partial
  (L : Type) (nfn : string -> bool) (pyparse : string -> res (expr L)) text body flt tree simple chained sets x :
  split_filter text = Ok (body, flt) -> pyparse body = Ok tree ->
  parse nfn pyparse text simple chained = (sets, Ok x) ->
  length (sub_names (e_chains x)) = length (chain_uses tree) /\
  (forall name l, In (name, l) (e_chains x) -> NoDup (dkeys l)) /\
  NoDup (dkeys (e_dl x)) /\
  ((forall y, In y (chain_uses tree) -> ends_in_digit y = false) ->
   NoDup (sub_names (e_chains x) ++ dkeys (e_dl x))).
Proof.
  intros SF PP P. destruct sets as [s' c'].
  destruct (parse_uses _ _ _ _ _ _ _ _ P) as (e & T & U1 & U2 & U3 & U4).
  assert (e = tree) by (unfold tree_of in T; rewrite SF, PP in T; congruence). subst e.
  apply parse_ok in P. destruct P as (e & st & T' & Vi & _ & _ & E1 & E2 & E3 & _).
  assert (e = tree) by congruence. subst e.
  destruct (visit_inv _ _ _ _ _ Vi (wf_init simple chained)) as (W & _ & _).
  rewrite E1, E2. split; [|split; [|split]].
  - pose proof (visit_counts nfn tree (VSt simple chained [] [] [])) as C. rewrite Vi in C.
    specialize (C (wf_init simple chained) eq_refl). rewrite sub_names_length. simpl in C. exact C.
  - intros name l I. destruct W as (_ & W2 & _). rewrite (W2 name l I). apply seq_nodup, make_sub_inj.
  - destruct W as (_ & _ & W3). rewrite W3. apply seq_nodup, dict_sub_inj.
  - intros D. apply wf_all_subs; auto. intros y I. apply D, U2. now rewrite E1.
Qed.
Print Assumptions C36_substitution_names_distinct_partial.

Example C36_hypotheses_met : length (chain_uses ex_tree) = 2 /\ forall y, In y (chain_uses ex_tree) -> ends_in_digit y = false.
Proof. split; [reflexivity|]. intros y. vm_compute. intros [<-|[<-|[]]]; reflexivity. Qed.

(** C36 is false: an expression using [a.p] eleven times and [a1.p] once has twelve chained usages,
    and the eleventh usage of a and the first of a1 are both called __sub_a10. *)
Definition clash_tree : expr nat :=
  fold_left (fun t _ => EBin Add t (EAttr (EName "a") "p")) (repeat tt 11) (EAttr (EName "a1") "p").
Theorem C36_substitution_names_distinct_refuted :
  exists x sets, parse (fun _ => false) (fun _ => Ok clash_tree) "..." [] [] = (sets, Ok x) /\
    length (chain_uses clash_tree) = 12 /\ ~ NoDup (sub_names (e_chains x)).
Proof.
  eexists; eexists. split; [vm_compute; reflexivity|]. split; [reflexivity|].
  vm_compute. intros N. inversion N as [|? ? N1 _]. apply N1. simpl. tauto.
Qed.
Print Assumptions C36_substitution_names_distinct_refuted.

(** * C37 *)

(** The '@' filter. [count_at] is the number of '@' in the text, [stripped s t] says that [t] is [s]
    without the white space at both ends. *)
Theorem C37_filter_split_off (text : string) :
  (count_at text = 0 -> split_filter text = Ok (text, None)) /\
  (forall a b, text = (a ++ "@" ++ b)%string -> count_at text = 1 ->
     exists e f, split_filter text = Ok (e, Some f) /\ stripped a e /\ stripped b f) /\
  (2 <= count_at text -> split_filter text = Err UnsupportedSyntax).
Proof.
  split; [|split].
  - intros H. unfold split_filter. now rewrite split_at_none.
  - intros a b -> C. assert (CC : forall u v, count_at (u ++ v)%string = count_at u + count_at v).
    { intros u v. unfold count_at. now rewrite chars_app, filter_app, app_length. }
    rewrite !CC in C. unfold count_at at 2 in C. simpl in C.
    exists (strip a), (strip b). unfold split_filter. rewrite split_at_one by lia. auto using strip_spec.
  - intros H. unfold split_filter. pose proof (split_at_length text) as E.
    destruct (split_at text) as [|p [|q [|r t]]]; simpl in E; try lia; auto.
Qed.
Print Assumptions C37_filter_split_off.

(** every text with one '@' has the form a@b *)
Theorem C37_one_at (text : string) : count_at text = 1 -> exists a b, text = (a ++ "@" ++ b)%string.
Proof.
  induction text as [|c t IH]; [discriminate|].
  destruct (Ascii.eqb_spec c "@"%char) as [->|N].
  - intros _. exists "", t. reflexivity.
  - intros H. destruct IH as (a & b & ->).
    + unfold count_at in *. simpl in H. apply Ascii.eqb_neq in N. rewrite N in H. exact H.
    + exists (String c a), b. reflexivity.
Qed.
(** and the stripped text is unique *)
Theorem C37_stripped_unique s t u : stripped s t -> stripped s u -> t = u.
Proof.
  assert (sub : forall a b c d : string, (a ++ b = c ++ d)%string -> (exists k, c = (a ++ k)%string /\ b = (k ++ d)%string) \/ (exists k, a = (c ++ k)%string /\ d = (k ++ b)%string)).
  { induction a as [|x a IH]; intros b [|y c] d E; simpl in *.
    - left. exists "". auto.
    - left. exists (String y c). auto.
    - right. exists (String x a). auto.
    - injection E as -> E. destruct (IH _ _ _ E) as [(k & -> & ->)|(k & -> & ->)]; [left|right]; exists k; auto. }
  assert (sp : forall a b, forallb is_space (chars (a ++ b)%string) = true -> forallb is_space (chars a) = true /\ forallb is_space (chars b) = true).
  { intros a b H. rewrite chars_app, forallb_app in H. now apply andb_true_iff in H. }
  assert (last : forall t, t <> ""%string -> exists u c, t = (u ++ String c "")%string).
  { induction t0 as [|c t0 IH]; [congruence|]. intros _. destruct t0 as [|d t0].
    - exists "", c. reflexivity.
    - destruct IH as (v & e & E); [discriminate|]. exists (String c v), e. rewrite E. reflexivity. }
  assert (ass : forall a b c : string, ((a ++ b) ++ c = a ++ b ++ c)%string).
  { induction a as [|x a IH]; simpl; intros; [reflexivity|]. now rewrite IH. }
  (* the two stripped texts start at the same place *)
  assert (K : forall l t r l' t' r', forallb is_space (chars l) = true -> forallb is_space (chars r) = true ->
     forallb is_space (chars l') = true -> forallb is_space (chars r') = true ->
     (l ++ t ++ r = l' ++ t' ++ r')%string -> t <> ""%string ->
     (forall c u, t = String c u -> is_space c = false) -> (forall c u, t' = String c u -> is_space c = false) ->
     t' <> ""%string -> l = l').
  { intros l t1 r l' t' r' A B A' B' E NE F F' NE'.
    destruct (sub _ _ _ _ E) as [(k & -> & E2)|(k & -> & E2)].
    - destruct k as [|c k]; [now rewrite app_string_nil_r|]. exfalso. apply sp in A'. destruct A' as [_ A'].
      destruct t1 as [|d t1]; [congruence|]. simpl in E2. injection E2 as -> _.
      simpl in A'. rewrite (F c t1 eq_refl) in A'. discriminate.
    - destruct k as [|c k]; [now rewrite app_string_nil_r|]. exfalso. apply sp in A. destruct A as [_ A].
      destruct t' as [|d t']; [congruence|]. simpl in E2. injection E2 as -> _.
      simpl in A. rewrite (F' c t' eq_refl) in A. discriminate. }
  assert (Z : forall l t r l' r', forallb is_space (chars l') = true -> forallb is_space (chars r') = true ->
     (l ++ t ++ r = l' ++ "" ++ r')%string -> (forall c u, t = String c u -> is_space c = false) -> t = ""%string).
  { intros l t1 r l' r' A B E F. destruct t1 as [|c t1]; auto. exfalso.
    assert (X : forallb is_space (chars (l ++ String c t1 ++ r)%string) = true).
    { rewrite E. simpl. rewrite chars_app, forallb_app, A, B. reflexivity. }
    apply sp in X. destruct X as [_ X]. simpl in X. rewrite (F c t1 eq_refl) in X. discriminate. }
  intros (l & r & E & A & B & F & G) (l' & r' & E' & A' & B' & F' & G').
  destruct (string_dec t "") as [->|NE]; [symmetry; apply (Z l' u r' l r A B (eq_trans (eq_sym E') E) F')|].
  destruct (string_dec u "") as [->|NE']; [apply (Z l t r l' r' A' B' (eq_trans (eq_sym E) E') F)|].
  assert (X : l = l') by (apply (K l t r l' u r' A B A' B' (eq_trans (eq_sym E) E') NE F F' NE')). subst l'.
  rewrite E in E'. apply append_inj_l in E'.
  destruct (sub _ _ _ _ E') as [(k & -> & E2)|(k & -> & E2)].
  - destruct (string_dec k "") as [->|NK]; [now rewrite app_string_nil_r|]. exfalso.
    destruct (last k NK) as (v & c & ->). rewrite E2 in B. apply sp in B. destruct B as [B _]. apply sp in B. destruct B as [_ B].
    simpl in B. rewrite (G' c (t ++ v)%string) in B; [discriminate|]. now rewrite ass.
  - destruct (string_dec k "") as [->|NK]; [now rewrite app_string_nil_r|]. exfalso.
    destruct (last k NK) as (v & c & ->). rewrite E2 in B'. apply sp in B'. destruct B' as [B' _]. apply sp in B'. destruct B' as [_ B'].
    simpl in B'. rewrite (G c (u ++ v)%string) in B'; [discriminate|]. now rewrite ass.
Qed.
Print Assumptions C37_stripped_unique.

Example C37_hypotheses_met : count_at " a * 2 @ A.B " = 1 /\ split_filter " a * 2 @ A.B " = Ok ("a * 2", Some "A.B")
  /\ split_filter " a " = Ok (" a ", None) /\ split_filter "a @ b @ c" = Err UnsupportedSyntax.
Proof. vm_compute. auto. Qed.
