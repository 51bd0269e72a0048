(** Lemmas about the expression transformer. *)
From Coq Require Import Ascii DecimalString Decimal DecimalNat DecimalFacts Relations FinFun.
From Verif Require Import Prelude DictProofs ExprModel SpecExpr.
Local Open Scope string_scope.
Local Open Scope nat_scope.
Local Open Scope list_scope.

(** ** Sets of strings *)
Lemma mem_iff x l : mem x l = true <-> In x l.
Proof.
  unfold mem. rewrite existsb_exists. split.
  - intros (y & H & E). apply String.eqb_eq in E. now subst.
  - intros H. exists x. split; auto. apply String.eqb_refl.
Qed.
Lemma mem_false x l : mem x l = false <-> ~ In x l.
Proof. rewrite <- mem_iff. destruct (mem x l); split; congruence. Qed.
Lemma in_sadd x y l : In x (sadd y l) <-> x = y \/ In x l.
Proof.
  unfold sadd. destruct (mem y l) eqn:E.
  - apply mem_iff in E. split; auto. intros [->|]; auto.
  - rewrite in_app_iff. simpl. intuition.
Qed.
Lemma in_sunion x l m : In x (sunion l m) <-> In x l \/ In x m.
Proof.
  unfold sunion. revert l; induction m as [|y m IH]; intros l; simpl; [tauto|].
  rewrite IH, in_sadd. intuition.
Qed.
Lemma eq_strs_spec a b : eq_strs a b = true <-> a = b.
Proof. unfold eq_strs. destruct (list_eq_dec string_dec a b); split; congruence. Qed.

(** ** Decimal numerals *)
Lemma dec_inj n m : dec n = dec m -> n = m.
Proof.
  unfold dec. intros H. apply (f_equal NilZero.uint_of_string) in H.
  assert (Z : forall k, Nat.to_uint k <> Nil).
  { intros k. rewrite <- (DecimalNat.Unsigned.of_to k), DecimalNat.Unsigned.to_of.
    unfold unorm. destruct (nzhead (Nat.to_uint k)); discriminate. }
  rewrite !NilZero.usu in H by apply Z. injection H as H.
  apply (f_equal Nat.of_uint) in H. now rewrite !DecimalNat.Unsigned.of_to in H.
Qed.

Lemma append_inj_l p a b : (p ++ a)%string = (p ++ b)%string -> a = b.
Proof. induction p as [|c p IH]; simpl; auto. intros H. injection H. auto. Qed.

Lemma make_sub_inj name n m : make_sub name n = make_sub name m -> n = m.
Proof. unfold make_sub. intros H. apply append_inj_l in H. apply append_inj_l in H. now apply dec_inj. Qed.
Lemma dict_sub_inj n m : dict_sub n = dict_sub m -> n = m.
Proof. unfold dict_sub. intros H. apply append_inj_l in H. now apply dec_inj. Qed.

(** ** Induction on syntax trees *)
Section Ind.
  Context {L : Type} (P : expr L -> Prop).
  Hypothesis HName : forall x, P (EName x).
  Hypothesis HNum : forall n, P (ENum n).
  Hypothesis HStr : forall s, P (EStr s).
  Hypothesis HBytes : forall s, P (EBytes s).
  Hypothesis HConst : forall s, P (EConst s).
  Hypothesis HAttr : forall v a, P v -> P (EAttr v a).
  Hypothesis HCall : forall f args kws, P f -> Forall P args -> Forall (fun kv => P (snd kv)) kws -> P (ECall f args kws).
  Hypothesis HUn : forall op e, P e -> P (EUn op e).
  Hypothesis HBool : forall op vs, Forall P vs -> P (EBool op vs).
  Hypothesis HCmp : forall l ops rs, P l -> Forall P rs -> P (ECmp l ops rs).
  Hypothesis HBin : forall op l r, P l -> P r -> P (EBin op l r).
  Hypothesis HDict : forall ks vs, Forall P ks -> Forall P vs -> P (EDict ks vs).
  Hypothesis HUnsup : forall k, P (EUnsup k).
  Hypothesis HGen : forall k l, Forall P l -> P (EGen k l).
  Fixpoint expr_ind' (e : expr L) : P e :=
    let lst := fix lst (l : list (expr L)) : Forall P l :=
                 match l with [] => Forall_nil _ | x :: t => Forall_cons x (expr_ind' x) (lst t) end in
    match e with
    | EName x => HName x | ENum n => HNum n | EStr s => HStr s | EBytes s => HBytes s | EConst s => HConst s
    | EAttr v a => HAttr v a (expr_ind' v)
    | ECall f args kws =>
        HCall f args kws (expr_ind' f) (lst args)
              ((fix kl (l : list (string * expr L)) : Forall (fun kv => P (snd kv)) l :=
                  match l with [] => Forall_nil _ | x :: t => Forall_cons x (expr_ind' (snd x)) (kl t) end) kws)
    | EUn op a => HUn op a (expr_ind' a)
    | EBool op vs => HBool op vs (lst vs)
    | ECmp l ops rs => HCmp l ops rs (expr_ind' l) (lst rs)
    | EBin op l r => HBin op l r (expr_ind' l) (expr_ind' r)
    | EDict ks vs => HDict ks vs (lst ks) (lst vs)
    | EUnsup k => HUnsup k
    | EGen k l => HGen k l (lst l)
    end.
End Ind.

Section Visit.
  Context {L : Type} (nfn : string -> bool).
  Notation expr := (expr L).
  Notation vst := (@vst L).
  Notation visit := (@visit L nfn).

  (** *** The transformer proceeds by primitive steps *)
  Inductive prim : vst -> vst -> Prop :=
  | PrName st x : nan_like x = false -> ~ In x (v_allch st) ->
      prim st (VSt (sadd x (v_simple st)) (v_allch st) (v_ch st) (sadd x (v_vis st)) (v_dl st))
  | PrChain st name ct : ~ In name (v_simple st) ->
      prim st (fst (add_chain st name ct))
  | PrDict st ks vs : prim st (fst (visit_dict st ks vs)).
  Notation steps := (clos_refl_trans _ prim).

  Lemma visit_name_steps st x : steps st (fst (visit_name (L:=L) st x)).
  Proof.
    unfold visit_name. destruct (nan_like x) eqn:E; simpl; [apply rt_refl|].
    destruct (mem x (v_allch st)) eqn:M; simpl; [apply rt_refl|].
    apply rt_step. constructor; auto. now apply mem_false.
  Qed.
  Lemma add_chain_steps st name ct : steps st (fst (add_chain (L:=L) st name ct)).
  Proof.
    destruct (mem name (v_simple st)) eqn:E.
    - unfold add_chain. rewrite E. apply rt_refl.
    - apply rt_step. constructor. now apply mem_false.
  Qed.
  Lemma visit_list_steps es : Forall (fun e => forall st, steps st (fst (visit e st))) es ->
    forall st, steps st (fst (visit_list visit es st)).
  Proof.
    induction 1 as [|e t He Ht IH]; intros st; simpl; [apply rt_refl|].
    specialize (He st). destruct (visit e st) as [st1 [e'|x]]; simpl in *; auto.
    specialize (IH st1). destruct (visit_list visit t st1) as [st2 [t'|x]]; simpl in *; eapply rt_trans; eauto.
  Qed.
  Lemma visit_kws_steps es : Forall (fun kv => forall st, steps st (fst (visit (snd kv) st))) es ->
    forall st, steps st (fst (visit_kws visit es st)).
  Proof.
    induction 1 as [|[k e] t He Ht IH]; intros st; simpl; [apply rt_refl|].
    specialize (He st). simpl in He. destruct (visit e st) as [st1 [e'|x]]; simpl in *; auto.
    specialize (IH st1). destruct (visit_kws visit t st1) as [st2 [t'|x]]; simpl in *; eapply rt_trans; eauto.
  Qed.
  Lemma bind_steps {A B} (r : vst * res A) (k : A -> vst -> vst * res B) st :
    steps st (fst r) -> (forall a st1, steps st1 (fst (k a st1))) -> steps st (fst (bind_st r k)).
  Proof.
    intros H1 H2. destruct r as [st1 [a|x]]; simpl in *; auto. eapply rt_trans; eauto.
  Qed.
  Lemma visit_method_steps st f args kws : steps st (fst (visit_method (L:=L) st f args kws)).
  Proof.
    unfold visit_method. destruct (attr_name f) as [[name [|fn chain]]|x]; simpl; try apply rt_refl.
    destruct (negb (supported_agg fn)); simpl; [apply rt_refl|].
    destruct (negb (length kws =? 0)); simpl; [apply rt_refl|].
    destruct args; [apply rt_refl|]. apply add_chain_steps.
  Qed.

  Lemma visit_steps e : forall st, steps st (fst (visit e st)).
  Proof.
    induction e as [x|n|s|s|s|v a IHv|f args kws IHf IHargs IHkws|op e IHe|op vs IHvs|l ops rs IHl IHrs|op l r IHl IHr|ks vs IHks IHvs|k|k l IHl] using expr_ind'; intros st; cbn [ExprModel.visit]; try apply rt_refl.
    - apply visit_name_steps.
    - destruct (attr_name (EAttr v a)) as [[name chain]|x]; [apply add_chain_steps|apply rt_refl].
    - assert (G : steps st (fst (bind_st (visit f st) (fun f' st1 =>
            bind_st (visit_list visit args st1) (fun args' st2 =>
            bind_st (visit_kws visit kws st2) (fun kws' st3 => (st3, Ok (ECall f' args' kws')))))))).
      { apply bind_steps; auto. intros f' st1. apply bind_steps; [now apply visit_list_steps|].
        intros args' st2. apply bind_steps; [now apply visit_kws_steps|]. intros; apply rt_refl. }
      destruct f; auto.
      + destruct (nfn id); [|apply rt_refl]. apply bind_steps; [now apply visit_list_steps|]. intros; apply rt_refl.
      + apply visit_method_steps.
    - destruct op; try apply rt_refl. apply bind_steps; auto. intros; apply rt_refl.
    - apply bind_steps; [now apply visit_list_steps|]. intros; apply rt_refl.
    - apply bind_steps; auto. intros. apply bind_steps; [now apply visit_list_steps|]. intros; apply rt_refl.
    - apply bind_steps; auto. intros. apply bind_steps; auto. intros; apply rt_refl.
    - apply rt_step. constructor.
    - apply bind_steps; [now apply visit_list_steps|]. intros; apply rt_refl.
  Qed.

  (** *** Invariants of the transformer state *)
  (** the substitution names in use are numbered consecutively *)
  Definition wf (st : vst) : Prop :=
    NoDup (dkeys (v_ch st)) /\
    (forall name l, In (name, l) (v_ch st) -> dkeys l = map (make_sub name) (seq 0 (length l))) /\
    dkeys (v_dl st) = map dict_sub (seq 0 (length (v_dl st))).
  Definition disj (st : vst) : Prop := forall x, In x (v_simple st) -> In x (v_allch st) -> False.
  Definition has_chain (st : vst) (name sub : string) (ct : chaint) : Prop :=
    exists l, In (name, l) (v_ch st) /\ In (sub, ct) l.
  (** [st'] extends [st] *)
  Definition ext (st st' : vst) : Prop :=
    incl (v_simple st) (v_simple st') /\ incl (v_allch st) (v_allch st') /\ incl (v_vis st) (v_vis st') /\
    (forall name sub ct, has_chain st name sub ct -> has_chain st' name sub ct) /\
    incl (v_dl st) (v_dl st') /\ incl (dkeys (v_ch st)) (dkeys (v_ch st')).

  Lemma ext_refl st : ext st st. Proof. repeat split; auto using incl_refl. Qed.
  Lemma ext_trans a b c : ext a b -> ext b c -> ext a c.
  Proof.
    intros (A1 & A2 & A3 & A4 & A5 & A6) (B1 & B2 & B3 & B4 & B5 & B6).
    repeat split; eauto using incl_tran.
  Qed.

  Lemma seq_fresh {A} (f : nat -> A) n : (forall i j, f i = f j -> i = j) -> ~ In (f n) (map f (seq 0 n)).
  Proof.
    intros I H. apply in_map_iff in H. destruct H as (i & E & H). apply I in E. subst i. apply in_seq in H. lia.
  Qed.
  Lemma seq_nodup {A} (f : nat -> A) n : (forall i j, f i = f j -> i = j) -> NoDup (map f (seq 0 n)).
  Proof. intros I. apply FinFun.Injective_map_NoDup; [exact I|]. apply seq_NoDup. Qed.

  Lemma keys_length {K V} (d : dict K V) : length (dkeys d) = length d.
  Proof. apply map_length. Qed.

  (** what [add_chain] does to a well-formed state *)
  Definition old_lookups (st : vst) (name : string) : dict string chaint :=
    match dget String.eqb (v_ch st) name with Some l => l | None => [] end.
  Lemma old_lookups_keys st name : wf st ->
    dkeys (old_lookups st name) = map (make_sub name) (seq 0 (length (old_lookups st name))).
  Proof.
    intros (W1 & W2 & _). unfold old_lookups. destruct (dget String.eqb (v_ch st) name) as [l|] eqn:E; auto.
    apply dget_in in E; [|apply String.eqb_eq]. eauto.
  Qed.
  Lemma add_chain_ok st name ct : wf st -> ~ In name (v_simple st) ->
    add_chain st name ct =
    (VSt (v_simple st) (sadd name (v_allch st))
         (dset String.eqb (v_ch st) name
               (old_lookups st name ++ [(make_sub name (length (old_lookups st name)), ct)]))
         (v_vis st) (v_dl st), Ok (EName (make_sub name (length (old_lookups st name))))).
  Proof.
    intros W H. unfold add_chain. apply mem_false in H. rewrite H. fold (old_lookups st name).
    rewrite (dset_absent String.eqb String.eqb_eq _ (make_sub name (length (old_lookups st name)))); auto.
    rewrite old_lookups_keys by auto. apply seq_fresh. apply make_sub_inj.
  Qed.

  Lemma has_chain_iff st name sub ct : wf st ->
    (has_chain st name sub ct <-> In (sub, ct) (old_lookups st name)).
  Proof.
    intros (W1 & W2 & _). unfold has_chain, old_lookups. split.
    - intros (l & H1 & H2). rewrite (in_dget String.eqb String.eqb_eq _ _ _ W1 H1). auto.
    - destruct (dget String.eqb (v_ch st) name) as [l|] eqn:E; simpl; [|tauto].
      apply dget_in in E; [|apply String.eqb_eq]. eauto.
  Qed.

  Lemma prim_inv st st' : prim st st' -> wf st ->
    wf st' /\ ext st st' /\ (disj st -> disj st').
  Proof.
    intros P W. pose proof W as W0. destruct W0 as (W1 & W2 & W3). inversion P as [s x Hn Hc E1 E2|s name ct Hs E1 E2|s ks vs E1 E2]; subst; clear P.
    - split; [repeat split; auto|]. split.
      + repeat split; simpl; auto using incl_refl; intros y Hy; apply in_sadd; auto.
      + intros D y. simpl. rewrite in_sadd. intros [->|H]; [exact Hc|exact (D y H)].
    - rewrite (add_chain_ok st name ct W Hs). simpl. set (old := old_lookups st name).
      assert (K : dkeys (old ++ [(make_sub name (length old), ct)]) = map (make_sub name) (seq 0 (length (old ++ [(make_sub name (length old), ct)])))).
      { unfold dkeys. rewrite map_app, app_length, seq_app, map_app. simpl. f_equal.
        apply (old_lookups_keys st name W). }
      split; [|split].
      + split; [|split]; simpl; auto.
        * apply dset_keys_nodup; auto. apply String.eqb_eq.
        * intros n l H. apply (in_dset String.eqb String.eqb_eq) in H; auto.
          destruct H as [[-> ->]|[_ H]]; auto.
      + repeat split; simpl; auto using incl_refl.
        * intros y Hy. apply in_sadd; auto.
        * intros n sub c H. destruct (string_dec n name) as [->|N].
          -- apply (has_chain_iff _ _ _ _ W) in H. fold old in H.
             exists (old ++ [(make_sub name (length old), ct)]). simpl. split.
             ++ apply (in_dset String.eqb String.eqb_eq); auto.
             ++ apply in_or_app. auto.
          -- destruct H as (l & H1 & H2). exists l. simpl. split; auto.
             apply (in_dset String.eqb String.eqb_eq); auto.
        * intros y Hy. destruct (in_dec string_dec name (dkeys (v_ch st))) as [I|I].
          -- rewrite dset_keys; auto. apply String.eqb_eq.
          -- rewrite dset_absent; auto; [|apply String.eqb_eq]. unfold dkeys. rewrite map_app. apply in_or_app. auto.
      + intros D y. simpl. rewrite in_sadd. intros H [->|H']; eauto.
    - unfold visit_dict. destruct (dict_entries ks vs []) as [lit|x]; simpl.
      2:{ split; [auto|split; [apply ext_refl|auto]]. }
      assert (A : dset String.eqb (v_dl st) (dict_sub (length (v_dl st))) lit
                  = v_dl st ++ [(dict_sub (length (v_dl st)), lit)]).
      { apply dset_absent; [apply String.eqb_eq|]. rewrite W3. apply seq_fresh, dict_sub_inj. }
      rewrite A. split; [|split].
      + repeat split; simpl; auto. unfold dkeys. rewrite map_app, app_length, seq_app, map_app. simpl.
        f_equal. exact W3.
      + repeat split; simpl; auto using incl_refl. apply incl_appl, incl_refl.
      + auto.
  Qed.
  Lemma steps_inv st st' : steps st st' -> wf st -> wf st' /\ ext st st' /\ (disj st -> disj st').
  Proof.
    induction 1 as [a b H|a|a b c H1 IH1 H2 IH2]; intros W.
    - now apply prim_inv.
    - split; auto. split; auto using ext_refl.
    - destruct (IH1 W) as (Wb & E1 & D1). destruct (IH2 Wb) as (Wc & E2 & D2).
      split; auto. split; [eapply ext_trans; eauto|auto].
  Qed.
  Lemma visit_inv e st st' r : visit e st = (st', r) -> wf st -> wf st' /\ ext st st' /\ (disj st -> disj st').
  Proof. intros H. apply steps_inv. pose proof (visit_steps e st) as P. rewrite H in P. exact P. Qed.
  Lemma visit_list_inv es st st' r : visit_list visit es st = (st', r) -> wf st -> wf st' /\ ext st st' /\ (disj st -> disj st').
  Proof.
    intros H. apply steps_inv. pose proof (visit_list_steps es) as P.
    specialize (P (proj2 (Forall_forall _ _) (fun e _ => visit_steps e)) st). rewrite H in P. exact P.
  Qed.
  Lemma visit_kws_inv es st st' r : visit_kws visit es st = (st', r) -> wf st -> wf st' /\ ext st st' /\ (disj st -> disj st').
  Proof.
    intros H. apply steps_inv. pose proof (visit_kws_steps es) as P.
    specialize (P (proj2 (Forall_forall _ _) (fun e _ => visit_steps (snd e))) st). rewrite H in P. exact P.
  Qed.
End Visit.
