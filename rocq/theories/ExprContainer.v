(** Expression containers: proofs. *)
From Verif Require Import Prelude DictProofs ExprModel SpecExpr SpecContainer ExprNull ExprProofs ExprUses.
Set Default Proof Using "Type".
Local Open Scope string_scope.
Local Open Scope nat_scope.
Local Open Scope list_scope.

(** ** The result of parsing depends on the prior sets only through the symbols used *)
Section Frame.
  Context {L : Type} (nfn : string -> bool).
  Notation expr := (expr L).
  Notation vst := (@vst L).
  Notation visit := (@visit L nfn).

  Definition agree (U : string -> Prop) (a b : vst) : Prop :=
    v_ch a = v_ch b /\ v_vis a = v_vis b /\ v_dl a = v_dl b /\
    forall x, U x -> (In x (v_simple a) <-> In x (v_simple b)) /\ (In x (v_allch a) <-> In x (v_allch b)).
  Definition agree_r {A} (U : string -> Prop) (a b : vst * res A) : Prop :=
    snd a = snd b /\ agree U (fst a) (fst b).

  Lemma mem_agree x a b : (In x a <-> In x b) -> mem x a = mem x b.
  Proof. intros H. apply Bool.eq_iff_eq_true. now rewrite !mem_iff. Qed.

  Lemma agree_chain U a b name ct : agree U a b -> U name ->
    agree_r U (add_chain (L:=L) a name ct) (add_chain b name ct).
  Proof.
    intros (E1 & E2 & E3 & H) Hn. unfold add_chain. rewrite (mem_agree _ _ _ (proj1 (H _ Hn))).
    destruct (mem name (v_simple b)).
    - split; [reflexivity|]. repeat split; simpl; auto; apply H; auto.
    - rewrite E1. split; [reflexivity|]. simpl. repeat split; simpl; try congruence; try (apply H; auto);
        rewrite !in_sadd; (intros [->|X]; [auto|]); right; apply H; auto.
  Qed.
  Lemma agree_bind {A B} U (ra rb : vst * res A) (k : A -> vst -> vst * res B) :
    agree_r U ra rb -> (forall x a b, agree U a b -> agree_r U (k x a) (k x b)) ->
    agree_r U (bind_st ra k) (bind_st rb k).
  Proof.
    destruct ra as [a [x|e]], rb as [b [y|e']]; intros [E H] K; simpl in *; try discriminate.
    - injection E as <-. auto.
    - injection E as <-. split; auto.
  Qed.
  Lemma agree_pure {A} U (x : res A) a b : agree U a b -> agree_r U (a, x) (b, x).
  Proof. intros H. split; auto. Qed.

  Definition uses (e : expr) (x : string) : Prop := In x (simple_uses e) \/ In x (chain_uses e).

  Lemma frame_list es : Forall (fun e => forall (U : string -> Prop) a b, (forall x, uses e x -> U x) -> agree U a b -> agree_r U (visit e a) (visit e b)) es ->
    forall (U : string -> Prop) a b, (forall x, In x (concat (map simple_uses es)) \/ In x (concat (map chain_uses es)) -> U x) ->
    agree U a b -> agree_r U (visit_list visit es a) (visit_list visit es b).
  Proof.
    induction 1 as [|e t He Ht IH]; intros U a b HU H; simpl; [now apply agree_pure|].
    simpl in HU.
    assert (G : agree_r U (visit e a) (visit e b)).
    { apply He; auto. intros x [X|X]; apply HU; rewrite !in_app_iff; auto. }
    destruct (visit e a) as [a1 [x|e1]], (visit e b) as [b1 [y|e2]]; destruct G as [E G]; simpl in E, G; try discriminate.
    - injection E as <-.
      assert (G2 : agree_r U (visit_list visit t a1) (visit_list visit t b1)).
      { apply IH; auto. intros z [X|X]; apply HU; rewrite !in_app_iff; auto. }
      destruct (visit_list visit t a1) as [a2 [xs|e1]], (visit_list visit t b1) as [b2 [ys|e2]]; destruct G2 as [E2 G2]; simpl in E2, G2; try discriminate;
        injection E2 as <-; split; auto.
    - injection E as <-. split; auto.
  Qed.
  Lemma frame_kws es : Forall (fun kv => forall (U : string -> Prop) a b, (forall x, uses (snd kv) x -> U x) -> agree U a b -> agree_r U (visit (snd kv) a) (visit (snd kv) b)) es ->
    forall (U : string -> Prop) a b, (forall x, In x (concat (map (fun kv => simple_uses (snd kv)) es)) \/ In x (concat (map (fun kv => chain_uses (snd kv)) es)) -> U x) ->
    agree U a b -> agree_r U (visit_kws visit es a) (visit_kws visit es b).
  Proof.
    induction 1 as [|[k e] t He Ht IH]; intros U a b HU H; simpl; [now apply agree_pure|].
    simpl in HU, He.
    assert (G : agree_r U (visit e a) (visit e b)).
    { apply He; auto. intros x [X|X]; apply HU; rewrite !in_app_iff; auto. }
    destruct (visit e a) as [a1 [x|e1]], (visit e b) as [b1 [y|e2]]; destruct G as [E G]; simpl in E, G; try discriminate.
    - injection E as <-.
      assert (G2 : agree_r U (visit_kws visit t a1) (visit_kws visit t b1)).
      { apply IH; auto. intros z [X|X]; apply HU; rewrite !in_app_iff; auto. }
      destruct (visit_kws visit t a1) as [a2 [xs|e1]], (visit_kws visit t b1) as [b2 [ys|e2]]; destruct G2 as [E2 G2]; simpl in E2, G2; try discriminate;
        injection E2 as <-; split; auto.
    - injection E as <-. split; auto.
  Qed.

  Lemma visit_frame e : forall (U : string -> Prop) a b, (forall x, uses e x -> U x) -> agree U a b -> agree_r U (visit e a) (visit e b).
  Proof.
    unfold uses.
    induction e as [x|n|s|s|s|v a0 IHv|f args kws IHf IHargs IHkws|op e IHe|op vs IHvs|l ops rs IHl IHrs|op l r IHl IHr|ks vs IHks IHvs|k|k l IHl] using expr_ind'; intros U a b HU H; try (now apply agree_pure).
    - cbn [ExprModel.visit simple_uses chain_uses] in *. unfold visit_name. rewrite nan_like_spelling. destruct (null_spelling x); [now apply agree_pure|].
      assert (Ux : U x) by (apply HU; simpl; auto). destruct H as (E1 & E2 & E3 & H).
      rewrite (mem_agree _ _ _ (proj2 (H _ Ux))). destruct (mem x (v_allch b)).
      + split; auto. repeat split; simpl; auto; apply H; auto.
      + split; auto. repeat split; simpl; try congruence; try (apply H; auto);
          rewrite !in_sadd; (intros [->|X]; [auto|]); right; apply H; auto.
    - cbn [ExprModel.visit simple_uses chain_uses] in *. pose proof (attr_name_spec (EAttr v a0)) as A.
      destruct (attr_name (EAttr v a0)) as [[name c]|x]; [|now apply agree_pure].
      apply agree_chain; auto. apply HU. right. unfold base. rewrite A. simpl. auto.
    - assert (G : (forall x, In x (simple_uses f ++ concat (map simple_uses args) ++ concat (map (fun kv => simple_uses (snd kv)) kws))
          \/ In x (chain_uses f ++ concat (map chain_uses args) ++ concat (map (fun kv => chain_uses (snd kv)) kws)) -> U x) ->
          forall a b, agree U a b ->
          agree_r U (bind_st (visit f a) (fun f' st1 =>
            bind_st (visit_list visit args st1) (fun args' st2 =>
            bind_st (visit_kws visit kws st2) (fun kws' st3 => (st3, Ok (ECall f' args' kws'))))))
            (bind_st (visit f b) (fun f' st1 =>
            bind_st (visit_list visit args st1) (fun args' st2 =>
            bind_st (visit_kws visit kws st2) (fun kws' st3 => (st3, Ok (ECall f' args' kws'))))))).
      { clear a b H HU. intros HU a b H. apply agree_bind.
        - apply IHf; auto. intros x [X|X]; apply HU; rewrite !in_app_iff; auto.
        - intros f' a1 b1 H1. apply agree_bind.
          + apply frame_list; auto. intros x [X|X]; apply HU; rewrite !in_app_iff; auto.
          + intros args' a2 b2 H2. apply agree_bind.
            * apply frame_kws; auto. intros x [X|X]; apply HU; rewrite !in_app_iff; auto.
            * intros. now apply agree_pure. }
      destruct f; try (apply G; auto; fail); cbn [ExprModel.visit simple_uses chain_uses] in *.
      + destruct (nfn id); [|now apply agree_pure]. apply agree_bind; [now apply frame_list|]. intros. now apply agree_pure.
      + unfold visit_method. pose proof (attr_name_spec (EAttr f attr)) as A.
        destruct (attr_name (EAttr f attr)) as [[name c]|x] eqn:E; [|now apply agree_pure].
        destruct c as [|fn c]; [now apply agree_pure|].
        destruct (negb (supported_agg fn)); [now apply agree_pure|]. destruct (negb (length kws =? 0)); [now apply agree_pure|].
        destruct args; [now apply agree_pure|].
        assert (B : base f = [name]).
        { unfold base. simpl in A. destruct (dotted f) as [[y p]|]; simpl in A; [|discriminate]. injection A as -> _. reflexivity. }
        apply agree_chain; auto. apply HU. right. rewrite B. simpl. auto.
    - destruct op; cbn [ExprModel.visit simple_uses chain_uses] in *; try (now apply agree_pure).
      apply agree_bind; auto. intros. now apply agree_pure.
    - cbn [ExprModel.visit simple_uses chain_uses] in *. apply agree_bind; [now apply frame_list|]. intros. now apply agree_pure.
    - cbn [ExprModel.visit simple_uses chain_uses] in *. apply agree_bind.
      + apply IHl; auto. intros x [X|X]; apply HU; rewrite !in_app_iff; auto.
      + intros l' a1 b1 H1. apply agree_bind.
        * apply frame_list; auto. intros x [X|X]; apply HU; rewrite !in_app_iff; auto.
        * intros. now apply agree_pure.
    - cbn [ExprModel.visit simple_uses chain_uses] in *. apply agree_bind.
      + apply IHl; auto. intros x [X|X]; apply HU; rewrite !in_app_iff; auto.
      + intros l' a1 b1 H1. apply agree_bind.
        * apply IHr; auto. intros x [X|X]; apply HU; rewrite !in_app_iff; auto.
        * intros. now apply agree_pure.
    - cbn [ExprModel.visit] in *. unfold visit_dict. destruct H as (E1 & E2 & E3 & H). rewrite E3.
      destruct (dict_entries ks vs []); split; simpl; auto; repeat split; simpl; try congruence; apply H; auto.
    - cbn [ExprModel.visit simple_uses chain_uses] in *. apply agree_bind; [now apply frame_list|]. intros. now apply agree_pure.
  Qed.

  Context (pyparse : string -> res expr).
  (** the tree behind a text *)
  Definition tree_of (text : string) : res expr :=
    match split_filter text with Ok (t, _) => pyparse t | Err x => Err x end.

  Lemma parse_frame text s1 c1 s2 c2 :
    (forall e x, tree_of text = Ok e -> uses e x -> (In x s1 <-> In x s2) /\ (In x c1 <-> In x c2)) ->
    snd (parse nfn pyparse text s1 c1) = snd (parse nfn pyparse text s2 c2).
  Proof.
    intros H. unfold parse. unfold tree_of in H. destruct (split_filter text) as [[t flt]|x]; auto.
    destruct (pyparse t) as [e|x]; auto.
    destruct (visit_frame e (uses e) (VSt s1 c1 [] [] []) (VSt s2 c2 [] [] []) (fun x Hx => Hx)) as [E A].
    { repeat split; simpl; auto; eapply H; eauto. }
    destruct (visit e (VSt s1 c1 [] [] [])) as [a ra], (visit e (VSt s2 c2 [] [] [])) as [b rb]. simpl in E, A. subst rb.
    destruct A as (A1 & A2 & A3 & _). destruct ra; simpl; auto. now rewrite A1, A2, A3.
  Qed.

  Lemma wf_init s c : wf (VSt (L:=L) s c [] [] []).
  Proof. clear nfn pyparse. repeat split; simpl; try constructor; tauto. Qed.

  (** what one call of parse does to the two sets *)
  Lemma parse_sets text s c s' c' r : parse nfn pyparse text s c = ((s', c'), r) ->
    incl s s' /\ incl c c' /\
    (forall x, In x s' -> In x s \/ exists e, tree_of text = Ok e /\ In x (simple_uses e)) /\
    (forall x, In x c' -> In x c \/ exists e, tree_of text = Ok e /\ In x (chain_uses e)) /\
    ((forall x, In x s -> In x c -> False) -> (forall x, In x s' -> In x c' -> False)).
  Proof.
    unfold parse, tree_of. destruct (split_filter text) as [[t flt]|x].
    2:{ intros H; injection H as <- <- <-. repeat split; auto using incl_refl. }
    destruct (pyparse t) as [e|x].
    2:{ intros H; injection H as <- <- <-. repeat split; auto using incl_refl. }
    pose proof (visit_eff nfn e (VSt s c [] [] [])) as [S _].
    destruct (visit e (VSt s c [] [] [])) as [st r'] eqn:V. simpl in S.
    destruct (visit_inv _ _ _ _ _ V (wf_init s c)) as (W & X & D).
    assert (P : (v_simple st, v_allch st) = (s', c') -> incl s s' /\ incl c c' /\
      (forall x, In x s' -> In x s \/ exists e0, Ok e = Ok e0 /\ In x (simple_uses e0)) /\
      (forall x, In x c' -> In x c \/ exists e0, Ok e = Ok e0 /\ In x (chain_uses e0)) /\
      ((forall x, In x s -> In x c -> False) -> (forall x, In x s' -> In x c' -> False))).
    { intros E; injection E as <- <-. destruct X as (X1 & X2 & X3 & _). destruct S as (S1 & S2 & S3 & S4). simpl in *.
      repeat split; auto.
      - intros x I. destruct (S1 x I); eauto.
      - intros x I. destruct (S3 x I); eauto. }
    destruct r' as [e'|x]; intros H; injection H as E1 E2 _; apply P; congruence.
  Qed.
  Lemma parse_ok text s c s' c' x : parse nfn pyparse text s c = ((s', c'), Ok x) ->
    exists e st, tree_of text = Ok e /\ visit e (VSt s c [] [] []) = (st, Ok (e_trans x)) /\ s' = v_simple st /\ c' = v_allch st /\
      e_chains x = v_ch st /\ e_dl x = v_dl st /\ e_symbols x = v_vis st /\ e_raw x = text.
  Proof.
    unfold parse, tree_of. destruct (split_filter text) as [[t flt]|y]; [|discriminate].
    destruct (pyparse t) as [e|y]; [|discriminate].
    destruct (visit e (VSt s c [] [] [])) as [st [e'|y]] eqn:V; [|discriminate].
    intros H; injection H as <- <- <-. exists e, st. auto 9.
  Qed.
  Lemma parse_uses text s c s' c' x : parse nfn pyparse text s c = ((s', c'), Ok x) ->
    exists e, tree_of text = Ok e /\ same_set (e_symbols x) (simple_uses e) /\ same_set (dkeys (e_chains x)) (chain_uses e) /\
      incl (simple_uses e) s' /\ incl (chain_uses e) c'.
  Proof.
    intros H. apply parse_ok in H. destruct H as (e & st & T & V & -> & -> & E1 & E2 & E3 & E4).
    exists e. split; auto.
    pose proof (visit_eff nfn e (VSt s c [] [] [])) as [(S1 & S2 & S3 & S4) C]. rewrite V in *. simpl in *.
    destruct (C eq_refl (wf_init s c)) as [C1 C2].
    rewrite E3, E1. repeat split.
    - intros I. destruct (S2 _ I) as [[]|]; auto.
    - intros I. now apply C1.
    - intros I. destruct (S4 _ I) as [[]|]; auto.
    - intros I. now apply C2.
    - intros y I. now apply C1.
    - intros y I. now apply C2.
  Qed.
End Frame.
