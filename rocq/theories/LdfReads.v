(** Reading only fills stored indexers: whatever [indexer_and_missing] preserves, every way of reading
    preserves. *)
From Verif Require Import Prelude DictProofs ExprModel ScopeModel ScopeProofs LdfModel SpecLdf LdfProofs.
Local Open Scope string_scope.
Local Open Scope nat_scope.
Local Open Scope list_scope.

Section Reads.
  Context {L V : Type} (E : venv L V).
  Notation lworld := (@lworld V).
  Notation column := (prod dtype (list V)).
  Notation item := (@item V).

  (** an aggregating link is only read once it has its groups *)
  Definition grouped (w : lworld) (f : nat) (n : string) : Prop :=
    forall lk, is_link w f n lk -> lk_agg lk = true -> lk_grouper lk <> None.
  Definition plain (w : lworld) (f : nat) (n : string) : Prop := forall lk, is_link w f n lk -> lk_agg lk = false.
  Definition hist_plain (w : lworld) (h : list (nat * string)) : Prop := Forall (fun p => plain w (fst p) (snd p)) h.
  Definition item_ok (w : lworld) (i : item) : Prop :=
    match i with ILeaf _ h | INode _ h => hist_plain w h | IAgg _ h => hist_plain w (tl h) | ISeries _ => True end.

  Lemma same_link (w w' : lworld) f n lk : same_data w w' -> is_link w f n lk -> exists lk', is_link w' f n lk' /\ copy_meta lk' = copy_meta lk.
  Proof.
    intros HS (fr & Hf & Hd). destruct (same_frame _ _ _ _ HS Hf) as (fr' & Hf' & HD).
    unfold drop_caches, with_links in HD. injection HD as _ _ _ _ HL _ _.
    pose proof (f_equal (fun d => dget String.eqb d n) HL) as X. simpl in X. rewrite !dget_map, Hd in X.
    destruct (dget String.eqb (f_links fr') n) as [lk'|] eqn:Ed; [|discriminate]. exists lk'. split; [exists fr'; auto|congruence].
  Qed.
  Lemma plain_same (w w' : lworld) f n : same_data w w' -> plain w f n -> plain w' f n.
  Proof.
    intros HS HP lk H. destruct (same_link _ _ _ _ _ (same_sym _ _ HS) H) as (lk' & H' & HC). apply HP in H'.
    apply (f_equal lk_agg) in HC. simpl in HC. congruence.
  Qed.
  Lemma hist_same (w w' : lworld) h : same_data w w' -> hist_plain w h -> hist_plain w' h.
  Proof. intros HS. apply Forall_impl. intros [f n]. apply plain_same; auto. Qed.
  Lemma plain_grouped w f n : plain w f n -> grouped w f n.
  Proof. intros H lk Hl Ha. apply H in Hl. congruence. Qed.
  Lemma item_ok_same (w w' : lworld) i : same_data w w' -> item_ok w i -> item_ok w' i.
  Proof. intros HS. destruct i; simpl; auto; apply hist_same; auto. Qed.

  Context (P : lworld -> Prop)
    (HP : forall w f n w' r, P w -> grouped w f n -> indexer_and_missing E w f n = (w', r) -> P w').
  Set Default Proof Using "Type*".

  Lemma resolve_P : forall h w d vals fill w' r, P w ->
    match h with [] => True | p :: t => grouped w (fst p) (snd p) /\ hist_plain w t end ->
    resolve E w h d vals fill = (w', r) -> P w'.
  Proof.
    induction h as [|[f n] h IH]; simpl; intros w d vals fill w' r Hw HH H; [now injection H as <- _|].
    destruct (indexer_and_missing E w f n) as [w1 r1] eqn:Ei. destruct HH as [HG HH]. pose proof (HP _ _ _ _ _ Hw HG Ei) as H1.
    destruct (indexer_view _ _ _ _ _ _ Ei) as (_ & HS & _). destruct r1 as [[ix miss]|]; [|injection H as <- _; auto].
    destruct (rbind _ _); [|injection H as <- _; auto]. eapply IH; [exact H1| |exact H].
    destruct h as [|p t]; auto. inversion HH; subst. split; [apply plain_grouped, (plain_same _ _ _ _ HS); auto|]. now apply (hist_same _ _ _ HS).
  Qed.
  Definition hist_read (w : lworld) (h : list (nat * string)) : Prop :=
    match h with [] => True | p :: t => grouped w (fst p) (snd p) /\ hist_plain w t end.
  Lemma hist_plain_read w h : hist_plain w h -> hist_read w h.
  Proof. intros H. destruct h as [|p t]; simpl; auto. inversion H; subst. split; auto. now apply plain_grouped. Qed.
  Lemma resolve_root_P h w root c fill w' r : P w -> hist_read w h -> resolve_root E w root h c fill = (w', r) -> P w' /\ same_data w w'.
  Proof.
    intros Hw HH H. unfold resolve_root in H. destruct (resolve E w h (fst c) (snd c) fill) as [w1 r1] eqn:Er.
    assert (w' = w1) as ->.
    { destruct r1 as [vs|]; [destruct (rbind _ _)|]; injection H as <- _; auto. }
    split; [eapply resolve_P; eauto|]. now destruct (resolve_pure _ _ _ _ _ _ _ _ Er) as (_ & HS & _).
  Qed.

  Lemma make_node_ok w lk root g s h : is_link w g s lk -> hist_plain w h -> item_ok w (make_node lk root ((g, s) :: h)).
  Proof.
    intros Hl Hh. unfold make_node. destruct (lk_agg lk) eqn:Ea; simpl; auto.
    assert (plain w g s) by (intros lk' H'; rewrite (is_link_unique _ _ _ _ _ H' Hl); auto).
    destruct (lk_chained lk); simpl; constructor; auto.
  Qed.
  Lemma item_item_P w i s w' r : P w -> item_ok w i -> item_item E w i s = (w', r) ->
    P w' /\ same_data w w' /\ forall i', r = Ok i' -> item_ok w' i'.
  Proof.
    intros Hw Hi H. destruct i as [root h|root h|root h|c]; simpl in H, Hi.
    - destruct (rbind _ _) as [c|]; [|injection H as <- <-; repeat split; auto; discriminate].
      destruct (resolve_root E w root h c (lw_class w (fst c))) as [w1 r1] eqn:Er.
      destruct (resolve_root_P _ _ _ _ _ _ _ Hw (hist_plain_read _ _ Hi) Er) as [A B].
      destruct r1 as [c'|]; injection H as <- <-; repeat split; try apply B; auto; intros i' X; [injection X as <-; exact I|discriminate].
    - destruct (rbind _ _) as [[g gr]|] eqn:Eb; [|injection H as <- <-; repeat split; auto; discriminate].
      destruct (dget String.eqb (f_links gr) s) as [lk|] eqn:Ed.
      + injection H as <- <-. repeat split; auto. intros i' X. injection X as <-. apply make_node_ok; auto.
        destruct (top_other w h) as [[lk0 g0]|]; simpl in Eb; [|discriminate]. unfold get_frame in Eb.
        destruct (nth_error (lw_frames w) g0) as [gr0|] eqn:Eg; simpl in Eb; [|discriminate]. injection Eb as -> ->. exists gr. auto.
      + destruct (get_column gr s) as [c|]; [|injection H as <- <-; repeat split; auto; discriminate].
        destruct (resolve_root E w root h c _) as [w1 r1] eqn:Er.
        destruct (resolve_root_P _ _ _ _ _ _ _ Hw (hist_plain_read _ _ Hi) Er) as [A B].
        destruct r1 as [c'|]; injection H as <- <-; repeat split; try apply B; auto; intros i' X; [injection X as <-; exact I|discriminate].
    - injection H as <- <-. repeat split; auto; discriminate.
    - injection H as <- <-. repeat split; auto; discriminate.
  Qed.
  Lemma walk_P : forall path w i w' r, P w -> item_ok w i -> walk E w i path = (w', r) ->
    P w' /\ same_data w w' /\ forall i', r = Ok i' -> item_ok w' i'.
  Proof.
    induction path as [|s path IH]; simpl; intros w i w' r Hw Hi H.
    - injection H as <- <-. repeat split; auto. intros i' X. injection X as <-. auto.
    - destruct (item_item E w i s) as [w1 r1] eqn:Ei. destruct (item_item_P _ _ _ _ _ Hw Hi Ei) as (A & B & C).
      destruct r1 as [i1|]; [|injection H as <- <-; repeat split; try apply B; auto; discriminate].
      destruct (IH _ _ _ _ A (C _ eq_refl) H) as (A' & B' & C'). repeat split; auto; eapply same_trans; eauto.
  Qed.
  Lemma subscript_P w f path w' r : P w -> subscript E w f path = (w', r) ->
    P w' /\ same_data w w' /\ forall i', r = Ok i' -> item_ok w' i'.
  Proof.
    intros Hw H. destruct path as [|s path]; simpl in H; [injection H as <- <-; repeat split; auto; discriminate|].
    destruct (frame_item w f s) as [i|] eqn:Ef; [|injection H as <- <-; repeat split; auto; discriminate].
    eapply walk_P; eauto. unfold frame_item, get_frame in Ef.
    destruct (nth_error (lw_frames w) f) as [fr|] eqn:Efr; simpl in Ef; [|discriminate].
    destruct (dget String.eqb (f_links fr) s) as [lk|] eqn:Ed.
    - injection Ef as <-. apply make_node_ok; [exists fr; auto|constructor].
    - destruct (get_column fr s); simpl in Ef; [|discriminate]. injection Ef as <-. exact I.
  Qed.

  Definition evaluator (ev : lworld -> nat -> aggarg L -> lworld * res column) : Prop :=
    forall w f a w' r, P w -> ev w f a = (w', r) -> P w' /\ same_data w w'.
  Lemma aggregate_P ev w root h func a ifill w' r : evaluator ev -> P w -> hist_plain w (tl h) ->
    aggregate E ev w root h func a ifill = (w', r) -> P w' /\ same_data w w'.
  Proof.
    intros Hev Hw Hh H. unfold aggregate in H. destruct (rbind _ _) as [[g gr]|] in H; [|injection H as <- <-; split; auto using same_refl].
    set (pe := rbind (v_eval E a _) _) in H.
    assert (HE : forall w1 r1, match ev w g a with (w1, Err AttributeError) => (w1, pe) | p => p end = (w1, r1) -> P w1 /\ same_data w w1).
    { intros w1 r1 X. destruct (ev w g a) as [w2 r2] eqn:Ee. destruct (Hev _ _ _ _ _ Hw Ee) as [A B].
      destruct r2 as [c|x]; [injection X as <- _; auto|]. destruct x; injection X as <- _; auto. }
    match type of H with (let '(w1, r) := ?X in _) = _ => destruct X as [w1 r1] eqn:EX end.
    assert (HX : P w1 /\ same_data w w1).
    { destruct a as [s|e].
      - destruct (dget String.eqb (f_cols gr) s) as [c|].
        + destruct (dmem _ _ _); injection EX as <- _; split; auto using same_refl.
        + destruct (f_ldf gr); [apply (HE _ _ EX)|injection EX as <- _; split; auto using same_refl].
      - destruct (f_ldf gr); [apply (HE _ _ EX)|injection EX as <- _; split; auto using same_refl]. }
    destruct HX as [H1 H2].
    destruct (rbind r1 _) as [[gc fill]|] eqn:Eb in H; [|injection H as <- <-; auto].
    assert (HR : hist_read w1 h).
    { destruct h as [|[f n] t]; simpl; auto. split; [|now apply (hist_same _ _ _ H2)].
      intros lk Hl Ha X. destruct r1 as [c|]; simpl in Eb; [|discriminate]. destruct (check _ _); simpl in Eb; [|discriminate].
      destruct (match fst c with DInt => _ | _ => _ end); simpl in Eb; [|discriminate].
      apply get_link_is in Hl. unfold top_other in Eb. rewrite Hl in Eb. simpl in Eb. rewrite X in Eb. simpl in Eb. discriminate. }
    destruct (resolve_root_P _ _ _ _ _ _ _ H1 HR H) as [A B]. split; auto. eapply same_trans; eauto.
  Qed.
  Lemma eval_chain_P ev : evaluator ev -> forall subs w f name ld w' r, P w -> eval_chain E ev w f name subs ld = (w', r) -> P w' /\ same_data w w'.
  Proof.
    intros Hev. induction subs as [|[sub ct] subs IH]; simpl; intros w f name ld w' r Hw H; [injection H as <- _; split; auto using same_refl|].
    change (match frame_item w f name with Ok i => walk E w i (rev (ch_chain ct)) | Err x => (w, Err x) end)
      with (subscript E w f (name :: rev (ch_chain ct))) in H.
    destruct (subscript E w f (name :: rev (ch_chain ct))) as [w1 r1] eqn:Es. destruct (subscript_P _ _ _ _ _ Hw Es) as (A & B & C).
    destruct r1 as [i|]; [|injection H as <- _; auto]. specialize (C _ eq_refl).
    match type of H with (let '(w2, r) := ?X in _) = _ => destruct X as [w2 r2] eqn:EX end.
    assert (HX : P w2 /\ same_data w1 w2).
    { destruct (ch_func ct) as [[func e]|]; [|injection EX as <- _; split; auto using same_refl].
      destruct (call_method E ev w1 i func e) as [w3 r3] eqn:Ec. assert (w3 = w2) as -> by (destruct r3; injection EX as <- _; auto).
      unfold call_method in Ec. destruct i as [root h|root h|root h|c]; try (injection Ec as <- _; split; auto using same_refl).
      destruct (aggf_named func); [|injection Ec as <- _; split; auto using same_refl]. eapply aggregate_P; eauto. }
    destruct HX as [D F]. destruct r2 as [o|]; [|injection H as <- _; split; auto; eapply same_trans; eauto].
    destruct (IH _ _ _ _ _ _ D H) as [A' B']. split; auto. eapply same_trans; [exact B|]. eapply same_trans; eauto.
  Qed.
  Lemma eval_chains_P ev : evaluator ev -> forall chains w f ld w' r, P w -> eval_chains E ev w f chains ld = (w', r) -> P w' /\ same_data w w'.
  Proof.
    intros Hev. induction chains as [|[name subs] t IH]; simpl; intros w f ld w' r Hw H; [injection H as <- _; split; auto using same_refl|].
    destruct (rbind _ _) in H; [|injection H as <- _; split; auto using same_refl].
    destruct (eval_chain E ev w f name subs ld) as [w1 r1] eqn:Ee. destruct (eval_chain_P ev Hev _ _ _ _ _ _ _ Hw Ee) as [A B].
    destruct r1 as [ld1|]; [|injection H as <- _; auto]. destruct (IH _ _ _ _ _ A H) as [A' B']. split; auto. eapply same_trans; eauto.
  Qed.
  Lemma evaluate_P : forall fuel w f a local w' r, P w -> evaluate E fuel w f a local = (w', r) -> P w' /\ same_data w w'.
  Proof.
    induction fuel as [|n IH]; intros w f a local w' r Hw H; [injection H as <- _; split; auto using same_refl|].
    cbn [evaluate] in H. destruct (rbind _ _) as [[[fr ex] ld]|] in H; [|injection H as <- _; split; auto using same_refl].
    destruct (eval_chains E (fun w f a => evaluate E n w f a []) w f (e_chains ex) ld) as [w1 r1] eqn:Ee.
    assert (Hev : evaluator (fun w f a => evaluate E n w f a [])) by (intros w2 f2 a2 w3 r3 H2 H3; eapply IH; eauto).
    destruct (eval_chains_P _ Hev _ _ _ _ _ _ Hw Ee) as [A B]. destruct r1; injection H as <- _; auto.
  Qed.

  (** the operations that read *)
  Definition is_read (o : @lop L V) : bool := match o with LRead _ _ | LAgg _ _ _ _ _ | LEval _ _ _ => true | _ => false end.
  Lemma read_P fuel w o w' r : is_read o = true -> P w -> lstep E fuel w o = (w', r) -> P w' /\ same_data w w'.
  Proof.
    intros Ho Hw H. destruct o; try discriminate; cbn [lstep] in H.
    - destruct (subscript E w f path) as [w1 r1] eqn:Es. destruct (subscript_P _ _ _ _ _ Hw Es) as (A & B & _).
      unfold out_item in H. destruct r1 as [[| | |]|]; injection H as <- _; auto.
    - destruct (subscript E w f path) as [w1 r1] eqn:Es. destruct (subscript_P _ _ _ _ _ Hw Es) as (A & B & C).
      destruct r1 as [[root h|root h|root h|c]|]; try (injection H as <- _; auto). specialize (C _ eq_refl).
      destruct (aggregate E _ w1 root h func a int_fill) as [w2 r2] eqn:Ea.
      assert (P w2 /\ same_data w1 w2) as [A' B'].
      { eapply aggregate_P; [|exact A|exact C|exact Ea]. intros w3 f3 a3 w4 r4 H3 H4. eapply evaluate_P; eauto. }
      unfold out_col in H. destruct r2; injection H as <- _; split; auto; eapply same_trans; eauto.
    - destruct (evaluate E fuel w f (XText text) local) as [w1 r1] eqn:Ee. destruct (evaluate_P _ _ _ _ _ _ _ Hw Ee) as [A B].
      unfold out_col in H. destruct r1; injection H as <- _; auto.
  Qed.
End Reads.
