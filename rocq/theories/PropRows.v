(** Properties C66 (frames that pandas makes through finalisation alone) and C67 (reindexing). *)
From Verif Require Import Prelude DictProofs ExprModel ScopeModel ScopeProofs LdfModel SpecLdf LdfProofs LdfKeys LdfReads LdfInv LdfGood LdfLookup LdfLinks LdfSim LdfSlice LdfGroups LdfExample PropReads PropSlice.
Local Open Scope string_scope.
Local Open Scope nat_scope.
Local Open Scope list_scope.

Section Rows.
  Context {L V : Type} (E : venv L V) (veq_spec : forall a b, v_eq E a b = true <-> a = b).
  Notation frame := (@frame V).
  Notation lworld := (@lworld V).
  Notation key := (list V).

  (** links that do not aggregate have no groups *)
  Definition ungrouped (lk : link) : Prop := lk_agg lk = false -> lk_grouper lk = None.
  Lemma ungrouped_make lk sk ok lk' : ungrouped lk -> make_indexer E lk sk ok = Ok lk' -> ungrouped lk'.
  Proof using.
    unfold make_indexer, ungrouped. intros HU H. destruct (lk_agg lk) eqn:Ea.
    - destruct (factorize E ok). destruct (get_indexer _ _ _); simpl in H; [|discriminate]. injection H as <-. simpl. congruence.
    - destruct (if index_equals _ _ _ then _ else _); simpl in H; [|discriminate]. injection H as <-. simpl. auto.
  Qed.
  Lemma ungrouped_links fuel os : all_links ungrouped (after E fuel os).
  Proof using.
    apply (all_after E (fun _ => ungrouped) true true); auto.
    - intros w f g sa sr oa orr pre lk H. unfold create in H.
      destruct (get_frame w f); simpl in H; [|discriminate]. destruct (get_frame w g); simpl in H; [|discriminate].
      destruct (mk_meta sa sr); simpl in H; [|discriminate]. destruct (mk_meta oa orr); simpl in H; [|discriminate]. destruct (check _ _); simpl in H; [|discriminate].
      destruct (get_keys E _ _) in H; simpl in H; [|discriminate]. destruct (get_keys E _ _) in H; simpl in H; [|discriminate].
      destruct (if andb _ _ then _ else _) in H; simpl in H; [|discriminate]. destruct pre; [eapply ungrouped_make; [|exact H]; intros _; reflexivity|].
      injection H as <-. intros _. reflexivity.
    - intros _ lk _ _. reflexivity.
    - intros _ ix lk lk' A H. unfold copy_link in H. destruct (lk_flat lk) as [fl|], ix as [ix|]; simpl in H; try (destruct (np_take fl ix); simpl in H; [|discriminate]); injection H as <-; exact A.
    - intros _ w lk lk' A _ H. unfold precompute in H.
      destruct (get_frame w (lk_owner lk)); simpl in H; [|discriminate]. destruct (get_keys _ _ _) in H; simpl in H; [|discriminate].
      destruct (get_frame w (lk_other lk)); simpl in H; [|discriminate]. destruct (get_keys _ _ _) in H; simpl in H; [|discriminate]. eapply ungrouped_make; eauto.
  Qed.

  (** what is read has a value for every row *)
  Definition rooted (f : nat) (i : @item V) : Prop := match i with ILeaf r _ | INode r _ | IAgg r _ => r = f | ISeries _ => False end.
  Lemma resolve_root_length (w : lworld) f h c fill u d vals fr : is_frame w f fr -> resolve_root E w f h c fill = (u, Ok (d, vals)) -> length vals = nrows fr.
  Proof using.
    intros Hf H. unfold resolve_root in H. destruct (resolve _ _ _ _ _ _) as [u1 [vs|]]; [|discriminate]. apply get_frame_is in Hf. rewrite Hf in H. simpl in H.
    destruct (Nat.eqb_spec (length vs) (nrows fr)); simpl in H; [|discriminate]. now injection H as _ _ <-.
  Qed.
  Lemma walk_length (w : lworld) f fr : is_frame w f fr -> forall path i u d vals, rooted f i -> walk E w i path = (u, Ok (ISeries (d, vals))) -> length vals = nrows fr.
  Proof using.
    intros Hf. induction path as [|s path IH]; intros i u d vals HI H; cbn [walk] in H; [injection H as _ ->; destruct HI|].
    destruct i as [r h|r h|r h|c]; simpl in HI; try contradiction; subst r; cbn [item_item] in H.
    - destruct (rbind _ _) as [c|] in H; [|discriminate]. destruct (resolve_root E w f h c _) as [u1 [[d1 v1]|]] eqn:Er; [|discriminate].
      destruct path; simpl in H; [|discriminate]. injection H as _ -> ->. eapply resolve_root_length; eauto.
    - destruct (rbind _ _) as [[g gr]|] in H; [|discriminate]. destruct (dget String.eqb (f_links gr) s) as [lk|].
      + apply (IH (make_node lk f ((g, s) :: h)) u d vals); auto. unfold make_node. destruct (lk_agg lk); [|destruct (lk_chained lk)]; reflexivity.
      + destruct (get_column gr s) as [c|]; [|discriminate]. destruct (resolve_root E w f h c _) as [u1 [[d1 v1]|]] eqn:Er; [|discriminate].
        destruct path; simpl in H; [|discriminate]. injection H as _ -> ->. eapply resolve_root_length; eauto.
    - discriminate.
  Qed.
  Lemma read_length (w : lworld) f fr path u d vals : world_ok w -> is_frame w f fr -> subscript E w f path = (u, Ok (ISeries (d, vals))) -> length vals = nrows fr.
  Proof using.
    intros HW Hf H. destruct path as [|s path]; simpl in H; [discriminate|]. unfold frame_item in H. pose proof Hf as Hf'. apply get_frame_is in Hf'. rewrite Hf' in H. simpl in H.
    destruct (dget String.eqb (f_links fr) s) as [lk|].
    - eapply walk_length; [exact Hf| |exact H]. unfold make_node. destruct (lk_agg lk); [|destruct (lk_chained lk)]; reflexivity.
    - unfold get_column in H. destruct (dget String.eqb (f_cols fr) s) as [[d0 v0]|] eqn:Ec; simpl in H; [|discriminate]. destruct path; simpl in H; [|discriminate]. injection H as _ -> ->.
      pose proof (fo_cols _ (HW _ _ Hf)) as HC. eapply HC; eauto.
  Qed.

  (** what a link of an orderly history gives *)
  Lemma good_view (w : lworld) f s lk fr : world_ok w -> good E w -> is_link w f s lk -> is_frame w f fr -> lk_flat lk <> None ->
    exists flat, lk_flat lk = Some flat /\ length flat = nrows fr /\ view E w f s = Ok (flat, zeros flat).
  Proof using veq_spec.
    intros HW HG Hl Hf Hn. destruct (HG _ _ _ Hl) as (fr0 & gr & sk & ok & GD). assert (fr0 = fr) as -> by (eapply is_frame_unique; [apply GD|exact Hf]).
    destruct (lk_flat lk) as [flat|] eqn:Ef; [|congruence]. exists flat. split; auto. destruct (gd_flat _ _ _ _ _ _ _ _ GD _ Ef) as [X _].
    destruct (ikeys_spec E _ _ _ (HW _ _ Hf) (gd_self _ _ _ _ _ _ _ _ GD)) as [LS _]. split; [rewrite X, map_length; exact LS|].
    unfold view. apply get_link_is in Hl. rewrite Hl. cbn [rbind]. unfold fresh. rewrite Ef. cbn [rbind]. rewrite Ef. destruct (lk_missing lk) as [m|] eqn:Em; auto.
    destruct (gd_missing _ _ _ _ _ _ _ _ GD _ Em) as (fl & F1 & F2). congruence.
  Qed.
  Lemma through_length v d vals fill out : through E v d vals fill = Ok out -> length out = length (fst v).
  Proof using.
    unfold through. destruct (np_take vals (fst v)) as [vs|] eqn:Ev; simpl; [|discriminate]. unfold fill_at. destruct (v_store _ _ _); simpl; [|discriminate].
    destruct (check _ _); simpl; [|discriminate]. intros H. injection H as <-. rewrite fold_upd_length. eapply np_take_length; eauto.
  Qed.
  Lemma rows_all {A} (l : list A) : rows_at (seq 0 (length l)) l = Ok l.
  Proof using.
    apply rows_at_nth. rewrite seq_length. split; auto. intros i p Hp. assert (p = i) as ->.
    { assert (i < length l) by (rewrite <- (seq_length (length l) 0); apply nth_error_Some; congruence). pose proof (nth_error_nth _ _ 0 Hp) as X. rewrite seq_nth in X by auto. simpl in X. auto. }
    destruct (nth_error l i) as [x|] eqn:Ex; eauto. apply nth_error_None in Ex. assert (i < length (seq 0 (length l))) by (apply nth_error_Some; congruence). rewrite seq_length in *. lia.
  Qed.
  (** the indexer of a link of the frame itself, computed anew in an orderly history *)
  Lemma own_precompute (w : lworld) f s lk fr gr : world_ok w -> good E w -> is_link w f s lk -> lk_owner lk = f -> lk_agg lk = false ->
    is_frame w f fr -> is_frame w (lk_other lk) gr -> unshadowed fr (lk_self lk) -> unshadowed gr (lk_target lk) ->
    exists lk' flat, precompute E w (copy_meta lk) = Ok lk' /\ lk_flat lk' = Some flat /\ lk_missing lk' = None /\ length flat = nrows fr /\
      (forall v, view E w f s = Ok v -> v = (flat, zeros flat)).
  Proof using veq_spec.
    intros HW HG Hl Ho Ha Hf Hg U1 U2. destruct (HG _ _ _ Hl) as (fr0 & gr0 & sk & ok & GD). assert (fr0 = fr) as -> by (eapply is_frame_unique; [apply GD|exact Hf]).
    assert (gr0 = gr) as -> by (eapply is_frame_unique; [apply GD|exact Hg]).
    assert (HK1 : get_keys E (lk_self lk) fr = Ok sk) by (rewrite (unshadowed_keys E _ _ U1); apply GD).
    assert (HK2 : get_keys E (lk_target lk) gr = Ok ok) by (rewrite (unshadowed_keys E _ _ U2); apply GD).
    pose proof (gd_unique _ _ _ _ _ _ _ _ GD) as HU.
    destruct (make_indexer_total E veq_spec (copy_meta lk) sk ok HU) as (lk' & HM). exists lk', (map (pos_or_missing E ok) sk).
    assert (HP : precompute E w (copy_meta lk) = Ok lk').
    { unfold precompute. simpl. rewrite Ho. pose proof Hf as Hf'. apply get_frame_is in Hf'. rewrite Hf'. simpl. rewrite HK1. simpl.
      pose proof Hg as Hg'. apply get_frame_is in Hg'. rewrite Hg'. simpl. rewrite HK2. exact HM. }
    destruct (make_indexer_flat E veq_spec (copy_meta lk) _ _ _ HU HM) as [F1 _]. destruct (make_indexer_static E _ _ _ _ HM) as [_ M1]. unfold order in F1. simpl in F1. rewrite Ha in F1.
    destruct (ikeys_spec E _ _ _ (HW _ _ Hf) (gd_self _ _ _ _ _ _ _ _ GD)) as [LS _]. split; auto. split; auto. split; auto. split; [rewrite map_length; exact LS|].
    intros v Hv. unfold view in Hv. apply get_link_is in Hl. rewrite Hl in Hv. cbn [rbind] in Hv. unfold fresh in Hv. destruct (lk_flat lk) as [flat|] eqn:Ef.
    - cbn [rbind] in Hv. rewrite Ef in Hv. destruct (gd_flat _ _ _ _ _ _ _ _ GD _ Ef) as [X _]. unfold order in X. rewrite Ha in X. injection Hv as <-. rewrite X. f_equal.
      destruct (lk_missing lk) as [m|] eqn:Em; auto. destruct (gd_missing _ _ _ _ _ _ _ _ GD _ Em) as (fl & G1 & G2). congruence.
    - assert (HP2 : exists lk2, precompute E w lk = Ok lk2 /\ lk_flat lk2 = Some (map (pos_or_missing E ok) sk) /\ lk_missing lk2 = lk_missing lk).
      { destruct (make_indexer_total E veq_spec lk sk ok HU) as (lk2 & HM2). exists lk2. destruct (make_indexer_flat E veq_spec _ _ _ _ HU HM2) as [F2 _].
        destruct (make_indexer_static E _ _ _ _ HM2) as [_ M2]. unfold order in F2. rewrite Ha in F2. split; auto. unfold precompute. rewrite Ho. apply get_frame_is in Hf, Hg.
        rewrite Hf. simpl. rewrite HK1. simpl. rewrite Hg. simpl. rewrite HK2. exact HM2. }
      destruct HP2 as (lk2 & P1 & P2 & P3). rewrite P1 in Hv. cbn [rbind] in Hv. rewrite P2, P3 in Hv. injection Hv as <-. f_equal.
      destruct (lk_missing lk) as [m|] eqn:Em; auto. destruct (gd_missing _ _ _ _ _ _ _ _ GD _ Em) as (fl & G1 & G2). congruence.
  Qed.

  (** [finalised w f fr fr']: [fr'] has the links of the frame [f], as [__finalize__] copies them *)
  Definition finalised (fr fr' : frame) : Prop :=
    f_links fr' = (if f_ldf fr then map (fun p => (fst p, copy_meta (snd p))) (f_links fr) else []).
  Lemma finalised_reads fuel os f s lk path fr gr d vals fr' :
    let w := after E fuel os in
    orderly_run E fuel (new_lworld E) os ->
    is_link w f s lk -> lk_owner lk = f -> lk_agg lk = false -> is_frame w f fr -> is_frame w (lk_other lk) gr ->
    unshadowed fr (lk_self lk) -> unshadowed gr (lk_target lk) -> finalised fr fr' -> nrows fr' = nrows fr -> all_links paired (add_frame w fr') ->
    snd (lstep E fuel w (LRead f (s :: path))) = Ok (RCol (d, vals)) ->
    snd (lstep E fuel (add_frame w fr') (LRead (nframes w) (s :: path))) = Ok (RCol (d, vals)).
  Proof using veq_spec.
    intros w HO Hl Hown Ha Hf Hg U1 U2 HLk HN0 P1 HR. pose proof (orderly_good E veq_spec fuel os HO) as HG. fold w in HG.
    assert (HW : world_ok w) by (apply (reachable_ok E fuel); now exists os).
    assert (Hldf : f_ldf fr = true).
    { destruct (f_ldf fr) eqn:El; auto. destruct Hl as (fr0 & F0 & D0). assert (fr0 = fr) as -> by (eapply is_frame_unique; eauto). rewrite (after_ldf E fuel os f fr Hf El) in D0. discriminate. }
    unfold finalised in HLk. rewrite Hldf in HLk.
    destruct (own_precompute w f s lk fr gr HW HG Hl Hown Ha Hf Hg U1 U2) as (lk' & flat & PP & PF & PM & PL & PV).
    assert (Hd : dget String.eqb (f_links fr) s = Some lk) by (destruct Hl as (fr0 & F0 & D0); now rewrite (is_frame_unique _ _ _ _ F0 Hf) in D0).
    assert (HN : nrows fr' = length (seq 0 (nrows fr))) by (rewrite seq_length; auto).
    assert (HK : cut_link E w fr' f (seq 0 (nrows fr)) s lk).
    { exists (copy_meta lk). split; [rewrite HLk, dget_map, Hd; reflexivity|]. split; auto.
      pose proof (closed_after E fuel os f s lk Hl) as HCl.
      split; [simpl; symmetry; exact (ungrouped_links fuel os f s lk Hl Ha)|].
      intros v Hv. rewrite (PV _ Hv) in *. exists (flat, zeros flat). split.
      - unfold view. rewrite link_added. rewrite HLk, dget_map, Hd. cbn [rbind]. unfold fresh. simpl (lk_flat (copy_meta lk)).
        rewrite precompute_add by exact HCl. rewrite PP. cbn [rbind]. now rewrite PF, PM.
      - intros d0 vals0 fill out Ht. exists out. split; auto. pose proof (through_length _ _ _ _ _ Ht) as X. simpl in X. rewrite <- PL, <- X. apply rows_all. }
    cbn [lstep] in HR |- *. destruct (subscript E w f (s :: path)) as [u [x|]] eqn:Es; [|discriminate].
    destruct x as [| | |c]; try discriminate. simpl in HR. injection HR as ->.
    pose proof (subscript_cut E w fr' f (seq 0 (nrows fr)) (closed_after E fuel os) (paired_links E fuel os) P1 HN s lk Hl HK path _ _ Es) as (u2 & vs & R1 & R2).
    rewrite R2. simpl. rewrite <- (read_length w f fr (s :: path) u d vals HW Hf Es), rows_all in R1. now injection R1 as <-.
  Qed.

  (** reading through a link without an indexer gives one value for every row of the owner of the link *)
  Lemma resolve_owner (w : lworld) root g s h c fill u d vs n : (forall v, view E w g s = Ok v -> length (fst v) = n) ->
    resolve_root E w root (h ++ [(g, s)]) c fill = (u, Ok (d, vs)) -> length vs = n.
  Proof using.
    intros HV H. unfold resolve_root in H. destruct (resolve E w _ _ _ fill) as [u1 r] eqn:Er. destruct (resolve_pure E _ _ _ _ _ _ _ Er) as (R & _).
    rewrite presolve_snoc in R. destruct (presolve E (view E w) h _ _ fill) as [vs0|]; cbn [rbind] in R; [|subst r; discriminate].
    destruct (view E w g s) as [v|]; cbn [rbind] in R; [|subst r; discriminate]. subst r. destruct (through E v (fst c) vs0 fill) as [out|] eqn:Et; [|discriminate].
    destruct (rbind _ _) in H; [|discriminate]. injection H as _ _ <-. rewrite (through_length _ _ _ _ _ Et). auto.
  Qed.
  Definition through_link (g : nat) (s : string) (i : @item V) : Prop :=
    match i with ILeaf r h | INode r h | IAgg r h => r = g /\ exists h', h = h' ++ [(g, s)] | ISeries _ => False end.
  Lemma walk_owner (w : lworld) g s n : (forall v, view E w g s = Ok v -> length (fst v) = n) ->
    forall path i u d vals, through_link g s i -> walk E w i path = (u, Ok (ISeries (d, vals))) -> length vals = n.
  Proof using.
    intros HV. induction path as [|t path IH]; intros i u d vals HI H; cbn [walk] in H; [injection H as _ ->; destruct HI|].
    destruct i as [r h|r h|r h|c]; simpl in HI; try contradiction; destruct HI as [-> (h' & ->)]; cbn [item_item] in H.
    - destruct (rbind _ _) as [c|] in H; [|discriminate]. destruct (resolve_root E w g (h' ++ [(g, s)]) c _) as [u1 [[d1 v1]|]] eqn:Er; [|discriminate].
      destruct path; simpl in H; [|discriminate]. injection H as _ -> ->. eapply resolve_owner; eauto.
    - destruct (rbind _ _) as [[g1 gr]|] in H; [|discriminate]. destruct (dget String.eqb (f_links gr) t) as [lk|].
      + apply (IH (make_node lk g ((g1, t) :: h' ++ [(g, s)])) u d vals); auto. unfold make_node.
        destruct (lk_agg lk); [|destruct (lk_chained lk)]; simpl; split; auto; exists ((g1, t) :: h'); reflexivity.
      + destruct (get_column gr t) as [c|]; [|discriminate]. destruct (resolve_root E w g (h' ++ [(g, s)]) c _) as [u1 [[d1 v1]|]] eqn:Er; [|discriminate].
        destruct path; simpl in H; [|discriminate]. injection H as _ -> ->. eapply resolve_owner; eauto.
    - discriminate.
  Qed.
  Lemma make_indexer_length lk sk ok lk' fl : make_indexer E lk sk ok = Ok lk' -> lk_flat lk' = Some fl -> length fl = length sk.
  Proof using veq_spec.
    unfold make_indexer. destruct (lk_agg lk).
    - destruct (factorize E ok) as [codes order]. destruct (get_indexer _ _ _) as [ix|] eqn:Eg; simpl; [|discriminate]. intros H. injection H as <-. simpl. intros X. injection X as <-.
      eapply get_indexer_length; eauto.
    - destruct (index_equals (keq E) sk ok) eqn:Ei; simpl.
      + apply (index_equals_spec _ (keq_spec E veq_spec)) in Ei. subst. intros H. injection H as <-. simpl. intros X. injection X as <-. now rewrite ?map_length, ?seq_length.
      + destruct (get_indexer _ _ _) as [ix|] eqn:Eg; simpl; [|discriminate]. intros H. injection H as <-. simpl. intros X. injection X as <-. eapply get_indexer_length; eauto.
  Qed.
  Lemma get_keys_length m (fr : frame) ks : get_keys E m fr = Ok ks -> length ks = nrows fr.
  Proof using.
    unfold get_keys. destruct (me_labels m) as [ls|]; [|intros H; now injection H as <-].
    match goal with |- rbind ?x _ = _ -> _ => destruct x as [arrays|]; cbn [rbind]; [|discriminate] end.
    destruct arrays; [discriminate|]. intros H. injection H as <-. unfold keys_of. now rewrite map_length, seq_length.
  Qed.
  Lemma bare_view (w : lworld) g s lk fo v : world_ok w -> is_link w g s lk -> lk_flat lk = None -> is_frame w (lk_owner lk) fo -> view E w g s = Ok v -> length (fst v) = nrows fo.
  Proof using veq_spec.
    intros HW Hl Hn Ho H. unfold view in H. apply get_link_is in Hl. rewrite Hl in H. cbn [rbind] in H. unfold fresh in H. rewrite Hn in H.
    destruct (precompute E w lk) as [lk'|] eqn:Ep; cbn [rbind] in H; [|discriminate]. destruct (lk_flat lk') as [fl|] eqn:Ef; [|discriminate]. injection H as <-. simpl.
    unfold precompute in Ep. pose proof Ho as Ho'. apply get_frame_is in Ho'. rewrite Ho' in Ep. simpl in Ep. destruct (get_keys E (lk_self lk) fo) as [sk|] eqn:Ek; simpl in Ep; [|discriminate].
    destruct (get_frame w (lk_other lk)); simpl in Ep; [|discriminate]. destruct (get_keys E _ _) as [ok|] in Ep; simpl in Ep; [|discriminate].
    rewrite (make_indexer_length _ _ _ _ _ Ep Ef). eapply get_keys_length; eauto.
  Qed.
  Lemma finalised_other_length fuel w f s lk path fr fo fr' : world_ok (add_frame w fr') -> is_link w f s lk -> is_frame w f fr -> f_ldf fr = true -> is_frame w (lk_owner lk) fo ->
    finalised fr fr' -> nrows fr' <> nrows fo ->
    forall c, snd (lstep E fuel (add_frame w fr') (LRead (nframes w) (s :: path))) <> Ok (RCol c).
  Proof using veq_spec.
    intros HW Hl Hf Hldf Ho HLk HN c H. unfold finalised in HLk. rewrite Hldf in HLk.
    assert (Hd : dget String.eqb (f_links fr) s = Some lk) by (destruct Hl as (fr0 & F0 & D0); now rewrite (is_frame_unique _ _ _ _ F0 Hf) in D0).
    assert (Hd' : dget String.eqb (f_links fr') s = Some (copy_meta lk)) by (now rewrite HLk, dget_map, Hd).
    assert (Hg' : is_frame (add_frame w fr') (nframes w) fr') by (apply get_frame_is, get_added).
    assert (Hl' : is_link (add_frame w fr') (nframes w) s (copy_meta lk)) by (exists fr'; auto).
    assert (Ho' : is_frame (add_frame w fr') (lk_owner (copy_meta lk)) fo).
    { simpl. apply get_frame_is. rewrite get_add; [now apply get_frame_is|]. eapply in_get. apply get_frame_is. eauto. }
    cbn [lstep] in H. destruct (subscript E (add_frame w fr') (nframes w) (s :: path)) as [u [x|]] eqn:Es; [|discriminate]. destruct x as [| | |c']; try discriminate. destruct c' as [d vals].
    apply HN. rewrite <- (read_length _ _ _ _ _ _ _ HW Hg' Es).
    simpl in Es. unfold frame_item in Es. rewrite get_added in Es. cbn [rbind] in Es. rewrite Hd' in Es.
    eapply (walk_owner (add_frame w fr') (nframes w) s); [|  |exact Es].
    - intros v Hv. eapply bare_view; eauto.
    - unfold make_node. destruct (lk_agg _); [|destruct (lk_chained _)]; simpl; split; auto; exists []; reflexivity.
  Qed.

  (** C66: a frame made by an operation that only goes through finalisation (with as many rows as the
      original) reads its links in the order of the original, however its rows were reordered *)
  Theorem C66_finalised_frames_read_in_the_original_order fuel os f ps names w1 g s lk path fr gr d vals :
    let w := after E fuel os in
    orderly_run E fuel (new_lworld E) os ->
    is_link w f s lk -> lk_owner lk = f -> lk_agg lk = false -> is_frame w f fr -> is_frame w (lk_other lk) gr ->
    unshadowed fr (lk_self lk) -> unshadowed gr (lk_target lk) -> length ps = nrows fr ->
    lstep E fuel w (LDerive f ps names) = (w1, Ok (RFrame g)) ->
    snd (lstep E fuel w (LRead f (s :: path))) = Ok (RCol (d, vals)) ->
    snd (lstep E fuel w1 (LRead g (s :: path))) = Ok (RCol (d, vals)).
  Proof using veq_spec.
    intros w HO Hl Hown Ha Hf Hg U1 U2 HLen HT HR.
    pose proof (paired_links E fuel (os ++ [LDerive f ps names])) as P1. rewrite after_one in P1. fold w in P1. rewrite HT in P1. simpl in P1.
    cbn [lstep] in HT. unfold keep_world in HT. destruct (check _ _) in HT; cbn [rbind] in HT; [|discriminate]. destruct (derive_frame E w f ps names) as [w2|] eqn:Ed; [|discriminate].
    injection HT as -> <-. unfold derive_frame in Ed. pose proof Hf as Hf'. apply get_frame_is in Hf'. rewrite Hf' in Ed. simpl in Ed.
    destruct (rows_at ps (f_index fr)) as [index|] eqn:Ei; simpl in Ed; [|discriminate]. destruct (rmapl _ names) as [cols0|]; simpl in Ed; [|discriminate].
    destruct (take_cols ps cols0) as [cols|]; simpl in Ed; [|discriminate]. injection Ed as <-. fold (nframes w).
    eapply (finalised_reads fuel os f s lk path fr gr d vals); eauto; [reflexivity|]. unfold nrows at 1. simpl. now rewrite (rows_at_length _ _ _ Ei).
  Qed.
  (** ... and one with another number of rows cannot be read through its links *)
  Theorem C66_fewer_rows_cannot_be_read fuel os f ps names w1 g s lk path fr fo :
    let w := after E fuel os in
    is_link w f s lk -> is_frame w f fr -> is_frame w (lk_owner lk) fo -> length ps <> nrows fo ->
    lstep E fuel w (LDerive f ps names) = (w1, Ok (RFrame g)) ->
    forall c, snd (lstep E fuel w1 (LRead g (s :: path))) <> Ok (RCol c).
  Proof using veq_spec.
    intros w Hl Hf Ho HLen HT.
    assert (HW : world_ok w1) by (apply (reachable_ok E fuel); exists (os ++ [LDerive f ps names]); rewrite after_one; fold w; now rewrite HT).
    cbn [lstep] in HT. unfold keep_world in HT. destruct (check _ _) in HT; cbn [rbind] in HT; [|discriminate]. destruct (derive_frame E w f ps names) as [w2|] eqn:Ed; [|discriminate].
    injection HT as -> <-. unfold derive_frame in Ed. pose proof Hf as Hf'. apply get_frame_is in Hf'. rewrite Hf' in Ed. simpl in Ed.
    destruct (rows_at ps (f_index fr)) as [index|] eqn:Ei; simpl in Ed; [|discriminate]. destruct (rmapl _ names) as [cols0|]; simpl in Ed; [|discriminate].
    destruct (take_cols ps cols0) as [cols|]; simpl in Ed; [|discriminate]. injection Ed as <-. fold (nframes w).
    eapply finalised_other_length; eauto; [|reflexivity|unfold nrows at 1; simpl; now rewrite (rows_at_length _ _ _ Ei)].
    destruct (f_ldf fr) eqn:El; auto. destruct Hl as (fr0 & F0 & D0). assert (fr0 = fr) as -> by (eapply is_frame_unique; eauto). rewrite (after_ldf E fuel os f fr Hf El) in D0. discriminate.
  Qed.

  (** ... and cannot aggregate over its links *)
  Theorem C66_finalised_frames_cannot_aggregate fuel os f ps names w1 g s lk func x int_fill :
    let w := after E fuel os in
    is_link w f s lk -> lk_agg lk = true -> lstep E fuel w (LDerive f ps names) = (w1, Ok (RFrame g)) ->
    exists e, snd (lstep E fuel w1 (LAgg g [s] func x int_fill)) = Err e.
  Proof using.
    intros w Hl Ha HT. pose proof (paired_links E fuel (os ++ [LDerive f ps names])) as P1. rewrite after_one in P1. fold w in P1. rewrite HT in P1. simpl in P1.
    pose proof Hl as (fr & Hf & Hd).
    cbn [lstep] in HT. unfold keep_world in HT. destruct (check _ _) in HT; cbn [rbind] in HT; [|discriminate]. destruct (derive_frame E w f ps names) as [w2|] eqn:Ed; [|discriminate].
    injection HT as -> <-. unfold derive_frame in Ed. pose proof Hf as Hf'. apply get_frame_is in Hf'. rewrite Hf' in Ed. simpl in Ed.
    destruct (rows_at ps (f_index fr)) as [index|]; simpl in Ed; [|discriminate]. destruct (rmapl _ names) as [cols0|]; simpl in Ed; [|discriminate].
    destruct (take_cols ps cols0) as [cols|]; simpl in Ed; [|discriminate]. injection Ed as <-. fold (nframes w).
    assert (Hldf : f_ldf fr = true) by (destruct (f_ldf fr) eqn:El; auto; rewrite (after_ldf E fuel os f fr Hf El) in Hd; discriminate).
    set (fr' := derived E fr index cols (map (fun p => (fst p, copy_meta (snd p))) (f_links fr))) in *.
    assert (Hd' : dget String.eqb (f_links fr') s = Some (copy_meta lk)) by (unfold fr'; simpl; now rewrite Hldf, dget_map, Hd).
    assert (Hl' : get_link (add_frame w fr') (nframes w) s = Ok (copy_meta lk)) by (rewrite link_added, Hd'; reflexivity).
    cbn [lstep]. simpl subscript. unfold frame_item. rewrite get_added. cbn [rbind]. rewrite Hd'. unfold make_node. simpl (lk_agg (copy_meta lk)). rewrite Ha. simpl walk. cbv iota.
    rewrite aggregate_eq. unfold top_other at 1. rewrite Hl'. cbn [rbind]. simpl (lk_other (copy_meta lk)). destruct (get_frame (add_frame w fr') (lk_other lk)) as [gr|]; cbn [rbind]; [|simpl; eauto].
    destruct (agg_values E _ (add_frame w fr') _ gr x) as [u3 r3] eqn:EA. pose proof (agg_values_sim E _ _ _ _ _ _ _ _ (proj1 (evaluate_eext E fuel)) (sim_refl E _ P1) EA) as HS.
    destruct r3 as [c|]; cbn [rbind]; [|simpl; eauto]. destruct (check _ _); cbn [rbind]; [|simpl; eauto].
    destruct (match fst c with DInt => _ | _ => _ end) as [fill|]; cbn [rbind]; [|simpl; eauto].
    pose proof (sim_groups _ _ _ HS (nframes w) s) as HG. unfold gview in HG. rewrite Hl' in HG. simpl. destruct (get_link u3 (nframes w) s) as [lk3|]; simpl; [|eauto].
    simpl in HG. rewrite <- HG. simpl. eauto.
  Qed.

  (** C67: a frame reindexed to other labels reads its links in the order of the original when it has as
      many rows: a row for a new label reads what the original reads at that position, not a fill value *)
  Theorem C67_reindexed_frames_read_in_the_original_order fuel os f index w1 g s lk path fr gr d vals :
    let w := after E fuel os in
    orderly_run E fuel (new_lworld E) os ->
    is_link w f s lk -> lk_owner lk = f -> lk_agg lk = false -> is_frame w f fr -> is_frame w (lk_other lk) gr ->
    unshadowed fr (lk_self lk) -> unshadowed gr (lk_target lk) -> index <> f_index fr -> length index = nrows fr ->
    lstep E fuel w (LReindex f index) = (w1, Ok (RFrame g)) ->
    snd (lstep E fuel w (LRead f (s :: path))) = Ok (RCol (d, vals)) ->
    snd (lstep E fuel w1 (LRead g (s :: path))) = Ok (RCol (d, vals)).
  Proof using veq_spec.
    intros w HO Hl Hown Ha Hf Hg U1 U2 Hne HLen HT HR.
    pose proof (paired_links E fuel (os ++ [LReindex f index])) as P1. rewrite after_one in P1. fold w in P1. rewrite HT in P1. simpl in P1.
    cbn [lstep] in HT. unfold on_frame in HT. pose proof Hf as Hf'. apply get_frame_is in Hf'. rewrite Hf' in HT. unfold keep_world in HT.
    destruct (check _ _) in HT; cbn [rbind] in HT; [|discriminate]. destruct (reindex_frame E w f index) as [w2|] eqn:Ed; [|discriminate]. injection HT as -> <-.
    unfold reindex_frame in Ed. rewrite Hf' in Ed. cbn [rbind] in Ed. destruct (index_equals (keq E) (f_index fr) index) eqn:Ee.
    { exfalso. apply Hne. symmetry. revert Ee. apply index_equals_spec, (keq_spec E veq_spec). }
    destruct (get_indexer (keq E) (f_index fr) index) as [ix|] eqn:Ex; simpl in Ed; [|discriminate]. destruct (rmapl _ (f_cols fr)) as [cols|]; simpl in Ed; [|discriminate].
    injection Ed as <-. fold (nframes w). eapply (finalised_reads fuel os f s lk path fr gr d vals); eauto; reflexivity.
  Qed.
  (** ... and cannot be read through its links when it has another number of rows *)
  Theorem C67_reindexed_to_another_length_cannot_be_read fuel os f index w1 g s lk path fr fo :
    let w := after E fuel os in
    is_link w f s lk -> is_frame w f fr -> is_frame w (lk_owner lk) fo -> index <> f_index fr -> length index <> nrows fo ->
    lstep E fuel w (LReindex f index) = (w1, Ok (RFrame g)) ->
    forall c, snd (lstep E fuel w1 (LRead g (s :: path))) <> Ok (RCol c).
  Proof using veq_spec.
    intros w Hl Hf Ho Hne HLen HT.
    assert (HW : world_ok w1) by (apply (reachable_ok E fuel); exists (os ++ [LReindex f index]); rewrite after_one; fold w; now rewrite HT).
    cbn [lstep] in HT. unfold on_frame in HT. pose proof Hf as Hf'. apply get_frame_is in Hf'. rewrite Hf' in HT. unfold keep_world in HT.
    destruct (check _ _) in HT; cbn [rbind] in HT; [|discriminate]. destruct (reindex_frame E w f index) as [w2|] eqn:Ed; [|discriminate]. injection HT as -> <-.
    unfold reindex_frame in Ed. rewrite Hf' in Ed. cbn [rbind] in Ed. destruct (index_equals (keq E) (f_index fr) index) eqn:Ee.
    { exfalso. apply Hne. symmetry. revert Ee. apply index_equals_spec, (keq_spec E veq_spec). }
    destruct (get_indexer (keq E) (f_index fr) index) as [ix|] eqn:Ex; simpl in Ed; [|discriminate]. destruct (rmapl _ (f_cols fr)) as [cols|]; simpl in Ed; [|discriminate].
    injection Ed as <-. fold (nframes w). eapply finalised_other_length; eauto; [|reflexivity].
    destruct (f_ldf fr) eqn:El; auto. destruct Hl as (fr0 & F0 & D0). assert (fr0 = fr) as -> by (eapply is_frame_unique; eauto). rewrite (after_ldf E fuel os f fr Hf El) in D0. discriminate.
  Qed.
End Rows.

Definition sorted_history : list lop0 := delayed_history ++ [LLink 0 1 "household" (to_index "hh") true].
Example C66_applies :
  let w := w0 sorted_history in
  orderly_run env0 3 (new_lworld env0) sorted_history /\
  (exists fr lk gr, is_frame w 0 fr /\ is_link w 0 "household" lk /\ lk_owner lk = 0 /\ lk_agg lk = false /\ is_frame w (lk_other lk) gr /\ unshadowed fr (lk_self lk) /\ unshadowed gr (lk_target lk) /\ nrows fr = 3) /\
  snd (lstep env0 3 w (LDerive 0 [2; 1; 0] ["age"])) = Ok (RFrame 2).
Proof.
  split; [repeat split|]. split; [|vm_compute; reflexivity].
  eexists _, _, _. split; [vm_compute; reflexivity|]. split; [eexists; split; vm_compute; reflexivity|]. split; [reflexivity|]. split; [reflexivity|]. split; [vm_compute; reflexivity|].
  split; [|split; [|reflexivity]].
  - intros ls x Hm _ Hin. injection Hm as <-. destruct Hin as [Hx|[]]. injection Hx as <-. reflexivity.
  - intros ls x Hm. discriminate.
Qed.
(** sorting by age: the ages move, the incomes stay *)
Theorem C66_sorting_refuted :
  let w := w0 (sorted_history ++ [LDerive 0 [2; 0; 1] ["age"; "hh"]; LDerive 0 [1] ["age"; "hh"]]) in
  read0 w 0 ["household"; "income"] = Ok (RCol (ints [100; 200; 100]%Z)) /\
  read0 w 2 ["age"] = Ok (RCol (ints [5; 30; 40]%Z)) /\
  read0 w 2 ["household"; "income"] = Ok (RCol (ints [100; 200; 100]%Z)) /\
  read0 w 3 ["household"; "income"] = Err ValueError.
Proof. vm_compute. auto. Qed.

Example C67_applies :
  let w := w0 sorted_history in
  (exists fr lk gr, is_frame w 0 fr /\ is_link w 0 "household" lk /\ lk_owner lk = 0 /\ lk_agg lk = false /\ is_frame w (lk_other lk) gr /\ unshadowed fr (lk_self lk) /\ unshadowed gr (lk_target lk) /\
     nrows fr = 3 /\ [row 2; row 50; row 1] <> f_index fr) /\
  snd (lstep env0 3 w (LReindex 0 [row 2; row 50; row 1])) = Ok (RFrame 2) /\ snd (lstep env0 3 w (LReindex 0 [row 2; row 50])) = Ok (RFrame 2).
Proof.
  split; [|vm_compute; auto].
  eexists _, _, _. split; [vm_compute; reflexivity|]. split; [eexists; split; vm_compute; reflexivity|]. split; [reflexivity|]. split; [reflexivity|]. split; [vm_compute; reflexivity|].
  split; [|split; [|split; [reflexivity|vm_compute; congruence]]].
  - intros ls x Hm _ Hin. injection Hm as <-. destruct Hin as [Hx|[]]. injection Hx as <-. reflexivity.
  - intros ls x Hm. discriminate.
Qed.
(** the row for the label 50, which is new, reads the income of another person's household *)
Theorem C67_reindexing_refuted :
  let w := w0 (sorted_history ++ [LReindex 0 [row 2; row 50; row 1]; LReindex 0 [row 2; row 50]]) in
  read0 w 2 ["age"] = Ok (RCol (DFloat, [i 40; None; i 30]%Z)) /\
  read0 w 2 ["household"; "income"] = Ok (RCol (ints [100; 200; 100]%Z)) /\
  read0 w 3 ["household"; "income"] = Err ValueError.
Proof. vm_compute. repeat split; reflexivity. Qed.
