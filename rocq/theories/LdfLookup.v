(** What a chain of lookups gives in a state whose links agree with the keys. *)
From Verif Require Import Prelude DictProofs ExprModel ScopeModel ScopeProofs LdfModel SpecLdf LdfProofs LdfKeys LdfReads LdfInv LdfGood.
Local Open Scope string_scope.
Local Open Scope nat_scope.
Local Open Scope list_scope.

Section Lookup.
  Context {L V : Type} (E : venv L V) (veq_spec : forall a b, v_eq E a b = true <-> a = b).
  Notation key := (list V).
  Notation frame := (@frame V).
  Notation lworld := (@lworld V).
  Notation column := (prod dtype (list V)).
  Notation lop := (@lop L V).
  Notation ikeys := (ikeys E).
  Notation good := (good E).

  (** frames that are not linked frames have no links *)
  Definition links_ldf (w : lworld) : Prop := forall f fr, is_frame w f fr -> f_ldf fr = false -> f_links fr = [].
  Lemma ldf_add w fr : links_ldf w -> (f_ldf fr = false -> f_links fr = []) -> links_ldf (add_frame w fr).
  Proof. intros H HF f x Hx. apply add_frame_is in Hx. destruct Hx as [Hx|[-> ->]]; eauto. Qed.
  Lemma ldf_set w f fr0 fr : links_ldf w -> is_frame w f fr0 -> (f_ldf fr = false -> f_links fr = []) -> links_ldf (set_frame w f fr).
  Proof. intros H H0 HF h x Hx. apply (set_frame_is _ _ _ _ _ _ H0) in Hx. destruct (Nat.eqb h f); [subst; auto|eauto]. Qed.
  Lemma ldf_same w w' : same_data w w' -> links_ldf w -> links_ldf w'.
  Proof.
    intros HS H f fr Hf Hl. destruct (same_frame _ _ _ _ (same_sym _ _ HS) Hf) as (fr' & Hf' & HD).
    unfold drop_caches, with_links in HD. injection HD as D1 _ _ _ HL _ _. rewrite D1 in Hl. rewrite (H _ _ Hf' Hl) in HL. simpl in HL.
    destruct (f_links fr); [auto|discriminate].
  Qed.
  Lemma ldf_set_link w f name lk fr : links_ldf w -> is_frame w f fr -> f_ldf fr = true -> links_ldf (set_link w f name lk).
  Proof. intros H Hf Hl. unfold set_link. unfold is_frame in Hf. rewrite Hf. eapply ldf_set; eauto. simpl. congruence. Qed.
  Lemma compute_ldf : forall names w f refresh w' r fr, links_ldf w -> is_frame w f fr -> f_ldf fr = true ->
    compute_list E w f refresh names = (w', r) -> links_ldf w'.
  Proof.
    induction names as [|s names IH]; simpl; intros w f refresh w' r fr HG Hf Hl H; [injection H as <- _; auto|].
    destruct (get_link w f s) as [lk|] eqn:El; [|injection H as <- _; auto].
    destruct (orb _ _); [|eauto]. destruct (precompute E w lk) as [lk'|]; [|injection H as <- _; auto].
    pose proof (ldf_set_link w f s lk' fr HG Hf Hl) as X. unfold set_link in X, H. unfold is_frame in Hf. rewrite Hf in X, H.
    eapply (IH _ f refresh w' r (with_links fr (dset String.eqb (f_links fr) s lk'))); [exact X| |exact Hl|exact H].
    apply (set_frame_is _ _ _ _ _ _ Hf). now rewrite Nat.eqb_refl.
  Qed.
  Lemma step_ldf fuel w o w' r : links_ldf w -> lstep E fuel w o = (w', r) -> links_ldf w'.
  Proof.
    intros HG H. destruct (is_read o) eqn:Eo.
    { eapply (read_P E links_ldf); [|exact Eo|exact HG|exact H]. intros w1 f1 n1 w2 r2 H1 _ H2. eapply ldf_same; [|exact H1]. now destruct (indexer_view _ _ _ _ _ _ H2) as (_ & X & _). }
    assert (HK : forall rw, (forall w1, rw = Ok w1 -> links_ldf w1) -> keep_world w rw = (w', r) -> links_ldf w').
    { intros rw Hr Hk. destruct rw; simpl in Hk; injection Hk as <- _; auto. }
    assert (HF : forall f k, (forall fr, is_frame w f fr -> k fr = (w', r) -> links_ldf w') -> on_frame w f k = (w', r) -> links_ldf w').
    { intros f k Hk Hf. unfold on_frame in Hf. destruct (get_frame w f) as [fr|] eqn:Ef; [|injection Hf as <- _; auto]. apply get_frame_is in Ef. eauto. }
    assert (HD : forall fr index cols links, links_ldf (add_frame w (derived E fr index cols links))).
    { intros fr index cols links. apply ldf_add; auto. simpl. intros ->. auto. }
    destruct o; try discriminate; cbn [lstep] in H.
    - destruct (frame_fits _ _ _); injection H as <- _; auto. apply ldf_add; auto.
    - unfold link_to in H. destruct (rbind _ _) as [lk|] eqn:Eb in H; injection H as <- _; auto.
      destruct (get_frame w f) as [fr|] eqn:Ef; simpl in Eb; [|discriminate]. apply get_frame_is in Ef.
      destruct (f_ldf fr) eqn:El; simpl in Eb; [|discriminate]. eapply ldf_set_link; eauto.
    - revert H. apply HF. intros fr Hf H. destruct (Nat.eqb_spec (length (snd c)) (nrows fr)); injection H as <- _; auto. eapply ldf_set; eauto. simpl. eauto.
    - revert H. apply HF. intros fr Hf H. destruct (andb _ _); injection H as <- _; auto. eapply ldf_set; eauto. simpl. eauto.
    - revert H. apply HK. intros w1 H. unfold take_frame in H. repeat (match type of H with rbind ?x _ = _ => destruct x; simpl in H; [|discriminate] end). injection H as <-. auto.
    - revert H. apply HK. intros w1 H. unfold derive_frame in H. repeat (match type of H with rbind ?x _ = _ => destruct x; simpl in H; [|discriminate] end). injection H as <-. auto.
    - revert H. apply HK. intros w1 H. unfold group_frame in H. repeat (match type of H with rbind ?x _ = _ => destruct x; simpl in H; [|discriminate] end). injection H as <-. auto.
    - revert H. apply HF. intros fr Hf. apply HK. intros w1 H. destruct (check _ _); simpl in H; [|discriminate].
      unfold reindex_frame in H. destruct (get_frame w f) as [fr1|]; simpl in H; [|discriminate].
      destruct (index_equals _ _ _); repeat (match type of H with rbind ?x _ = _ => destruct x; simpl in H; [|discriminate] end); injection H as <-; auto.
    - revert H. apply HK. intros w1 H. unfold copy_frame in H. repeat (match type of H with rbind ?x _ = _ => destruct x; simpl in H; [|discriminate] end). injection H as <-. auto.
    - revert H. apply HF. intros fr Hf H. destruct (f_ldf fr) eqn:El; [|injection H as <- _; auto].
      unfold compute_indexers in H. apply get_frame_is in Hf. rewrite Hf in H. apply get_frame_is in Hf.
      destruct (compute_list E w f refresh (dkeys (f_links fr))) as [w1 r1] eqn:Ec. eapply compute_ldf in Ec; eauto. destruct r1; injection H as <- _; auto.
    - revert H. apply HF. intros fr Hf H. destruct (negb _); [injection H as <- _; auto|]. destruct (dmem _ _ _); injection H as <- _; auto. eapply ldf_set; eauto. simpl. eauto.
    - revert H. apply HF. intros fr Hf H. destruct (negb _); [injection H as <- _; auto|]. destruct (set_fills _ _) as [m r1]. injection H as <- _. eapply ldf_set; eauto. simpl. eauto.
    - revert H. apply HF. intros fr Hf H. destruct (f_ldf fr); injection H as <- _; auto. eapply ldf_set; eauto. simpl. eauto.
    - destruct (set_fills _ _) as [m r1]. injection H as <- _. exact HG.
    - injection H as <- _. exact HG.
  Qed.
  Lemma run_ldf fuel : forall os w, links_ldf w -> links_ldf (fst (lrun E fuel w os)).
  Proof.
    induction os as [|o os IH]; simpl; intros w HG; auto. destruct (lstep E fuel w o) as [w1 r1] eqn:Es. apply step_ldf in Es; auto.
    specialize (IH _ Es). destruct (lrun E fuel w1 os). auto.
  Qed.
  Lemma reachable_ldf fuel w : reachable E fuel w -> links_ldf w.
  Proof. intros (os & ->). apply run_ldf. intros f fr H. unfold is_frame in H. simpl in H. destruct f; discriminate. Qed.

  Lemma is_frame_unique (w : lworld) f fr fr' : is_frame w f fr -> is_frame w f fr' -> fr = fr'.
  Proof. unfold is_frame. congruence. Qed.

  (** where the rows of a frame go *)
  Definition targets (w : lworld) (f : nat) (lk : link) (ts : list (option nat)) : Prop :=
    forall i o, nth_error ts i = Some o -> match o with Some j => matches w f lk i j /\ forall j', matches w f lk i j' -> j' = j | None => forall j, ~ matches w f lk i j end.

  Lemma good_goes w f s lk fr gr : world_ok w -> good w -> is_link w f s lk -> lk_agg lk = false -> readable w lk ->
    is_frame w f fr -> is_frame w (lk_other lk) gr ->
    exists ts, goes E w f s ts /\ length ts = nrows fr /\ targets w f lk ts /\ (forall j, In (Some j) ts -> j < nrows gr).
  Proof using veq_spec.
    intros HW HG Hl Ha HR Hf Hg. destruct (HG _ _ _ Hl) as (fr0 & gr0 & sk & ok & GD). pose proof GD as [H1 H2 H3 H4 H5 H6 H7 H8 H9].
    rewrite (is_frame_unique _ _ _ _ H1 Hf) in *. rewrite (is_frame_unique _ _ _ _ H2 Hg) in *. specialize (H6 Ha).
    exists (map (position (keq E) ok) sk).
    destruct (ikeys_spec E _ _ _ (HW _ _ Hf) H3) as [LS SS]. destruct (ikeys_spec E _ _ _ (HW _ _ Hg) H4) as [LO SO].
    split; [|split; [|split]].
    - assert (HX : map (code) (map (position (keq E) ok) sk) = map (pos_or_missing E ok) sk).
      { rewrite map_map. apply map_ext. intros k. now rewrite pos_code. }
      assert (HF : exists lk', fresh E w lk = Ok lk' /\ lk_flat lk' = Some (map (pos_or_missing E ok) sk)).
      { unfold fresh. destruct (lk_flat lk) as [flat|] eqn:Ef.
        - exists lk. split; auto. destruct (H7 _ eq_refl) as [-> _]. rewrite Ef. unfold order. now rewrite Ha.
        - destruct (H8 eq_refl) as (_ & ofr & HO & HK). destruct HR as [HR|HR]; [congruence|]. destruct HR as (R1 & R2). unfold precompute.
          apply get_frame_is in HO. rewrite HO. simpl. apply get_frame_is in HO. rewrite (unshadowed_keys E _ _ (R1 _ HO)), HK. simpl.
          apply get_frame_is in Hg. rewrite Hg. simpl. apply get_frame_is in Hg. rewrite (unshadowed_keys E _ _ (R2 _ Hg)), H4. simpl.
          destruct (make_indexer E lk sk ok) as [lk'|] eqn:Em.
          + exists lk'. split; auto. assert (HN : lk_agg lk = false -> NoDup ok) by auto. destruct (make_indexer_flat E veq_spec _ _ _ _ HN Em) as [HFl _]. rewrite HFl. unfold order. now rewrite Ha.
          + exfalso. unfold make_indexer in Em. rewrite Ha in Em. destruct (index_equals _ _ _); simpl in Em; [discriminate|].
            rewrite (get_indexer_unique _ (keq_spec E veq_spec)) in Em by auto. discriminate. }
      destruct HF as (lk' & F1 & F2). destruct (fresh_static _ _ _ _ F1) as [C M]. unfold goes.
      exists (match lk_missing lk' with Some m => m | None => nonzero (map (fun z => (z =? -1)%Z) (map (pos_or_missing E ok) sk)) end). split.
      + unfold view. apply get_link_is in Hl. rewrite Hl. simpl. rewrite F1. simpl. rewrite F2. now rewrite HX.
      + intros i. rewrite M. destruct (lk_missing lk) as [m|] eqn:Em.
        * destruct (H9 _ eq_refl) as (flat & Hfl & ->). destruct (H7 _ Hfl) as [-> _]. unfold order. rewrite Ha, <- HX. apply missing_codes.
        * rewrite <- HX. apply missing_codes.
    - now rewrite map_length.
    - intros i o Ho. rewrite nth_error_map in Ho. destruct (nth_error sk i) as [k|] eqn:Ek; [|discriminate]. simpl in Ho. injection Ho as <-.
      assert (HK : forall j, matches w f lk i j <-> nth_error ok j = Some k).
      { intros j. split.
        - intros (a & b & k' & A & B & C & D). assert (a = fr) as -> by (eapply is_frame_unique; eauto). assert (b = gr) as -> by (eapply is_frame_unique; eauto).
          apply (ikeys_row_key E _ _ _ _ _ (HW _ _ Hf) H3) in C. apply (ikeys_row_key E _ _ _ _ _ (HW _ _ Hg) H4) in D. congruence.
        - intros X. exists fr, gr, k. repeat split; auto; [eapply ikeys_row_key; eauto|eapply ikeys_row_key; eauto]. }
      destruct (position (keq E) ok k) as [j|] eqn:Ej.
      + apply (position_some _ (keq_spec E veq_spec)) in Ej. split; [now apply HK|]. intros j' Hj. apply HK in Hj.
        eapply NoDup_nth_error; [exact H6| |congruence]. apply nth_error_Some. congruence.
      + intros j Hj. apply HK in Hj. apply (position_none _ (keq_spec E veq_spec)) in Ej. apply Ej. eapply nth_error_In; eauto.
    - intros j Hj. apply in_map_iff in Hj. destruct Hj as (k & Hk & _). apply (position_lt _ (keq_spec E veq_spec)) in Hk. now rewrite LO in Hk.
  Qed.

  Definition node (root : nat) (h : list (nat * string)) (fr : frame) : @item V := if f_ldf fr then INode root h else ILeaf root h.

  Lemma targets_reach w f s lk ts path i : is_link w f s lk -> targets w f lk ts ->
    forall o, nth_error ts i = Some o -> forall o', match o with None => o' = None | Some j => reach w (lk_other lk) path j o' end -> reach w f (s :: path) i o'.
  Proof.
    intros Hl HT o Ho o' H. specialize (HT _ _ Ho). destruct o as [j|]; [eapply reach_on; [exact Hl|apply HT|exact H]|]. subst o'. eapply reach_missing; eauto.
  Qed.

  Lemma walk_lookups w root : world_ok w -> good w -> links_ldf w -> forall path f g, lookups w f path g -> forall h ts fr lk gr,
    is_frame w f fr -> is_frame w g gr -> top_other w h = Ok (lk, f) -> chain E w h (nrows fr) ts ->
    exists h' ts' lk', (forall s, walk E w (node root h fr) (path ++ [s]) = walk E w (node root h' gr) [s]) /\ top_other w h' = Ok (lk', g) /\
      chain E w h' (nrows gr) ts' /\ length ts' = length ts /\
      forall i o, nth_error ts i = Some o -> exists o', nth_error ts' i = Some o' /\ match o with None => o' = None | Some j => reach w f path j o' end.
  Proof using veq_spec.
    intros HW HG HL. induction 1 as [f|f s path lk1 g fr1 gr1 Hl Ha HR Hf1 Hg1 HE Hlo IH]; intros h ts fr lk gr Hf Hg HT HC.
    - assert (gr = fr) as -> by (eapply is_frame_unique; eauto). exists h, ts, lk. repeat split; auto. intros i o Ho. exists o. split; auto. destruct o; auto. constructor.
    - assert (fr1 = fr) as -> by (eapply is_frame_unique; eauto).
      destruct (good_goes _ _ _ _ _ _ HW HG Hl Ha HR Hf Hg1) as (ts1 & G1 & G2 & G3 & G4).
      assert (HC' : chain E w ((f, s) :: h) (nrows gr1) (map (fun o => match o with Some i => match nth_error ts1 i with Some o' => o' | None => None end | None => None end) ts)).
      { constructor; auto.
        - intros I X. apply HE in X. rewrite <- G2 in X. destruct ts1; [destruct I|discriminate].
        - now rewrite G2. }
      assert (HT' : top_other w ((f, s) :: h) = Ok (lk1, lk_other lk1)) by (simpl; apply get_link_is in Hl; rewrite Hl; reflexivity).
      destruct (IH _ _ _ _ _ Hg1 Hg HT' HC') as (h' & ts' & lk' & W1 & W2 & W3 & W4 & W5).
      exists h', ts', lk'. split; [|split; [auto|split; [auto|split]]].
      + intros s'. rewrite <- W1. cbn [app walk]. destruct Hl as (fr0 & Hf0 & Hd). assert (fr0 = fr) as -> by (eapply is_frame_unique; eauto).
        unfold node at 1. destruct (f_ldf fr) eqn:Eld; [|rewrite (HL _ _ Hf Eld) in Hd; discriminate].
        unfold item_item at 1. rewrite HT. simpl. apply get_frame_is in Hf. rewrite Hf. simpl. rewrite Hd. unfold make_node, node. rewrite Ha.
        assert (Hl : is_link w f s lk1) by (exists fr; split; auto; now apply get_frame_is).
        destruct (HG _ _ _ Hl) as (x & y & sk & ok & GD). pose proof (gd_chained _ _ _ _ _ _ _ _ GD) as ->. rewrite (is_frame_unique _ _ _ _ (gd_other _ _ _ _ _ _ _ _ GD) Hg1). reflexivity.
      + now rewrite W4, map_length.
      + intros i o Ho. destruct (W5 i (match o with Some i => match nth_error ts1 i with Some o' => o' | None => None end | None => None end)) as (o' & O1 & O2); [rewrite nth_error_map, Ho; reflexivity|].
        exists o'. split; auto. destruct o as [j|]; auto. assert (Hj : j < length ts1) by (rewrite G2; eapply (chain_bound E); [exact HC|eapply nth_error_In; eauto]).
        destruct (nth_error ts1 j) as [o1|] eqn:E1; [|apply nth_error_None in E1; lia]. eapply targets_reach; eauto.
  Qed.

  (** keys lead to one row *)
  Lemma reach_unique w : world_ok w -> good w -> forall f path i o, reach w f path i o -> forall g, lookups w f path g -> forall o', reach w f path i o' -> o' = o.
  Proof using veq_spec.
    intros HW HG. induction 1 as [f i|f s path lk i j o Hl Hm Hr IH|f s path lk i Hl Hn]; intros g HL o' H'.
    - now inversion H'.
    - inversion HL as [|? ? ? lk1 ? fr gr Hl1 Ha HR Hf Hg _ HL1]; subst. rewrite (is_link_unique _ _ _ _ _ Hl1 Hl) in *.
      destruct (HG _ _ _ Hl) as (fr0 & gr0 & sk & ok & [A B C D _ F _ _ _]). specialize (F Ha).
      assert (HU : forall j', matches w f lk i j' -> j' = j).
      { intros j' (a & b & k & M1 & M2 & M3 & M4). destruct Hm as (a' & b' & k' & N1 & N2 & N3 & N4).
        rewrite (is_frame_unique _ _ _ _ M1 A), (is_frame_unique _ _ _ _ M2 B), (is_frame_unique _ _ _ _ N1 A), (is_frame_unique _ _ _ _ N2 B) in *.
        apply (ikeys_row_key E _ _ _ _ _ (HW _ _ A) C) in M3, N3. apply (ikeys_row_key E _ _ _ _ _ (HW _ _ B) D) in M4, N4.
        eapply NoDup_nth_error; [exact F| |congruence]. apply nth_error_Some. congruence. }
      inversion H' as [|? ? ? lk2 ? j2 ? Hl2 Hm2 Hr2|? ? ? lk2 ? Hl2 Hn2]; subst; rewrite (is_link_unique _ _ _ _ _ Hl2 Hl) in *.
      + rewrite (HU _ Hm2) in *. eauto.
      + exfalso. eapply Hn2; eauto.
    - inversion H' as [|? ? ? lk2 ? j2 ? Hl2 Hm2 Hr2|? ? ? lk2 ? Hl2 Hn2]; subst; auto. rewrite (is_link_unique _ _ _ _ _ Hl2 Hl) in *. exfalso. eapply Hn; eauto.
  Qed.

  Lemma leaf_read w root h fr lk f s d vals ts y : is_frame w f fr -> top_other w h = Ok (lk, f) -> chain E w h (nrows fr) ts -> world_ok w -> links_ldf w ->
    is_column fr s (d, vals) -> dget String.eqb (f_links fr) s = None -> v_store E d (fill_of w fr s d) = Ok y ->
    (exists rf, is_frame w root rf /\ length ts = nrows rf) ->
    exists w' out, walk E w (node root h fr) [s] = (w', Ok (ISeries (d, out))) /\ same_data w w' /\ step_vals ts vals y out.
  Proof.
    intros Hf HT HC HW HL Hc Hs HY (rf & Hrf & Hlen). unfold is_column in Hc.
    destruct (presolve_chain E _ _ _ _ HC d vals (fill_of w fr s d) y (fo_cols _ (HW _ _ Hf) _ _ _ Hc) HY) as (out & P1 & P2).
    assert (HRR : exists w', resolve_root E w root h (d, vals) (fill_of w fr s d) = (w', Ok (d, out)) /\ same_data w w').
    { unfold resolve_root. simpl. destruct (resolve E w h d vals (fill_of w fr s d)) as [w1 r1] eqn:Er. destruct (resolve_pure E _ _ _ _ _ _ _ Er) as (R1 & R2 & _).
      rewrite R1, P1. apply get_frame_is in Hrf. rewrite Hrf. simpl. destruct P2 as [P2 _]. rewrite P2, Hlen, Nat.eqb_refl. simpl. eauto. }
    destruct HRR as (w' & W1 & W2). exists w', out. split; [|auto]. cbn [walk]. unfold node, item_item. unfold fill_of in W1. unfold column_fill, get_column.
    destruct (f_ldf fr); rewrite HT; simpl; apply get_frame_is in Hf; rewrite Hf; simpl; rewrite ?Hs, Hc; simpl; rewrite W1; reflexivity.
  Qed.
End Lookup.
