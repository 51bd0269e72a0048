(** Every column of a reachable frame has one value per row (all entries, whatever their names), and its links
    have distinct names. *)
From Verif Require Import Prelude DictProofs ExprModel ScopeModel ScopeProofs LdfModel SpecLdf LdfProofs LdfKeys LdfReads LdfInv.
Local Open Scope string_scope.
Local Open Scope nat_scope.
Local Open Scope list_scope.

Section Cols.
  Context {L V : Type} (E : venv L V).
  Notation frame := (@frame V).
  Notation lworld := (@lworld V).
  Notation column := (prod dtype (list V)).

  Definition full (n : nat) (cols : dict string column) : Prop := forall p, In p cols -> length (snd (snd p)) = n.
  Definition sound_frame (fr : frame) : Prop := full (nrows fr) (f_cols fr) /\ NoDup (dkeys (f_links fr)).
  Definition all_full (w : lworld) : Prop := forall f fr, is_frame w f fr -> sound_frame fr.

  Lemma full_dset n cols s c : full n cols -> length (snd c) = n -> full n (dset String.eqb cols s c).
  Proof.
    intros H HC [s' c'] I. unfold full in H. induction cols as [|[s0 c0] cols IH]; cbn in I.
    - destruct I as [I|[]]. injection I as <- <-. exact HC.
    - destruct (String.eqb s s0).
      + destruct I as [I|I]; [injection I as <- <-; exact HC|]. apply H. right. exact I.
      + destruct I as [I|I]; [injection I as <- <-; apply (H (s0, c0)); now left|]. apply IH; auto. intros p J. apply H. now right.
  Qed.
  Lemma full_take ps cols cols' : take_cols ps cols = Ok cols' -> full (length ps) cols'.
  Proof.
    revert cols'. induction cols as [|[s [d vs]] cols IH]; intros cols' H; cbn in H; [injection H as <-; intros p []|].
    destruct (rows_at ps vs) as [r|] eqn:ER; cbn in H; [|discriminate]. unfold take_cols in IH. destruct (rmapl _ cols) as [t|] eqn:ET; cbn in H; [|discriminate]. injection H as <-.
    intros p [<-|I]; [cbn; eapply rows_at_length; eauto|]. apply (IH t); auto.
  Qed.
  Lemma full_reindex ix cols cols' : rmapl (fun p => do c <- reindex_col E ix (snd p); Ok (fst p, c)) cols = Ok cols' -> full (length ix) cols'.
  Proof.
    revert cols'. induction cols as [|[s c] cols IH]; intros cols' H; cbn in H; [injection H as <-; intros p []|].
    destruct (reindex_col E ix c) as [c'|] eqn:ER; cbn in H; [|discriminate]. destruct (rmapl _ cols) as [t|] eqn:ET; cbn in H; [|discriminate]. injection H as <-.
    intros p [<-|I]; [|apply (IH t); auto]. cbn. unfold reindex_col in ER. destruct (rmapl _ ix) as [vs|] eqn:EV; cbn in ER; [|discriminate]. injection ER as <-. cbn.
    apply rmapl_ok in EV. clear - EV. induction EV; simpl; auto.
  Qed.
  Lemma full_add w fr : all_full w -> sound_frame fr -> all_full (add_frame w fr).
  Proof. intros H HF f x Hx. apply add_frame_is in Hx. destruct Hx as [Hx|[_ ->]]; eauto. Qed.
  Lemma full_set w f fr0 fr : all_full w -> is_frame w f fr0 -> sound_frame fr -> all_full (set_frame w f fr).
  Proof. intros Hw H0 Hf h x H. apply (set_frame_is _ _ _ _ _ _ H0) in H. destruct (Nat.eqb h f); [subst; auto|eauto]. Qed.
  Lemma full_link w f name lk : all_full w -> all_full (set_link w f name lk).
  Proof.
    intros H. unfold set_link. destruct (nth_error (lw_frames w) f) as [fr|] eqn:Ef; auto. eapply full_set; eauto. destruct (H _ _ Ef) as [A B]. split; [exact A|]. simpl. now apply (dset_keys_nodup _ String.eqb_eq).
  Qed.
  Lemma copied_keys ix (ls ls' : dict string link) : copy_links ix ls = Ok ls' -> dkeys ls' = dkeys ls.
  Proof. intros H. apply (rmapl_dget _ _ _ H). Qed.
  Lemma bare_keys (ls : dict string link) : dkeys (map (fun p => (fst p, copy_meta (snd p))) ls) = dkeys ls.
  Proof. unfold dkeys. now rewrite map_map. Qed.
  Lemma derived_sound fr index cols links : full (length index) cols -> NoDup (dkeys links) -> sound_frame (derived E fr index cols links).
  Proof. intros A B. split; [exact A|]. simpl. destruct (f_ldf fr); [exact B|constructor]. Qed.
  Lemma full_same w w' : same_data w w' -> all_full w -> all_full w'.
  Proof.
    intros HS Hw f fr H. destruct (same_frame _ _ _ _ (same_sym _ _ HS) H) as (fr0 & H0 & HD). destruct (Hw _ _ H0) as [A B]. split.
    - apply drop_core in HD. unfold core in HD. injection HD as HD1 HD2 HD3 HD4. unfold nrows in *. now rewrite HD3, HD4.
    - pose proof (f_equal (fun x => dkeys (f_links x)) HD) as X. cbn in X. unfold dkeys in *. rewrite !map_map in X. cbn in X. change (NoDup (map (fun x => fst x) (f_links fr))). rewrite X. exact B.
  Qed.
  Lemma compute_full : forall names w f refresh w' r, all_full w -> compute_list E w f refresh names = (w', r) -> all_full w'.
  Proof.
    induction names as [|s names IH]; simpl; intros w f refresh w' r Hw H; [injection H as <- _; auto|].
    destruct (get_link w f s) as [lk|]; [|injection H as <- _; auto]. destruct (orb _ _); [|eauto].
    destruct (precompute E w lk); [|injection H as <- _; auto]. eapply IH; [|exact H]. now apply full_link.
  Qed.
  Lemma step_full fuel w o w' r : all_full w -> lstep E fuel w o = (w', r) -> all_full w'.
  Proof.
    intros Hw H. destruct (is_read o) eqn:Eo.
    { eapply (read_P E all_full); [|exact Eo|exact Hw|exact H]. intros w1 f1 n1 w2 r2 H1 _ H2.
      destruct (indexer_view _ _ _ _ _ _ H2) as (_ & HS & _). eapply full_same; eauto. }
    assert (HK : forall rw, (forall w1, rw = Ok w1 -> all_full w1) -> keep_world w rw = (w', r) -> all_full w').
    { intros rw Hr Hk. destruct rw; simpl in Hk; injection Hk as <- _; auto. }
    assert (HO : forall f k, (forall fr, is_frame w f fr -> k fr = (w', r) -> all_full w') -> on_frame w f k = (w', r) -> all_full w').
    { intros f k Hk Hf. unfold on_frame in Hf. destruct (get_frame w f) as [fr|] eqn:Ef; [|injection Hf as <- _; auto]. apply get_frame_is in Ef. eauto. }
    assert (HF : forall levels index (cols : dict string column), frame_fits levels index cols = true -> full (length index) cols).
    { intros levels index cols X p I. unfold frame_fits in X. rewrite !andb_true_iff in X. destruct X as (_ & _ & X & _). rewrite forallb_forall in X. apply Nat.eqb_eq. now apply X. }
    destruct o; try discriminate; cbn [lstep] in H.
    - destruct (frame_fits levels index cols) eqn:Ef; injection H as <- _; auto. apply full_add; auto. split; [eapply HF; eauto|constructor].
    - unfold link_to in H. destruct (rbind _ _) as [lk|]; injection H as <- _; auto. now apply full_link.
    - revert H. apply HO. intros fr Hf H. destruct (Nat.eqb_spec (length (snd c)) (nrows fr)) as [Hl|]; injection H as <- _; auto.
      eapply full_set; eauto. destruct (Hw _ _ Hf) as [A B]. split; [|exact B]. simpl. apply full_dset; auto.
    - revert H. apply HO. intros fr Hf H. destruct (andb _ _) eqn:Ea; injection H as <- _; auto.
      eapply full_set; eauto. apply andb_true_iff in Ea. destruct Ea as [Ea Eb]. apply Nat.eqb_eq in Ea. destruct (Hw _ _ Hf) as [A B]. split; [|exact B]. unfold nrows in *. cbn [f_index f_cols]. rewrite Ea. exact A.
    - revert H. apply HK. intros w1 H. unfold take_frame in H. destruct (get_frame w f) as [fr|] eqn:Ef; simpl in H; [|discriminate].
      destruct (rows_at ps (f_index fr)) as [index|] eqn:Ei; simpl in H; [|discriminate].
      destruct (take_cols ps (f_cols fr)) as [cols|] eqn:Ec; simpl in H; [|discriminate]. destruct (copy_links _ _) as [links|] eqn:El; simpl in H; [|discriminate].
      apply get_frame_is in Ef. injection H as <-. apply full_add; auto. apply derived_sound; [rewrite (rows_at_length _ _ _ Ei); eapply full_take; eauto|]. rewrite (copied_keys _ _ _ El). apply (Hw _ _ Ef).
    - revert H. apply HK. intros w1 H. destruct (check _ _); simpl in H; [|discriminate]. unfold derive_frame in H.
      destruct (get_frame w f) as [fr|] eqn:Ef; simpl in H; [|discriminate].
      destruct (rows_at ps (f_index fr)) as [index|] eqn:Ei; simpl in H; [|discriminate].
      destruct (rmapl _ names) as [cols0|] eqn:E0; simpl in H; [|discriminate]. destruct (take_cols ps cols0) as [cols|] eqn:Ec; simpl in H; [|discriminate].
      apply get_frame_is in Ef. injection H as <-. apply full_add; auto. apply derived_sound; [rewrite (rows_at_length _ _ _ Ei); eapply full_take; eauto|]. rewrite bare_keys. apply (Hw _ _ Ef).
    - revert H. apply HK. intros w1 H. unfold group_frame in H. destruct (get_frame w f) as [fr|] eqn:Ef; simpl in H; [|discriminate].
      destruct (rows_at ps (f_index fr)) as [index|] eqn:Ei; simpl in H; [|discriminate].
      destruct (take_cols ps (f_cols fr)) as [cols|] eqn:Ec; simpl in H; [|discriminate].
      destruct (if f_ldf fr then _ else _) as [links|] eqn:El; simpl in H; [|discriminate].
      apply get_frame_is in Ef. injection H as <-. apply full_add; auto. apply derived_sound; [rewrite (rows_at_length _ _ _ Ei); eapply full_take; eauto|].
      destruct (f_ldf fr); [|injection El as <-; constructor]. destruct (get_indexer _ _ _) as [ix|]; cbn [rbind] in El; [|discriminate]. rewrite (copied_keys _ _ _ El). apply (Hw _ _ Ef).
    - revert H. apply HO. intros fr Hf. apply HK. intros w1 H. unfold check in H. destruct (frame_fits (f_levels fr) index []) eqn:Eff; simpl in H; [|discriminate].
      unfold reindex_frame in H. apply get_frame_is in Hf. rewrite Hf in H. simpl in H. apply get_frame_is in Hf.
      destruct (index_equals _ _ _).
      + destruct (copy_links _ _) as [links|] eqn:El; simpl in H; [|discriminate]. injection H as <-. apply full_add; auto. destruct (Hw _ _ Hf) as [A B]. apply derived_sound; [exact A|]. now rewrite (copied_keys _ _ _ El).
      + destruct (get_indexer _ _ _) as [ix|] eqn:Ei; simpl in H; [|discriminate]. destruct (rmapl _ (f_cols fr)) as [cols|] eqn:Ec; simpl in H; [|discriminate].
        injection H as <-. apply full_add; auto. apply derived_sound; [rewrite <- (get_indexer_length E _ _ _ Ei); eapply full_reindex; eauto|]. rewrite bare_keys. apply (Hw _ _ Hf).
    - revert H. apply HK. intros w1 H. unfold copy_frame in H. destruct (get_frame w f) as [fr|] eqn:Ef; simpl in H; [|discriminate]. apply get_frame_is in Ef.
      destruct (copy_links _ _) as [links|] eqn:El; simpl in H; [|discriminate]. injection H as <-. apply full_add; auto. destruct (Hw _ _ Ef) as [A B]. apply derived_sound; [exact A|]. now rewrite (copied_keys _ _ _ El).
    - revert H. apply HO. intros fr Hf H. destruct (f_ldf fr); [|injection H as <- _; auto].
      unfold compute_indexers in H. apply get_frame_is in Hf. rewrite Hf in H.
      destruct (compute_list E w f refresh (dkeys (f_links fr))) as [w1 r1] eqn:Ec. apply compute_full in Ec; auto. destruct r1; injection H as <- _; auto.
    - revert H. apply HO. intros fr Hf H. destruct (negb _); [injection H as <- _; auto|]. destruct (dmem _ _ _); injection H as <- _; auto.
      eapply full_set; eauto. apply (Hw _ _ Hf).
    - revert H. apply HO. intros fr Hf H. destruct (negb _); [injection H as <- _; auto|]. destruct (set_fills _ _) as [m r1]. injection H as <- _.
      eapply full_set; eauto. apply (Hw _ _ Hf).
    - revert H. apply HO. intros fr Hf H. destruct (f_ldf fr); injection H as <- _; auto. eapply full_set; eauto. apply (Hw _ _ Hf).
    - destruct (set_fills _ _) as [m r1]. injection H as <- _. exact Hw.
    - injection H as <- _. exact Hw.
  Qed.
  Lemma run_full fuel : forall os w, all_full w -> all_full (fst (lrun E fuel w os)).
  Proof.
    induction os as [|o os IH]; simpl; intros w Hw; auto. destruct (lstep E fuel w o) as [w1 r1] eqn:Es. apply step_full in Es; auto.
    specialize (IH w1 Es). destruct (lrun E fuel w1 os). auto.
  Qed.
  Lemma after_full fuel os : all_full (after E fuel os).
  Proof. apply run_full. intros f fr H. unfold is_frame in H. simpl in H. destruct f; discriminate. Qed.
End Cols.
