(** Properties of single links that every operation keeps. *)
From Verif Require Import Prelude DictProofs ExprModel ScopeModel ScopeProofs LdfModel SpecLdf LdfProofs LdfKeys LdfReads LdfInv LdfGood.
Local Open Scope string_scope.
Local Open Scope nat_scope.
Local Open Scope list_scope.

Section Links.
  Context {L V : Type} (E : venv L V).
  Notation lworld := (@lworld V).
  Notation frame := (@frame V).
  Notation lop := (@lop L V).

  Definition all_links (Q : link -> Prop) (w : lworld) : Prop := forall f n lk, is_link w f n lk -> Q lk.
  Definition nframes (w : lworld) : nat := length (lw_frames w).
  (** which frames are linked frames *)
  Definition kinds (w : lworld) : list bool := map f_ldf (lw_frames w).
  Lemma kinds_length w : length (kinds w) = nframes w.
  Proof. apply map_length. Qed.
  (** does the operation recompute stored indexers? *)
  Definition refreshes (o : lop) : bool := match o with LCompute _ true => true | _ => false end.

  (** [Q] may depend on the frames being linked frames or not *)
  Context (Q : list bool -> link -> Prop) (allow reads : bool)
    (Hmono : forall n b lk, Q n lk -> Q (n ++ [b]) lk)
    (Hcreate : forall w f g sa sr oa orr pre lk, create E w f g sa sr oa orr pre = Ok lk -> Q (kinds w) lk)
    (Hmeta : forall n lk, Q n lk -> Q n (copy_meta lk))
    (Hcopy : forall n ix lk lk', Q n lk -> copy_link ix lk = Ok lk' -> Q n lk')
    (Hpre : forall n w lk lk', Q n lk -> (allow = true \/ lk_flat lk = None) -> precompute E w lk = Ok lk' -> Q n lk')
    (Hmiss : reads = true -> forall n lk flat, Q n lk -> lk_flat lk = Some flat ->
       Q n (Link (lk_owner lk) (lk_other lk) (lk_self lk) (lk_target lk) (lk_chained lk) (lk_agg lk) (Some flat) (lk_grouper lk)
               (Some (match lk_missing lk with Some m => m | None => nonzero (map (fun z => (z =? -1)%Z) flat) end)))).
  Set Default Proof Using "Type*".
  Notation good := (fun w => all_links (Q (kinds w)) w).
  Lemma set_count (w : lworld) f fr0 fr : is_frame w f fr0 -> f_ldf fr = f_ldf fr0 -> kinds (set_frame w f fr) = kinds w.
  Proof. intros H HL. unfold kinds, set_frame. simpl. eapply upd_map_same; eauto. Qed.
  Lemma set_link_count (w : lworld) f name lk : kinds (set_link w f name lk) = kinds w.
  Proof. unfold set_link. destruct (nth_error _ _) eqn:En; auto. eapply set_count; [exact En|reflexivity]. Qed.
  Lemma add_count (w : lworld) fr : kinds (add_frame w fr) = kinds w ++ [f_ldf fr].
  Proof. unfold kinds, add_frame. simpl. apply map_app. Qed.

  Lemma all_set w f name lk : good w -> Q (kinds w) lk -> good (set_link w f name lk).
  Proof.
    cbv beta. rewrite set_link_count. intros HG HL h n x (fr & Hf & Hd). unfold set_link in Hf. destruct (nth_error (lw_frames w) f) as [fr0|] eqn:Ef.
    - apply (set_frame_is _ _ _ _ _ _ Ef) in Hf. destruct (Nat.eqb_spec h f) as [->|N].
      + subst fr. simpl in Hd. rewrite (dget_dset _ sspec) in Hd. destruct (String.eqb n name); [injection Hd as <-; auto|]. apply (HG f n). exists fr0. auto.
      + apply (HG h n). exists fr. auto.
    - apply (HG h n). exists fr. auto.
  Qed.
  Lemma all_add w fr : good w -> (forall n lk, dget String.eqb (f_links fr) n = Some lk -> Q (kinds w) lk) -> good (add_frame w fr).
  Proof. cbv beta. rewrite add_count. intros HG HN f n lk H. apply add_link_is in H. destruct H as [H|[-> H]]; apply Hmono; eauto. Qed.
  Lemma all_edit w f fr fr' : good w -> is_frame w f fr -> f_links fr' = f_links fr -> f_ldf fr' = f_ldf fr -> good (set_frame w f fr').
  Proof.
    cbv beta. intros HG Hf HL HK. rewrite (set_count _ _ _ _ Hf HK). intros h n lk (x & Hx & Hd). apply (set_frame_is _ _ _ _ _ _ Hf) in Hx. destruct (Nat.eqb_spec h f) as [->|N].
    - subst x. rewrite HL in Hd. apply (HG f n). exists fr. auto.
    - apply (HG h n). exists x. auto.
  Qed.
  Lemma all_indexer w f n w' r : reads = true -> good w -> indexer_and_missing E w f n = (w', r) -> good w'.
  Proof.
    intros HR HG H. unfold indexer_and_missing in H. destruct (get_link w f n) as [lk0|] eqn:El; [|injection H as <- _; auto]. apply get_link_is in El.
    fold (fresh E w lk0) in H. destruct (fresh E w lk0) as [lk|] eqn:Ef; [|injection H as <- _; auto].
    assert (HQ : Q (kinds w) lk). { unfold fresh in Ef. destruct (lk_flat lk0) eqn:E0; [injection Ef as <-; exact (HG _ _ _ El)|]. apply (Hpre _ w lk0 lk); auto. exact (HG _ _ _ El). }
    destruct (lk_flat lk) as [flat|] eqn:Efl; [|injection H as <- _; auto]. injection H as <- _. apply all_set; auto.
  Qed.
  Lemma all_compute : forall names w f refresh w' r, good w -> (refresh = true -> allow = true) ->
    compute_list E w f refresh names = (w', r) -> good w'.
  Proof.
    induction names as [|s names IH]; simpl; intros w f refresh w' r HG HA H; [injection H as <- _; auto|].
    destruct (get_link w f s) as [lk|] eqn:El; [|injection H as <- _; auto]. apply get_link_is in El.
    destruct (orb _ _) eqn:Eo; [|eauto]. destruct (precompute E w lk) as [lk'|] eqn:Ep; [|injection H as <- _; auto].
    eapply IH; [|exact HA|exact H]. apply all_set; auto. eapply Hpre; [eapply HG; eauto| |exact Ep].
    destruct (lk_flat lk); auto. left. apply HA. now rewrite orb_false_r in Eo.
  Qed.
  Lemma copy_links_all k ix ls ls' : copy_links ix ls = Ok ls' -> (forall n lk, dget String.eqb ls n = Some lk -> Q k lk) -> forall n lk, dget String.eqb ls' n = Some lk -> Q k lk.
  Proof. intros H HQ n lk Hd. destruct (copy_links_dget _ _ _ H _ _ Hd) as (lk0 & H0 & Hc). eauto. Qed.

  Lemma all_step fuel w o w' r : good w -> (refreshes o = true -> allow = true) -> (is_read o = true -> reads = true) -> lstep E fuel w o = (w', r) -> good w'.
  Proof.
    intros HG HA HRd H. destruct (is_read o) eqn:Eo.
    { eapply (read_P E (fun w => all_links (Q (kinds w)) w)); [|exact Eo|exact HG|exact H]. intros w1 f1 n1 w2 r2 H1 _ H2. eapply all_indexer; eauto. }
    assert (HK : forall rw, (forall w1, rw = Ok w1 -> good w1) -> keep_world w rw = (w', r) -> good w').
    { intros rw Hr Hk. destruct rw; simpl in Hk; injection Hk as <- _; auto. }
    assert (HF : forall f k, (forall fr, is_frame w f fr -> k fr = (w', r) -> good w') -> on_frame w f k = (w', r) -> good w').
    { intros f k Hk Hf. unfold on_frame in Hf. destruct (get_frame w f) as [fr|] eqn:Ef; [|injection Hf as <- _; auto]. apply get_frame_is in Ef. eauto. }
    assert (HD : forall fr index cols links, (forall n lk, dget String.eqb links n = Some lk -> Q (kinds w) lk) -> good (add_frame w (derived E fr index cols links))).
    { intros fr index cols links X. apply all_add; auto. simpl. destruct (f_ldf fr); [auto|discriminate]. }
    assert (HQ : forall f fr, get_frame w f = Ok fr -> forall n lk, dget String.eqb (f_links fr) n = Some lk -> Q (kinds w) lk).
    { intros f fr Hf n lk Hd. apply get_frame_is in Hf. apply (HG f n). exists fr. auto. }
    destruct o; try discriminate; cbn [lstep] in H.
    - destruct (frame_fits _ _ _); injection H as <- _; auto. apply all_add; auto. simpl. discriminate.
    - unfold link_to in H. destruct (rbind _ _) as [lk|] eqn:Eb in H; injection H as <- _; auto.
      destruct (get_frame w f) as [fr|] eqn:Ef; simpl in Eb; [|discriminate]. destruct (check _ _); simpl in Eb; [|discriminate].
      destruct (resolve_args a) as [[[s1 s2] [o1 o2]]|]; simpl in Eb; [|discriminate]. apply all_set; eauto.
    - revert H. apply HF. intros fr Hf H. destruct (Nat.eqb_spec (length (snd c)) (nrows fr)); injection H as <- _; auto. eapply all_edit; eauto.
    - revert H. apply HF. intros fr Hf H. destruct (andb _ _); injection H as <- _; auto. eapply all_edit; eauto.
    - revert H. apply HK. intros w1 H. unfold take_frame in H. destruct (get_frame w f) as [fr|] eqn:Ef; simpl in H; [|discriminate].
      destruct (rows_at ps _); simpl in H; [|discriminate]. destruct (take_cols ps _); simpl in H; [|discriminate].
      destruct (copy_links _ _) eqn:Ec; simpl in H; [|discriminate]. injection H as <-. apply HD. eapply copy_links_all; eauto.
    - revert H. apply HK. intros w1 H. destruct (check _ _); simpl in H; [|discriminate]. unfold derive_frame in H.
      destruct (get_frame w f) as [fr|] eqn:Ef; simpl in H; [|discriminate].
      destruct (rows_at ps _); simpl in H; [|discriminate]. destruct (rmapl _ names); simpl in H; [|discriminate]. destruct (take_cols ps _); simpl in H; [|discriminate].
      injection H as <-. apply HD. intros n lk Hd. rewrite dget_map in Hd. destruct (dget String.eqb (f_links fr) n) as [lk0|] eqn:Ed; [|discriminate]. injection Hd as <-. eauto.
    - revert H. apply HK. intros w1 H. unfold group_frame in H. destruct (get_frame w f) as [fr|] eqn:Ef; simpl in H; [|discriminate].
      destruct (rows_at ps _); simpl in H; [|discriminate]. destruct (take_cols ps _); simpl in H; [|discriminate].
      destruct (if f_ldf fr then _ else _) as [links|] eqn:El in H; simpl in H; [|discriminate]. injection H as <-. apply HD.
      destruct (f_ldf fr); [|injection El as <-; discriminate]. destruct (get_indexer _ _ _); simpl in El; [|discriminate]. eapply copy_links_all; eauto.
    - revert H. apply HF. intros fr0 Hf. apply HK. intros w1 H. destruct (check _ _); simpl in H; [|discriminate].
      unfold reindex_frame in H. destruct (get_frame w f) as [fr|] eqn:Ef; simpl in H; [|discriminate].
      destruct (index_equals _ _ _).
      + destruct (copy_links _ _) eqn:Ec; simpl in H; [|discriminate]. injection H as <-. apply HD. eapply copy_links_all; eauto.
      + destruct (get_indexer _ _ _); simpl in H; [|discriminate]. destruct (rmapl _ _); simpl in H; [|discriminate].
        injection H as <-. apply HD. intros n lk Hd. rewrite dget_map in Hd. destruct (dget String.eqb (f_links fr) n) as [lk0|] eqn:Ed; [|discriminate]. injection Hd as <-. eauto.
    - revert H. apply HK. intros w1 H. unfold copy_frame in H. destruct (get_frame w f) as [fr|] eqn:Ef; simpl in H; [|discriminate].
      destruct (copy_links _ _) eqn:Ec; simpl in H; [|discriminate]. injection H as <-. apply HD. eapply copy_links_all; eauto.
    - revert H. apply HF. intros fr Hf H. destruct (f_ldf fr); [|injection H as <- _; auto].
      unfold compute_indexers in H. apply get_frame_is in Hf. rewrite Hf in H.
      destruct (compute_list E w f refresh (dkeys (f_links fr))) as [w1 r1] eqn:Ec. apply all_compute in Ec; auto; [destruct r1; injection H as <- _; auto|].
      intros ->. auto.
    - revert H. apply HF. intros fr Hf H. destruct (negb _); [injection H as <- _; auto|]. destruct (dmem _ _ _); injection H as <- _; auto. eapply all_edit; eauto.
    - revert H. apply HF. intros fr Hf H. destruct (negb _); [injection H as <- _; auto|]. destruct (set_fills _ _) as [m r1]. injection H as <- _. eapply all_edit; eauto.
    - revert H. apply HF. intros fr Hf H. destruct (f_ldf fr); injection H as <- _; auto. eapply all_edit; eauto.
    - destruct (set_fills _ _) as [m r1]. injection H as <- _. exact HG.
    - injection H as <- _. exact HG.
  Qed.
  Lemma all_run fuel : forall os w, good w -> (forall o, In o os -> (refreshes o = true -> allow = true) /\ (is_read o = true -> reads = true)) -> good (fst (lrun E fuel w os)).
  Proof.
    induction os as [|o os IH]; simpl; intros w HG HA; auto. destruct (lstep E fuel w o) as [w1 r1] eqn:Es.
    apply all_step in Es; [|exact HG|apply (HA o (or_introl eq_refl))|apply (HA o (or_introl eq_refl))]. specialize (IH w1 Es (fun o' I => HA o' (or_intror I))). destruct (lrun E fuel w1 os). exact IH.
  Qed.
  Lemma all_new : good (new_lworld E).
  Proof. intros f n lk (fr & H & _). unfold is_frame in H. simpl in H. destruct f; discriminate. Qed.
  Lemma all_after fuel os : (forall o, In o os -> (refreshes o = true -> allow = true) /\ (is_read o = true -> reads = true)) -> good (after E fuel os).
  Proof. intros H. apply all_run; [apply all_new|exact H]. Qed.
End Links.

(** a link without an indexer has no groups and no list of missing rows *)
Definition paired (lk : link) : Prop := lk_flat lk = None -> lk_grouper lk = None /\ lk_missing lk = None.
(** the stored list of missing rows is that of the indexer *)
Definition fitting (lk : link) : Prop := paired lk /\ forall m, lk_missing lk = Some m -> exists flat, lk_flat lk = Some flat /\ m = nonzero (map (fun z => (z =? -1)%Z) flat).

Section Paired.
  Context {L V : Type} (E : venv L V).
  Lemma make_flat lk (sk ok : list (list V)) lk' : make_indexer E lk sk ok = Ok lk' -> lk_flat lk' <> None.
  Proof.
    unfold make_indexer. destruct (lk_agg lk).
    - destruct (factorize E ok). destruct (get_indexer _ _ _); simpl; [|discriminate]. intros H; injection H as <-. discriminate.
    - destruct (if index_equals _ _ _ then _ else _); simpl; [|discriminate]. intros H; injection H as <-. discriminate.
  Qed.
  Lemma pre_flat (w : lworld) lk lk' : precompute E w lk = Ok lk' -> lk_flat lk' <> None.
  Proof.
    unfold precompute. destruct (get_frame w (lk_owner lk)); simpl; [|discriminate]. destruct (get_keys _ _ _); simpl; [|discriminate].
    destruct (get_frame w (lk_other lk)); simpl; [|discriminate]. destruct (get_keys _ _ _); simpl; [|discriminate]. apply make_flat.
  Qed.
  Lemma create_new w f g sa sr oa orr pre lk : create E w f g sa sr oa orr pre = Ok lk -> lk_missing lk = None /\ (lk_flat lk = None -> lk_grouper lk = None).
  Proof.
    unfold create. intros H. destruct (get_frame w f); simpl in H; [|discriminate]. destruct (get_frame w g); simpl in H; [|discriminate].
    destruct (mk_meta sa sr); simpl in H; [|discriminate]. destruct (mk_meta oa orr); simpl in H; [|discriminate]. destruct (check _ _); simpl in H; [|discriminate].
    destruct (get_keys E _ _) in H; simpl in H; [|discriminate]. destruct (get_keys E _ _) in H; simpl in H; [|discriminate].
    destruct (if andb _ _ then _ else _) in H; simpl in H; [|discriminate]. destruct pre.
    - pose proof (make_flat _ _ _ _ H) as X. destruct (make_indexer_static E _ _ _ _ H) as [_ M]. simpl in M. split; auto. congruence.
    - injection H as <-. auto.
  Qed.
  Lemma fitting_links fuel os : (forall o, In o os -> refreshes o = false) -> all_links fitting (after E fuel os).
  Proof.
    intros HO. apply (all_after E (fun _ => fitting) false true).
    - auto.
    - intros w f g sa sr oa orr pre lk H. apply create_new in H. destruct H as [A B]. split; [intros X; auto|intros m; congruence].
    - intros _ lk _. split; [intros _; auto|discriminate].
    - intros _ ix lk lk' [A B] H. unfold copy_link in H. destruct (lk_flat lk) as [fl|] eqn:Ef, ix as [ix|]; simpl in H.
      + destruct (np_take fl ix) as [fl'|]; simpl in H; [|discriminate]. injection H as <-. split; [intros X; discriminate|discriminate].
      + injection H as <-. split; [intros X; discriminate|simpl; intros m Hm; destruct (B _ Hm) as (x & X & ->); eauto].
      + injection H as <-. destruct (A Ef) as [A1 A2]. split; [intros _; auto|discriminate].
      + injection H as <-. destruct (A Ef) as [A1 A2]. split; [intros _; auto|simpl; congruence].
    - intros _ w lk lk' [A B] [X|Ef] H; [discriminate|]. pose proof (pre_flat _ _ _ H) as X. destruct (precompute_static E _ _ _ H) as [_ M]. destruct (A Ef) as [A1 A2].
      split; [intros Y; congruence|intros m Hm; congruence].
    - intros _ _ lk flat [A B] Hf. split; [discriminate|]. simpl. intros m X. injection X as <-. exists flat. split; auto. destruct (lk_missing lk) as [m|] eqn:Em; auto.
      destruct (B _ eq_refl) as (x & X & ->). congruence.
    - intros o I. split; auto. intros X. rewrite (HO _ I) in X. discriminate.
  Qed.
  Lemma paired_links fuel os : all_links paired (after E fuel os).
  Proof.
    apply (all_after E (fun _ => paired) true true).
    - auto.
    - intros w f g sa sr oa orr pre lk H. apply create_new in H. destruct H as [A B]. intros X; auto.
    - intros _ lk _ _. auto.
    - intros _ ix lk lk' A H. unfold copy_link in H. destruct (lk_flat lk) as [fl|] eqn:Ef, ix as [ix|]; simpl in H.
      + destruct (np_take fl ix) as [fl'|]; simpl in H; [|discriminate]. injection H as <-. intros X; discriminate.
      + injection H as <-. intros X; discriminate.
      + injection H as <-. destruct (A Ef) as [A1 A2]. intros _; auto.
      + injection H as <-. destruct (A Ef) as [A1 A2]. intros _; auto.
    - intros _ w lk lk' A _ H X. pose proof (pre_flat _ _ _ H) as Y. congruence.
    - intros _ _ lk flat A Hf. discriminate.
    - auto.
  Qed.
  (** links refer to frames that exist *)
  Definition within (n : nat) (lk : link) : Prop := lk_owner lk < n /\ lk_other lk < n.
  Definition closed (w : lworld (V:=V)) : Prop := all_links (within (nframes w)) w.
  Lemma within_meta n lk lk' : copy_meta lk' = copy_meta lk -> within n lk -> within n lk'.
  Proof. intros H [A B]. unfold copy_meta in H. injection H as H1 H2 _ _ _ _. split; [now rewrite H1|now rewrite H2]. Qed.
  Lemma closed_after fuel os : closed (after E fuel os).
  Proof.
    unfold closed. rewrite <- kinds_length. apply (all_after E (fun k => within (length k)) true true).
    - intros n b lk [A B]. unfold within. rewrite app_length. simpl. lia.
    - intros w f g sa sr oa orr pre lk H. unfold create in H. destruct (get_frame w f) eqn:Ef; simpl in H; [|discriminate]. destruct (get_frame w g) eqn:Eg; simpl in H; [|discriminate].
      destruct (mk_meta sa sr); simpl in H; [|discriminate]. destruct (mk_meta oa orr); simpl in H; [|discriminate]. destruct (check _ _); simpl in H; [|discriminate].
      destruct (get_keys E _ _) in H; simpl in H; [|discriminate]. destruct (get_keys E _ _) in H; simpl in H; [|discriminate].
      destruct (if andb _ _ then _ else _) in H; simpl in H; [|discriminate]. apply get_frame_is in Ef, Eg. unfold is_frame in *. rewrite kinds_length.
      assert (f < nframes w) by (apply nth_error_Some; congruence). assert (g < nframes w) by (apply nth_error_Some; congruence).
      destruct pre; [|injection H as <-; split; auto]. destruct (make_indexer_static E _ _ _ _ H) as [C _]. eapply within_meta; [exact C|]. split; auto.
    - intros n lk H. exact H.
    - intros n ix lk lk' H X. unfold copy_link in X. destruct (lk_flat lk), ix; simpl in X; try (destruct (np_take _ _); simpl in X; [|discriminate]); injection X as <-; exact H.
    - intros n w lk lk' H _ X. destruct (precompute_static E _ _ _ X) as [C _]. eapply within_meta; eauto.
    - intros _ n lk flat H _. exact H.
    - auto.
  Qed.
End Paired.
