(** The invariant of orderly histories: every link agrees with the keys of its frame and of its target. *)
From Verif Require Import Prelude DictProofs ExprModel ScopeModel ScopeProofs LdfModel SpecLdf LdfProofs LdfKeys LdfReads.
Local Open Scope string_scope.
Local Open Scope nat_scope.
Local Open Scope list_scope.

Section Inv.
  Context {L V : Type} (E : venv L V) (veq_spec : forall a b, v_eq E a b = true <-> a = b).
  Notation key := (list V).
  Notation frame := (@frame V).
  Notation lworld := (@lworld V).
  Notation column := (prod dtype (list V)).
  Notation lop := (@lop L V).

  (** * Frames are well formed *)
  Definition world_ok (w : lworld) : Prop := forall f fr, is_frame w f fr -> frame_ok fr.

  Lemma get_frame_is (w : lworld) f fr : get_frame w f = Ok fr <-> is_frame w f fr.
  Proof. unfold get_frame, is_frame. destruct (nth_error _ _); split; congruence. Qed.
  Lemma add_frame_is (w : lworld) fr f x : is_frame (add_frame w fr) f x <-> is_frame w f x \/ (f = length (lw_frames w) /\ x = fr).
  Proof.
    unfold is_frame, add_frame. simpl. destruct (lt_eq_lt_dec f (length (lw_frames w))) as [[H|H]|H].
    - rewrite nth_error_app1 by auto. split; auto. intros [X|[X _]]; auto. lia.
    - subst f. rewrite nth_error_app2, Nat.sub_diag by auto. simpl. split; [intros X; injection X as <-; auto|].
      intros [X|[_ ->]]; auto. assert (length (lw_frames w) < length (lw_frames w)) by (apply nth_error_Some; congruence). lia.
    - rewrite nth_error_app2 by lia. split.
      + intros X. assert (f - length (lw_frames w) < 1) by (change 1 with (length [fr]); apply nth_error_Some; congruence). lia.
      + intros [X|[X _]]; [|lia]. assert (f < length (lw_frames w)) by (apply nth_error_Some; congruence). lia.
  Qed.
  Lemma set_frame_is (w : lworld) f fr0 fr h x : is_frame w f fr0 -> (is_frame (set_frame w f fr) h x <-> if Nat.eqb h f then x = fr else is_frame w h x).
  Proof.
    unfold is_frame, set_frame. simpl. intros H0. assert (Hl : f < length (lw_frames w)) by (apply nth_error_Some; congruence).
    destruct (Nat.eqb_spec h f) as [->|N]; [rewrite nth_error_upd_eq by auto; split; congruence|]. now rewrite nth_error_upd_neq by auto.
  Qed.
  Lemma world_ok_add w fr : world_ok w -> frame_ok fr -> world_ok (add_frame w fr).
  Proof. intros Hw Hf f x H. apply add_frame_is in H. destruct H as [H|[_ ->]]; eauto. Qed.
  Lemma world_ok_set w f fr0 fr : world_ok w -> is_frame w f fr0 -> frame_ok fr -> world_ok (set_frame w f fr).
  Proof. intros Hw H0 Hf h x H. apply (set_frame_is _ _ _ _ _ _ H0) in H. destruct (Nat.eqb h f); [subst; auto|eauto]. Qed.
  Lemma world_ok_same w w' : same_data w w' -> world_ok w -> world_ok w'.
  Proof.
    intros HS Hw f fr H. destruct (same_frame _ _ _ _ (same_sym _ _ HS) H) as (fr0 & H0 & HD).
    eapply core_ok; [symmetry; apply drop_core, HD|]. eauto.
  Qed.

  Lemma rows_at_in {A} ps (l r : list A) x : rows_at ps l = Ok r -> In x r -> In x l.
  Proof.
    intros H I. apply rows_at_nth in H. destruct H as [HL H]. apply In_nth_error in I. destruct I as (i & Hi).
    assert (exists p, nth_error ps i = Some p) as (p & Hp).
    { destruct (nth_error ps i) eqn:Ep; eauto. apply nth_error_None in Ep. assert (i < length r) by (apply nth_error_Some; congruence). lia. }
    destruct (H i p Hp) as (y & Hy & Hr). replace x with y by congruence. eapply nth_error_In; eauto.
  Qed.
  Lemma rmapl_dget {A B : Type} (g : A -> res B) : forall (d : dict string A) d', rmapl (fun p => do x <- g (snd p); Ok (fst p, x)) d = Ok d' ->
    dkeys d' = dkeys d /\ forall s, match dget String.eqb d s with Some a => exists b, g a = Ok b /\ dget String.eqb d' s = Some b | None => dget String.eqb d' s = None end.
  Proof.
    induction d as [|[k a] d IH]; simpl; intros d' H; [injection H as <-; auto|].
    destruct (g a) as [b|] eqn:Eg; simpl in H; [|discriminate]. destruct (rmapl _ d) as [t|] eqn:Et; simpl in H; [|discriminate].
    injection H as <-. destruct (IH _ eq_refl) as [A1 A2]. split; [simpl; congruence|]. intros s. simpl. destruct (String.eqb s k); eauto. apply A2.
  Qed.
  Lemma take_cols_dget ps (cols cols' : dict string column) : take_cols ps cols = Ok cols' ->
    forall s, match dget String.eqb cols s with
              | Some (d, vals) => exists vals', rows_at ps vals = Ok vals' /\ dget String.eqb cols' s = Some (d, vals')
              | None => dget String.eqb cols' s = None end.
  Proof.
    intros H s. unfold take_cols in H.
    assert (H' : rmapl (fun p => do x <- (fun c : column => do vs <- rows_at ps (snd c); Ok (fst c, vs)) (snd p); Ok (fst p, x)) cols = Ok cols').
    { rewrite <- H. clear H. induction cols as [|p cols IH]; simpl; auto. rewrite IH. destruct (rows_at ps (snd (snd p))); auto. }
    destruct (rmapl_dget _ _ _ H') as [_ X]. specialize (X s). destruct (dget String.eqb cols s) as [[d vals]|]; auto.
    destruct X as (b & Hb & Hd). simpl in Hb. destruct (rows_at ps vals) as [vs|]; simpl in Hb; [|discriminate]. injection Hb as <-. eauto.
  Qed.
  (** [fr'] holds the rows of [fr] at the positions [ps] *)
  Definition rows_of (ps : list nat) (fr fr' : frame) : Prop :=
    f_levels fr' = f_levels fr /\ rows_at ps (f_index fr) = Ok (f_index fr') /\
    forall s, match dget String.eqb (f_cols fr) s with
              | Some (d, vals) => exists vals', rows_at ps vals = Ok vals' /\ dget String.eqb (f_cols fr') s = Some (d, vals')
              | None => dget String.eqb (f_cols fr') s = None end.
  Lemma rows_at_length {A} ps (l r : list A) : rows_at ps l = Ok r -> length r = length ps.
  Proof. intros H. now apply rows_at_nth in H. Qed.
  Lemma rows_of_ok ps fr fr' : rows_of ps fr fr' -> frame_ok fr -> frame_ok fr'.
  Proof.
    intros (H1 & H2 & H3) [A B C]. constructor.
    - congruence.
    - intros k Hk. rewrite H1. apply B. eapply rows_at_in; eauto.
    - intros s d vals Hd. specialize (H3 s). destruct (dget String.eqb (f_cols fr) s) as [[d0 vals0]|] eqn:Ed; [|congruence].
      destruct H3 as (vals' & Hv & Hd'). rewrite Hd in Hd'. injection Hd' as -> ->. unfold nrows.
      now rewrite (rows_at_length _ _ _ Hv), (rows_at_length _ _ _ H2).
  Qed.

  Lemma frame_fits_ok ldf levels (index : list key) (cols : dict string column) links (m : dtype -> V) cf : frame_fits levels index cols = true -> frame_ok (Frame ldf levels index cols links m cf).
  Proof.
    unfold frame_fits. rewrite !andb_true_iff. intros (H1 & H2 & H3 & H4). constructor; simpl.
    - destruct levels; [discriminate|congruence].
    - intros k Hk. rewrite forallb_forall in H2. now apply Nat.eqb_eq, H2.
    - intros s d vals Hd. rewrite forallb_forall in H3. apply (dget_in _ sspec) in Hd. apply H3 in Hd. now apply Nat.eqb_eq.
  Qed.

  Lemma reindex_cols_dget ix (cols cols' : dict string column) : rmapl (fun p => do c <- reindex_col E ix (snd p); Ok (fst p, c)) cols = Ok cols' ->
    forall s d vals, dget String.eqb cols' s = Some (d, vals) -> length vals = length ix.
  Proof.
    intros H s d vals Hd. destruct (rmapl_dget _ _ _ H) as [_ X]. specialize (X s). destruct (dget String.eqb cols s) as [c|]; [|congruence].
    destruct X as (b & Hb & Hd'). unfold reindex_col in Hb. destruct (rmapl _ ix) as [vs|] eqn:Ev; simpl in Hb; [|discriminate].
    injection Hb as <-. rewrite Hd in Hd'. injection Hd' as _ ->. apply rmapl_ok in Ev. clear - Ev. induction Ev; simpl; auto.
  Qed.
  Lemma get_indexer_length index labels ix : get_indexer (keq E) index labels = Ok ix -> length ix = length labels.
  Proof. unfold get_indexer. destruct (unique _ _); [|discriminate]. intros H. injection H as <-. now rewrite map_length. Qed.

  Lemma set_link_ok w f name lk : world_ok w -> world_ok (set_link w f name lk).
  Proof.
    intros Hw. unfold set_link. destruct (nth_error (lw_frames w) f) as [fr|] eqn:Ef; auto. eapply world_ok_set; eauto.
    destruct (Hw _ _ Ef). constructor; auto.
  Qed.
  Lemma compute_ok : forall names w f refresh w' r, world_ok w -> compute_list E w f refresh names = (w', r) -> world_ok w'.
  Proof.
    induction names as [|s names IH]; simpl; intros w f refresh w' r Hw H; [injection H as <- _; auto|].
    destruct (get_link w f s) as [lk|]; [|injection H as <- _; auto]. destruct (orb _ _); [|eauto].
    destruct (precompute E w lk); [|injection H as <- _; auto]. eapply IH; [|exact H]. now apply set_link_ok.
  Qed.

  Lemma step_ok fuel w o w' r : world_ok w -> lstep E fuel w o = (w', r) -> world_ok w'.
  Proof.
    intros Hw H. destruct (is_read o) eqn:Eo.
    { eapply (read_P E world_ok); [|exact Eo|exact Hw|exact H]. intros w1 f1 n1 w2 r2 H1 _ H2.
      destruct (indexer_view _ _ _ _ _ _ H2) as (_ & HS & _). eapply world_ok_same; eauto. }
    assert (HK : forall rw, (forall w1, rw = Ok w1 -> world_ok w1) -> keep_world w rw = (w', r) -> world_ok w').
    { intros rw Hr Hk. destruct rw; simpl in Hk; injection Hk as <- _; auto. }
    assert (HO : forall f k, (forall fr, is_frame w f fr -> k fr = (w', r) -> world_ok w') -> on_frame w f k = (w', r) -> world_ok w').
    { intros f k Hk Hf. unfold on_frame in Hf. destruct (get_frame w f) as [fr|] eqn:Ef; [|injection Hf as <- _; auto]. apply get_frame_is in Ef. eauto. }
    assert (HD : forall fr index cols links, frame_ok (Frame (f_ldf fr) (f_levels fr) index cols [] (f_fill fr) []) -> frame_ok (derived E fr index cols links)).
    { intros fr index cols links [A B C]. constructor; auto. }
    destruct o; try discriminate; cbn [lstep] in H.
    - destruct (frame_fits levels index cols) eqn:Ef; injection H as <- _; auto. apply world_ok_add; auto. now apply frame_fits_ok.
    - unfold link_to in H. destruct (rbind _ _) as [lk|]; injection H as <- _; auto. now apply set_link_ok.
    - revert H. apply HO. intros fr Hf H. destruct (Nat.eqb_spec (length (snd c)) (nrows fr)) as [Hl|]; injection H as <- _; auto.
      eapply world_ok_set; eauto. destruct (Hw _ _ Hf) as [A B C]. constructor; simpl; auto.
      intros s' d vals Hd. rewrite (dget_dset _ sspec) in Hd. destruct (String.eqb s' s); [|eauto]. injection Hd as Hd. subst c. exact Hl.
    - revert H. apply HO. intros fr Hf H. destruct (andb _ _) eqn:Ea; injection H as <- _; auto.
      eapply world_ok_set; eauto. destruct (Hw _ _ Hf) as [A B C]. apply andb_true_iff in Ea. destruct Ea as [Ea Eb]. apply Nat.eqb_eq in Ea.
      destruct (frame_fits_ok true levels index [] [] (f_fill fr) [] Eb) as [A' B' C']. constructor; simpl; auto.
      intros s d vals Hd. unfold nrows in *. simpl. rewrite Ea. eauto.
    - revert H. apply HK. intros w1 H. unfold take_frame in H. destruct (get_frame w f) as [fr|] eqn:Ef; simpl in H; [|discriminate].
      apply get_frame_is in Ef. destruct (rows_at ps (f_index fr)) as [index|] eqn:Ei; simpl in H; [|discriminate].
      destruct (take_cols ps (f_cols fr)) as [cols|] eqn:Ec; simpl in H; [|discriminate]. destruct (copy_links _ _); simpl in H; [|discriminate].
      injection H as <-. apply world_ok_add; auto. eapply rows_of_ok; [|apply (Hw _ _ Ef)]. split; [reflexivity|]. split; [exact Ei|]. exact (take_cols_dget _ _ _ Ec).
    - revert H. apply HK. intros w1 H. destruct (check _ _); simpl in H; [|discriminate]. unfold derive_frame in H.
      destruct (get_frame w f) as [fr|] eqn:Ef; simpl in H; [|discriminate]. apply get_frame_is in Ef.
      destruct (rows_at ps (f_index fr)) as [index|] eqn:Ei; simpl in H; [|discriminate].
      destruct (rmapl _ names) as [cols0|] eqn:E0; simpl in H; [|discriminate]. destruct (take_cols ps cols0) as [cols|] eqn:Ec; simpl in H; [|discriminate].
      injection H as <-. apply world_ok_add; auto. destruct (Hw _ _ Ef) as [A B C]. constructor; simpl; auto.
      + intros k Hk. apply B. eapply rows_at_in; eauto.
      + intros s d vals Hd. pose proof (take_cols_dget _ _ _ Ec s) as X. destruct (dget String.eqb cols0 s) as [[d0 v0]|] eqn:Ed; [|congruence].
        destruct X as (v' & Hv & Hd'). rewrite Hd in Hd'. injection Hd' as -> ->. unfold nrows. simpl.
        now rewrite (rows_at_length _ _ _ Hv), (rows_at_length _ _ _ Ei).
    - revert H. apply HK. intros w1 H. unfold group_frame in H. destruct (get_frame w f) as [fr|] eqn:Ef; simpl in H; [|discriminate].
      apply get_frame_is in Ef. destruct (rows_at ps (f_index fr)) as [index|] eqn:Ei; simpl in H; [|discriminate].
      destruct (take_cols ps (f_cols fr)) as [cols|] eqn:Ec; simpl in H; [|discriminate].
      destruct (if f_ldf fr then _ else _) as [links|]; simpl in H; [|discriminate].
      injection H as <-. apply world_ok_add; auto. eapply rows_of_ok; [|apply (Hw _ _ Ef)]. split; [reflexivity|]. split; [exact Ei|]. exact (take_cols_dget _ _ _ Ec).
    - revert H. apply HO. intros fr Hf. apply HK. intros w1 H. unfold check in H. destruct (frame_fits (f_levels fr) index []) eqn:Eff; simpl in H; [|discriminate].
      unfold reindex_frame in H. apply get_frame_is in Hf. rewrite Hf in H. simpl in H. apply get_frame_is in Hf.
      destruct (index_equals _ _ _).
      + destruct (copy_links _ _); simpl in H; [|discriminate]. injection H as <-. apply world_ok_add; auto. destruct (Hw _ _ Hf). constructor; auto.
      + destruct (get_indexer _ _ _) as [ix|] eqn:Ei; simpl in H; [|discriminate]. destruct (rmapl _ (f_cols fr)) as [cols|] eqn:Ec; simpl in H; [|discriminate].
        injection H as <-. apply world_ok_add; auto.
        destruct (frame_fits_ok true _ _ _ [] (f_fill fr) [] Eff) as [A B _]. constructor; simpl; auto.
        intros s d vals Hd. rewrite (reindex_cols_dget _ _ _ Ec _ _ _ Hd). unfold nrows. simpl. eapply get_indexer_length; eauto.
    - revert H. apply HK. intros w1 H. unfold copy_frame in H. destruct (get_frame w f) as [fr|] eqn:Ef; simpl in H; [|discriminate]. apply get_frame_is in Ef.
      destruct (copy_links _ _); simpl in H; [|discriminate]. injection H as <-. apply world_ok_add; auto. destruct (Hw _ _ Ef). constructor; auto.
    - revert H. apply HO. intros fr Hf H. destruct (f_ldf fr); [|injection H as <- _; auto].
      unfold compute_indexers in H. apply get_frame_is in Hf. rewrite Hf in H.
      destruct (compute_list E w f refresh (dkeys (f_links fr))) as [w1 r1] eqn:Ec. apply compute_ok in Ec; auto. destruct r1; injection H as <- _; auto.
    - revert H. apply HO. intros fr Hf H. destruct (negb _); [injection H as <- _; auto|]. destruct (dmem _ _ _); injection H as <- _; auto.
      eapply world_ok_set; eauto. destruct (Hw _ _ Hf). constructor; auto.
    - revert H. apply HO. intros fr Hf H. destruct (negb _); [injection H as <- _; auto|]. destruct (set_fills _ _) as [m r1]. injection H as <- _.
      eapply world_ok_set; eauto. destruct (Hw _ _ Hf). constructor; auto.
    - revert H. apply HO. intros fr Hf H. destruct (f_ldf fr); injection H as <- _; auto. eapply world_ok_set; eauto. destruct (Hw _ _ Hf). constructor; auto.
    - destruct (set_fills _ _) as [m r1]. injection H as <- _. exact Hw.
    - injection H as <- _. exact Hw.
  Qed.
  Lemma run_ok fuel : forall os w, world_ok w -> world_ok (fst (lrun E fuel w os)).
  Proof.
    induction os as [|o os IH]; simpl; intros w Hw; auto. destruct (lstep E fuel w o) as [w1 r1] eqn:Es. apply step_ok in Es; auto.
    specialize (IH w1 Es). destruct (lrun E fuel w1 os). auto.
  Qed.
  Lemma new_ok : world_ok (new_lworld E).
  Proof. intros f fr H. unfold is_frame in H. simpl in H. destruct f; discriminate. Qed.
  Lemma reachable_ok fuel w : reachable E fuel w -> world_ok w.
  Proof. intros (os & ->). apply run_ok, new_ok. Qed.
End Inv.
