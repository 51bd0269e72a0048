(** Properties C97 (what a name of a link stands for), C98 (pivot tables) and C99 (temporary fill values). *)
From Verif Require Import Prelude DictProofs ExprModel ScopeModel ScopeProofs LdfModel LdfMore SpecLdf SpecFill SpecMore LdfProofs LdfKeys LdfReads LdfInv LdfGood LdfLinks LdfSim LdfExample PropReads PropFill.
Local Open Scope string_scope.
Local Open Scope nat_scope.
Local Open Scope list_scope.

Section Links.
  Context {L V : Type} (E : venv L V).
  Notation frame := (@frame V).
  Notation lworld := (@lworld V).

  Definition shown (lk : link) : established := Established (lk_other lk) (side_of (lk_self lk)) (side_of (lk_target lk)) (lk_agg lk).
  Definition shown_links (ls : dict string link) : dict string established := map (fun p => (fst p, shown (snd p))) ls.
  Definition table (w : lworld) : list (dict string established) := map (fun fr => shown_links (f_links fr)) (lw_frames w).
  (** plain frames have no links *)
  Definition bare (w : lworld) : Prop := forall f fr, is_frame w f fr -> f_ldf fr = false -> f_links fr = [].

  Lemma shown_meta lk : shown (copy_meta lk) = shown lk. Proof. reflexivity. Qed.
  Lemma shown_links_meta ls : shown_links (map (fun p => (fst p, copy_meta (snd p))) ls) = shown_links ls.
  Proof. unfold shown_links. rewrite map_map. apply map_ext. auto. Qed.
  Lemma shown_links_copy ix : forall ls ls', copy_links ix ls = Ok ls' -> shown_links ls' = shown_links ls.
  Proof.
    unfold copy_links. induction ls as [|[s lk] ls IH]; simpl; intros ls' H; [injection H as <-; auto|].
    destruct (copy_link ix lk) as [lk'|] eqn:Ec; simpl in H; [|discriminate]. destruct (rmapl _ ls) as [t|]; simpl in H; [|discriminate]. injection H as <-. simpl. rewrite (IH t eq_refl).
    f_equal. unfold copy_link in Ec. destruct (match lk_flat lk with Some _ => _ | None => _ end); simpl in Ec; [|discriminate]. injection Ec as <-. reflexivity.
  Qed.
  Lemma shown_links_dset (ls : dict string link) s lk : shown_links (dset String.eqb ls s lk) = dset String.eqb (shown_links ls) s (shown lk).
  Proof. induction ls as [|[k x] ls IH]; simpl; auto. destruct (String.eqb s k); simpl; auto. now rewrite IH. Qed.
  Lemma shown_precompute w lk lk' : precompute E w lk = Ok lk' -> shown lk' = shown lk.
  Proof.
    unfold precompute. destruct (get_frame w (lk_owner lk)); simpl; [|discriminate]. destruct (get_keys _ _ _); simpl; [|discriminate].
    destruct (get_frame w (lk_other lk)); simpl; [|discriminate]. destruct (get_keys _ _ _); simpl; [|discriminate].
    unfold make_indexer. destruct (lk_agg lk) eqn:Ea.
    - destruct (factorize _ _). destruct (get_indexer _ _ _); simpl; [|discriminate]. intros H; injection H as <-. unfold shown. simpl. congruence.
    - match goal with |- rbind ?x _ = _ -> _ => destruct x; simpl; [|discriminate] end. intros H; injection H as <-. unfold shown. simpl. congruence.
  Qed.

  Lemma table_set (w : lworld) f fr fr' : is_frame w f fr -> f_links fr' = f_links fr -> table (set_frame w f fr') = table w.
  Proof. intros Hf H. unfold table. simpl. eapply upd_map_same; eauto. simpl. congruence. Qed.
  Lemma table_same (w w' : lworld) : same_data w w' -> table w' = table w.
  Proof.
    intros [A _]. unfold table. apply (f_equal (map (fun fr => shown_links (f_links fr)))) in A. rewrite !map_map in A. simpl in A.
    etransitivity; [|etransitivity; [symmetry; exact A|]]; apply map_ext; intros fr; [symmetry|]; apply shown_links_meta.
  Qed.
  Lemma table_add (w : lworld) fr : table (add_frame w fr) = table w ++ [shown_links (f_links fr)].
  Proof. unfold table. simpl. now rewrite map_app. Qed.
  Lemma table_nth (w : lworld) f : nth_error (table w) f = match nth_error (lw_frames w) f with Some fr => Some (shown_links (f_links fr)) | None => None end.
  Proof. unfold table. rewrite nth_error_map. destruct (nth_error _ _); auto. Qed.
  Lemma table_set_link (w : lworld) f s lk lk' : is_link w f s lk -> shown lk' = shown lk -> table (set_link w f s lk') = table w.
  Proof.
    intros (fr & Hf & Hd) HS. unfold set_link. unfold is_frame in Hf. rewrite Hf. unfold table. simpl. eapply upd_map_same; eauto. simpl.
    unfold shown_links. eapply dset_map_same; eauto.
  Qed.
  Lemma table_compute refresh : forall names (w : lworld) f w' r, compute_list E w f refresh names = (w', r) -> table w' = table w.
  Proof.
    induction names as [|s names IH]; simpl; intros w f w' r H; [injection H as <- _; auto|].
    destruct (get_link w f s) as [lk|] eqn:El; [|injection H as <- _; auto]. destruct (orb _ _); [|eauto]. destruct (precompute E w lk) as [lk'|] eqn:Ep; [|injection H as <- _; auto].
    apply IH in H. apply get_link_is in El. rewrite H. eapply table_set_link; eauto. eapply shown_precompute; eauto.
  Qed.

  Lemma bare_set (w : lworld) f fr fr' : bare w -> is_frame w f fr -> (f_ldf fr' = false -> f_ldf fr = false /\ f_links fr' = f_links fr) -> bare (set_frame w f fr').
  Proof.
    intros HB Hf H h x Hx Hl. apply (set_frame_is _ _ _ _ _ _ Hf) in Hx. destruct (Nat.eqb_spec h f) as [->|N]; [subst x|eauto]. destruct (H Hl) as [A ->]. eauto.
  Qed.
  Lemma bare_add (w : lworld) fr : bare w -> (f_ldf fr = false -> f_links fr = []) -> bare (add_frame w fr).
  Proof. intros HB H h x Hx Hl. apply add_frame_is in Hx. destruct Hx as [Hx|[_ ->]]; eauto. Qed.
  Lemma bare_set_link (w : lworld) f s lk lk' : bare w -> is_link w f s lk -> bare (set_link w f s lk').
  Proof.
    intros HB (fr & Hf & Hd). unfold set_link. pose proof Hf as Hf'. unfold is_frame in Hf'. rewrite Hf'. eapply bare_set; eauto. simpl. intros Hl. rewrite (HB _ _ Hf Hl) in Hd. discriminate.
  Qed.
  Lemma bare_compute refresh : forall names (w : lworld) f w' r, bare w -> compute_list E w f refresh names = (w', r) -> bare w'.
  Proof.
    induction names as [|s names IH]; simpl; intros w f w' r HB H; [injection H as <- _; auto|].
    destruct (get_link w f s) as [lk|] eqn:El; [|injection H as <- _; auto]. destruct (orb _ _); [|eauto]. destruct (precompute E w lk) as [lk'|] eqn:Ep; [|injection H as <- _; auto].
    apply get_link_is in El. eapply IH; [|exact H]. eapply bare_set_link; eauto.
  Qed.
  Lemma bare_same (w w' : lworld) : same_data w w' -> bare w -> bare w'.
  Proof.
    intros HS HB f fr' Hf Hl. destruct (same_frame _ _ _ _ (same_sym _ _ HS) Hf) as (fr & Hf0 & HD). pose proof HD as HD'. apply drop_parts in HD'. destruct HD' as (HL & _).
    assert (H0 : f_links fr = []) by (apply (HB f); auto; congruence). unfold drop_caches, with_links in HD. injection HD as _ _ _ _ HD _ _. rewrite H0 in HD. simpl in HD.
    destruct (f_links fr'); [auto|discriminate].
  Qed.

  (** what the history says of every frame *)
  Record told (w : lworld) (cur : nat -> dict string established) : Prop := {
    told_bare : bare w;
    told_frames : forall f, nth_error (table w) f = if f <? length (lw_frames w) then Some (cur f) else None;
    told_none : forall f, length (lw_frames w) <= f -> cur f = []
  }.
  Lemma told_frame w cur f fr : told w cur -> is_frame w f fr -> shown_links (f_links fr) = cur f.
  Proof.
    intros [_ A _] Hf. specialize (A f). rewrite table_nth in A. unfold is_frame in Hf. rewrite Hf in A. assert (H : f < length (lw_frames w)) by (apply nth_error_Some; congruence).
    apply Nat.ltb_lt in H. rewrite H in A. congruence.
  Qed.
  Lemma told_keep w w' cur : told w cur -> bare w' -> table w' = table w -> told w' cur.
  Proof.
    intros [A B C] HB HT. assert (HL : length (lw_frames w') = length (lw_frames w)) by (apply (f_equal (@length _)) in HT; unfold table in HT; rewrite !map_length in HT; auto).
    constructor; auto; intros f; [rewrite HT, HL; auto|rewrite HL; auto].
  Qed.
  Lemma told_add w cur fr (ls : dict string established) : told w cur -> (f_ldf fr = false -> f_links fr = []) -> shown_links (f_links fr) = ls ->
    told (add_frame w fr) (fun h => if h =? length (lw_frames w) then ls else cur h).
  Proof.
    intros HT HF HL. pose proof HT as [A B C]. constructor.
    - apply bare_add; auto.
    - intros f. rewrite table_add, HL. simpl. rewrite app_length. simpl. assert (HN : length (table w) = length (lw_frames w)) by (unfold table; apply map_length).
      destruct (Nat.eqb_spec f (length (lw_frames w))) as [->|N].
      + rewrite nth_error_app2, HN, Nat.sub_diag by lia. simpl. destruct (Nat.ltb_spec (length (lw_frames w)) (length (lw_frames w) + 1)); [auto|lia].
      + destruct (Nat.ltb_spec f (length (lw_frames w) + 1)) as [H|H].
        * rewrite nth_error_app1 by lia. rewrite B. destruct (Nat.ltb_spec f (length (lw_frames w))); [auto|lia].
        * apply nth_error_None. rewrite app_length. simpl. lia.
    - simpl. rewrite app_length. simpl. intros f H. destruct (Nat.eqb_spec f (length (lw_frames w))); [lia|]. apply C. lia.
  Qed.
  Lemma told_ext w cur cur' : told w cur -> (forall h, cur' h = cur h) -> told w cur'.
  Proof. intros [A B C] H. constructor; auto; intros f; rewrite H; auto. Qed.

  Lemma mk_meta_side a rows m : mk_meta a rows = Ok m -> side_of m = (labels_of a, if given a then rows else true).
  Proof. unfold mk_meta. destruct a; intros H; try discriminate; injection H as <-; reflexivity. Qed.
  Lemma create_shown w f g sa sr oa orr pre lk : create E w f g sa sr oa orr pre = Ok lk ->
    shown lk = Established g (labels_of sa, if given sa then sr else true) (labels_of oa, if given oa then orr else true) (lk_agg lk).
  Proof.
    unfold create. intros H. destruct (get_frame w f); simpl in H; [|discriminate]. destruct (get_frame w g) as [f1|]; simpl in H; [|discriminate].
    destruct (mk_meta sa sr) as [sm|] eqn:E1; simpl in H; [|discriminate]. destruct (mk_meta oa orr) as [om|] eqn:E2; simpl in H; [|discriminate]. destruct (check _ _); simpl in H; [|discriminate].
    destruct (get_keys E _ _) in H; simpl in H; [|discriminate]. destruct (get_keys E _ _) in H; simpl in H; [|discriminate].
    destruct (if andb _ _ then _ else _) as [agg|] in H; simpl in H; [|discriminate]. apply mk_meta_side in E1, E2.
    assert (HS : forall lk0 : link, shown lk0 = Established g (side_of sm) (side_of om) agg -> shown lk = shown lk0 ->
      shown lk = Established g (labels_of sa, if given sa then sr else true) (labels_of oa, if given oa then orr else true) (lk_agg lk)).
    { intros lk0 X Y. rewrite X in Y. assert (Z : lk_agg lk = agg) by (unfold shown in Y; congruence). rewrite Y, Z, E1, E2. reflexivity. }
    apply (HS (Link f g sm om (f_ldf f1) agg None None None)); [reflexivity|]. destruct pre; [|injection H as <-; reflexivity].
    unfold make_indexer in H. simpl in H. destruct agg.
    - destruct (get_indexer _ _ _); simpl in H; [|discriminate]. injection H as <-. reflexivity.
    - match type of H with rbind ?x _ = _ => destruct x; simpl in H; [|discriminate] end. injection H as <-. reflexivity.
  Qed.
  Lemma resolve_side a s1 s2 o1 o2 : resolve_args a = Ok ((s1, s2), (o1, o2)) ->
    (labels_of s1, if given s1 then s2 else true) = documented_side (a_on a) (a_levels a) (a_on_self a) (a_self_levels a) /\
    (labels_of o1, if given o1 then o2 else true) = documented_side (a_on a) (a_levels a) (a_on_other a) (a_other_levels a).
  Proof.
    unfold resolve_args, documented_side. destruct a as [on lv os oo sl ol]; simpl. intros H.
    destruct on, lv, os, oo, sl, ol; simpl in H; try discriminate; injection H as <- <- <- <-; simpl; auto.
  Qed.

  (** the links of the frame that an operation starts from are those of the frame that it returns *)
  Lemma told_derived w cur f fr index cols links : told w cur -> is_frame w f fr -> shown_links links = shown_links (f_links fr) ->
    told (add_frame w (derived E fr index cols links)) (fun h => if h =? length (lw_frames w) then cur f else cur h).
  Proof.
    intros HT Hf HL. apply told_add; auto; simpl.
    - intros ->. auto.
    - destruct (f_ldf fr) eqn:Ef; [rewrite HL; eapply told_frame; eauto|]. rewrite <- (told_frame _ _ _ _ HT Hf). rewrite (told_bare _ _ HT _ _ Hf Ef). reflexivity.
  Qed.

  Lemma step_told fuel w o w' r cur : told w cur -> lstep E fuel w o = (w', r) -> told w' (outgoing_step cur (o, r)).
  Proof.
    intros HT H. destruct (is_read o) eqn:Eo.
    { destruct (read_P E (fun _ => True) ltac:(auto) fuel w o w' r Eo I H) as (_ & X). apply (told_ext _ cur).
      - eapply told_keep; [exact HT|eapply bare_same; eauto; apply HT|now apply table_same].
      - intros h. destruct o; try discriminate; destruct r as [[]|]; reflexivity. }
    assert (HE : forall (Ho : forall h, outgoing_step cur (o, r) h = cur h), w' = w -> told w' (outgoing_step cur (o, r))).
    { intros Ho ->. eapply told_ext; eauto. }
    assert (HK : forall rw f, source o = Some f -> (forall w1, rw = Ok w1 -> exists fr index cols links, is_frame w f fr /\ w1 = add_frame w (derived E fr index cols links) /\ shown_links links = shown_links (f_links fr)) ->
        keep_world w rw = (w', r) -> told w' (outgoing_step cur (o, r))).
    { intros rw f Hs Hr Hk. destruct rw as [w1|]; simpl in Hk; injection Hk as <- <-.
      - destruct (Hr _ eq_refl) as (fr & index & cols & links & Hf & -> & HL). eapply told_ext; [eapply told_derived; eauto|]. intros h.
        destruct o; try discriminate; injection Hs as ->; reflexivity.
      - apply HE; auto. intros h. destruct o; try discriminate; reflexivity. }
    assert (HX : forall f fr fr', (forall h, outgoing_step cur (o, r) h = cur h) -> is_frame w f fr -> f_links fr' = f_links fr -> f_ldf fr' = f_ldf fr -> told (set_frame w f fr') (outgoing_step cur (o, r))).
    { intros f fr fr' Ho Hf A B. apply (told_ext _ cur); auto. eapply told_keep; [exact HT| |eapply table_set; eauto]. apply (bare_set w f fr); [apply HT|exact Hf|rewrite B; auto]. }
    assert (HO : forall f k, (r = Err AttributeError -> forall h, outgoing_step cur (o, r) h = cur h) -> (forall fr, is_frame w f fr -> k fr = (w', r) -> told w' (outgoing_step cur (o, r))) ->
        on_frame w f k = (w', r) -> told w' (outgoing_step cur (o, r))).
    { intros f k Ho Hk Hf. unfold on_frame in Hf. destruct (get_frame w f) as [fr|e] eqn:Ef.
      - apply get_frame_is in Ef. eauto.
      - injection Hf as <- <-. apply HE; auto. unfold get_frame in Ef. destruct (nth_error _ _); [discriminate|]. injection Ef as <-. auto. }
    destruct o; try discriminate; cbn [lstep] in H.
    - destruct (frame_fits _ _ _); injection H as <- <-; [|apply HE; auto]. eapply told_ext; [apply (told_add w cur _ []); auto|]. intros h. simpl.
      destruct (Nat.eqb_spec h (length (lw_frames w))) as [->|]; auto. apply HT. lia.
    - unfold link_to in H. destruct (rbind _ _) as [lk|] eqn:Eb in H; injection H as <- <-; [|apply HE; auto].
      destruct (get_frame w f) as [fr|] eqn:Ef; simpl in Eb; [|discriminate]. destruct (f_ldf fr) eqn:El; simpl in Eb; [|discriminate].
      destruct (resolve_args a) as [[[s1 s2] [o1 o2]]|] eqn:Er; simpl in Eb; [|discriminate].
      apply create_shown in Eb. apply resolve_side in Er. destruct Er as [R1 R2]. rewrite R1, R2 in Eb. apply get_frame_is in Ef.
      unfold set_link. pose proof Ef as Ef'. unfold is_frame in Ef'. rewrite Ef'. simpl outgoing_step. pose proof HT as [A B C]. constructor.
      + eapply bare_set; eauto. simpl. rewrite El. discriminate.
      + intros h. rewrite table_nth. unfold set_frame. cbn [lw_frames]. rewrite upd_length. destruct (Nat.eqb_spec h f) as [->|N].
        * rewrite nth_error_upd_eq by (apply nth_error_Some; congruence). assert (X : f < length (lw_frames w)) by (apply nth_error_Some; congruence). apply Nat.ltb_lt in X. rewrite X. f_equal.
          simpl. rewrite shown_links_dset, Eb. f_equal. eapply told_frame; eauto.
        * rewrite nth_error_upd_neq by auto. rewrite <- B, table_nth. reflexivity.
      + unfold set_frame. cbn [lw_frames]. rewrite upd_length. intros h X. destruct (Nat.eqb_spec h f) as [->|N]; auto. exfalso. assert (f < length (lw_frames w)) by (apply nth_error_Some; congruence). lia.
    - revert H. apply HO; auto; [intros ->; auto|]. intros fr Hf H. destruct (_ =? _); injection H as <- <-; [eapply HX; eauto|apply HE; auto].
    - revert H. apply HO; auto; [intros ->; auto|]. intros fr Hf H. destruct (andb _ _); injection H as <- <-; [eapply HX; eauto|apply HE; auto].
    - revert H. apply (HK _ f); auto. intros w1 H. unfold take_frame in H. destruct (get_frame w f) as [fr|] eqn:Ef; simpl in H; [|discriminate]. apply get_frame_is in Ef.
      destruct (rows_at ps _); simpl in H; [|discriminate]. destruct (take_cols ps _); simpl in H; [|discriminate].
      destruct (copy_links _ _) as [links|] eqn:Ec; simpl in H; [|discriminate]. injection H as <-. eexists fr, _, _, links. split; [exact Ef|]. split; [reflexivity|]. eapply shown_links_copy; eauto.
    - revert H. apply (HK _ f); auto. intros w1 H. destruct (check _ _); simpl in H; [|discriminate]. unfold derive_frame in H.
      destruct (get_frame w f) as [fr|] eqn:Ef; simpl in H; [|discriminate]. apply get_frame_is in Ef.
      destruct (rows_at ps _); simpl in H; [|discriminate]. destruct (rmapl _ names); simpl in H; [|discriminate]. destruct (take_cols ps _); simpl in H; [|discriminate].
      injection H as <-. eexists fr, _, _, _. split; [exact Ef|]. split; [reflexivity|]. apply shown_links_meta.
    - revert H. apply (HK _ f); auto. intros w1 H. unfold group_frame in H. destruct (get_frame w f) as [fr|] eqn:Ef; simpl in H; [|discriminate]. apply get_frame_is in Ef.
      destruct (rows_at ps _); simpl in H; [|discriminate]. destruct (take_cols ps _); simpl in H; [|discriminate].
      destruct (if f_ldf fr then _ else _) as [links|] eqn:El in H; simpl in H; [|discriminate]. injection H as <-. eexists fr, _, _, links. split; [exact Ef|]. split; [reflexivity|].
      destruct (f_ldf fr) eqn:Ed; [|injection El as <-; rewrite (told_bare _ _ HT _ _ Ef Ed); reflexivity]. destruct (get_indexer _ _ _); simpl in El; [|discriminate]. eapply shown_links_copy; eauto.
    - revert H. apply HO; auto; [intros ->; auto|]. intros fr0 Hf. apply (HK _ f); auto. intros w1 H. destruct (check _ _); simpl in H; [|discriminate].
      unfold reindex_frame in H. destruct (get_frame w f) as [fr|] eqn:Ef; simpl in H; [|discriminate]. apply get_frame_is in Ef.
      destruct (index_equals _ _ _).
      + destruct (copy_links _ _) as [links|] eqn:Ec; simpl in H; [|discriminate]. injection H as <-. eexists fr, _, _, links. split; [exact Ef|]. split; [reflexivity|]. eapply shown_links_copy; eauto.
      + destruct (get_indexer _ _ _); simpl in H; [|discriminate]. destruct (rmapl _ _); simpl in H; [|discriminate].
        injection H as <-. eexists fr, _, _, _. split; [exact Ef|]. split; [reflexivity|]. apply shown_links_meta.
    - revert H. apply (HK _ f); auto. intros w1 H. unfold copy_frame in H. destruct (get_frame w f) as [fr|] eqn:Ef; simpl in H; [|discriminate]. apply get_frame_is in Ef.
      destruct (copy_links _ _) as [links|] eqn:Ec; simpl in H; [|discriminate]. injection H as <-. eexists fr, _, _, links. split; [exact Ef|]. split; [reflexivity|]. eapply shown_links_copy; eauto.
    - revert H. apply HO; auto; [intros ->; auto|]. intros fr Hf H. destruct (f_ldf fr); [|injection H as <- <-; apply HE; auto].
      unfold compute_indexers in H. apply get_frame_is in Hf. rewrite Hf in H.
      destruct (compute_list E w f refresh (dkeys (f_links fr))) as [w1 r1] eqn:Ec.
      assert (X : told w1 cur) by (eapply told_keep; [exact HT|eapply bare_compute; eauto; apply HT|eapply table_compute; eauto]).
      destruct r1; injection H as <- <-; auto.
    - revert H. apply HO; auto; [intros ->; auto|]. intros fr Hf H. destruct (negb _); [injection H as <- <-; apply HE; auto|].
      destruct (dmem _ _ _); injection H as <- <-; [eapply HX; eauto|apply HE; auto].
    - revert H. apply HO; auto; [intros ->; auto|]. intros fr Hf H. destruct (negb _); [injection H as <- <-; apply HE; auto|].
      destruct (set_fills _ _) as [m r1]. injection H as <- <-. eapply HX; eauto. destruct r1; reflexivity.
    - revert H. apply HO; auto; [intros ->; auto|]. intros fr Hf H. destruct (f_ldf fr) eqn:El; injection H as <- <-; [eapply HX; eauto|apply HE; auto].
    - destruct (set_fills _ _) as [m r1]. injection H as <- <-. apply (told_ext _ cur); [|intros h; destruct r1; reflexivity].
      destruct HT as [A B C]. constructor; auto.
    - injection H as <- <-. destruct HT as [A B C]. constructor; auto.
  Qed.

  Lemma after_told fuel os : told (after E fuel os) (outgoing (trace E fuel os)).
  Proof.
    induction os as [|o os IH] using rev_ind.
    - constructor; auto; intros [|f]; try reflexivity; intros fr H; discriminate.
    - rewrite after_one, trace_snoc. unfold outgoing. rewrite fold_left_app. simpl. eapply step_told; [exact IH|]. apply surjective_pairing.
  Qed.

  (** the target that is shown for a name is the one that the last successful [link_to] with this name was given *)
  Theorem C97_targets_are_those_of_the_last_link_to fuel os f fr name :
    let w := after E fuel os in
    is_frame w f fr -> f_ldf fr = true ->
    get_link_target w f name = match dget String.eqb (outgoing (trace E fuel os) f) name with Some e => Ok (es_target e) | None => Err KeyError end.
  Proof.
    intros w Hf Hl. pose proof (told_frame _ _ _ _ (after_told fuel os) Hf) as HT. unfold get_link_target, get_link. pose proof Hf as Hf'. apply get_frame_is in Hf'. rewrite Hf'. cbn [rbind]. rewrite Hl.
    cbn [rbind check]. rewrite <- HT. unfold shown_links. rewrite dget_map. destruct (dget String.eqb (f_links fr) name); reflexivity.
  Qed.

  Definition faithful (k : list bool) (lk : link) : Prop := nth_error k (lk_other lk) = Some (lk_chained lk).
  Lemma faithful_meta k lk lk' : copy_meta lk' = copy_meta lk -> faithful k lk -> faithful k lk'.
  Proof. unfold copy_meta, faithful. intros H. injection H as _ -> _ _ -> _. auto. Qed.
  Lemma faithful_links fuel os : all_links (faithful (kinds (after E fuel os))) (after E fuel os).
  Proof.
    apply (all_after E faithful true true).
    - unfold faithful. intros n b lk H. rewrite nth_error_app1; auto. apply nth_error_Some. congruence.
    - intros w f g sa sr oa orr pre lk H. unfold create in H. destruct (get_frame w f) eqn:Ef; simpl in H; [|discriminate]. destruct (get_frame w g) as [gr|] eqn:Eg; simpl in H; [|discriminate].
      destruct (mk_meta sa sr); simpl in H; [|discriminate]. destruct (mk_meta oa orr); simpl in H; [|discriminate]. destruct (check _ _); simpl in H; [|discriminate].
      destruct (get_keys E _ _) in H; simpl in H; [|discriminate]. destruct (get_keys E _ _) in H; simpl in H; [|discriminate].
      destruct (if andb _ _ then _ else _) as [agg|] in H; simpl in H; [|discriminate]. apply get_frame_is in Eg. unfold is_frame in Eg.
      assert (X : lk_other lk = g /\ lk_chained lk = f_ldf gr).
      { destruct pre; [|injection H as <-; auto]. unfold make_indexer in H. simpl in H. destruct agg;
        match type of H with rbind ?x _ = _ => destruct x; simpl in H; [|discriminate] end; injection H as <-; auto. }
      unfold faithful, kinds. destruct X as [-> ->]. rewrite nth_error_map, Eg. reflexivity.
    - auto.
    - intros n ix lk lk' H Hc. unfold copy_link in Hc. match type of Hc with rbind ?x _ = _ => destruct x; simpl in Hc; [|discriminate] end. injection Hc as <-. exact H.
    - intros n w lk lk' H _ Hp. unfold faithful in *. pose proof (shown_precompute _ _ _ Hp) as X. unfold shown in X. injection X as X1 _ _ _ _ _. rewrite X1. rewrite H. f_equal. symmetry.
      unfold precompute in Hp. destruct (get_frame w (lk_owner lk)); simpl in Hp; [|discriminate]. destruct (get_keys _ _ _); simpl in Hp; [|discriminate].
      destruct (get_frame w (lk_other lk)); simpl in Hp; [|discriminate]. destruct (get_keys _ _ _); simpl in Hp; [|discriminate]. unfold make_indexer in Hp. destruct (lk_agg lk).
      + destruct (factorize _ _). destruct (get_indexer _ _ _); simpl in Hp; [|discriminate]. injection Hp as <-. reflexivity.
      + match type of Hp with rbind ?x _ = _ => destruct x; simpl in Hp; [|discriminate] end. injection Hp as <-. reflexivity.
    - intros _ n lk flat H _. exact H.
    - intros o _. split; auto.
  Qed.

  Lemma summary_rows (w : lworld) : forall ls,
    (forall s lk, In (s, lk) ls -> exists gr, is_frame w (lk_other lk) gr /\ lk_chained lk = f_ldf gr) ->
    exists rows, rmapl (fun p : string * link => let (name, lk) := p in
      do gr <- get_frame w (lk_other lk);
      Ok (SummaryRow name (nrows gr, length (f_cols gr)) (lk_self lk) (lk_target lk) (lk_chained lk) (lk_agg lk)
                     (match lk_flat lk with Some _ => true | None => false end))) ls = Ok rows /\
      Forall2 (describes w) rows (shown_links ls) /\
      Forall2 (fun r p => sr_preindexed r = match lk_flat (snd p) with Some _ => true | None => false end) rows ls.
  Proof.
    induction ls as [|[s lk] ls IH]; intros H; [exists []; split; [reflexivity|split; constructor]|]. destruct IH as (rows & R1 & R2 & R3); [intros; eapply H; right; eauto|].
    destruct (H s lk (or_introl eq_refl)) as (gr & Hg & Hc). pose proof Hg as Hg'. apply get_frame_is in Hg'. cbn [rmapl]. rewrite Hg'. cbn [rbind]. rewrite R1. cbn [rbind].
    eexists. split; [reflexivity|]. split; [|constructor; auto]. simpl. constructor; auto. unfold describes. simpl. repeat (split; [reflexivity|]). exists gr. auto.
  Qed.

  Lemma outgoing_nodup (tr : list (@lop L V * res (@lout V))) f : NoDup (dkeys (outgoing tr f)).
  Proof.
    unfold outgoing. assert (H : forall tr cur, (forall f, NoDup (dkeys (cur f))) -> forall f, NoDup (dkeys (fold_left (@outgoing_step L V) tr cur f))).
    { intros t. induction t as [|[o r] t IH]; intros cur HC; auto. cbn [fold_left]. apply IH. intros h.
      assert (HS : forall k, NoDup (dkeys (match source o with Some f0 => fun h => if h =? k then cur f0 else cur h | None => cur end h))) by (intros k; destruct (source o); auto; destruct (h =? k); auto).
      destruct o; simpl in *; destruct r as [[]|]; auto; try (destruct (h =? f0); auto). apply dset_keys_nodup; auto using sspec. }
    apply H. intros; constructor.
  Qed.
  (** a summary has one row for each link, in the order in which the names were first used *)
  Theorem C97_the_summary_lists_the_links fuel os f fr :
    let w := after E fuel os in
    is_frame w f fr -> f_ldf fr = true ->
    exists rows, link_summary w f = Ok rows /\ Forall2 (describes w) rows (outgoing (trace E fuel os) f).
  Proof.
    intros w Hf Hl. pose proof (told_frame _ _ _ _ (after_told fuel os) Hf) as HT. pose proof (outgoing_nodup (trace E fuel os) f) as HN. rewrite <- HT in *.
    unfold shown_links in HN. rewrite dkeys_map in HN.
    destruct (summary_rows w (f_links fr)) as (rows & R1 & R2 & _).
    - intros s lk Hin. apply (in_dget String.eqb sspec _ _ _ HN) in Hin. assert (HL : is_link w f s lk) by (exists fr; auto). apply faithful_links in HL. unfold faithful, kinds in HL.
      rewrite nth_error_map in HL. fold w in HL. destruct (nth_error (lw_frames w) (lk_other lk)) as [gr|] eqn:Eg; simpl in HL; [|discriminate]. exists gr. split; auto. congruence.
    - exists rows. split; auto. unfold link_summary. pose proof Hf as Hf'. apply get_frame_is in Hf'. rewrite Hf'. cbn [rbind]. rewrite Hl. exact R1.
  Qed.
  (** [preindexed] right after [link_to]: whether precomputing was asked for *)
  Theorem C97_new_links_are_preindexed_on_demand fuel os f g name a pre b w' rows r :
    lstep E fuel (after E fuel os) (LLink f g name a pre) = (w', Ok (RAgg b)) ->
    link_summary w' f = Ok rows -> In r rows -> sr_name r = name -> sr_preindexed r = pre.
  Proof.
    intros H HS Hin Hn. assert (HW : w' = after E fuel (os ++ [LLink f g name a pre])) by (rewrite after_one, H; reflexivity).
    assert (HL : exists lk, is_link w' f name lk /\ match lk_flat lk with Some _ => true | None => false end = pre).
    { cbn [lstep] in H. unfold link_to in H. destruct (rbind _ _) as [lk|] eqn:Eb in H; [|discriminate]. injection H as HW' _.
      destruct (get_frame (after E fuel os) f) as [fr|] eqn:Ef; simpl in Eb; [|discriminate]. destruct (check _ _); simpl in Eb; [|discriminate].
      destruct (resolve_args a) as [[[s1 s2] [o1 o2]]|] eqn:Er; simpl in Eb; [|discriminate]. apply get_frame_is in Ef. exists lk. split.
      - exists (with_links fr (dset String.eqb (f_links fr) name lk)). unfold set_link in HW'. pose proof Ef as Ef'. unfold is_frame in Ef'. rewrite Ef' in HW'. split.
        + rewrite <- HW'. apply (set_frame_is _ _ _ _ _ _ Ef). rewrite Nat.eqb_refl. reflexivity.
        + simpl. rewrite (dget_dset _ sspec), String.eqb_refl. reflexivity.
      - unfold create in Eb. destruct (get_frame _ f) in Eb; simpl in Eb; [|discriminate]. destruct (get_frame _ g) in Eb; simpl in Eb; [|discriminate].
        destruct (mk_meta s1 s2); simpl in Eb; [|discriminate]. destruct (mk_meta o1 o2); simpl in Eb; [|discriminate]. destruct (check _ _); simpl in Eb; [|discriminate].
        destruct (get_keys E _ _) in Eb; simpl in Eb; [|discriminate]. destruct (get_keys E _ _) in Eb; simpl in Eb; [|discriminate].
        destruct (if andb _ _ then _ else _) as [agg|] in Eb; simpl in Eb; [|discriminate]. destruct pre; [|injection Eb as <-; reflexivity].
        apply make_flat in Eb. destruct (lk_flat lk); congruence. }
    destruct HL as (lk & (fr & Hf & Hd) & HP). unfold link_summary in HS. pose proof Hf as Hf'. apply get_frame_is in Hf'. rewrite Hf' in HS. cbn [rbind] in HS. destruct (check _ _); cbn [rbind] in HS; [|discriminate].
    assert (HN : NoDup (dkeys (f_links fr))).
    { pose proof (after_told fuel (os ++ [LLink f g name a pre])) as HT. rewrite <- HW in HT. apply (told_frame _ _ f fr) in HT; auto.
      pose proof (outgoing_nodup (trace E fuel (os ++ [LLink f g name a pre])) f) as X. rewrite <- HT in X. unfold shown_links in X. now rewrite dkeys_map in X. }
    clear Hf' Hf HW H. assert (HI : exists lk', In (name, lk') (f_links fr) /\ sr_preindexed r = match lk_flat lk' with Some _ => true | None => false end).
    { clear Hd HN. revert rows HS Hin. induction (f_links fr) as [|[s l] ls IH]; simpl; intros rows HS Hin; [injection HS as <-; contradiction|].
      destruct (get_frame w' (lk_other l)); simpl in HS; [|discriminate]. destruct (rmapl _ ls) as [t|]; simpl in HS; [|discriminate]. injection HS as <-. destruct Hin as [<-|Hin].
      - simpl in *. subst s. exists l. auto.
      - destruct (IH t eq_refl Hin) as (lk' & A & B). exists lk'. auto. }
    destruct HI as (lk' & A & B). apply (in_dget String.eqb sspec _ _ _ HN) in A. rewrite A in Hd. injection Hd as ->. congruence.
  Qed.

  Lemma compute_keeps refresh f : forall names (w w' : lworld) r s, compute_list E w f refresh names = (w', r) ->
    (forall lk, is_link w f s lk -> lk_flat lk <> None) -> forall lk, is_link w' f s lk -> lk_flat lk <> None.
  Proof.
    induction names as [|n names IH]; simpl; intros w w' r s H HS; [injection H as <- _; auto|].
    destruct (get_link w f n) as [lk0|] eqn:El; [|injection H as <- _; auto]. destruct (orb _ _); [|eauto]. destruct (precompute E w lk0) as [lk'|] eqn:Ep; [|injection H as <- _; auto].
    apply get_link_is in El. destruct El as (fr & Hf & Hd). eapply IH; [exact H|]. intros lk (x & Hx & Hk). unfold set_link in Hx. pose proof Hf as Hf'. unfold is_frame in Hf'. rewrite Hf' in Hx.
    apply (set_frame_is _ _ _ _ _ _ Hf) in Hx. rewrite Nat.eqb_refl in Hx. subst x. simpl in Hk. rewrite (dget_dset _ sspec) in Hk. destruct (String.eqb s n); [|apply HS; exists fr; auto].
    injection Hk as <-. eapply pre_flat; eauto.
  Qed.
  Lemma compute_fills refresh f : forall names (w w' : lworld) s, compute_list E w f refresh names = (w', Ok tt) -> In s names -> forall lk, is_link w' f s lk -> lk_flat lk <> None.
  Proof.
    induction names as [|n names IH]; simpl; intros w w' s H HI; [contradiction|]. destruct (get_link w f n) as [lk0|] eqn:El; [|discriminate]. apply get_link_is in El.
    destruct (orb _ _) eqn:Eo.
    - destruct (precompute E w lk0) as [lk'|] eqn:Ep; [|discriminate]. destruct HI as [<-|HI]; [|eauto]. eapply compute_keeps; [exact H|]. intros lk Hk.
      destruct El as (fr & Hf & Hd). destruct Hk as (x & Hx & Hk). unfold set_link in Hx. pose proof Hf as Hf'. unfold is_frame in Hf'. rewrite Hf' in Hx.
      apply (set_frame_is _ _ _ _ _ _ Hf) in Hx. rewrite Nat.eqb_refl in Hx. subst x. simpl in Hk. rewrite (dget_dset _ sspec), String.eqb_refl in Hk. injection Hk as <-. eapply pre_flat; eauto.
    - destruct HI as [<-|HI]; [|eauto]. eapply compute_keeps; [exact H|]. intros lk Hk. pose proof (is_link_unique _ _ _ _ _ Hk El) as ->. destruct (lk_flat lk0); [discriminate|]. rewrite orb_true_r in Eo. discriminate.
  Qed.
  (** after [compute_indexers] every link of the frame is *)
  Theorem C97_compute_indexers_leaves_all_preindexed fuel os f refresh w' rows :
    lstep E fuel (after E fuel os) (LCompute f refresh) = (w', Ok RNone) ->
    link_summary w' f = Ok rows -> Forall (fun r => sr_preindexed r = true) rows.
  Proof.
    intros H HS. assert (HW : w' = after E fuel (os ++ [LCompute f refresh])) by (rewrite after_one, H; reflexivity).
    cbn [lstep] in H. unfold on_frame in H. destruct (get_frame (after E fuel os) f) as [fr0|] eqn:Ef; [|discriminate]. destruct (f_ldf fr0); [|discriminate].
    unfold compute_indexers in H. rewrite Ef in H. destruct (compute_list _ _ _ _ _) as [w1 [[]|]] eqn:Ec; [|discriminate]. injection H as ->.
    pose proof (table_compute _ _ _ _ _ _ Ec) as HT. unfold link_summary in HS. destruct (get_frame w' f) as [fr|] eqn:Ef'; simpl in HS; [|discriminate].
    destruct (check _ _); simpl in HS; [|discriminate]. apply get_frame_is in Ef, Ef'.
    assert (HK : dkeys (f_links fr) = dkeys (f_links fr0)).
    { pose proof (f_equal (fun t => nth_error t f) HT) as X. simpl in X. rewrite !table_nth in X. unfold is_frame in Ef, Ef'. rewrite Ef, Ef' in X. injection X as X.
      apply (f_equal (@dkeys _ _)) in X. unfold shown_links in X. now rewrite !dkeys_map in X. }
    assert (HN : NoDup (dkeys (f_links fr))).
    { pose proof (after_told fuel (os ++ [LCompute f refresh])) as T. rewrite <- HW in T. apply (told_frame _ _ f fr) in T; auto.
      pose proof (outgoing_nodup (trace E fuel (os ++ [LCompute f refresh])) f) as X. rewrite <- T in X. unfold shown_links in X. now rewrite dkeys_map in X. }
    assert (HA : forall s lk, In (s, lk) (f_links fr) -> lk_flat lk <> None).
    { intros s lk Hin. apply (compute_fills refresh f _ _ _ s Ec); [rewrite <- HK; unfold dkeys; apply (in_map fst) in Hin; exact Hin|]. exists fr. split; auto. apply in_dget; auto using sspec. }
    clear - HS HA. revert rows HS. induction (f_links fr) as [|[s l] ls IH]; simpl; intros rows HS; [injection HS as <-; constructor|].
    destruct (get_frame w' (lk_other l)); simpl in HS; [|discriminate]. destruct (rmapl _ ls) as [t|]; simpl in HS; [|discriminate]. injection HS as <-. constructor.
    - simpl. specialize (HA s l (or_introl eq_refl)). destruct (lk_flat l); congruence.
    - apply IH; auto. intros. eapply HA. right. eauto.
  Qed.
End Links.

Section Pivot.
  Context {L V T : Type} (E : venv L V) (pandas : dict string (@item V) -> list (option string) -> list (list V) -> pitem -> pitem -> pitem -> res T).
  Notation lworld := (@lworld V).

  Lemma read_after fuel os reads : Forall (fun r : @lop L V => is_read r = true) reads -> forall w, w = after E fuel (os ++ reads) ->
    forall f text, snd (evaluate E fuel w f (XText text) []) = snd (evaluate E fuel (after E fuel os) f (XText text) []).
  Proof.
    intros HF w -> f text. destruct (C77_reads_do_not_change_reads E fuel os reads (LEval f text []) HF eq_refl) as [H _]. cbn [lstep] in H.
    destruct (evaluate E fuel (after E fuel (os ++ reads)) f (XText text) []) as [u1 [c1|x1]], (evaluate E fuel (after E fuel os) f (XText text) []) as [u2 [c2|x2]]; simpl in *; congruence.
  Qed.

  (** the state after some reads *)
  Definition later (fuel : nat) (os : list (@lop L V)) (w : lworld) : Prop := exists reads, Forall (fun r => is_read r = true) reads /\ w = after E fuel (os ++ reads).
  Lemma later_frame fuel os w f fr : later fuel os w -> is_frame (after E fuel os) f fr -> exists fr', is_frame w f fr' /\ drop_caches fr' = drop_caches fr.
  Proof.
    intros (reads & HF & ->) Hf. destruct (C77_reads_do_not_change_reads E fuel os reads (LRead 0 []) HF eq_refl) as [_ HS]. destruct (same_frame _ _ _ _ HS Hf) as (x & A & B). eauto.
  Qed.
  Lemma later_eval fuel os w f s w1 r : later fuel os w -> evaluate E fuel w f (XText s) [] = (w1, r) ->
    later fuel os w1 /\ snd (lstep E fuel (after E fuel os) (LEval f s [])) = match r with Ok c => Ok (RCol c) | Err x => Err x end.
  Proof.
    intros (reads & HF & HW) H. split.
    - exists (reads ++ [LEval f s []]). split; [apply Forall_app; split; auto|]. rewrite app_assoc, after_one, <- HW. cbn [lstep]. rewrite H. destruct r; reflexivity.
    - pose proof (read_after fuel os reads HF w HW f s) as X. rewrite H in X. simpl in X. cbn [lstep]. destruct (evaluate E fuel (after E fuel os) f (XText s) []) as [u2 r2]. simpl in X. subst r2. destruct r; reflexivity.
  Qed.

  Definition names_of (i : pitem) : list string := match i with PStr s => [s] | PTuple l | PList l => l | PNone | PArray => [] end.
  Definition covers (fuel : nat) (os : list (@lop L V)) (f : nat) (cols : dict string (@item V)) (names : list string) : Prop :=
    (forall s it, dget String.eqb cols s = Some it -> In s names) /\
    forall s, In s names -> exists c, provides E fuel (after E fuel os) f s c /\ dget String.eqb cols s = Some (ISeries c).
  Lemma provides_fun fuel w f s c c' : provides E fuel w f s c -> provides E fuel w f s c' -> c = c'.
  Proof. intros (fr & Hf & H) (fr' & Hf' & H'). unfold is_frame in *. assert (fr' = fr) by congruence. subst fr'. destruct (dget String.eqb (f_cols fr) s); [destruct H as [<- _], H' as [<- _]; reflexivity|congruence]. Qed.
  Lemma covers_set fuel os f cols names s c : covers fuel os f cols names -> provides E fuel (after E fuel os) f s c -> covers fuel os f (dset String.eqb cols s (ISeries c)) (names ++ [s]).
  Proof.
    intros [A B] HP. split.
    - intros n it. rewrite (dget_dset _ sspec). rewrite in_app_iff. simpl. destruct (String.eqb_spec n s); [subst; auto|]. intros H. left. eauto.
    - intros n. rewrite in_app_iff. simpl. rewrite (dget_dset _ sspec). destruct (String.eqb_spec n s) as [->|N]; [intros _; exists c; auto|]. intros [H|[H|[]]]; [auto|congruence].
  Qed.

  Lemma resolve_column fuel os f fr w i cols names : is_frame (after E fuel os) f fr -> f_ldf fr = true -> later fuel os w -> covers fuel os f cols names ->
    (forall s, i <> PList s) -> (forall s, i <> PTuple s) ->
    (forall s, In s (names_of i) -> exists c, provides E fuel (after E fuel os) f s c) ->
    exists w' cols', resolve_columns E fuel w f i cols = (w', Ok cols') /\ later fuel os w' /\ covers fuel os f cols' (names ++ names_of i).
  Proof.
    intros Hf Hl HW HC N1 N2 HP. destruct i as [|s|l|l|]; try (now destruct (N1 l)); try (now destruct (N2 l)); simpl; try (exists w, cols; rewrite app_nil_r; now auto).
    destruct (HP s (or_introl eq_refl)) as (c & HPc). destruct (later_frame _ _ _ _ _ HW Hf) as (fr' & Hf' & HD). pose proof (drop_parts _ _ HD) as (_ & HCo & _).
    pose proof Hf' as Hg. apply get_frame_is in Hg. rewrite Hg. destruct (HPc) as (fr0 & Hf0 & Hs). assert (fr0 = fr) by (unfold is_frame in *; congruence). subst fr0.
    rewrite HCo. unfold dmem. destruct (dget String.eqb (f_cols fr) s) as [c0|] eqn:Ec.
    - destruct Hs as [Hs Hs']. unfold frame_item. rewrite Hg. cbn [rbind]. pose proof (drop_link _ _ s HD) as HLk. rewrite Hs' in HLk. destruct (dget String.eqb (f_links fr') s); [contradiction|].
      unfold get_column. rewrite HCo, Ec. cbn [rbind]. eexists _, _. split; [reflexivity|]. split; auto. rewrite Hs in *. apply covers_set; auto.
    - destruct (evaluate E fuel w f (XText s) []) as [w1 r] eqn:Ee. destruct (later_eval _ _ _ _ _ _ _ HW Ee) as [A B]. rewrite Hs in B. destruct r as [c1|]; [|discriminate]. injection B as <-.
      eexists _, _. split; [reflexivity|]. split; auto. apply covers_set; auto.
  Qed.

  (** a pivot table is the one that pandas makes from a plain frame with the columns that were named *)
  Theorem C98_pivots_of_names_partial fuel os f fr values index columns :
    let w := after E fuel os in
    is_frame w f fr -> f_ldf fr = true ->
    (forall i, In i [values; index; columns] -> i = PNone \/ i = PArray \/ exists s, i = PStr s) ->
    (forall s, In (PStr s) [values; index; columns] -> exists c, provides E fuel w f s c) ->
    exists w' cols,
      pivot_table E pandas fuel w f values index columns = (w', pandas cols (f_levels fr) (f_index fr) values index columns) /\
      same_data w w' /\
      (forall s c, In (PStr s) [values; index; columns] -> provides E fuel w f s c -> dget String.eqb cols s = Some (ISeries c)) /\
      (forall s it, dget String.eqb cols s = Some it -> In (PStr s) [values; index; columns]).
  Proof.
    intros w Hf Hl HI HP. assert (W0 : later fuel os w) by (exists []; rewrite app_nil_r; auto).
    assert (C0 : covers fuel os f [] []) by (split; [discriminate|contradiction]).
    assert (HL : forall i, In i [values; index; columns] -> forall s, i <> PList s) by (intros i Hi s ->; destruct (HI _ Hi) as [X|[X|(? & X)]]; discriminate).
    assert (HT : forall i, In i [values; index; columns] -> forall s, i <> PTuple s) by (intros i Hi s ->; destruct (HI _ Hi) as [X|[X|(? & X)]]; discriminate).
    assert (HN : forall i s, In i [values; index; columns] -> In s (names_of i) <-> i = PStr s).
    { intros i s Hi. destruct (HI _ Hi) as [->|[->|(n & ->)]]; simpl; split; try discriminate; try contradiction; [intros [->|[]]; auto|intros X; injection X as ->; auto]. }
    assert (HQ : forall i, In i [values; index; columns] -> forall s, In s (names_of i) -> exists c, provides E fuel (after E fuel os) f s c) by (intros i Hi s Hs; apply HP; apply HN in Hs; [subst i|]; auto).
    assert (I1 : In values [values; index; columns]) by (simpl; auto). assert (I2 : In index [values; index; columns]) by (simpl; auto). assert (I3 : In columns [values; index; columns]) by (simpl; auto).
    destruct (resolve_column fuel os f fr w values [] [] Hf Hl W0 C0 (HL _ I1) (HT _ I1) (HQ _ I1)) as (w1 & c1 & R1 & W1 & C1).
    destruct (resolve_column fuel os f fr w1 index c1 _ Hf Hl W1 C1 (HL _ I2) (HT _ I2) (HQ _ I2)) as (w2 & c2 & R2 & W2 & C2).
    destruct (resolve_column fuel os f fr w2 columns c2 _ Hf Hl W2 C2 (HL _ I3) (HT _ I3) (HQ _ I3)) as (w3 & c3 & R3 & W3 & C3).
    exists w3, c3. unfold pivot_table. pose proof Hf as Hg. apply get_frame_is in Hg. fold w in R1. rewrite Hg. cbn [rbind]. rewrite Hl. cbn [check rbind]. rewrite R1, R2, R3.
    split; [reflexivity|]. split; [|split].
    - destruct W3 as (reads & HF & ->). destruct (C77_reads_do_not_change_reads E fuel os reads (LRead 0 []) HF eq_refl) as [_ HS]. exact HS.
    - intros s c Hs HPc. destruct C3 as [_ C3]. destruct (C3 s) as (c' & P' & D').
      + rewrite !in_app_iff. simpl in Hs. rewrite !HN by auto. tauto.
      + rewrite D'. now rewrite (provides_fun _ _ _ _ _ _ HPc P').
    - intros s it Hs. destruct C3 as [C3 _]. apply C3 in Hs. rewrite !in_app_iff, !HN in Hs by auto. simpl. destruct Hs as [[[[]|H]|H]|H]; auto.
  Qed.
  (** a list with a name in it is refused, whatever the names are *)
  Theorem C98_lists_of_names_raise fuel (w : lworld) f fr s l index columns :
    is_frame w f fr -> f_ldf fr = true -> pivot_table E pandas fuel w f (PList (s :: l)) index columns = (w, Err TypeError).
  Proof. intros Hf Hl. unfold pivot_table. apply get_frame_is in Hf. rewrite Hf. cbn [rbind]. rewrite Hl. reflexivity. Qed.
End Pivot.

Section Temporary.
  Context {V : Type}.
  Notation fills := (dtype -> V).
  Lemma dtype_spec a b : reflect (a = b) (dtype_eqb a b).
  Proof. destruct a, b; simpl; constructor; congruence. Qed.
  Lemma dtype_iff a b : dtype_eqb a b = true <-> a = b.
  Proof. destruct (dtype_spec a b); split; congruence. Qed.
  Lemma named_inj s s' d : dtype_named s = Some d -> dtype_named s' = Some d -> s = s'.
  Proof.
    assert (H : forall s, dtype_named s = Some d -> s = match d with DInt => "INT_NAME" | DUint => "UINT_NAME" | DFloat => "FLOAT_NAME" | DBool => "BOOL_NAME" | DText => "TEXT_NAME" | DObj => "OBJ_NAME" | DCat => "CAT_NAME" | DTime => "TIME_NAME" end).
    { unfold dtype_named. cbn [dget]. intros t X. repeat match type of X with context [String.eqb t ?y] => destruct (String.eqb_spec t y); [injection X as <-; assumption|] end. discriminate. }
    intros A B. rewrite (H _ A), (H _ B). reflexivity.
  Qed.
  Lemma restore_get : forall (p : dict dtype V) (m : fills) d, NoDup (dkeys p) -> restore m p d = match dget dtype_eqb p d with Some x => x | None => m d end.
  Proof.
    unfold restore. induction p as [|[k x] p IH]; intros m d HN; simpl; auto. inversion HN; subst. rewrite IH by auto. simpl.
    destruct (dtype_spec d k) as [->|N].
    - assert (HX : dget dtype_eqb p k = None). { destruct (dget dtype_eqb p k) as [y|] eqn:Ed; auto. exfalso. apply (dget_in dtype_eqb dtype_iff) in Ed. apply (in_map fst) in Ed. auto. }
      rewrite HX. destruct (dtype_spec k k); congruence.
    - destruct (dget dtype_eqb p d); auto. destruct (dtype_spec k d); congruence.
  Qed.
  Lemma temporary_spec : forall kw (m0 m : fills) previous m1 p1 r, NoDup (map fst kw) -> NoDup (dkeys previous) ->
    (forall s x d, In (s, x) kw -> dtype_named s = Some d -> dget dtype_eqb previous d = None) ->
    (forall d, match dget dtype_eqb previous d with Some x => x | None => m d end = m0 d) ->
    temporary_set m previous kw = (m1, p1, r) ->
    NoDup (dkeys p1) /\ forall d, match dget dtype_eqb p1 d with Some x => x | None => m1 d end = m0 d.
  Proof.
    induction kw as [|[s x] kw IH]; intros m0 m previous m1 p1 r HK HN HP HM H; cbn [temporary_set] in H; [injection H as <- <- _; auto|].
    destruct (dtype_named s) as [d|] eqn:Ed; [|injection H as <- <- _; auto]. inversion HK as [|? ? K1 K2]; subst. eapply IH; [exact K2| | | |exact H].
    - apply dset_keys_nodup; auto using dtype_iff.
    - intros s' x' d' Hin Hd'. rewrite (dget_dset _ dtype_iff). destruct (dtype_spec d' d) as [->|N]; [|eapply HP; [right; exact Hin|exact Hd']].
      exfalso. apply K1. rewrite (named_inj _ _ _ Ed Hd'). apply (in_map fst) in Hin. exact Hin.
    - intros d'. rewrite (dget_dset _ dtype_iff). specialize (HM d'). destruct (dtype_spec d' d) as [->|N].
      + rewrite (HP s x d (or_introl eq_refl) Ed) in HM. exact HM.
      + destruct (dtype_spec d d'); [congruence|]. exact HM.
  Qed.
  (** whatever the keyword arguments are, also unknown ones, nothing is left changed *)
  Theorem C99_nothing_is_left_changed (m : fills) kw d : NoDup (map fst kw) -> fst (temporary_fill_defaults m kw) d = m d.
  Proof.
    intros HK. unfold temporary_fill_defaults. destruct (temporary_set m [] kw) as [[m1 p1] r] eqn:Et.
    destruct (temporary_spec kw m m [] m1 p1 r HK (NoDup_nil _)) as [A B]; auto. simpl. rewrite restore_get by auto. apply B.
  Qed.
  Theorem C99_unknown_names_raise (m : fills) kw : (exists s x, In (s, x) kw /\ dtype_named s = None) <-> snd (temporary_fill_defaults m kw) = Err KeyError.
  Proof.
    unfold temporary_fill_defaults. assert (H : forall kw (m : fills) p, (exists s x, In (s, x) kw /\ dtype_named s = None) <-> snd (temporary_set m p kw) = Err KeyError).
    { intros k. induction k as [|[s x] k IH]; intros m0 p; simpl; [split; [intros (? & ? & [] & _)|discriminate]|]. destruct (dtype_named s) as [d|] eqn:Ed.
      - rewrite <- IH. split; intros (s' & x' & A & B); [destruct A as [A|A]; [injection A as <- <-; congruence|]|]; eauto.
      - simpl. split; auto. intros _. exists s, x. auto. }
    rewrite (H kw m []). destruct (temporary_set m [] kw) as [[m1 p1] r]. reflexivity.
  Qed.
  (** and the block is never run, so that no read in it sees the temporary values *)
  Theorem C99_the_block_is_not_run_refuted {B : Type} (w : @lworld V) f (m : fills) kw (body : @lworld V -> @lworld V * res B) (mbody : fills -> fills * res B) :
    with_frame w f kw body = (w, Err AttributeError) /\ (forall r, snd (with_manager m kw mbody) <> Ok r).
  Proof.
    split; [reflexivity|]. intros r. unfold with_manager. destruct (temporary_fill_defaults m kw) as [m1 [|]]; simpl; discriminate.
  Qed.
End Temporary.

(** a frame with two links, one of them given a new meaning and copied with the rows *)
Definition relinked : list lop0 := persons_households_zones ++ [ LTake 1 [0; 2]; LLink 1 0 "home" (LArgs ANone ANone ANone (AStr "hh") ANone ANone) false; LLink 1 7 "home" on_index true ].
Example C97_applies :
  let w := w0 relinked in let tr := trace env0 3 relinked in
  is_frame w 1 (nth 1 (lw_frames w) (Frame false [] [] [] [] (fun _ => None) [])) /\
  outgoing tr 1 = [("home", Established 0 (None, true) (Some [LName "hh"], false) true); ("members", Established 0 (None, true) (Some [LName "hh"], false) true)] /\
  outgoing tr 3 = [("home", Established 2 (Some [LName "zone"], false) (None, true) false); ("members", Established 0 (None, true) (Some [LName "hh"], false) true)] /\
  get_link_target w 1 "home" = Ok 0 /\ get_link_target w 3 "home" = Ok 2 /\ get_link_target w 3 "zone" = Err KeyError /\
  link_summary w 3 = Ok [SummaryRow "home" (2, 1) (Meta (Some [LName "zone"]) false) (Meta None true) false false false;
                         SummaryRow "members" (4, 2) (Meta None true) (Meta (Some [LName "hh"]) false) true true true].
Proof. vm_compute. repeat split. Qed.
Example C97_compute_applies : let w := w0 relinked in
  exists w', lstep env0 3 w (LCompute 1 false) = (w', Ok RNone) /\ option_map (map sr_preindexed) (match link_summary w' 1 with Ok l => Some l | _ => None end) = Some [true; true] /\
  option_map (map sr_preindexed) (match link_summary w 1 with Ok l => Some l | _ => None end) = Some [false; true].
Proof. eexists. split; [vm_compute; reflexivity|]. vm_compute. auto. Qed.

(** "items may be lists": false *)
Definition pandas0 (cols : dict string (@item cell)) (_ : list (option string)) (_ : list (list cell)) (_ _ _ : pitem) : res (list string) := Ok (dkeys cols).
Theorem C98_lists_refuted :
  let w := w0 persons_households_zones in
  snd (pivot_table env0 pandas0 3 w 0 (PStr "age") (PStr "hh") PNone) = Ok ["age"; "hh"] /\
  snd (pivot_table env0 pandas0 3 w 0 (PList ["age"]) (PStr "hh") PNone) = Err TypeError.
Proof. vm_compute. auto. Qed.
Example C98_applies : let w := w0 persons_households_zones in
  provides env0 3 w 0 "age" (ints [30; 40; 5; 70]%Z) /\ provides env0 3 w 0 "1" (DInt, repeat (i 1%Z) 4).
Proof. split; eexists; (split; [reflexivity|vm_compute; auto]). Qed.
Example C99_applies : NoDup (map fst [("INT_NAME", 1%Z); ("int", 2%Z)]) /\ snd (temporary_fill_defaults (fun _ => 0%Z) [("INT_NAME", 1%Z); ("int", 2%Z)]) = Err KeyError /\
  snd (temporary_fill_defaults (fun _ => 0%Z) [("INT_NAME", 1%Z); ("FLOAT_NAME", 2%Z)]) = Ok tt.
Proof. repeat split; auto. repeat constructor; simpl; intuition congruence. Qed.
