(** Properties C70 (precedence of fill values) and C71 (class defaults and new frames). *)
From Verif Require Import Prelude DictProofs ExprModel ScopeModel ScopeProofs LdfModel SpecLdf SpecFill LdfProofs LdfKeys LdfReads LdfInv LdfGood LdfLookup LdfExample PropLookup PropReads.
Local Open Scope string_scope.
Local Open Scope nat_scope.
Local Open Scope list_scope.

Section Fills.
  Context {L V : Type} (E : venv L V).
  Notation frame := (@frame V).
  Notation lworld := (@lworld V).
  Notation fills := (dtype -> V).

  Definition settings (w : lworld) : list (fills * dict string V) := map (fun fr => (f_fill fr, f_colfill fr)) (lw_frames w).

  Lemma settings_set (w : lworld) f fr fr' : is_frame w f fr -> f_fill fr' = f_fill fr -> f_colfill fr' = f_colfill fr -> settings (set_frame w f fr') = settings w.
  Proof. intros Hf H1 H2. unfold settings. simpl. eapply upd_map_same; eauto. simpl. congruence. Qed.
  Lemma settings_set_link (w : lworld) f s lk : settings (set_link w f s lk) = settings w.
  Proof. unfold set_link. destruct (nth_error (lw_frames w) f) as [fr|] eqn:Ef; auto. eapply settings_set; eauto. Qed.
  Lemma class_set_link (w : lworld) f s lk : lw_class (set_link w f s lk) = lw_class w.
  Proof. unfold set_link. destruct (nth_error (lw_frames w) f) as [fr|] eqn:Ef; auto. Qed.
  Lemma settings_same (w w' : lworld) : same_data w w' -> settings w' = settings w /\ lw_class w' = lw_class w.
  Proof.
    intros [A B]. split; auto. unfold settings. apply (f_equal (map (fun fr => (f_fill fr, f_colfill fr)))) in A. rewrite !map_map in A. simpl in A. auto.
  Qed.
  Lemma settings_add (w : lworld) fr : settings (add_frame w fr) = settings w ++ [(f_fill fr, f_colfill fr)].
  Proof. unfold settings. simpl. now rewrite map_app. Qed.
  Lemma settings_compute refresh : forall names (w : lworld) f w' r, compute_list E w f refresh names = (w', r) -> settings w' = settings w /\ lw_class w' = lw_class w.
  Proof.
    induction names as [|s names IH]; simpl; intros w f w' r H; [injection H as <- _; auto|].
    destruct (get_link w f s) as [lk|]; [|injection H as <- _; auto]. destruct (orb _ _); [|eauto]. destruct (precompute E w lk) as [lk'|]; [|injection H as <- _; auto].
    apply IH in H. rewrite settings_set_link, class_set_link in H. auto.
  Qed.

  (** what an operation that sets no fill does to the settings *)
  Lemma step_settings fuel w o w' r : sets_fill o = false -> lstep E fuel w o = (w', r) ->
    lw_class w' = lw_class w /\ (settings w' = settings w \/ settings w' = settings w ++ [(v_default E, [])]).
  Proof.
    intros HS H. set (Q := fun w' : lworld => lw_class w' = lw_class w /\ (settings w' = settings w \/ settings w' = settings w ++ [(v_default E, [])])). change (Q w').
    assert (Q0 : Q w) by (split; auto).
    destruct (is_read o) eqn:Eo.
    { destruct (read_P E (fun _ => True) ltac:(auto) fuel w o w' r Eo I H) as (_ & X). apply settings_same in X. destruct X. split; auto. }
    assert (HK : forall rw, (forall w1, rw = Ok w1 -> Q w1) -> keep_world w rw = (w', r) -> Q w').
    { intros rw Hr Hk. destruct rw; simpl in Hk; injection Hk as <- _; auto. }
    assert (HF : forall f k, (forall fr, is_frame w f fr -> k fr = (w', r) -> Q w') -> on_frame w f k = (w', r) -> Q w').
    { intros f k Hk Hf. unfold on_frame in Hf. destruct (get_frame w f) as [fr|] eqn:Ef; [|injection Hf as <- _; auto]. apply get_frame_is in Ef. eauto. }
    assert (HD : forall fr index cols links, Q (add_frame w (derived E fr index cols links))).
    { intros fr index cols links. split; auto. right. apply settings_add. }
    assert (HX : forall f fr fr', is_frame w f fr -> f_fill fr' = f_fill fr -> f_colfill fr' = f_colfill fr -> Q (set_frame w f fr')).
    { intros f fr fr' A B C. split; auto. left. eapply settings_set; eauto. }
    destruct o; try discriminate; cbn [lstep] in H.
    - destruct (frame_fits _ _ _); injection H as <- _; auto. split; auto. right. apply settings_add.
    - unfold link_to in H. destruct (rbind _ _) as [lk|] eqn:Eb in H; injection H as <- _; auto. split; [apply class_set_link|left; apply settings_set_link].
    - revert H. apply HF. intros fr Hf H. destruct (Nat.eqb_spec (length (snd c)) (nrows fr)); injection H as <- _; auto. eapply HX; eauto.
    - revert H. apply HF. intros fr Hf H. destruct (andb _ _); injection H as <- _; auto. eapply HX; eauto.
    - revert H. apply HK. intros w1 H. unfold take_frame in H. repeat (match type of H with rbind ?x _ = _ => destruct x; simpl in H; [|discriminate] end). injection H as <-. apply HD.
    - revert H. apply HK. intros w1 H. unfold derive_frame in H. repeat (match type of H with rbind ?x _ = _ => destruct x; simpl in H; [|discriminate] end). injection H as <-. apply HD.
    - revert H. apply HK. intros w1 H. unfold group_frame in H. repeat (match type of H with rbind ?x _ = _ => destruct x; simpl in H; [|discriminate] end). injection H as <-. apply HD.
    - revert H. apply HF. intros fr Hf. apply HK. intros w1 H. destruct (check _ _); simpl in H; [|discriminate].
      unfold reindex_frame in H. destruct (get_frame w f) as [fr1|]; simpl in H; [|discriminate].
      destruct (index_equals _ _ _); repeat (match type of H with rbind ?x _ = _ => destruct x; simpl in H; [|discriminate] end); injection H as <-; apply HD.
    - revert H. apply HK. intros w1 H. unfold copy_frame in H. repeat (match type of H with rbind ?x _ = _ => destruct x; simpl in H; [|discriminate] end). injection H as <-. apply HD.
    - revert H. apply HF. intros fr Hf H. destruct (f_ldf fr); [|injection H as <- _; auto].
      unfold compute_indexers in H. apply get_frame_is in Hf. rewrite Hf in H.
      destruct (compute_list E w f refresh (dkeys (f_links fr))) as [w1 r1] eqn:Ec. apply settings_compute in Ec. destruct Ec. assert (Q w1) by (split; auto). destruct r1; injection H as <- _; auto.
  Qed.

  Lemma dtype_eqb_spec a b : dtype_eqb a b = true <-> a = b.
  Proof. destruct a, b; simpl; split; congruence. Qed.
  Lemma set_fills_setting : forall kw (m : fills) d, fst (set_fills m kw) d = set_default kw d (m d).
  Proof.
    unfold set_default. induction kw as [|[s x] kw IH]; intros m d; simpl; auto. destruct (dtype_named s) as [d0|] eqn:Ed; simpl; auto. rewrite IH.
    unfold named. simpl. rewrite Ed. reflexivity.
  Qed.
  Lemma set_fills_result : forall kw (m : fills), snd (set_fills m kw) = Ok tt \/ snd (set_fills m kw) = Err KeyError.
  Proof. induction kw as [|[s x] kw IH]; intros m; simpl; auto. destruct (dtype_named s); simpl; auto. Qed.

  Record settled (w : lworld) (tr : list (@lop L V * res (@lout V))) : Prop := {
    st_there : forall f m cf, nth_error (settings w) f = Some (m, cf) -> (forall d, m d = instance_setting E tr f d) /\ forall s, dget String.eqb cf s = column_setting tr f s;
    st_new : forall f, length (settings w) <= f -> (forall d, instance_setting E tr f d = v_default E d) /\ forall s, column_setting tr f s = None;
    st_class : forall d, lw_class w d = class_setting E tr d }.

  Lemma instance_snoc tr g d o r : instance_setting E (tr ++ [(o, r)]) g d =
    match o, r with LFill f kw, Ok _ | LFill f kw, Err KeyError => if f =? g then set_default kw d (instance_setting E tr g d) else instance_setting E tr g d
    | LReset f, Ok _ => if f =? g then v_default E d else instance_setting E tr g d | _, _ => instance_setting E tr g d end.
  Proof. unfold instance_setting. rewrite fold_left_app. simpl. destruct o; auto. Qed.
  Lemma column_snoc tr g s o (r : res (@lout V)) : column_setting (tr ++ [(o, r)]) g s =
    match o, r with LColumnFill f s' x, Ok _ => if andb (f =? g) (String.eqb s' s) then Some x else column_setting tr g s | _, _ => column_setting (L:=L) tr g s end.
  Proof. unfold column_setting. rewrite fold_left_app. simpl. destruct o; auto. Qed.
  Lemma class_snoc tr d o (r : res (@lout V)) : class_setting E (tr ++ [(o, r)]) d =
    match o with LClassFill kw => set_default kw d (class_setting E tr d) | LClassReset => v_default E d | _ => class_setting E tr d end.
  Proof. unfold class_setting. rewrite fold_left_app. simpl. destruct o; auto. Qed.

  Lemma settled_other w w' o r tr : settled w tr -> sets_fill o = false -> lw_class w' = lw_class w ->
    settings w' = settings w \/ settings w' = settings w ++ [(v_default E, [])] -> settled w' (tr ++ [(o, r)]).
  Proof.
    intros [A B C] Ho HC HS.
    assert (I1 : forall g d, instance_setting E (tr ++ [(o, r)]) g d = instance_setting E tr g d) by (intros; rewrite instance_snoc; destruct o; try discriminate; reflexivity).
    assert (I2 : forall g s, column_setting (tr ++ [(o, r)]) g s = column_setting tr g s) by (intros; rewrite column_snoc; destruct o; try discriminate; reflexivity).
    assert (I3 : forall d, class_setting E (tr ++ [(o, r)]) d = class_setting E tr d) by (intros; rewrite class_snoc; destruct o; try discriminate; reflexivity).
    destruct HS as [HS|HS].
    - constructor; rewrite ?HS, ?HC.
      + intros f m cf X. destruct (A _ _ _ X) as [Y Z]. split; intros; [rewrite I1|rewrite I2]; auto.
      + intros f X. destruct (B _ X) as [Y Z]. split; intros; [rewrite I1|rewrite I2]; auto.
      + intros d. rewrite I3. auto.
    - constructor; rewrite ?HS, ?HC.
      + intros f m cf X. destruct (Nat.lt_ge_cases f (length (settings w))) as [Hf|Hf].
        * rewrite nth_error_app1 in X by auto. destruct (A _ _ _ X) as [Y Z]. split; intros; [rewrite I1|rewrite I2]; auto.
        * rewrite nth_error_app2 in X by auto. destruct (f - length (settings w)) as [|n]; simpl in X; [|destruct n; discriminate]. injection X as <- <-.
          destruct (B _ Hf) as [Y Z]. split; intros; [rewrite I1|rewrite I2]; simpl; symmetry; auto.
      + intros f X. rewrite app_length in X. simpl in X. destruct (B f ltac:(lia)) as [Y Z]. split; intros; [rewrite I1|rewrite I2]; auto.
      + intros d. rewrite I3. auto.
  Qed.
  Lemma nth_upd_settings (w : lworld) f fr fr' : is_frame w f fr -> forall g, nth_error (settings (set_frame w f fr')) g = if g =? f then Some (f_fill fr', f_colfill fr') else nth_error (settings w) g.
  Proof.
    intros Hf g. unfold settings. rewrite !nth_error_map. simpl. destruct (Nat.eqb_spec g f) as [->|Hn].
    - pose proof (proj2 (set_frame_is w f fr fr' f fr' Hf)) as X. rewrite Nat.eqb_refl in X. specialize (X eq_refl). unfold is_frame in X. simpl in X. rewrite X. reflexivity.
    - destruct (nth_error (upd (lw_frames w) f fr') g) as [x|] eqn:Ex.
      + pose proof (proj1 (set_frame_is w f fr fr' g x Hf) Ex) as X. destruct (Nat.eqb_spec g f); [congruence|]. unfold is_frame in X. now rewrite X.
      + destruct (nth_error (lw_frames w) g) as [x|] eqn:Ey; auto. exfalso.
        pose proof (proj2 (set_frame_is w f fr fr' g x Hf)) as X. destruct (Nat.eqb_spec g f); [congruence|]. specialize (X Ey). unfold is_frame in X. simpl in X. congruence.
  Qed.
  Lemma length_set (w : lworld) f fr : length (settings (set_frame w f fr)) = length (settings w).
  Proof. unfold settings. rewrite !map_length. simpl. apply upd_length. Qed.
  Lemma frame_settings (w : lworld) f fr : is_frame w f fr -> nth_error (settings w) f = Some (f_fill fr, f_colfill fr).
  Proof. intros H. unfold settings. rewrite nth_error_map. unfold is_frame in H. now rewrite H. Qed.
  Lemma outside (w : lworld) f : get_frame w f = Err AttributeError \/ exists fr, is_frame w f fr.
  Proof. unfold get_frame, is_frame. destruct (nth_error _ _); eauto. Qed.

  Lemma step_settled fuel w o w' r tr : settled w tr -> lstep E fuel w o = (w', r) -> settled w' (tr ++ [(o, r)]).
  Proof.
    intros HS H. destruct (sets_fill o) eqn:Eo.
    2:{ destruct (step_settings _ _ _ _ _ Eo H). eapply settled_other; eauto. }
    assert (HN : (forall g d, instance_setting E (tr ++ [(o, r)]) g d = instance_setting E tr g d) -> (forall g s, column_setting (tr ++ [(o, r)]) g s = column_setting tr g s) ->
                 (forall d, class_setting E (tr ++ [(o, r)]) d = class_setting E tr d) -> w' = w -> settled w' (tr ++ [(o, r)])).
    { intros I1 I2 I3 ->. destruct HS as [A B C]. constructor.
      - intros f m cf X. destruct (A _ _ _ X) as [Y Z]. split; intros; [rewrite I1|rewrite I2]; auto.
      - intros f X. destruct (B _ X) as [Y Z]. split; intros; [rewrite I1|rewrite I2]; auto.
      - intros d. rewrite I3. auto. }
    destruct o; try discriminate; cbn [lstep] in H.
    - unfold on_frame in H. destruct (outside w f) as [Hn|(fr & Hf)]; [rewrite Hn in H; injection H as <- <-; apply HN; auto; intros; rewrite ?instance_snoc, ?column_snoc, ?class_snoc; reflexivity|].
      pose proof Hf as Hf'. apply get_frame_is in Hf'. rewrite Hf' in H.
      destruct (negb _); [injection H as <- <-; apply HN; auto; intros; rewrite ?instance_snoc, ?column_snoc, ?class_snoc; reflexivity|].
      destruct (dmem _ _ _); [|injection H as <- <-; apply HN; auto; intros; rewrite ?instance_snoc, ?column_snoc, ?class_snoc; reflexivity].
      injection H as <- <-. destruct HS as [A B C]. destruct (A _ _ _ (frame_settings _ _ _ Hf)) as [Y Z]. constructor.
      + intros g m cf X. rewrite (nth_upd_settings _ _ _ _ Hf) in X. destruct (Nat.eqb_spec g f) as [->|Hn].
        * injection X as <- <-. split; intros; [rewrite instance_snoc; apply Y|]. rewrite column_snoc. rewrite Nat.eqb_refl. simpl andb. rewrite (dget_dset _ sspec), String.eqb_sym.
          destruct (String.eqb s s0); auto.
        * destruct (A _ _ _ X) as [Y' Z']. split; intros; [rewrite instance_snoc; auto|rewrite column_snoc]. destruct (Nat.eqb_spec f g); [congruence|]. simpl. auto.
      + intros g X. rewrite length_set in X. destruct (B _ X) as [Y' Z']. split; intros; [rewrite instance_snoc; auto|rewrite column_snoc].
        destruct (Nat.eqb_spec f g) as [->|]; [|simpl; auto]. exfalso. apply frame_settings in Hf. assert (g < length (settings w)) by (apply nth_error_Some; congruence). lia.
      + intros d. rewrite class_snoc. apply C.
    - unfold on_frame in H. destruct (outside w f) as [Hn|(fr & Hf)]; [rewrite Hn in H; injection H as <- <-; apply HN; auto; intros; rewrite ?instance_snoc, ?column_snoc, ?class_snoc; reflexivity|].
      pose proof Hf as Hf'. apply get_frame_is in Hf'. rewrite Hf' in H.
      destruct (negb _); [injection H as <- <-; apply HN; auto; intros; rewrite ?instance_snoc, ?column_snoc, ?class_snoc; reflexivity|].
      pose proof (set_fills_setting kw (f_fill fr)) as HM. pose proof (set_fills_result kw (f_fill fr)) as HR.
      destruct (set_fills (f_fill fr) kw) as [m r1]. simpl in HM, HR. injection H as <- <-.
      assert (HI : forall g d, instance_setting E (tr ++ [(LFill f kw, do _ <- r1; Ok RNone)]) g d = if f =? g then set_default kw d (instance_setting E tr g d) else instance_setting E tr g d).
      { intros g d. rewrite instance_snoc. destruct HR as [-> | ->]; reflexivity. }
      destruct HS as [A B C]. destruct (A _ _ _ (frame_settings _ _ _ Hf)) as [Y Z]. constructor.
      + intros g m' cf X. rewrite (nth_upd_settings _ _ _ _ Hf) in X. destruct (Nat.eqb_spec g f) as [->|Hn].
        * injection X as <- <-. split; intros; [rewrite HI, Nat.eqb_refl, HM, Y; reflexivity|]. rewrite column_snoc. apply Z.
        * destruct (A _ _ _ X) as [Y' Z']. split; intros; [rewrite HI|rewrite column_snoc; auto]. destruct (Nat.eqb_spec f g); [congruence|]. auto.
      + intros g X. rewrite length_set in X. destruct (B _ X) as [Y' Z']. split; intros; [rewrite HI|rewrite column_snoc; auto].
        destruct (Nat.eqb_spec f g) as [->|]; [|auto]. exfalso. apply frame_settings in Hf. assert (g < length (settings w)) by (apply nth_error_Some; congruence). lia.
      + intros d. rewrite class_snoc. apply C.
    - unfold on_frame in H. destruct (outside w f) as [Hn|(fr & Hf)]; [rewrite Hn in H; injection H as <- <-; apply HN; auto; intros; rewrite ?instance_snoc, ?column_snoc, ?class_snoc; reflexivity|].
      pose proof Hf as Hf'. apply get_frame_is in Hf'. rewrite Hf' in H.
      destruct (f_ldf fr); [|injection H as <- <-; apply HN; auto; intros; rewrite ?instance_snoc, ?column_snoc, ?class_snoc; reflexivity].
      injection H as <- <-. destruct HS as [A B C]. destruct (A _ _ _ (frame_settings _ _ _ Hf)) as [Y Z]. constructor.
      + intros g m' cf X. rewrite (nth_upd_settings _ _ _ _ Hf) in X. destruct (Nat.eqb_spec g f) as [->|Hn].
        * injection X as <- <-. split; intros; [rewrite instance_snoc, Nat.eqb_refl; reflexivity|]. rewrite column_snoc. apply Z.
        * destruct (A _ _ _ X) as [Y' Z']. split; intros; [rewrite instance_snoc|rewrite column_snoc; auto]. destruct (Nat.eqb_spec f g); [congruence|]. auto.
      + intros g X. rewrite length_set in X. destruct (B _ X) as [Y' Z']. split; intros; [rewrite instance_snoc|rewrite column_snoc; auto].
        destruct (Nat.eqb_spec f g) as [->|]; auto.
      + intros d. rewrite class_snoc. apply C.
    - pose proof (set_fills_setting kw (lw_class w)) as HM. destruct (set_fills (lw_class w) kw) as [m r1]. simpl in HM. injection H as <- <-. destruct HS as [A B C]. constructor.
      + intros f m' cf X. destruct (A _ _ _ X) as [Y Z]. split; intros; [rewrite instance_snoc|rewrite column_snoc]; auto.
      + intros f X. destruct (B _ X) as [Y Z]. split; intros; [rewrite instance_snoc|rewrite column_snoc]; auto.
      + intros d. rewrite class_snoc. simpl. rewrite HM. now rewrite C.
    - injection H as <- <-. destruct HS as [A B C]. constructor.
      + intros f m' cf X. destruct (A _ _ _ X) as [Y Z]. split; intros; [rewrite instance_snoc|rewrite column_snoc]; auto.
      + intros f X. destruct (B _ X) as [Y Z]. split; intros; [rewrite instance_snoc|rewrite column_snoc]; auto.
      + intros d. rewrite class_snoc. reflexivity.
  Qed.

  Lemma lrun_snoc fuel o : forall os w, snd (lrun E fuel w (os ++ [o])) = snd (lrun E fuel w os) ++ [snd (lstep E fuel (fst (lrun E fuel w os)) o)].
  Proof.
    induction os as [|a os IH]; intros w; simpl.
    - destruct (lstep E fuel w o). reflexivity.
    - destruct (lstep E fuel w a) as [w1 r1]. specialize (IH w1). destruct (lrun E fuel w1 os) as [w2 rs], (lrun E fuel w1 (os ++ [o])) as [w3 rs']. simpl in *. now rewrite IH.
  Qed.
  Lemma lrun_length fuel : forall os w, length (snd (lrun E fuel w os)) = length os.
  Proof. induction os as [|a os IH]; intros w; simpl; auto. destruct (lstep E fuel w a) as [w1 r1]. specialize (IH w1). destruct (lrun E fuel w1 os). simpl in *. congruence. Qed.
  Lemma combine_snoc {A B} (l : list A) (m : list B) a b : length l = length m -> combine (l ++ [a]) (m ++ [b]) = combine l m ++ [(a, b)].
  Proof. revert m. induction l as [|x l IH]; intros [|y m] H; simpl in *; try discriminate; auto. rewrite IH; auto. Qed.
  Lemma trace_snoc fuel os o : trace E fuel (os ++ [o]) = trace E fuel os ++ [(o, snd (lstep E fuel (after E fuel os) o))].
  Proof. unfold trace. rewrite lrun_snoc. apply combine_snoc. now rewrite lrun_length. Qed.

  Lemma after_settled fuel os : settled (after E fuel os) (trace E fuel os).
  Proof.
    induction os as [|o os IH] using rev_ind.
    - constructor; auto; intros f m cf H; destruct f; discriminate.
    - rewrite after_one, trace_snoc. eapply step_settled; [exact IH|]. apply surjective_pairing.
  Qed.

  (** C70: the fill value of a column of a target of a link, after any history *)
  Theorem C70_fills_follow_the_documented_precedence fuel os g gr s d :
    let w := after E fuel os in
    is_frame w g gr -> fill_of w gr s d = documented_fill E (trace E fuel os) g (f_ldf gr) s d.
  Proof.
    intros w Hg. destruct (after_settled fuel os) as [A B C]. fold w in A, B, C. destruct (A _ _ _ (frame_settings _ _ _ Hg)) as [Y Z].
    unfold fill_of, documented_fill. destruct (f_ldf gr); [|apply C]. rewrite Z, Y. reflexivity.
  Qed.
  (** ... which is what a row without a match reads *)
  Theorem C70_unmatched_rows_read_the_documented_fill fuel os f s lk gr c d vals y fr i :
    (forall a b, v_eq E a b = true <-> a = b) ->
    orderly_run E fuel (new_lworld E) os ->
    let w := after E fuel os in
    is_link w f s lk -> lk_agg lk = false -> readable w lk ->
    is_frame w f fr -> is_frame w (lk_other lk) gr -> nrows gr <> 0 ->
    is_column gr c (d, vals) -> (forall lk', ~ is_link w (lk_other lk) c lk') ->
    i < nrows fr -> (forall j, ~ matches w f lk i j) ->
    v_store E d (documented_fill E (trace E fuel os) (lk_other lk) (f_ldf gr) c d) = Ok y ->
    exists out, snd (lstep E fuel w (LRead f [s; c])) = Ok (RCol (d, out)) /\ nth_error out i = Some y.
  Proof.
    intros veq_spec HO w Hl Ha Hr Hf Hg HN Hc Hs Hi Hm HY. rewrite <- (C70_fills_follow_the_documented_precedence fuel os (lk_other lk) gr c d Hg) in HY.
    destruct (C60_lookups_follow_the_keys E fuel os f s lk gr c d vals y fr veq_spec HO Hl Ha Hr Hf Hg) as (w' & out & R1 & _ & _ & R2); auto; [intros X; contradiction|].
    fold w in R1. rewrite R1. exists out. split; auto. destruct (R2 i Hi) as [(j & J & _)|(_ & X)]; auto. exfalso. eapply Hm; eauto.
  Qed.
  (** a new frame, whatever the class settings are, uses the built-in defaults until its own are set *)
  Theorem C71_new_frames_ignore_the_class_settings fuel os o w g gr s d :
    lstep E fuel (after E fuel os) o = (w, Ok (RFrame g)) -> is_frame w g gr -> f_ldf gr = true -> fill_of w gr s d = v_default E d.
  Proof.
    intros H Hg Hl. unfold fill_of. rewrite Hl.
    assert (HS : f_fill gr = v_default E /\ f_colfill gr = []).
    { assert (HK : forall rw, (forall w1, rw = Ok w1 -> exists fr, w1 = add_frame (after E fuel os) fr /\ f_fill fr = v_default E /\ f_colfill fr = []) ->
        keep_world (after E fuel os) rw = (w, Ok (RFrame g)) -> f_fill gr = v_default E /\ f_colfill gr = []).
      { intros rw Hr Hk. destruct rw as [w1|]; simpl in Hk; [|discriminate]. injection Hk as -> <-. destruct (Hr _ eq_refl) as (fr & -> & A & B).
        unfold is_frame in Hg. simpl in Hg. rewrite nth_error_app2, Nat.sub_diag in Hg by lia. simpl in Hg. injection Hg as <-. auto. }
      assert (HR : forall p, @out_item V p = (w, Ok (RFrame g)) -> False) by (intros [u [[]|]]; discriminate).
      assert (HR' : forall p, @out_col V p = (w, Ok (RFrame g)) -> False) by (intros [u [|]]; discriminate).
      destruct o; cbn [lstep] in H.
      - destruct (frame_fits _ _ _); [|discriminate]. injection H as <- <-. unfold is_frame in Hg. simpl in Hg. rewrite nth_error_app2, Nat.sub_diag in Hg by lia. simpl in Hg. injection Hg as <-. auto.
      - destruct (link_to _ _ _ _ _ _ _) as [u [|]]; discriminate.
      - unfold on_frame in H. destruct (get_frame _ _); [|discriminate]. destruct (_ =? _); discriminate.
      - unfold on_frame in H. destruct (get_frame _ _); [|discriminate]. destruct (andb _ _); discriminate.
      - revert H. apply HK. intros w1 H. unfold take_frame in H. repeat (match type of H with rbind ?x _ = _ => destruct x; simpl in H; [|discriminate] end). injection H as <-. eexists. split; [reflexivity|]. auto.
      - revert H. apply HK. intros w1 H. unfold derive_frame in H. repeat (match type of H with rbind ?x _ = _ => destruct x; simpl in H; [|discriminate] end). injection H as <-. eexists. split; [reflexivity|]. auto.
      - revert H. apply HK. intros w1 H. unfold group_frame in H. repeat (match type of H with rbind ?x _ = _ => destruct x; simpl in H; [|discriminate] end). injection H as <-. eexists. split; [reflexivity|]. auto.
      - unfold on_frame in H. destruct (get_frame _ _) as [fr0|]; [|discriminate]. revert H. apply HK. intros w1 H. destruct (check _ _); simpl in H; [|discriminate].
        unfold reindex_frame in H. destruct (get_frame _ f) as [fr1|]; simpl in H; [|discriminate].
        destruct (index_equals _ _ _); repeat (match type of H with rbind ?x _ = _ => destruct x; simpl in H; [|discriminate] end); injection H as <-; eexists; split; [reflexivity|auto|reflexivity|auto].
      - revert H. apply HK. intros w1 H. unfold copy_frame in H. repeat (match type of H with rbind ?x _ = _ => destruct x; simpl in H; [|discriminate] end). injection H as <-. eexists. split; [reflexivity|]. auto.
      - unfold on_frame in H. destruct (get_frame _ _) as [fr|]; [|discriminate]. destruct (f_ldf fr); [|discriminate]. destruct (compute_indexers _ _ _ _) as [u [|]]; discriminate.
      - unfold on_frame in H. destruct (get_frame _ _) as [fr|]; [|discriminate]. destruct (negb _); [discriminate|]. destruct (dmem _ _ _); discriminate.
      - unfold on_frame in H. destruct (get_frame _ _) as [fr|]; [|discriminate]. destruct (negb _); [discriminate|]. destruct (set_fills _ _) as [m [|]]; discriminate.
      - unfold on_frame in H. destruct (get_frame _ _) as [fr|]; [|discriminate]. destruct (f_ldf fr); discriminate.
      - destruct (set_fills _ _) as [m [|]]; discriminate.
      - discriminate.
      - exfalso. eauto.
      - destruct (subscript _ _ _ _) as [u [[]|]]; try discriminate. exfalso. eauto.
      - exfalso. eauto. }
    destruct HS as [-> ->]. reflexivity.
  Qed.
End Fills.

(** settings of every kind, some of them refused *)
Definition fill_history : list lop0 := persons_households_zones ++
  [ LFill 1 [("INT_NAME", i 5%Z); ("int", i 6%Z); ("FLOAT_NAME", i 7%Z)]; LColumnFill 1 "zone" (i 9%Z); LColumnFill 1 "nothing" (i 9%Z);
    LFill 2 [("FLOAT_NAME", i 3%Z)]; LClassFill [("FLOAT_NAME", i 4%Z)] ].
Example C70_applies :
  let w := w0 fill_history in
  snd (lrun env0 3 (w0 persons_households_zones) (skipn 6 fill_history)) = [Err KeyError; Ok RNone; Err KeyError; Err AttributeError; Ok RNone] /\
  orderly_run env0 3 (new_lworld env0) fill_history /\
  read0 w 0 ["household"; "income"] = Ok (RCol (ints [100; 200; 100; 5]%Z)) /\
  read0 w 0 ["household"; "zone"] = Ok (RCol (ints [7; 8; 7; 9]%Z)) /\
  read0 w 0 ["household"; "home"; "area"] = Ok (RCol (DFloat, [i 70; i 80; i 70; i 4]%Z)).
Proof. split; [reflexivity|]. split; [cbn [orderly_run fill_history persons_households_zones app orderly]; tauto|]. repeat split; reflexivity. Qed.

(** "class-level defaults affect new LinkedDataFrames": false *)
Theorem C71_class_defaults_refuted :
  let os := [ LClassFill [("INT_NAME", i 77%Z)]; LNew true [None] [row 1] [("k", ints [5%Z])]; LNew true [None] [row 6] [("x", ints [1%Z])]; LNew false [None] [row 6] [("x", ints [1%Z])];
              LLink 0 1 "a" (to_index "k") true; LLink 0 2 "b" (to_index "k") true ] in
  read0 (w0 os) 0 ["a"; "x"] = Ok (RCol (ints [0%Z])) /\ read0 (w0 os) 0 ["b"; "x"] = Ok (RCol (ints [77%Z])).
Proof. vm_compute. auto. Qed.
