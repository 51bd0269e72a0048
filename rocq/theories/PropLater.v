(** Property C78: what reading through a link leaves behind. *)
From Verif Require Import Prelude DictProofs ExprModel ScopeModel ScopeProofs LdfModel LdfMore SpecLdf LdfProofs LdfKeys LdfReads LdfInv LdfGood LdfLookup LdfLinks LdfSim PropReads SpecFill SpecMore PropMore LdfNorm LdfExample.
Local Open Scope string_scope.
Local Open Scope nat_scope.
Local Open Scope list_scope.

Section Later.
  Context {L V : Type} (E : venv L V).
  Notation frame := (@frame V).
  Notation lworld := (@lworld V).

  (** a frame that is not a LinkedDataFrame has no links *)
  Definition plain_links (w : lworld) : Prop := forall f fr, is_frame w f fr -> f_ldf fr = false -> f_links fr = [].
  Lemma plain_same_data (w w' : lworld) : same_data w w' -> plain_links w -> plain_links w'.
  Proof.
    intros HS HP f fr Hf Hl. destruct (same_frame _ _ _ _ (same_sym _ _ HS) Hf) as (fr' & Hf' & HD).
    unfold drop_caches, with_links in HD. injection HD as H1 _ _ _ H2 _ _. rewrite (HP f fr' Hf') in H2 by congruence. simpl in H2.
    destruct (f_links fr); auto; discriminate.
  Qed.
  Lemma plain_add w fr : plain_links w -> (f_ldf fr = false -> f_links fr = []) -> plain_links (add_frame w fr).
  Proof.
    intros HP HN f x Hx Hl. unfold is_frame, add_frame in Hx. simpl in Hx. destruct (Nat.lt_ge_cases f (length (lw_frames w))) as [H|H].
    - rewrite nth_error_app1 in Hx by auto. eapply HP; eauto.
    - rewrite nth_error_app2 in Hx by auto. destruct (f - length (lw_frames w)) as [|[|k]]; simpl in Hx; try discriminate. injection Hx as <-. auto.
  Qed.
  Lemma plain_set w f fr fr' : plain_links w -> is_frame w f fr -> f_ldf fr' = f_ldf fr -> f_links fr' = f_links fr -> plain_links (set_frame w f fr').
  Proof.
    intros HP Hf H1 H2 h x Hx Hl. apply (set_frame_is _ _ _ _ _ _ Hf) in Hx. destruct (Nat.eqb h f); [subst x|eapply HP; eauto]. rewrite H2. apply (HP f); auto. congruence.
  Qed.
  Lemma plain_set_link w f n lk fr : plain_links w -> is_frame w f fr -> f_ldf fr = true -> plain_links (set_link w f n lk).
  Proof.
    intros HP Hf HL h x Hx Hl. unfold set_link in Hx. pose proof Hf as Hf'. unfold is_frame in Hf'. rewrite Hf' in Hx. apply (set_frame_is _ _ _ _ _ _ Hf) in Hx.
    destruct (Nat.eqb h f); [subst x; simpl in Hl; congruence|eapply HP; eauto].
  Qed.
  Lemma set_link_ldf (w : lworld) f n lk h fr : is_frame w h fr -> exists fr', is_frame (set_link w f n lk) h fr' /\ f_ldf fr' = f_ldf fr.
  Proof.
    intros Hf. unfold set_link. destruct (nth_error (lw_frames w) f) as [x|] eqn:Ex; [|eauto]. destruct (Nat.eqb h f) eqn:Eh.
    - apply Nat.eqb_eq in Eh. subst h. unfold is_frame in Hf. rewrite Ex in Hf. injection Hf as ->. exists (with_links fr (dset String.eqb (f_links fr) n lk)). split; [|reflexivity].
      apply (set_frame_is _ _ _ _ _ _ Ex). rewrite Nat.eqb_refl. reflexivity.
    - exists fr. split; auto. apply (set_frame_is _ _ _ _ _ _ Ex). now rewrite Eh.
  Qed.
  Lemma plain_compute f : forall names w refresh w' r fr, plain_links w -> is_frame w f fr -> f_ldf fr = true ->
    compute_list E w f refresh names = (w', r) -> plain_links w'.
  Proof.
    induction names as [|s names IH]; simpl; intros w refresh w' r fr HP Hf HL H; [injection H as <- _; auto|].
    destruct (get_link w f s) as [lk|]; [|injection H as <- _; auto]. destruct (orb _ _); [|eauto].
    destruct (precompute E w lk) as [lk'|]; [|injection H as <- _; auto]. destruct (set_link_ldf w f s lk' f fr Hf) as (fr' & Hf' & HL').
    eapply IH; [|exact Hf'|congruence|exact H]. eapply plain_set_link; eauto.
  Qed.
  Lemma plain_step fuel w o : plain_links w -> plain_links (fst (lstep E fuel w o)).
  Proof.
    intros HP. destruct (is_read o) eqn:Eo.
    { destruct (lstep E fuel w o) as [w' r] eqn:Es. apply (plain_same_data w w'); auto.
      apply (read_P E (fun _ => True)) in Es; auto. now destruct Es. }
    assert (HK : forall rw, (forall w1, rw = Ok w1 -> plain_links w1) -> plain_links (fst (keep_world w rw))) by (intros [w1|] H; simpl; auto).
    assert (HD : forall fr index cols links, plain_links (add_frame w (derived E fr index cols links))).
    { intros fr index cols links. apply plain_add; auto. simpl. intros ->. reflexivity. }
    assert (HF : forall f k, (forall fr, is_frame w f fr -> plain_links (fst (k fr))) -> plain_links (fst (on_frame w f k))).
    { intros f k Hk. unfold on_frame. destruct (get_frame w f) as [fr|] eqn:Ef; simpl; auto. apply Hk. now apply get_frame_is. }
    destruct o; try discriminate; cbn [lstep].
    - destruct (frame_fits _ _ _); simpl; auto. apply plain_add; auto.
    - unfold link_to. destruct (get_frame w f) as [fr|] eqn:Ef; cbn [rbind]; auto. destruct (f_ldf fr) eqn:El; cbn [check rbind]; auto.
      destruct (rbind _ _) as [lk|]; simpl; auto. apply get_frame_is in Ef. eapply plain_set_link; eauto.
    - apply HF. intros fr Hf. destruct (length (snd c) =? nrows fr); simpl; auto. eapply plain_set; eauto.
    - apply HF. intros fr Hf. destruct (andb _ _); simpl; auto. eapply plain_set; eauto.
    - apply HK. intros w1 H. unfold take_frame in H. destruct (get_frame w f); simpl in H; [|discriminate]. destruct (rows_at _ _); simpl in H; [|discriminate].
      destruct (take_cols _ _); simpl in H; [|discriminate]. destruct (copy_links _ _); simpl in H; [|discriminate]. injection H as <-. auto.
    - apply HK. intros w1 H. destruct (check _ _); simpl in H; [|discriminate]. unfold derive_frame in H. destruct (get_frame w f); simpl in H; [|discriminate]. destruct (rows_at _ _); simpl in H; [|discriminate].
      destruct (rmapl _ _); simpl in H; [|discriminate]. destruct (take_cols _ _); simpl in H; [|discriminate]. injection H as <-. auto.
    - apply HK. intros w1 H. unfold group_frame in H. destruct (get_frame w f) as [fr|]; simpl in H; [|discriminate]. destruct (rows_at _ _); simpl in H; [|discriminate].
      destruct (take_cols _ _); simpl in H; [|discriminate]. destruct (if f_ldf fr then _ else _); simpl in H; [|discriminate]. injection H as <-. auto.
    - apply HF. intros fr Hf. apply HK. intros w1 H. destruct (check _ _); simpl in H; [|discriminate]. unfold reindex_frame in H. destruct (get_frame w f) as [fr0|]; simpl in H; [|discriminate].
      destruct (index_equals _ _ _).
      + destruct (copy_links _ _); simpl in H; [|discriminate]. injection H as <-. auto.
      + destruct (get_indexer _ _ _); simpl in H; [|discriminate]. destruct (rmapl _ _); simpl in H; [|discriminate]. injection H as <-. auto.
    - apply HK. intros w1 H. unfold copy_frame in H. destruct (get_frame w f); simpl in H; [|discriminate]. destruct (copy_links _ _); simpl in H; [|discriminate]. injection H as <-. auto.
    - apply HF. intros fr Hf. destruct (f_ldf fr) eqn:El; simpl; auto. unfold compute_indexers. destruct (get_frame w f) as [fr0|] eqn:Ef; simpl; auto.
      destruct (compute_list E w f refresh _) as [w1 r] eqn:Ec. pose proof (plain_compute f _ _ _ _ _ fr HP Hf El Ec). destruct r; auto.
    - apply HF. intros fr Hf. destruct (negb _); simpl; auto. destruct (dmem _ _ _); simpl; auto. eapply plain_set; eauto.
    - apply HF. intros fr Hf. destruct (negb _); simpl; auto. destruct (set_fills _ _); simpl. eapply plain_set; eauto.
    - apply HF. intros fr Hf. destruct (f_ldf fr) eqn:El; simpl; auto. eapply plain_set; eauto.
    - destruct (set_fills _ _); simpl. exact HP.
    - exact HP.
  Qed.
  Lemma plain_run fuel : forall os w, plain_links w -> plain_links (fst (lrun E fuel w os)).
  Proof.
    induction os as [|o os IH]; intros w HP; auto. cbn [lrun]. pose proof (plain_step fuel w o HP) as H. destruct (lstep E fuel w o) as [w1 r1]. specialize (IH w1 H).
    destruct (lrun E fuel w1 os) as [w2 r2]. exact IH.
  Qed.
  Lemma plain_after fuel os : plain_links (after E fuel os).
  Proof. apply plain_run. intros f fr H. unfold is_frame in H. destruct f; discriminate. Qed.

  (** ** What reads do to the links *)
  Definition lrel (a b : @link) : Prop := (lk_flat a = None /\ lk_flat b <> None) \/ nlk a = nlk b.
  Definition srel (p q : string * @link) : Prop := fst p = fst q /\ lrel (snd p) (snd q).
  Definition frel (a b : frame) : Prop := with_links a [] = with_links b [] /\ Forall2 srel (f_links a) (f_links b).
  Definition wrel (w u : lworld) : Prop := Forall2 frel (lw_frames w) (lw_frames u) /\ lw_class w = lw_class u.
  Lemma F2_refl {A} (R : A -> A -> Prop) : (forall a, R a a) -> forall l, Forall2 R l l.
  Proof. intros H. induction l; constructor; auto. Qed.
  Lemma wrel_refl w : wrel w w.
  Proof.
    split; auto. apply F2_refl. intros fr. split; auto. apply F2_refl. intros p. split; auto. right. reflexivity.
  Qed.
  Lemma F2_upd {A} (R : A -> A -> Prop) : forall l m i y y', Forall2 R l m -> nth_error m i = Some y -> (forall x, R x y -> R x y') -> Forall2 R l (upd m i y').
  Proof. induction l as [|x l IH]; intros m i y y' H Hi HY; inversion H; subst; [constructor|]. destruct i as [|i]; simpl in *; constructor; auto; [injection Hi as ->; auto|]. eapply IH; eauto. Qed.
  Lemma F2_dset : forall d d' n y y', Forall2 srel d d' -> dget String.eqb d' n = Some y -> (forall x, lrel x y -> lrel x y') -> Forall2 srel d (dset String.eqb d' n y').
  Proof.
    induction d as [|[k x] d IH]; intros d' n y y' H Hd HY; inversion H as [|p q l m Hp Hl]; subst; simpl in *; [discriminate|].
    destruct q as [k' z]. destruct Hp as [H1 H2]. simpl in *. subst k'. destruct (String.eqb n k) eqn:Ek.
    - injection Hd as ->. apply String.eqb_eq in Ek. subst k. constructor; auto. split; auto.
    - constructor; auto; [split; auto|]. eapply IH; eauto.
  Qed.
  Lemma wrel_set w u f n y y' : wrel w u -> get_link u f n = Ok y -> (forall x, lrel x y -> lrel x y') -> wrel w (set_link u f n y').
  Proof.
    intros [H1 H2] Hg HY. unfold get_link in Hg. destruct (get_frame u f) as [fr|] eqn:Ef; cbn [rbind] in Hg; [|discriminate].
    destruct (dget String.eqb (f_links fr) n) as [z|] eqn:Ed; [|discriminate]. injection Hg as ->. apply get_frame_is in Ef. unfold is_frame in Ef.
    unfold set_link. rewrite Ef. split; [|exact H2]. simpl. eapply F2_upd; [exact H1|exact Ef|]. intros x [X1 X2]. split; [rewrite X1; reflexivity|]. simpl. eapply F2_dset; eauto.
  Qed.
  Lemma wrel_indexer w u f n u' r : wrel w u -> indexer_and_missing E u f n = (u', r) -> wrel w u'.
  Proof.
    intros HW H. unfold indexer_and_missing in H. destruct (get_link u f n) as [lk0|] eqn:El; [|injection H as <- _; auto].
    destruct (lk_flat lk0) as [fl|] eqn:E0.
    - rewrite E0 in H. injection H as <- _. eapply wrel_set; eauto. intros x [X|X]; [left; split; [apply X|discriminate]|right]. rewrite X. unfold nlk. simpl. rewrite E0. reflexivity.
    - destruct (precompute E u lk0) as [lk|]; [|injection H as <- _; auto]. destruct (lk_flat lk) as [flat|]; [|injection H as <- _; auto]. injection H as <- _. eapply wrel_set; eauto.
      intros x [[_ X]|X]; [congruence|]. left. split; [|discriminate]. apply (f_equal lk_flat) in X. simpl in X. congruence.
  Qed.
  Lemma wrel_reads fuel w : forall os u, Forall (fun o => is_read o = true) os -> wrel w u -> wrel w (fst (lrun E fuel u os)).
  Proof.
    induction os as [|o os IH]; intros u HF HW; auto. inversion HF; subst. cbn [lrun]. destruct (lstep E fuel u o) as [u1 r1] eqn:Es.
    assert (HW1 : wrel w u1).
    { eapply (read_P E (wrel w)); [|exact H1|exact HW|exact Es]. intros v f n v' r Hv _ HI. eapply wrel_indexer; eauto. }
    specialize (IH u1 H2 HW1). destruct (lrun E fuel u1 os). exact IH.
  Qed.

  Definition flagged (lk : @link) : bool := match lk_flat lk with Some _ => true | None => false end.
  Definition row_of (w : lworld) (p : string * @link) : res summary_row :=
    let (name, lk) := p in
    do gr <- get_frame w (lk_other lk);
    Ok (SummaryRow name (nrows gr, length (f_cols gr)) (lk_self lk) (lk_target lk) (lk_chained lk) (lk_agg lk) (match lk_flat lk with Some _ => true | None => false end)).
  Lemma rows_flags w : forall ls rows, rmapl (row_of w) ls = Ok rows -> map sr_preindexed rows = map (fun p => flagged (snd p)) ls.
  Proof.
    induction ls as [|[s lk] ls IH]; intros rows H; simpl in H; [injection H as <-; reflexivity|]. destruct (get_frame w (lk_other lk)); cbn [rbind] in H; [|discriminate].
    destruct (rmapl (row_of w) ls) as [rs|]; cbn [rbind] in H; [|discriminate]. injection H as <-. simpl. rewrite (IH rs eq_refl). reflexivity.
  Qed.
  Lemma flags_settled l m : Forall2 srel l m -> map (fun p => flagged (snd p)) l = map (fun p => flagged (snd p)) m -> nlinks l = nlinks m.
  Proof.
    induction 1 as [|[k x] [k' y] l m [H1 H2] _ IH]; intros H; auto. simpl in *. injection H as HF HT. subst k'. rewrite (IH HT). f_equal. f_equal.
    destruct H2 as [[X Y]|X]; auto. unfold flagged in HF. rewrite X in HF. destruct (lk_flat y); [discriminate|congruence].
  Qed.

  (** Reads that store no indexer (the column [preindexed] of every [link_summary()] is as before) leave
      nothing behind: every later call, whatever it is, gives the same, and so does every call after it, as long
      as no refresh is asked for. *)
  Theorem C78_reads_of_indexed_links_leave_nothing_partial fuel os reads later :
    Forall (fun o => is_read o = true) reads ->
    (forall f, link_summary (after E fuel (os ++ reads)) f = link_summary (after E fuel os) f) ->
    Forall (fun o : lop => forall f, o <> LCompute f true) later ->
    snd (lrun E fuel (after E fuel (os ++ reads)) later) = snd (lrun E fuel (after E fuel os) later).
  Proof.
    intros HR HS HL. set (w := after E fuel os) in *. set (u := after E fuel (os ++ reads)) in *.
    assert (HW : wrel w u). { unfold u. rewrite after_app. apply wrel_reads; auto. apply wrel_refl. }
    assert (HN : nw u = nw w).
    { destruct HW as [HW HC]. unfold nw. rewrite HC. f_equal. 
      assert (HI : forall f a b, is_frame w f a -> is_frame u f b -> frel a b -> nfr b = nfr a).
      { intros f a b Ha Hb [H1 H2]. assert (HLk : nlinks (f_links b) = nlinks (f_links a)).
        { destruct (f_ldf a) eqn:El.
          - symmetry. apply flags_settled; auto. specialize (HS f). unfold link_summary in HS. pose proof Ha as Ha'. pose proof Hb as Hb'. apply get_frame_is in Ha', Hb'. rewrite Ha', Hb' in HS. cbn [rbind] in HS.
            assert (Elb : f_ldf b = true) by (injection H1 as H1 _ _ _ _ _; congruence). rewrite El, Elb in HS. cbn [check rbind] in HS.
            pose proof (C97_the_summary_lists_the_links E fuel os f a Ha El) as (rows & R1 & _). unfold link_summary in R1. fold w in R1. rewrite Ha' in R1. cbn [rbind] in R1. rewrite El in R1. cbn [check rbind] in R1.
            pose proof HS as HS'. change (rmapl (row_of u) (f_links b) = rmapl (row_of w) (f_links a)) in HS'. change (rmapl (row_of w) (f_links a) = Ok rows) in R1. rewrite R1 in HS'.
            rewrite <- (rows_flags _ _ _ R1), <- (rows_flags _ _ _ HS'). reflexivity.
          - rewrite (plain_after fuel os f a Ha El). assert (Elb : f_ldf b = false) by (injection H1 as H1 _ _ _ _ _; congruence). rewrite (plain_after fuel (os ++ reads) f b Hb Elb). reflexivity. }
        unfold nfr. rewrite HLk. unfold with_links in *. injection H1 as -> -> -> -> -> ->. reflexivity. }
      clear HS HL HC. clearbody u w. assert (HI' : forall f a b, nth_error (lw_frames w) f = Some a -> nth_error (lw_frames u) f = Some b -> frel a b -> nfr b = nfr a) by exact HI.
      revert HI'. induction HW as [|a b la lb Hab _ IH]; intros HX; auto. simpl. f_equal; [apply (HX 0); auto|]. apply IH. intros f x y Hx Hy. apply (HX (S f)); auto. }
    apply (runs_agree E fuel later u w); auto. eapply Forall_impl; [|exact HL]. intros o Ho. destruct o; auto. destruct refresh; auto. exfalso. eapply Ho. reflexivity.
  Qed.
End Later.

(** persons, households and zones with stored indexers: two reads, then edited keys *)
Example C78_applies :
  Forall (fun r : lop0 => is_read r = true) [LRead 0 ["household"; "income"]; LEval 0 "household" []] /\
  (forall f, link_summary (w0 (persons_households_zones ++ [LRead 0 ["household"; "income"]; LEval 0 "household" []])) f = link_summary (w0 persons_households_zones) f) /\
  w0 (persons_households_zones ++ [LRead 0 ["household"; "income"]; LEval 0 "household" []]) <> w0 persons_households_zones.
Proof.
  split; [repeat constructor|]. split.
  - intros f. do 4 (destruct f as [|f]; [vm_compute; reflexivity|]). vm_compute. destruct f; reflexivity.
  - intros H. apply (f_equal (fun w => match get_link w 0 "household" with Ok lk => match lk_missing lk with Some _ => true | None => false end | Err _ => false end)) in H.
    vm_compute in H. discriminate H.
Qed.
