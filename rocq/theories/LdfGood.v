(** Orderly histories keep every link in agreement with the keys. *)
From Verif Require Import Prelude DictProofs ExprModel ScopeModel ScopeProofs LdfModel SpecLdf LdfProofs LdfKeys LdfReads LdfInv.
Local Open Scope string_scope.
Local Open Scope nat_scope.
Local Open Scope list_scope.

Section Good.
  Context {L V : Type} (E : venv L V) (veq_spec : forall a b, v_eq E a b = true <-> a = b).
  Notation key := (list V).
  Notation frame := (@frame V).
  Notation lworld := (@lworld V).
  Notation column := (prod dtype (list V)).
  Notation lop := (@lop L V).
  Notation ikeys := (ikeys E).

  (** the keys that the entries of the indexer point into *)
  Definition order (agg : bool) (ok : list key) : list key := if agg then uniques E [] ok else ok.

  Record good_data (w : lworld) (f : nat) (lk : link) (fr gr : frame) (sk ok : list key) : Prop := GoodData {
    gd_frame : is_frame w f fr;
    gd_other : is_frame w (lk_other lk) gr;
    gd_self : ikeys (lk_self lk) fr = Ok sk;
    gd_target : ikeys (lk_target lk) gr = Ok ok;
    gd_chained : lk_chained lk = f_ldf gr;
    gd_unique : lk_agg lk = false -> NoDup ok;
    gd_flat : forall flat, lk_flat lk = Some flat -> flat = map (pos_or_missing E (order (lk_agg lk) ok)) sk /\
              (lk_agg lk = true -> lk_grouper lk = Some (fst (factorize E ok)));
    gd_lazy : lk_flat lk = None -> lk_grouper lk = None /\ exists ofr, is_frame w (lk_owner lk) ofr /\ ikeys (lk_self lk) ofr = Ok sk;
    gd_missing : forall m, lk_missing lk = Some m -> exists flat, lk_flat lk = Some flat /\ m = nonzero (map (fun z => (z =? -1)%Z) flat)
  }.
  Definition good_link (w : lworld) (f : nat) (lk : link) : Prop := exists fr gr sk ok, good_data w f lk fr gr sk ok.
  Definition good (w : lworld) : Prop := forall f name lk, is_link w f name lk -> good_link w f lk.

  (** frames keep what their keys depend on *)
  Definition cores (w w' : lworld) : Prop := forall f fr, is_frame w f fr -> exists fr', is_frame w' f fr' /\ core fr = core fr'.
  Lemma same_cores w w' : same_data w w' -> cores w w'.
  Proof. intros H f fr Hf. destruct (same_frame _ _ _ _ H Hf) as (fr' & H1 & H2). exists fr'. split; auto. now apply drop_core. Qed.
  Lemma good_cores w w' f lk : cores w w' -> good_link w f lk -> good_link w' f lk.
  Proof.
    intros HC (fr & gr & sk & ok & [H1 H2 H3 H4 H5 H6 H7 H8 H9]).
    destruct (HC _ _ H1) as (fr' & F1 & F2). destruct (HC _ _ H2) as (gr' & G1 & G2).
    exists fr', gr', sk, ok. constructor; auto.
    - now rewrite <- (ikeys_core E _ _ _ F2).
    - now rewrite <- (ikeys_core E _ _ _ G2).
    - rewrite H5. now injection G2.
    - intros X. destruct (H8 X) as (HG & ofr & O1 & O2). split; auto. destruct (HC _ _ O1) as (ofr' & O3 & O4). exists ofr'. split; auto. now rewrite <- (ikeys_core E _ _ _ O4).
  Qed.

  Lemma set_link_is (w : lworld) f name lk fr h n x : is_frame w f fr ->
    (is_link (set_link w f name lk) h n x <-> if andb (Nat.eqb h f) (String.eqb n name) then x = lk else is_link w h n x).
  Proof.
    intros Hf. unfold set_link. unfold is_frame in Hf. rewrite Hf. unfold is_link. split.
    - intros (fr' & H1 & H2). apply (set_frame_is _ _ _ _ _ _ Hf) in H1. destruct (Nat.eqb_spec h f) as [->|N]; simpl.
      + subst fr'. simpl in H2. rewrite (dget_dset _ sspec) in H2. destruct (String.eqb n name); [congruence|]. exists fr. auto.
      + exists fr'. auto.
    - destruct (Nat.eqb_spec h f) as [->|N]; simpl.
      + destruct (String.eqb n name) eqn:En.
        * intros ->. eexists. split; [apply (set_frame_is _ _ _ _ _ _ Hf); rewrite Nat.eqb_refl; reflexivity|]. simpl. now rewrite (dget_dset _ sspec), En.
        * intros (fr' & H1 & H2). unfold is_frame in H1. assert (fr' = fr) as -> by congruence.
          eexists. split; [apply (set_frame_is _ _ _ _ _ _ Hf); rewrite Nat.eqb_refl; reflexivity|]. simpl. now rewrite (dget_dset _ sspec), En.
      + intros (fr' & H1 & H2). exists fr'. split; auto. apply (set_frame_is _ _ _ _ _ _ Hf). apply Nat.eqb_neq in N. now rewrite N.
  Qed.
  Lemma set_link_cores w f name lk : cores w (set_link w f name lk).
  Proof.
    intros h fr Hh. unfold set_link. destruct (nth_error (lw_frames w) f) as [fr0|] eqn:Ef; [|eauto].
    destruct (Nat.eq_dec h f) as [->|N].
    - exists (with_links fr0 (dset String.eqb (f_links fr0) name lk)). split; [apply (set_frame_is _ _ _ _ _ _ Ef); now rewrite Nat.eqb_refl|].
      unfold is_frame in Hh. assert (fr = fr0) as -> by congruence. reflexivity.
    - exists fr. split; auto. apply (set_frame_is _ _ _ _ _ _ Ef). apply Nat.eqb_neq in N. now rewrite N.
  Qed.
  Lemma good_set w f name lk : good w -> (exists fr, is_frame w f fr) -> good_link w f lk -> good (set_link w f name lk).
  Proof.
    intros HG (fr & Hf) HL h n x H. apply (set_link_is _ _ _ _ _ _ _ _ Hf) in H.
    destruct (andb _ _) eqn:Ea; [|eapply good_cores; [apply set_link_cores|eauto]].
    apply andb_true_iff in Ea. destruct Ea as [Ea _]. apply Nat.eqb_eq in Ea. subst. eapply good_cores; [apply set_link_cores|auto].
  Qed.

  (** computing the indexer *)
  Lemma make_indexer_flat lk sk ok lk' : (lk_agg lk = false -> NoDup ok) -> make_indexer E lk sk ok = Ok lk' ->
    lk_flat lk' = Some (map (pos_or_missing E (order (lk_agg lk) ok)) sk) /\ (lk_agg lk = true -> lk_grouper lk' = Some (fst (factorize E ok))).
  Proof using veq_spec.
    intros HN H. unfold make_indexer in H. unfold order. destruct (lk_agg lk).
    - unfold factorize in H. rewrite (get_indexer_unique _ (keq_spec E veq_spec)) in H by (apply order_nodup; auto). simpl in H. injection H as <-. simpl. auto.
    - specialize (HN eq_refl). destruct (index_equals (keq E) sk ok) eqn:Ei.
      + apply (index_equals_spec _ (keq_spec E veq_spec)) in Ei. subst sk. simpl in H. injection H as <-. simpl. rewrite (arange_self E veq_spec) by auto. split; [auto|discriminate].
      + rewrite (get_indexer_unique _ (keq_spec E veq_spec)) in H by auto. simpl in H. injection H as <-. simpl. split; [auto|discriminate].
  Qed.
  (** a link recomputed from keys that agree with its frame *)
  Lemma recomputed_good w f lk lk' fr gr sk ok : good_data w f lk fr gr sk ok ->
    (exists ofr, is_frame w (lk_owner lk) ofr /\ ikeys (lk_self lk) ofr = Ok sk) -> precompute E w lk = Ok lk' -> good_data w f lk' fr gr sk ok.
  Proof using veq_spec.
    intros [H1 H2 H3 H4 H5 H6 H7 H8 H9] (ofr & HO & HK) H. destruct (precompute_static E _ _ _ H) as [HC HM].
    unfold copy_meta in HC. injection HC as C1 C2 C3 C4 C5 C6. unfold precompute in H.
    apply get_frame_is in HO. rewrite HO in H. simpl in H. destruct (get_keys E (lk_self lk) ofr) as [sk'|] eqn:Es; simpl in H; [|discriminate].
    apply get_keys_ikeys in Es. rewrite HK in Es. injection Es as <-.
    apply get_frame_is in H2. rewrite H2 in H. apply get_frame_is in H2. simpl in H. destruct (get_keys E (lk_target lk) gr) as [ok'|] eqn:Et; simpl in H; [|discriminate].
    apply get_keys_ikeys in Et. rewrite H4 in Et. injection Et as <-.
    destruct (make_indexer_flat _ _ _ _ H6 H) as [HF HG].
    constructor; rewrite ?C1, ?C2, ?C3, ?C4, ?C5, ?C6; auto.
    - intros flat X. rewrite HF in X. injection X as <-. auto.
    - intros X. congruence.
    - intros m X. rewrite HM in X. destruct (H9 _ X) as (flat & Hfl & ->). destruct (H7 _ Hfl) as [-> _]. eauto.
  Qed.
  Lemma fresh_good w f lk lk' fr gr sk ok : good_data w f lk fr gr sk ok -> fresh E w lk = Ok lk' -> good_data w f lk' fr gr sk ok.
  Proof using veq_spec.
    intros HG H. unfold fresh in H. destruct (lk_flat lk) as [flat|] eqn:Ef; [injection H as <-; auto|].
    eapply recomputed_good; eauto. now destruct (gd_lazy _ _ _ _ _ _ _ HG Ef).
  Qed.
  Lemma indexer_good w f n w' r : good w -> indexer_and_missing E w f n = (w', r) -> good w'.
  Proof using veq_spec.
    intros HG H. unfold indexer_and_missing in H. destruct (get_link w f n) as [lk0|] eqn:El; [|injection H as <- _; auto].
    fold (fresh E w lk0) in H. destruct (fresh E w lk0) as [lk|] eqn:Ef; [|injection H as <- _; auto].
    destruct (lk_flat lk) as [flat|] eqn:Efl; [|injection H as <- _; auto]. injection H as <- _.
    apply get_link_is in El. destruct (HG _ _ _ El) as (fr & gr & sk & ok & GD). pose proof (fresh_good _ _ _ _ _ _ _ _ GD Ef) as [H1 H2 H3 H4 H5 H6 H7 H8 H9].
    apply good_set; auto; [exists fr; auto|]. exists fr, gr, sk, ok. constructor; simpl; auto.
    - intros fl X. injection X as <-. apply H7. auto.
    - discriminate.
    - intros m X. injection X as <-. exists flat. split; auto. destruct (lk_missing lk) as [m|] eqn:Em; auto.
      destruct (H9 _ eq_refl) as (fl & X & ->). congruence.
  Qed.

  (** making a link *)
  Lemma create_good w f g sa sr oa orr pre lk : create E w f g sa sr oa orr pre = Ok lk -> good_link w f lk.
  Proof using veq_spec.
    intros H. unfold create in H. destruct (get_frame w f) as [fr|] eqn:Ef; simpl in H; [|discriminate].
    destruct (get_frame w g) as [gr|] eqn:Eg; simpl in H; [|discriminate]. apply get_frame_is in Ef, Eg.
    destruct (mk_meta sa sr) as [sm|]; simpl in H; [|discriminate]. destruct (mk_meta oa orr) as [om|]; simpl in H; [|discriminate].
    destruct (check _ _); simpl in H; [|discriminate]. destruct (get_keys E sm fr) as [sk|] eqn:Es; simpl in H; [|discriminate].
    destruct (get_keys E om gr) as [ok|] eqn:Eo; simpl in H; [|discriminate]. apply get_keys_ikeys in Es, Eo.
    destruct (if andb _ _ then _ else _) as [agg|] eqn:Ea in H; simpl in H; [|discriminate].
    assert (HN : agg = false -> NoDup ok).
    { intros ->. apply (unique_spec _ (keq_spec E veq_spec)). destruct (unique (keq E) sk), (unique (keq E) ok); simpl in Ea; auto; discriminate. }
    exists fr, gr, sk, ok. destruct pre.
    - pose proof (make_indexer_flat (Link f g sm om (f_ldf gr) agg None None None) sk ok lk HN H) as [HF HG]. destruct (make_indexer_static E _ _ _ _ H) as [HC HM].
      unfold copy_meta in HC. simpl in HC, HM, HF, HG. injection HC as C1 C2 C3 C4 C5 C6.
      constructor; rewrite ?C1, ?C2, ?C3, ?C4, ?C5, ?C6; auto.
      + intros flat X. rewrite HF in X. injection X as <-. auto.
      + congruence.
      + congruence.
    - injection H as <-. constructor; simpl; auto; try discriminate. intros _. split; auto. exists fr. auto.
  Qed.

  (** rows of a frame *)
  Lemma nth_rows {A} ps (l r : list A) d i p : rows_at ps l = Ok r -> nth_error ps i = Some p -> nth i r d = nth p l d.
  Proof.
    intros H Hp. apply rows_at_nth in H. destruct H as [HL H]. destruct (H i p Hp) as (x & Hx & Hr).
    rewrite (nth_error_nth _ _ d Hx), (nth_error_nth _ _ d Hr). reflexivity.
  Qed.
  Lemma rows_at_total {A} ps (l : list A) : (forall p, In p ps -> p < length l) -> exists r, rows_at ps l = Ok r.
  Proof.
    induction ps as [|p ps IH]; intros H; [exists []; reflexivity|]. destruct IH as (r & Hr); [intros; apply H; simpl; auto|].
    destruct (nth_error l p) as [x|] eqn:Ex; [|apply nth_error_None in Ex; specialize (H p (or_introl eq_refl)); lia].
    exists (x :: r). unfold rows_at in *. simpl. rewrite np_at_nat, Ex. simpl. now rewrite Hr.
  Qed.
  Lemma rows_at_lt {A} ps (l r : list A) p : rows_at ps l = Ok r -> In p ps -> p < length l.
  Proof.
    intros H I. apply In_nth_error in I. destruct I as (i & Hi). apply rows_at_nth in H. destruct H as [_ H].
    destruct (H i p Hi) as (x & Hx & _). apply nth_error_Some. congruence.
  Qed.
  Lemma rows_of_ikeys ps (fr fr' : frame) m sk : rows_of ps fr fr' -> frame_ok fr -> ikeys m fr = Ok sk ->
    exists sk', rows_at ps sk = Ok sk' /\ ikeys m fr' = Ok sk'.
  Proof.
    intros RO FO H. pose proof RO as (H1 & H2 & H3). unfold LdfKeys.ikeys, get_keys in *. destruct (me_labels m) as [ls|].
    2:{ injection H as <-. eauto. }
    set (f0 := with_links fr []) in *. set (f1 := with_links fr' []).
    assert (HR : forall (get0 get1 : llabel -> res (list V)), (forall l arr, get0 l = Ok arr -> length arr = nrows fr /\ exists arr', rows_at ps arr = Ok arr' /\ get1 l = Ok arr') ->
       forall ls arrays, rmapl get0 ls = Ok arrays -> exists arrays', rmapl get1 ls = Ok arrays' /\ Forall2 (fun a a' => length a = nrows fr /\ rows_at ps a = Ok a') arrays arrays').
    { intros get0 get1 HG. induction ls0 as [|l ls0 IH]; simpl; intros arrays X; [injection X as <-; exists []; auto|].
      destruct (get0 l) as [arr|] eqn:E0; simpl in X; [|discriminate]. destruct (rmapl get0 ls0) as [t|]; simpl in X; [|discriminate]. injection X as <-.
      destruct (HG _ _ E0) as (HL & arr' & Ha & Hb). destruct (IH _ eq_refl) as (t' & Ht & HF). rewrite Hb. simpl. rewrite Ht. simpl. eauto. }
    assert (HLv : forall l arr, level_values E f0 l = Ok arr -> length arr = nrows fr /\ exists arr', rows_at ps arr = Ok arr' /\ level_values E f1 l = Ok arr').
    { intros l arr X. assert (HX : forall i, arr = map (fun k => nth i k (v_nan E)) (f_index fr) -> length arr = nrows fr /\ rows_at ps arr = Ok (map (fun k => nth i k (v_nan E)) (f_index fr'))).
      { intros i ->. split; [unfold nrows; now rewrite map_length|]. unfold rows_at. apply np_take_map. exact H2. }
      unfold level_values in *. subst f0 f1. simpl in *. rewrite H1. destruct l.
      - destruct (position _ _ _) as [n|]; [|discriminate]. destruct (_ =? 1); [|discriminate]. injection X as <-. destruct (HX n eq_refl) as [A B]. split; auto. eauto.
      - destruct (orb _ _); [discriminate|]. injection X as <-. destruct (HX (Z.to_nat (if (z <? 0)%Z then (z + Z.of_nat (length (f_levels fr)))%Z else z)) eq_refl) as [A B]. split; auto. eauto. }
    assert (HCv : forall l arr, column_values f0 l = Ok arr -> length arr = nrows fr /\ exists arr', rows_at ps arr = Ok arr' /\ column_values f1 l = Ok arr').
    { intros l arr X. unfold column_values in *. subst f0 f1. simpl in *. destruct l as [s|]; [|discriminate]. specialize (H3 s).
      destruct (dget String.eqb (f_cols fr) s) as [[d vals]|] eqn:Ed; [|discriminate]. injection X as <-. destruct H3 as (v' & Hv & Hd). rewrite Hd.
      split; [eapply fo_cols; eauto|eauto]. }
    assert (HA : exists arrays arrays', arrays <> [] /\ Forall2 (fun a a' => length a = nrows fr /\ rows_at ps a = Ok a') arrays arrays' /\ sk = keys_of E (nrows fr) arrays /\
               (do arrays <- (if me_rows m then do _ <- check (length ls <=? length (f_levels f1)) LinkageSpec; rmapl (level_values E f1) ls else rmapl (column_values f1) ls);
                match arrays with [] => Err ValueError | _ => Ok (keys_of E (nrows f1) arrays) end) = Ok (keys_of E (nrows fr') arrays')).
    { destruct (me_rows m).
      - replace (f_levels f1) with (f_levels f0) by (subst f0 f1; simpl; auto). destruct (check _ _); simpl in H; [|discriminate]. simpl.
        destruct (rmapl (level_values E f0) ls) as [arrays|] eqn:Er; simpl in H; [|discriminate].
        destruct (HR _ _ HLv _ _ Er) as (arrays' & Ha & HF). exists arrays, arrays'. rewrite Ha. simpl.
        destruct arrays; [discriminate|]. injection H as <-. inversion HF; subst. repeat split; auto; discriminate.
      - destruct (rmapl (column_values f0) ls) as [arrays|] eqn:Er; simpl in H; [|discriminate].
        destruct (HR _ _ HCv _ _ Er) as (arrays' & Ha & HF). exists arrays, arrays'. rewrite Ha. simpl.
        destruct arrays; [discriminate|]. injection H as <-. inversion HF; subst. repeat split; auto; discriminate. }
    destruct HA as (arrays & arrays' & HN & HF & -> & HE). exists (keys_of E (nrows fr') arrays'). split; [|exact HE].
    pose proof (rows_at_length _ _ _ H2) as HLen. apply rows_at_nth. unfold keys_of. rewrite map_length, seq_length. unfold nrows at 1. split; [exact HLen|].
    intros i p Hp. assert (Hi : i < length (f_index fr')) by (rewrite HLen; apply nth_error_Some; congruence).
    assert (Hpl : p < nrows fr) by (eapply rows_at_lt; [exact H2|eapply nth_error_In; eauto]).
    assert (HS : forall n j, j < n -> nth_error (seq 0 n) j = Some j).
    { intros n j Hj. rewrite (nth_error_nth' _ 0) by (now rewrite seq_length). now rewrite seq_nth. }
    exists (map (fun a => nth p a (v_nan E)) arrays). rewrite !nth_error_map, !HS by auto. split; [reflexivity|]. simpl. f_equal.
    clear - HF Hp. induction HF as [|a a' l l' [_ Ha] HF IH]; simpl; auto. f_equal; auto. now apply (nth_rows _ _ _ _ _ _ Ha Hp).
  Qed.

  Lemma copy_links_dget ix (ls ls' : dict string link) : copy_links ix ls = Ok ls' ->
    forall s lk', dget String.eqb ls' s = Some lk' -> exists lk, dget String.eqb ls s = Some lk /\ copy_link ix lk = Ok lk'.
  Proof.
    intros H s lk' Hd. destruct (rmapl_dget _ _ _ H) as [_ X]. specialize (X s). destruct (dget String.eqb ls s) as [lk|]; [|congruence].
    destruct X as (b & Hb & Hd'). exists lk. split; auto. congruence.
  Qed.
  Lemma add_link_is (w : lworld) (fr : frame) f n lk : is_link (add_frame w fr) f n lk -> is_link w f n lk \/ (f = length (lw_frames w) /\ dget String.eqb (f_links fr) n = Some lk).
  Proof.
    intros (x & H1 & H2). apply add_frame_is in H1. destruct H1 as [H1|[-> ->]]; [left; exists x; auto|auto].
  Qed.
  Lemma add_cores (w : lworld) (fr : frame) : cores w (add_frame w fr).
  Proof. intros f x H. exists x. split; auto. apply add_frame_is. auto. Qed.
  Lemma good_add w fr : good w -> (forall n lk, dget String.eqb (f_links fr) n = Some lk -> good_link (add_frame w fr) (length (lw_frames w)) lk) -> good (add_frame w fr).
  Proof.
    intros HG HN f n lk H. apply add_link_is in H. destruct H as [H|[-> H]]; [|eauto]. eapply good_cores; [apply add_cores|eauto].
  Qed.

  (** the links of a frame made of rows of another one *)
  Lemma taken_good w f fr fr' ps lk lk' n : world_ok w -> good w -> is_frame w f fr -> rows_of ps fr fr' ->
    dget String.eqb (f_links fr) n = Some lk -> lk_flat lk <> None -> copy_link (Some (map Z.of_nat ps)) lk = Ok lk' ->
    good_link (add_frame w fr') (length (lw_frames w)) lk'.
  Proof.
    intros HO HG Hf RO Hd Hn HC. assert (Hl : is_link w f n lk) by (exists fr; auto).
    destruct (HG _ _ _ Hl) as (fr0 & gr & sk & ok & [H1 H2 H3 H4 H5 H6 H7 H8 H9]). unfold is_frame in H1, Hf. assert (fr0 = fr) as -> by congruence.
    destruct (rows_of_ikeys _ _ _ _ _ RO (HO _ _ Hf) H3) as (sk' & Hs & Hk).
    destruct (lk_flat lk) as [flat|] eqn:Efl; [|congruence]. destruct (H7 _ eq_refl) as [Hflat Hgr].
    unfold copy_link in HC. rewrite Efl in HC. simpl in HC. destruct (np_take flat (map Z.of_nat ps)) as [flat'|] eqn:Et; simpl in HC; [|discriminate]. injection HC as <-.
    exists fr', gr, sk', ok. constructor; simpl; auto.
    - apply add_frame_is. auto.
    - apply add_frame_is. auto.
    - intros fl X. injection X as <-. split; auto. subst flat. unfold rows_at in Hs. rewrite (np_take_map _ _ _ _ Hs) in Et. congruence.
    - discriminate.
    - discriminate.
  Qed.
  (** the links of a copy *)
  Lemma copied_good w f fr fr' lk lk' n : good w -> is_frame w f fr -> core fr = core fr' ->
    dget String.eqb (f_links fr) n = Some lk -> copy_link None lk = Ok lk' -> good_link (add_frame w fr') (length (lw_frames w)) lk'.
  Proof.
    intros HG Hf HC Hd HL. assert (Hl : is_link w f n lk) by (exists fr; auto).
    destruct (HG _ _ _ Hl) as (fr0 & gr & sk & ok & [H1 H2 H3 H4 H5 H6 H7 H8 H9]). unfold is_frame in H1, Hf. assert (fr0 = fr) as -> by congruence.
    unfold copy_link in HL. assert (lk' = lk) as ->.
    { destruct (lk_flat lk) as [fl|] eqn:Efl; simpl in HL; injection HL as <-; destruct lk; simpl in *; congruence. }
    exists fr', gr, sk, ok. constructor; auto.
    - apply add_frame_is. auto.
    - apply add_frame_is. auto.
    - now rewrite <- (ikeys_core E _ _ _ HC).
    - intros X. destruct (H8 X) as (A & ofr & O1 & O2). split; auto. exists ofr. split; auto. apply add_frame_is. auto.
  Qed.

  Lemma compute_good refresh : forall names w f w' r, good w ->
    (refresh = true -> forall name lk, is_link w f name lk -> lk_owner lk = f) ->
    compute_list E w f refresh names = (w', r) -> good w'.
  Proof using veq_spec.
    induction names as [|s names IH]; simpl; intros w f w' r HG HO H; [injection H as <- _; auto|].
    destruct (get_link w f s) as [lk|] eqn:El; [|injection H as <- _; auto]. apply get_link_is in El.
    destruct (orb _ _) eqn:Eo; [|eauto]. destruct (precompute E w lk) as [lk'|] eqn:Ep; [|injection H as <- _; auto].
    destruct (HG _ _ _ El) as (fr & gr & sk & ok & GD). pose proof (gd_frame _ _ _ _ _ _ _ GD) as Hf.
    assert (GD' : good_data w f lk' fr gr sk ok).
    { eapply recomputed_good; eauto. destruct (lk_flat lk) eqn:Ef; [|now destruct (gd_lazy _ _ _ _ _ _ _ GD Ef)].
      rewrite orb_false_r in Eo. subst refresh. rewrite (HO eq_refl _ _ El). exists fr. split; auto. eapply gd_self; eauto. }
    assert (HA : exists x, is_frame w f x) by eauto. apply IH in H; auto.
    - apply good_set; auto. exists fr, gr, sk, ok. exact GD'.
    - intros Hr n x X. apply (set_link_is _ _ _ _ _ _ _ _ Hf) in X. destruct (andb _ _); [|eauto]. subst x.
      destruct (precompute_static E _ _ _ Ep) as [C _]. apply (f_equal lk_owner) in C. simpl in C. rewrite C. eauto.
  Qed.

  (** editing parts that no link depends on *)
  Lemma edited_good w f fr fr' : good w -> is_frame w f fr -> f_links fr' = f_links fr -> f_ldf fr' = f_ldf fr ->
    (forall h n lk, is_link w h n lk -> (h = f \/ lk_owner lk = f) -> ikeys (lk_self lk) fr' = ikeys (lk_self lk) fr) ->
    (forall h n lk, is_link w h n lk -> lk_other lk = f -> ikeys (lk_target lk) fr' = ikeys (lk_target lk) fr) ->
    good (set_frame w f fr').
  Proof.
    intros HG Hf HL HD HS HT h n lk (x & Hx & Hd).
    assert (Hl : is_link w h n lk).
    { apply (set_frame_is _ _ _ _ _ _ Hf) in Hx. destruct (Nat.eqb_spec h f) as [->|N]; [subst x; exists fr; rewrite <- HL; auto|exists x; auto]. }
    destruct (HG _ _ _ Hl) as (fr0 & gr & sk & ok & [H1 H2 H3 H4 H5 H6 H7 H8 H9]).
    set (now i y := if Nat.eqb i f then fr' else y).
    assert (HN : forall i y, is_frame w i y -> is_frame (set_frame w f fr') i (now i y)).
    { intros i y Hy. apply (set_frame_is _ _ _ _ _ _ Hf). unfold now. destruct (Nat.eqb i f); auto. }
    assert (HU : forall i y, is_frame w i y -> i = f -> y = fr) by (intros i y Hy ->; unfold is_frame in *; congruence).
    exists (now h fr0), (now (lk_other lk) gr), sk, ok. constructor; auto.
    - unfold now. destruct (Nat.eqb_spec h f) as [->|N]; auto. rewrite (HS _ _ _ Hl); auto. now rewrite <- (HU _ _ H1 eq_refl).
    - unfold now. destruct (Nat.eqb_spec (lk_other lk) f) as [e|N]; auto. rewrite (HT _ _ _ Hl); auto. now rewrite <- (HU _ _ H2 e).
    - unfold now. destruct (Nat.eqb_spec (lk_other lk) f) as [e|N]; auto. rewrite HD, H5. now rewrite (HU _ _ H2 e).
    - intros X. destruct (H8 X) as (A & ofr & O1 & O2). split; auto. exists (now (lk_owner lk) ofr). split; auto.
      unfold now. destruct (Nat.eqb_spec (lk_owner lk) f) as [e|N]; auto. rewrite (HS _ _ _ Hl); auto. now rewrite <- (HU _ _ O1 e).
  Qed.
  Lemma ikeys_other_column m s c (fr : frame) : ~ uses_column s m ->
    ikeys m (Frame (f_ldf fr) (f_levels fr) (f_index fr) (dset String.eqb (f_cols fr) s c) (f_links fr) (f_fill fr) (f_colfill fr)) = ikeys m fr.
  Proof.
    intros HN. unfold LdfKeys.ikeys, get_keys, with_links. destruct (me_labels m) as [ls|] eqn:El; auto. destruct (me_rows m) eqn:Er; auto.
    assert (HI : forall x, In (LName x) ls -> x <> s) by (intros x I ->; apply HN; split; eauto).
    match goal with |- rbind (rmapl ?g ls) ?k = rbind (rmapl ?h ls) ?k' => change k' with k; cut (rmapl g ls = rmapl h ls); [intros X; exact (f_equal (fun r => rbind r k) X)|] end.
    clear - HI. induction ls as [|l ls IH]; cbn [rmapl]; auto. rewrite IH by (intros; apply HI; simpl; auto).
    match goal with |- rbind ?g ?k = rbind ?h ?k => cut (g = h); [intros X; exact (f_equal (fun r => rbind r k) X)|] end.
    unfold column_values. simpl. destruct l as [x|]; auto. rewrite (dget_dset _ sspec).
    assert (String.eqb x s = false) as -> by (apply String.eqb_neq, HI; simpl; auto). reflexivity.
  Qed.
  Lemma ikeys_other_index m levels index (fr : frame) : length index = nrows fr -> ~ uses_index m ->
    ikeys m (Frame (f_ldf fr) levels index (f_cols fr) (f_links fr) (f_fill fr) (f_colfill fr)) = ikeys m fr.
  Proof.
    intros HL HN. unfold LdfKeys.ikeys, get_keys, with_links. destruct (me_labels m) as [ls|] eqn:El; [|exfalso; apply HN; left; auto].
    destruct (me_rows m) eqn:Er; [exfalso; apply HN; right; auto|]. unfold nrows. simpl. unfold nrows in HL. now rewrite HL.
  Qed.
  Lemma set_frame_core_good w f fr fr' : good w -> is_frame w f fr -> f_links fr' = f_links fr -> core fr' = core fr -> good (set_frame w f fr').
  Proof.
    intros HG Hf HL HC. apply (edited_good w f fr fr' HG Hf HL).
    - now injection HC.
    - intros. now apply ikeys_core.
    - intros. now apply ikeys_core.
  Qed.

  Lemma positions_nats (index labels : list key) : incl labels index ->
    map (fun x => match position (keq E) index x with Some i => Z.of_nat i | None => (-1)%Z end) labels = map Z.of_nat (positions (keq E) index labels).
  Proof using veq_spec.
    intros H. unfold positions. rewrite map_map. apply map_ext_in. intros x I. destruct (position (keq E) index x) eqn:Ep; auto.
    apply (position_none _ (keq_spec E veq_spec)) in Ep. exfalso. auto.
  Qed.
  Lemma positions_rows (index labels : list key) : incl labels index -> rows_at (positions (keq E) index labels) index = Ok labels.
  Proof using veq_spec.
    intros H. apply rows_at_nth. unfold positions. rewrite map_length. split; auto. intros i p Hp. rewrite nth_error_map in Hp.
    destruct (nth_error labels i) as [x|] eqn:Ex; [|discriminate]. simpl in Hp. injection Hp as <-. exists x. split; auto.
    destruct (position (keq E) index x) as [j|] eqn:Ej; [now apply (position_some _ (keq_spec E veq_spec))|].
    apply (position_none _ (keq_spec E veq_spec)) in Ej. exfalso. apply Ej, H. eapply nth_error_In; eauto.
  Qed.

  Lemma reindex_rows ps (cols cols' : dict string column) : rmapl (fun p => do c <- reindex_col E (map Z.of_nat ps) (snd p); Ok (fst p, c)) cols = Ok cols' ->
    forall s, match dget String.eqb cols s with
              | Some (d, vals) => exists vals', rows_at ps vals = Ok vals' /\ dget String.eqb cols' s = Some (d, vals')
              | None => dget String.eqb cols' s = None end.
  Proof.
    intros H s. destruct (rmapl_dget _ _ _ H) as [_ X]. specialize (X s). destruct (dget String.eqb cols s) as [[d vals]|]; auto.
    destruct X as (b & Hb & Hd). unfold reindex_col in Hb. simpl in Hb.
    assert (HR : rmapl (fun z => if (z =? -1)%Z then Ok (v_nan E) else np_at vals z) (map Z.of_nat ps) = rows_at ps vals).
    { unfold rows_at. clear. induction ps as [|p ps IH]; simpl; auto. assert ((Z.of_nat p =? -1)%Z = false) as -> by (apply Z.eqb_neq; lia).
      destruct (np_at vals (Z.of_nat p)); simpl; auto. now rewrite IH. }
    rewrite HR in Hb. destruct (rows_at ps vals) as [vals'|]; simpl in Hb; [|discriminate]. injection Hb as <-. exists vals'. split; auto.
    assert (existsb (fun z => (z =? -1)%Z) (map Z.of_nat ps) = false) as X; [|now rewrite X in Hd].
    clear. induction ps as [|p ps IH]; auto. cbn [map existsb]. rewrite IH. assert ((Z.of_nat p =? -1)%Z = false) as -> by (apply Z.eqb_neq; lia). reflexivity.
  Qed.

  Lemma step_good fuel w o w' r : world_ok w -> good w -> orderly w o -> lstep E fuel w o = (w', r) -> good w'.
  Proof using veq_spec.
    intros HW HG HO H. destruct (is_read o) eqn:Eo.
    { eapply (read_P E good); [|exact Eo|exact HG|exact H]. intros w1 f1 n1 w2 r2 H1 _ H2. eapply indexer_good; eauto. }
    assert (HK : forall rw, (forall w1, rw = Ok w1 -> good w1) -> keep_world w rw = (w', r) -> good w').
    { intros rw Hr Hk. destruct rw; simpl in Hk; injection Hk as <- _; auto. }
    assert (HF : forall f k, (forall fr, is_frame w f fr -> k fr = (w', r) -> good w') -> on_frame w f k = (w', r) -> good w').
    { intros f k Hk Hf. unfold on_frame in Hf. destruct (get_frame w f) as [fr|] eqn:Ef; [|injection Hf as <- _; auto]. apply get_frame_is in Ef. eauto. }
    assert (HD : forall fr index cols links n (lk : link), dget String.eqb (f_links (derived E fr index cols links)) n = Some lk -> dget String.eqb links n = Some lk).
    { intros fr index cols links n lk X. simpl in X. destruct (f_ldf fr); [auto|discriminate]. }
    destruct o; try discriminate; cbn [lstep] in H; cbn [orderly] in HO.
    - destruct (frame_fits _ _ _); injection H as <- _; auto. apply good_add; auto. simpl. discriminate.
    - unfold link_to in H. destruct (rbind _ _) as [lk|] eqn:Eb in H; injection H as <- _; auto.
      destruct (get_frame w f) as [fr|] eqn:Ef; simpl in Eb; [|discriminate]. apply get_frame_is in Ef. destruct (check _ _); simpl in Eb; [|discriminate].
      destruct (resolve_args a) as [[[s1 s2] [o1 o2]]|]; simpl in Eb; [|discriminate]. apply good_set; eauto. eapply create_good; eauto.
    - revert H. apply HF. intros fr Hf H. destruct (Nat.eqb_spec (length (snd c)) (nrows fr)); injection H as <- _; auto.
      eapply edited_good; eauto; intros h n lk Hl He; apply ikeys_other_column; intros U; apply HO; exists h, n, lk; auto.
    - revert H. apply HF. intros fr Hf H. destruct (andb _ _) eqn:Ea; injection H as <- _; auto. apply andb_true_iff in Ea. destruct Ea as [Ea _]. apply Nat.eqb_eq in Ea.
      eapply edited_good; eauto; intros h n lk Hl He; apply ikeys_other_index; auto; intros U; apply HO; exists h, n, lk; auto.
    - revert H. apply HK. intros w1 H. unfold take_frame in H. destruct (get_frame w f) as [fr|] eqn:Ef; simpl in H; [|discriminate].
      apply get_frame_is in Ef. destruct (rows_at ps (f_index fr)) as [index|] eqn:Ei; simpl in H; [|discriminate].
      destruct (take_cols ps (f_cols fr)) as [cols|] eqn:Ec; simpl in H; [|discriminate]. destruct (copy_links _ _) as [links|] eqn:El; simpl in H; [|discriminate].
      injection H as <-. apply good_add; auto. intros n lk Hd. apply HD in Hd. destruct (copy_links_dget _ _ _ El _ _ Hd) as (lk0 & Hd0 & Hc).
      eapply (taken_good w f fr _ ps); eauto; [|eapply HO; exists fr; eauto]. split; [reflexivity|]. split; [exact Ei|]. exact (take_cols_dget _ _ _ Ec).
    - revert H. apply HK. intros w1 H. destruct (check _ _); simpl in H; [|discriminate]. unfold derive_frame in H.
      destruct (get_frame w f) as [fr|] eqn:Ef; simpl in H; [|discriminate]. apply get_frame_is in Ef.
      destruct (rows_at ps (f_index fr)) as [index|] eqn:Ei; simpl in H; [|discriminate].
      destruct (rmapl _ names) as [cols0|] eqn:E0; simpl in H; [|discriminate]. destruct (take_cols ps cols0) as [cols|] eqn:Ec; simpl in H; [|discriminate].
      injection H as <-. apply good_add; auto. intros n lk Hd. apply HD in Hd. rewrite dget_map in Hd.
      destruct (dget String.eqb (f_links fr) n) as [lk0|] eqn:Ed; [|discriminate]. exfalso. apply (HO n lk0). exists fr. auto.
    - revert H. apply HK. intros w1 H. unfold group_frame in H. destruct (get_frame w f) as [fr|] eqn:Ef; simpl in H; [|discriminate].
      apply get_frame_is in Ef. destruct (rows_at ps (f_index fr)) as [index|] eqn:Ei; simpl in H; [|discriminate].
      destruct (take_cols ps (f_cols fr)) as [cols|] eqn:Ec; simpl in H; [|discriminate].
      destruct (if f_ldf fr then _ else _) as [links|] eqn:El in H; simpl in H; [|discriminate].
      injection H as <-. apply good_add; auto. intros n lk Hd. simpl in Hd. destruct (f_ldf fr) eqn:Eld; [|discriminate].
      destruct (get_indexer (keq E) (f_index fr) index) as [ix|] eqn:Eg; simpl in El; [|discriminate].
      destruct (copy_links_dget _ _ _ El _ _ Hd) as (lk0 & Hd0 & Hc).
      assert (Hu : NoDup (f_index fr)).
      { apply (unique_spec _ (keq_spec E veq_spec)). unfold get_indexer in Eg. destruct (unique _ _); [auto|discriminate]. }
      assert (ix = map Z.of_nat ps) as ->.
      { rewrite (get_indexer_unique _ (keq_spec E veq_spec)) in Eg by auto. injection Eg as <-. apply rows_at_nth in Ei. destruct Ei as [HL HI].
        clear - Hu HL HI veq_spec. revert index HL HI. induction ps as [|p ps IH]; intros [|x index] HL HI; simpl in *; try discriminate; auto.
        destruct (HI 0 p eq_refl) as (y & Hy & Hr). simpl in Hr. injection Hr as ->. rewrite (position_nth _ (keq_spec E veq_spec) _ _ _ Hu Hy). f_equal.
        apply IH; [lia|]. intros i q Hq. exact (HI (S i) q Hq). }
      eapply (taken_good w f fr _ ps); eauto; [|eapply HO; exists fr; eauto]. split; [reflexivity|]. split; [exact Ei|]. exact (take_cols_dget _ _ _ Ec).
    - revert H. apply HF. intros fr Hf. apply HK. intros w1 H. destruct (check _ _); simpl in H; [|discriminate].
      unfold reindex_frame in H. apply get_frame_is in Hf. rewrite Hf in H. simpl in H. apply get_frame_is in Hf.
      destruct (index_equals (keq E) (f_index fr) index) eqn:Eq.
      + destruct (copy_links _ _) as [links|] eqn:El; simpl in H; [|discriminate]. injection H as <-. apply good_add; auto. intros n lk Hd. apply HD in Hd.
        destruct (copy_links_dget _ _ _ El _ _ Hd) as (lk0 & Hd0 & Hc). eapply (copied_good w f fr); eauto.
      + destruct (get_indexer _ _ _) as [ix|] eqn:Eg; simpl in H; [|discriminate]. destruct (rmapl _ (f_cols fr)) as [cols|] eqn:Ec; simpl in H; [|discriminate].
        injection H as <-. apply good_add; auto. intros n lk Hd. apply HD in Hd. rewrite dget_map in Hd.
        destruct (dget String.eqb (f_links fr) n) as [lk0|] eqn:Ed; [|discriminate]. exfalso. destruct HO as [HO|HO].
        * specialize (HO _ Hf). subst index. assert (index_equals (keq E) (f_index fr) (f_index fr) = true) by (apply index_equals_spec; auto; apply (keq_spec E veq_spec)). congruence.
        * apply (HO n lk0). exists fr. auto.
    - revert H. apply HK. intros w1 H. unfold copy_frame in H. destruct (get_frame w f) as [fr|] eqn:Ef; simpl in H; [|discriminate]. apply get_frame_is in Ef.
      destruct (copy_links _ _) as [links|] eqn:El; simpl in H; [|discriminate]. injection H as <-. apply good_add; auto. intros n lk Hd. apply HD in Hd.
      destruct (copy_links_dget _ _ _ El _ _ Hd) as (lk0 & Hd0 & Hc). eapply (copied_good w f fr); eauto.
    - revert H. apply HF. intros fr Hf H. destruct (f_ldf fr); [|injection H as <- _; auto].
      unfold compute_indexers in H. apply get_frame_is in Hf. rewrite Hf in H.
      destruct (compute_list E w f refresh (dkeys (f_links fr))) as [w1 r1] eqn:Ec. apply compute_good in Ec; auto.
      + destruct r1; injection H as <- _; auto.
      + intros ->. auto.
    - revert H. apply HF. intros fr Hf H. destruct (negb _); [injection H as <- _; auto|]. destruct (dmem _ _ _); injection H as <- _; auto.
      eapply set_frame_core_good; eauto.
    - revert H. apply HF. intros fr Hf H. destruct (negb _); [injection H as <- _; auto|]. destruct (set_fills _ _) as [m r1]. injection H as <- _.
      eapply set_frame_core_good; eauto.
    - revert H. apply HF. intros fr Hf H. destruct (f_ldf fr); injection H as <- _; auto. eapply set_frame_core_good; eauto.
    - destruct (set_fills _ _) as [m r1]. injection H as <- _. intros f n lk X. eapply good_cores; [|apply (HG f n lk X)]. intros h x Hx. exists x. auto.
    - injection H as <- _. intros f n lk X. eapply good_cores; [|apply (HG f n lk X)]. intros h x Hx. exists x. auto.
  Qed.

  Lemma run_good fuel : forall os w, world_ok w -> good w -> orderly_run E fuel w os -> good (fst (lrun E fuel w os)).
  Proof using veq_spec.
    induction os as [|o os IH]; simpl; intros w HW HG HO; auto. destruct HO as [HO HR]. destruct (lstep E fuel w o) as [w1 r1] eqn:Es. simpl in HR.
    pose proof (step_good _ _ _ _ _ HW HG HO Es) as H1. apply step_ok in Es; auto. specialize (IH _ Es H1 HR). destruct (lrun E fuel w1 os). auto.
  Qed.
  Lemma new_good : good (new_lworld E).
  Proof. intros f n lk (fr & H & _). unfold is_frame in H. simpl in H. destruct f; discriminate. Qed.
  Lemma orderly_good fuel os : orderly_run E fuel (new_lworld E) os -> good (after E fuel os).
  Proof using veq_spec. intros H. apply run_good; auto using new_ok, new_good. Qed.
End Good.
