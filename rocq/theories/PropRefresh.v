(** Property C68: what refreshing the indexers does. *)
From Verif Require Import Prelude DictProofs ExprModel ScopeModel ScopeProofs LdfModel SpecLdf LdfProofs LdfKeys LdfReads LdfInv LdfGood LdfLookup LdfLinks LdfSim LdfExample PropReads PropSlice PropLookup LdfCols.
Local Open Scope string_scope.
Local Open Scope nat_scope.
Local Open Scope list_scope.

Section Refresh.
  Context {L V : Type} (E : venv L V).
  Notation frame := (@frame V).
  Notation lworld := (@lworld V).
  Notation key := (list V).

  (** ** Links remember whether their target is a linked frame *)
  Lemma create_meta (w : lworld) f g sa sr oa orr pre lk : create E w f g sa sr oa orr pre = Ok lk -> lk_other lk = g /\ exists gr, is_frame w g gr /\ lk_chained lk = f_ldf gr.
  Proof.
    unfold create. intros H. destruct (get_frame w f); simpl in H; [|discriminate]. destruct (get_frame w g) as [gr|] eqn:Eg; simpl in H; [|discriminate].
    destruct (mk_meta sa sr); simpl in H; [|discriminate]. destruct (mk_meta oa orr); simpl in H; [|discriminate]. destruct (check _ _); simpl in H; [|discriminate].
    destruct (get_keys E _ _) in H; simpl in H; [|discriminate]. destruct (get_keys E _ _) in H; simpl in H; [|discriminate].
    destruct (if andb _ _ then _ else _) in H; simpl in H; [|discriminate]. apply get_frame_is in Eg. destruct pre.
    - apply make_indexer_static in H. destruct H as [H _]. unfold copy_meta in H. simpl in H. injection H as H1 H2 H3 H4 H5 H6. split; auto. exists gr. auto.
    - injection H as <-. split; auto. exists gr. auto.
  Qed.
  Definition of_kind (k : list bool) (lk : link) : Prop := nth_error k (lk_other lk) = Some (lk_chained lk).
  Lemma of_kind_meta k lk lk' : copy_meta lk' = copy_meta lk -> of_kind k lk -> of_kind k lk'.
  Proof. intros H HK. unfold copy_meta in H. injection H as H1 H2 H3 H4 H5 H6. unfold of_kind. now rewrite H2, H5. Qed.
  Lemma chained_links fuel os f s lk gr : is_link (after E fuel os) f s lk -> is_frame (after E fuel os) (lk_other lk) gr -> lk_chained lk = f_ldf gr.
  Proof.
    intros Hl Hg. assert (X : all_links (of_kind (kinds (after E fuel os))) (after E fuel os)).
    { clear. apply (all_after E of_kind true true).
      - intros k b lk H. unfold of_kind in *. rewrite nth_error_app1; auto. apply nth_error_Some. congruence.
      - intros w f g sa sr oa orr pre lk H. apply create_meta in H. destruct H as (<- & gr & H1 & H2). unfold of_kind, kinds. rewrite nth_error_map. unfold is_frame in H1. rewrite H1. simpl. now rewrite H2.
      - intros k lk H. exact H.
      - intros k ix lk lk' H X. unfold copy_link in X. destruct (lk_flat lk), ix; simpl in X; try (destruct (np_take _ _); simpl in X; [|discriminate]); injection X as <-; exact H.
      - intros k w lk lk' H _ X. destruct (precompute_static E _ _ _ X) as [C _]. eapply of_kind_meta; eauto.
      - intros _ k lk flat H _. exact H.
      - auto. }
    specialize (X _ _ _ Hl). unfold of_kind, kinds in X. rewrite nth_error_map in X. unfold is_frame in Hg. rewrite Hg in X. simpl in X. congruence.
  Qed.
  (** ** While nothing is read, no list of missing rows is stored *)
  Lemma unread_links fuel os : (forall o, In o os -> is_read o = false) -> all_links (fun lk => lk_missing lk = None) (after E fuel os).
  Proof.
    intros HO. apply (all_after E (fun _ lk => lk_missing lk = None) true false).
    - auto.
    - intros w f g sa sr oa orr pre lk H. apply create_new in H. apply H.
    - intros _ lk _. reflexivity.
    - intros _ ix lk lk' H X. unfold copy_link in X. destruct (lk_flat lk), ix; simpl in X; try (destruct (np_take _ _); simpl in X; [|discriminate]); injection X as <-; simpl; auto.
    - intros _ w lk lk' H _ X. destruct (precompute_static E _ _ _ X) as [_ M]. congruence.
    - discriminate.
    - intros o I. split; auto. intros X. rewrite (HO o I) in X. discriminate.
  Qed.

  (** ** Refreshing computes the indexer of each link anew *)
  Lemma compute_gives : forall names (w : lworld) f w1 u, NoDup names -> compute_list E w f true names = (w1, Ok u) ->
    same_data w w1 /\ forall s lk, is_link w f s lk ->
      if existsb (String.eqb s) names then exists lk1, precompute E w lk = Ok lk1 /\ is_link w1 f s lk1 else is_link w1 f s lk.
  Proof.
    induction names as [|n names IH]; intros w f w1 u HN H; simpl in H.
    - injection H as <- _. split; [apply same_refl|]. intros s lk Hl. exact Hl.
    - inversion HN as [|? ? N1 N2]; subst. destruct (get_link w f n) as [lkn|] eqn:El; [|discriminate]. pose proof El as Hn. apply get_link_is in Hn.
      destruct (precompute E w lkn) as [lk1|] eqn:Ep; [|discriminate]. destruct (precompute_static E _ _ _ Ep) as [C M].
      pose proof (set_link_same w f n lkn lk1 Hn C) as HS. destruct (IH _ _ _ _ N2 H) as [I1 I2]. split; [eapply same_trans; eauto|].
      intros s lk Hl. cbn [existsb]. pose proof (set_link_get w f n lkn lk1 f s Hn) as HX. rewrite Nat.eqb_refl in HX. simpl in HX. destruct (String.eqb s n) eqn:Es.
      + apply String.eqb_eq in Es. subst n. simpl. assert (lkn = lk) as -> by (eapply is_link_unique; eauto). exists lk1. split; auto.
        apply get_link_is in HX. specialize (I2 _ _ HX). destruct (existsb (String.eqb s) names) eqn:Ex; auto. exfalso. apply N1.
        apply existsb_exists in Ex. destruct Ex as (y & Y1 & Y2). apply String.eqb_eq in Y2. now subst y.
      + simpl. assert (HL' : is_link (set_link w f n lk1) f s lk) by (apply get_link_is; rewrite HX; now apply get_link_is). specialize (I2 _ _ HL').
        destruct (existsb (String.eqb s) names); auto. destruct I2 as (lk2 & P1 & P2). exists lk2. split; auto. rewrite (precompute_same E _ _ _ HS). exact P1.
  Qed.
  Lemma refresh_gives fuel os f w1 r : lstep E fuel (after E fuel os) (LCompute f true) = (w1, Ok r) ->
    same_data (after E fuel os) w1 /\ forall s lk, is_link (after E fuel os) f s lk -> exists lk1, precompute E (after E fuel os) lk = Ok lk1 /\ is_link w1 f s lk1.
  Proof.
    set (w := after E fuel os). intros H. cbn [lstep] in H. unfold on_frame in H. destruct (get_frame w f) as [fr|] eqn:Ef; [|discriminate].
    destruct (f_ldf fr); [|discriminate]. unfold compute_indexers in H. rewrite Ef in H. pose proof Ef as Hf. apply get_frame_is in Hf. destruct (after_full E fuel os _ _ Hf) as [_ HN].
    destruct (compute_list E w f true (dkeys (f_links fr))) as [w2 [u|]] eqn:Ec; [|discriminate]. injection H as <- <-. destruct (compute_gives _ _ _ _ _ HN Ec) as [I1 I2]. split; auto.
    intros s lk Hl. specialize (I2 _ _ Hl). destruct (existsb (String.eqb s) (dkeys (f_links fr))) eqn:Ex; auto. exfalso.
    destruct Hl as (fr0 & H1 & H2). assert (fr0 = fr) as -> by (eapply is_frame_unique; eauto). assert (HI : existsb (String.eqb s) (dkeys (f_links fr)) = true); [|congruence].
    apply existsb_exists. exists s. split; [|apply String.eqb_refl]. apply (dget_in _ String.eqb_eq) in H2. unfold dkeys. now apply (in_map fst) in H2.
  Qed.

  (** ** A lookup with a stored indexer and a list of rows to fill *)
  Lemma np_at_last_row {A} (l : list A) x : np_at l (-1) = Ok x -> nth_error l (length l - 1) = Some x.
  Proof.
    unfold np_at. destruct (Z.ltb_spec (-1) 0); [|lia]. destruct (Z.ltb_spec (-1 + Z.of_nat (length l)) 0); [discriminate|].
    replace (Z.to_nat (-1 + Z.of_nat (length l))) with (length l - 1) by lia. destruct (nth_error l (length l - 1)); [|discriminate]. intros X; injection X as ->. reflexivity.
  Qed.
  Lemma stale_step ts miss vals d fill y :
    (forall i, In i miss -> i < length ts) -> (forall j, In (Some j) ts -> j < length vals) -> (In None ts -> vals <> []) -> v_store E d fill = Ok y ->
    exists vs, (do vs <- np_take vals (map code ts); fill_at E d vs miss fill) = Ok vs /\ length vs = length ts /\
      forall i o, nth_error ts i = Some o ->
        nth_error vs i = if existsb (Nat.eqb i) miss then Some y else match o with Some j => nth_error vals j | None => nth_error vals (length vals - 1) end.
  Proof.
    intros HM HB HN HS.
    assert (HT : exists vs, np_take vals (map code ts) = Ok vs).
    { clear HM. induction ts as [|o ts IH]; [exists []; reflexivity|].
      destruct IH as (vs & Hv); [intros; apply HB; simpl; auto|intros; apply HN; simpl; auto|].
      assert (exists x, np_at vals (code o) = Ok x) as (x & Hx).
      { destruct o as [j|].
        - simpl. rewrite np_at_nat. destruct (nth_error vals j) eqn:Ej; eauto. apply nth_error_None in Ej. specialize (HB j (or_introl eq_refl)). lia.
        - apply np_at_m1, HN. simpl. auto. }
      exists (x :: vs). simpl. now rewrite Hx, Hv. }
    destruct HT as (vs & Hv). rewrite Hv. unfold rbind at 1. unfold fill_at. rewrite HS. simpl.
    apply np_take_nth in Hv. destruct Hv as [HL HV]. rewrite map_length in HL.
    assert (forallb (fun i => i <? length vs) miss = true) as ->.
    { apply forallb_forall. intros i Hi. apply Nat.ltb_lt. rewrite HL. now apply HM. }
    simpl. eexists. split; [reflexivity|]. split; [now rewrite fold_upd_length|].
    intros i o Ho. assert (Hi : i < length vs) by (rewrite HL; apply nth_error_Some; congruence).
    rewrite fold_upd_nth by auto. destruct (existsb (Nat.eqb i) miss); auto.
    destruct (HV i (code o)) as (x & Hx & Hr); [rewrite nth_error_map, Ho; reflexivity|]. destruct o as [j|]; simpl in Hx.
    - rewrite np_at_nat in Hx. destruct (nth_error vals j); [|discriminate]. congruence.
    - apply np_at_last_row in Hx. congruence.
  Qed.
  Definition rows_to_fill (lk : link) (flat : list Z) : list nat := match lk_missing lk with Some m => m | None => nonzero (map (fun z => (z =? -1)%Z) flat) end.
  Lemma stale_read fuel os f s lk fr gr c d vals y ts : let w := after E fuel os in
    is_link w f s lk -> lk_agg lk = false -> lk_flat lk = Some (map code ts) -> is_frame w f fr -> is_frame w (lk_other lk) gr ->
    length ts = nrows fr -> (forall j, In (Some j) ts -> j < nrows gr) -> (In None ts -> nrows gr <> 0) -> (forall i, In i (rows_to_fill lk (map code ts)) -> i < nrows fr) ->
    is_column gr c (d, vals) -> (forall lk', ~ is_link w (lk_other lk) c lk') -> v_store E d (fill_of w gr c d) = Ok y ->
    exists w' out, lstep E fuel w (LRead f [s; c]) = (w', Ok (RCol (d, out))) /\ same_data w w' /\ length out = nrows fr /\
      forall i o, nth_error ts i = Some o ->
        nth_error out i = if existsb (Nat.eqb i) (rows_to_fill lk (map code ts)) then Some y else match o with Some j => nth_error vals j | None => nth_error vals (nrows gr - 1) end.
  Proof.
    intros w Hl Ha HF Hf Hg TL TB TN TM Hc Hs HY. assert (HR : reachable E fuel w) by (exists os; reflexivity). pose proof (reachable_ok E _ _ HR) as HW.
    assert (HV : length vals = nrows gr) by (exact (fo_cols _ (HW _ _ Hg) _ _ _ Hc)).
    destruct (stale_step ts (rows_to_fill lk (map code ts)) vals d (fill_of w gr c d) y) as (out & P1 & P2 & P3); auto.
    { intros i I. rewrite TL. auto. } { intros j I. rewrite HV. auto. } { intros I X. apply (TN I). rewrite <- HV, X. reflexivity. }
    assert (VW : view E w f s = Ok (map code ts, rows_to_fill lk (map code ts))).
    { unfold view. apply get_link_is in Hl. rewrite Hl. cbn [rbind]. unfold fresh. rewrite HF. cbn [rbind]. rewrite HF. reflexivity. }
    assert (HRR : exists w', resolve_root E w f [(f, s)] (d, vals) (fill_of w gr c d) = (w', Ok (d, out)) /\ same_data w w').
    { unfold resolve_root. cbn [fst snd]. destruct (resolve E w [(f, s)] d vals (fill_of w gr c d)) as [w1 r1] eqn:Er. destruct (resolve_pure E _ _ _ _ _ _ _ Er) as (R1 & R2 & _).
      cbn [presolve] in R1. rewrite VW in R1. cbn [rbind] in R1, P1. rewrite P1 in R1. cbn [rbind] in R1. subst r1. apply get_frame_is in Hf. rewrite Hf. cbn [rbind]. rewrite P2, TL, Nat.eqb_refl. simpl. eauto. }
    destruct HRR as (w' & W1 & W2). exists w', out.
    assert (HD : forall i o, nth_error ts i = Some o -> nth_error out i = if existsb (Nat.eqb i) (rows_to_fill lk (map code ts)) then Some y else match o with Some j => nth_error vals j | None => nth_error vals (nrows gr - 1) end).
    { intros i o Ho. rewrite (P3 i o Ho). now rewrite HV. }
    split; [|split; [auto|split; [congruence|exact HD]]].
    cbn [lstep]. unfold subscript, frame_item. destruct Hl as (fr0 & Hf0 & Hd). assert (fr0 = fr) as -> by (eapply is_frame_unique; eauto).
    assert (Hl : is_link w f s lk) by (exists fr; auto). pose proof (chained_links fuel os f s lk gr Hl Hg) as HC.
    apply get_frame_is in Hf. rewrite Hf. cbn [rbind]. rewrite Hd. cbn [rbind]. unfold make_node. rewrite Ha, HC.
    assert (HT : top_other w [(f, s)] = Ok (lk, lk_other lk)) by (simpl; apply get_link_is in Hl; rewrite Hl; reflexivity).
    assert (Hs' : dget String.eqb (f_links gr) c = None).
    { destruct (dget String.eqb (f_links gr) c) as [lkc|] eqn:Ed; auto. exfalso. apply (Hs lkc). exists gr. auto. }
    cbn [walk]. unfold item_item. unfold fill_of in W1. unfold column_fill, get_column. unfold is_column in Hc.
    destruct (f_ldf gr); rewrite HT; simpl; apply get_frame_is in Hg; rewrite Hg; simpl; rewrite ?Hs', Hc; simpl; rewrite W1; reflexivity.
  Qed.

  (** ** The indexer after a refresh *)
  Hypothesis veq_spec : forall a b, v_eq E a b = true <-> a = b.
  (** no two rows of the target have the same key *)
  Definition distinct_keys (gr : frame) (m : meta) : Prop := forall j j' k, row_key gr m j k -> row_key gr m j' k -> j = j'.
  Lemma refreshed_link fuel os f s lk lk1 fr gr : let w := after E fuel os in
    is_link w f s lk -> lk_owner lk = f -> lk_agg lk = false -> is_frame w f fr -> is_frame w (lk_other lk) gr -> distinct_keys gr (lk_target lk) ->
    precompute E w lk = Ok lk1 ->
    exists ts, lk_flat lk1 = Some (map code ts) /\ length ts = nrows fr /\ targets w f lk ts /\ (forall j, In (Some j) ts -> j < nrows gr).
  Proof using veq_spec.
    intros w Hl HO Ha Hf Hg HD HP. assert (HR : reachable E fuel w) by (exists os; reflexivity). pose proof (reachable_ok E _ _ HR) as HW.
    unfold precompute in HP. rewrite HO in HP. pose proof Hf as Hf'. apply get_frame_is in Hf'. rewrite Hf' in HP. cbn [rbind] in HP.
    destruct (get_keys E (lk_self lk) fr) as [sk|] eqn:Es; cbn [rbind] in HP; [|discriminate]. pose proof Hg as Hg'. apply get_frame_is in Hg'. rewrite Hg' in HP. cbn [rbind] in HP.
    destruct (get_keys E (lk_target lk) gr) as [ok|] eqn:Et; cbn [rbind] in HP; [|discriminate]. apply get_keys_ikeys in Es, Et.
    destruct (ikeys_spec E _ _ _ (HW _ _ Hf) Es) as [LS SS]. destruct (ikeys_spec E _ _ _ (HW _ _ Hg) Et) as [LO SO].
    assert (ND : NoDup ok).
    { apply NoDup_nth_error. intros i j Hi HE. destruct (nth_error ok i) as [k|] eqn:Ei; [|apply nth_error_None in Ei; lia].
      apply (HD i j k); [apply (SO i k); auto|apply (SO j k); congruence]. }
    destruct (make_indexer_flat E veq_spec _ _ _ _ (fun _ => ND) HP) as [FL _]. rewrite Ha in FL. unfold order in FL.
    exists (map (position (keq E) ok) sk). split; [|split; [|split]].
    - rewrite FL. f_equal. rewrite map_map. apply map_ext. intros k. now rewrite pos_code.
    - now rewrite map_length.
    - intros i o Ho. rewrite nth_error_map in Ho. destruct (nth_error sk i) as [k|] eqn:Ek; [|discriminate]. simpl in Ho. injection Ho as <-.
      assert (HK : forall j, matches w f lk i j <-> nth_error ok j = Some k).
      { intros j. split.
        - intros (a & b & k' & A & B & C & D). assert (a = fr) as -> by (eapply is_frame_unique; eauto). assert (b = gr) as -> by (eapply is_frame_unique; eauto).
          apply (ikeys_row_key E _ _ _ _ _ (HW _ _ Hf) Es) in C. apply (ikeys_row_key E _ _ _ _ _ (HW _ _ Hg) Et) in D. congruence.
        - intros X. exists fr, gr, k. repeat split; auto; [eapply ikeys_row_key; eauto|eapply ikeys_row_key; eauto]. }
      destruct (position (keq E) ok k) as [j|] eqn:Ej.
      + apply (position_some _ (keq_spec E veq_spec)) in Ej. split; [now apply HK|]. intros j' Hj. apply HK in Hj.
        eapply NoDup_nth_error; [exact ND| |congruence]. apply nth_error_Some. congruence.
      + intros j Hj. apply HK in Hj. apply (position_none _ (keq_spec E veq_spec)) in Ej. apply Ej. eapply nth_error_In; eauto.
    - intros j Hj. apply in_map_iff in Hj. destruct Hj as (k & Hk & _). apply (position_lt _ (keq_spec E veq_spec)) in Hk. now rewrite LO in Hk.
  Qed.

  Lemma same_link_names (w w1 : lworld) f s lk1 : same_data w w1 -> is_link w1 f s lk1 -> exists lk, is_link w f s lk.
  Proof.
    intros HS (fr1 & H1 & H2). destruct (same_frame _ _ _ _ (same_sym _ _ HS) H1) as (fr & F1 & F2). unfold drop_caches, with_links in F2. injection F2 as _ _ _ _ FL _ _.
    pose proof (f_equal (fun l => dget String.eqb l s) FL) as X. cbv beta in X. rewrite !dget_map, H2 in X. cbn [option_map] in X. destruct (dget String.eqb (f_links fr) s) as [lk|] eqn:Ed; [|discriminate]. exists lk, fr. auto.
  Qed.

  (** ** What is read after a refresh, in every history *)
  (** [m]: the list of missing rows stored with the link before the refresh *)
  Theorem C68_after_refresh_exactly fuel os f w1 r s lk fr gr c d vals y : let w := after E fuel os in
    lstep E fuel w (LCompute f true) = (w1, Ok r) ->
    is_link w f s lk -> lk_owner lk = f -> lk_agg lk = false -> is_frame w f fr -> is_frame w (lk_other lk) gr -> distinct_keys gr (lk_target lk) -> (nrows gr = 0 -> nrows fr = 0) ->
    is_column gr c (d, vals) -> (forall lk', ~ is_link w (lk_other lk) c lk') -> v_store E d (fill_of w gr c d) = Ok y ->
    (forall m i, lk_missing lk = Some m -> In i m -> i < nrows fr) ->
    exists w' out, lstep E fuel w1 (LRead f [s; c]) = (w', Ok (RCol (d, out))) /\ length out = nrows fr /\
      forall i, i < nrows fr ->
        match lk_missing lk with
        | None => (exists j, matches w f lk i j /\ nth_error out i = nth_error vals j) \/ ((forall j, ~ matches w f lk i j) /\ nth_error out i = Some y)
        | Some m => (In i m -> nth_error out i = Some y) /\
                    (~ In i m -> (exists j, matches w f lk i j /\ nth_error out i = nth_error vals j) \/ ((forall j, ~ matches w f lk i j) /\ nth_error out i = nth_error vals (nrows gr - 1)))
        end.
  Proof using veq_spec.
    intros w HS Hl HO Ha Hf Hg HD HE Hc Hs HY HM. destruct (refresh_gives fuel os f w1 r HS) as [SD RL]. fold w in SD, RL. destruct (RL _ _ Hl) as (lk1 & P1 & P2).
    destruct (refreshed_link fuel os f s lk lk1 fr gr Hl HO Ha Hf Hg HD P1) as (ts & T1 & T2 & T3 & T4). fold w in T3.
    destruct (precompute_static E _ _ _ P1) as [CM MM]. pose proof CM as CM'. unfold copy_meta in CM'. injection CM' as C1 C2 C3 C4 C5 C6.
    assert (W1 : w1 = after E fuel (os ++ [LCompute f true])) by (rewrite after_one; fold w; now rewrite HS).
    destruct (same_frame _ _ _ _ SD Hf) as (fr1 & F1 & F2). destruct (same_frame _ _ _ _ SD Hg) as (gr1 & G1 & G2).
    unfold drop_caches, with_links in F2, G2. injection F2 as _ _ FI _ _ _ _. injection G2 as GL _ GI GC _ GF GK.
    assert (NF : nrows fr1 = nrows fr) by (unfold nrows; now rewrite <- FI). assert (NG : nrows gr1 = nrows gr) by (unfold nrows; now rewrite <- GI).
    rewrite W1 in *. destruct (stale_read fuel (os ++ [LCompute f true]) f s lk1 fr1 gr1 c d vals y ts) as (w' & out & R1 & R2 & R3 & R4); try congruence.
    - rewrite NG. exact T4.
    - rewrite NG. intros I X. apply HE in X. rewrite <- T2 in X. destruct ts; [destruct I|discriminate].
    - rewrite NF. intros i I. unfold rows_to_fill in I. rewrite MM in I. destruct (lk_missing lk) as [m|] eqn:Em; [eapply HM; eauto|].
      apply missing_codes in I. rewrite <- T2. apply nth_error_Some. congruence.
    - rewrite C2. intros lk' Hx. destruct (same_link_names _ _ _ _ _ SD Hx) as (lk2 & H2). exact (Hs _ H2).
    - replace (fill_of (after E fuel (os ++ [LCompute f true])) gr1 c d) with (fill_of w gr c d); auto. unfold fill_of. destruct SD as [_ SC]. now rewrite GL, GF, GK, SC.
    - exists w', out. split; auto. rewrite NF in R3. split; auto. intros i Hi. destruct (nth_error ts i) as [o|] eqn:Eo; [|apply nth_error_None in Eo; lia].
      specialize (R4 _ _ Eo). specialize (T3 _ _ Eo). rewrite NG in R4. unfold rows_to_fill in R4. rewrite MM in R4. destruct (lk_missing lk) as [m|] eqn:Em.
      + split; intros HI.
        * replace (existsb (Nat.eqb i) m) with true in R4; auto. symmetry. apply existsb_exists. exists i. split; auto. apply Nat.eqb_refl.
        * replace (existsb (Nat.eqb i) m) with false in R4. { destruct o as [j|]; [left; exists j; split; auto; apply T3|right; auto]. }
          symmetry. apply not_true_is_false. intros X. apply existsb_exists in X. destruct X as (i' & X1 & X2). apply Nat.eqb_eq in X2. now subst i'.
      + destruct o as [j|].
        * left. exists j. split; [apply T3|]. rewrite R4. replace (existsb (Nat.eqb i) _) with false; auto. symmetry. apply not_true_is_false. intros X. apply existsb_exists in X. destruct X as (i' & X1 & X2).
          apply Nat.eqb_eq in X2. subst i'. apply missing_codes in X1. congruence.
        * right. split; auto. rewrite R4. replace (existsb (Nat.eqb i) _) with true; auto. symmetry. apply existsb_exists. exists i. split; [apply missing_codes; auto|apply Nat.eqb_refl].
  Qed.

  (** if nothing has been read yet, lookups follow the current keys *)
  Theorem C68_unread_links_become_current_partial fuel os f w1 r s lk fr gr c d vals y : let w := after E fuel os in
    (forall o, In o os -> is_read o = false) ->
    lstep E fuel w (LCompute f true) = (w1, Ok r) ->
    is_link w f s lk -> lk_owner lk = f -> lk_agg lk = false -> is_frame w f fr -> is_frame w (lk_other lk) gr -> distinct_keys gr (lk_target lk) -> (nrows gr = 0 -> nrows fr = 0) ->
    is_column gr c (d, vals) -> (forall lk', ~ is_link w (lk_other lk) c lk') -> v_store E d (fill_of w gr c d) = Ok y ->
    exists w' out, lstep E fuel w1 (LRead f [s; c]) = (w', Ok (RCol (d, out))) /\ length out = nrows fr /\
      forall i, i < nrows fr -> (exists j, matches w f lk i j /\ nth_error out i = nth_error vals j) \/ ((forall j, ~ matches w f lk i j) /\ nth_error out i = Some y).
  Proof using veq_spec.
    intros w HR HS Hl HO Ha Hf Hg HD HE Hc Hs HY. pose proof (unread_links fuel os HR _ _ _ Hl) as HM. cbv beta in HM.
    destruct (C68_after_refresh_exactly fuel os f w1 r s lk fr gr c d vals y HS Hl HO Ha Hf Hg HD HE Hc Hs HY) as (w' & out & R1 & R2 & R3); [congruence|].
    exists w', out. rewrite HM in R3. auto.
  Qed.
End Refresh.

(** ** Refuted *)
(** persons 1-3 in households 10, 11, 99; there are households 10, 11, 12 *)
Definition edited_history (hh : list Z) : list lop0 :=
  [ LNew true [None] [row 1; row 2; row 3] [("age", ints [30; 40; 5]%Z); ("hh", ints [10; 11; 99]%Z)];
    LNew true [Some "hid"] [row 10; row 11; row 12] [("income", ints [100; 200; 300]%Z)];
    LLink 0 1 "household" (to_index "hh") true;
    LRead 0 ["household"; "income"];
    LSetColumn 0 "hh" (ints hh) ].
(** person 1 moves to a household that is not there and person 3 to household 12; after refreshing, person 1 has the income of the
    last household, person 3 has none *)
Theorem C68_edited_keys_refuted :
  read0 (w0 (edited_history [98; 11; 12]%Z ++ [LCompute 0 true])) 0 ["household"; "income"] = Ok (RCol (ints [300; 200; 0]%Z)) /\
  snd (lstep env0 3 (w0 (edited_history [98; 11; 12]%Z)) (LCompute 0 true)) = Ok RNone.
Proof. vm_compute. auto. Qed.
(** ... and refreshing selected rows gives them the values of the rows of the original *)
Theorem C68_refreshing_a_slice_refuted :
  let w := w0 (delayed_history ++ [LLink 0 1 "household" (to_index "hh") true; LTake 0 [2; 1; 1]]) in
  read0 w 2 ["household"; "income"] = Ok (RCol (ints [100; 200; 200]%Z)) /\
  read0 (fst (lstep env0 3 w (LCompute 2 true))) 2 ["household"; "income"] = Ok (RCol (ints [100; 200; 100]%Z)).
Proof. vm_compute. auto. Qed.

(** ** The hypotheses are met *)
Example C68_exactly_met :
  let os := edited_history [98; 11; 12]%Z in let w := w0 os in
  exists lk fr gr, is_link w 0 "household" lk /\ lk_owner lk = 0 /\ lk_agg lk = false /\ is_frame w 0 fr /\ is_frame w (lk_other lk) gr /\ distinct_keys gr (lk_target lk) /\ nrows gr = 3 /\
    is_column gr "income" (ints [100; 200; 300]%Z) /\ v_store env0 DInt (fill_of w gr "income" DInt) = Ok (i 0) /\ lk_missing lk = Some [2] /\ nrows fr = 3.
Proof.
  eexists _, _, _. split; [eexists; split; [vm_compute; reflexivity|vm_compute; reflexivity]|]. cbn [lk_owner lk_agg lk_other lk_target lk_missing].
  do 4 (split; [vm_compute; reflexivity|]). split; [|vm_compute; auto].
  intros j j' k H H'. unfold row_key in *. cbn in H, H'.
  destruct j as [|[|[|j]]], j' as [|[|[|j']]]; cbn in H, H'; try congruence; try (destruct j; discriminate); try (destruct j'; discriminate).
Qed.
Example C68_unread_met :
  let os := [ LNew true [None] [row 1; row 2; row 3] [("age", ints [30; 40; 5]%Z); ("hh", ints [10; 11; 99]%Z)];
    LNew true [Some "hid"] [row 10; row 11; row 12] [("income", ints [100; 200; 300]%Z)];
    LLink 0 1 "household" (to_index "hh") true; LSetColumn 0 "hh" (ints [98; 11; 12]%Z) ] in
  (forall o, In o os -> is_read o = false) /\
  read0 (w0 os) 0 ["household"; "income"] = Ok (RCol (ints [100; 200; 0]%Z)) /\
  snd (lstep env0 3 (w0 os) (LCompute 0 true)) = Ok RNone /\
  read0 (w0 (os ++ [LCompute 0 true])) 0 ["household"; "income"] = Ok (RCol (ints [0; 200; 300]%Z)).
Proof. split; [intros o H; cbn in H; intuition (subst; auto)|vm_compute; auto]. Qed.
Print Assumptions C68_after_refresh_exactly.
