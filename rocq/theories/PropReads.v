(** Properties C69 (delayed indexing) and C77, C78 (reading changes nothing that can be read). *)
From Verif Require Import Prelude DictProofs ExprModel ScopeModel ScopeProofs LdfModel SpecLdf LdfProofs LdfKeys LdfReads LdfInv LdfGood LdfLookup LdfLinks LdfSim LdfExample.
Local Open Scope string_scope.
Local Open Scope nat_scope.
Local Open Scope list_scope.

Section Histories.
  Context {L V : Type} (E : venv L V).
  Lemma lrun_app fuel : forall os (w : @lworld V) os', fst (lrun E fuel w (os ++ os')) = fst (lrun E fuel (fst (lrun E fuel w os)) os').
  Proof.
    induction os as [|o os IH]; intros w os'; simpl; auto. destruct (lstep E fuel w o) as [w1 r1]. specialize (IH w1 os').
    destruct (lrun E fuel w1 (os ++ os')) as [w2 r2], (lrun E fuel w1 os) as [w3 r3]. exact IH.
  Qed.
  Lemma after_app fuel os os' : after E fuel (os ++ os') = fst (lrun E fuel (after E fuel os) os').
  Proof. apply lrun_app. Qed.
  Lemma after_one fuel os o : after E fuel (os ++ [o]) = fst (lstep E fuel (after E fuel os) o).
  Proof. rewrite after_app. simpl. destruct (lstep E fuel (after E fuel os) o). reflexivity. Qed.

  (** whatever is read in between, and whatever links were made, sliced or edited before *)
  Theorem C77_reads_do_not_change_reads fuel os reads o :
    Forall (fun r => is_read r = true) reads -> is_read o = true ->
    snd (lstep E fuel (after E fuel (os ++ reads)) o) = snd (lstep E fuel (after E fuel os) o) /\
    same_data (after E fuel os) (after E fuel (os ++ reads)).
  Proof.
    intros HF Ho. pose proof (reads_sim E fuel reads (after E fuel os) _ HF (paired_links E fuel os) eq_refl) as HS. rewrite after_app.
    split; [symmetry; apply read_sim; auto; apply closed_after|apply HS].
  Qed.
End Histories.

Section Delayed.
  Context {L V : Type} (E : venv L V).
  Notation frame := (@frame V).
  Notation lworld := (@lworld V).
  Lemma dset_twice {A} (d : dict string A) s x y : dset String.eqb (dset String.eqb d s x) s y = dset String.eqb d s y.
  Proof.
    induction d as [|[k z] d IH]; simpl; [now rewrite String.eqb_refl|]. destruct (String.eqb s k) eqn:Es; simpl; rewrite Es; auto. now rewrite IH.
  Qed.
  Lemma upd_twice {A} : forall (l : list A) i x y, upd (upd l i x) i y = upd l i y.
  Proof. induction l as [|h t IH]; intros [|i] x y; simpl; auto. now rewrite IH. Qed.
  Lemma set_link_twice (w : lworld) f name a b : set_link (set_link w f name a) f name b = set_link w f name b.
  Proof.
    unfold set_link. destruct (nth_error (lw_frames w) f) as [fr|] eqn:Ef; [|now rewrite Ef].
    assert (f < length (lw_frames w)) by (apply nth_error_Some; congruence). simpl. rewrite nth_error_upd_eq by auto.
    unfold set_frame. simpl. rewrite upd_twice. unfold with_links. simpl. now rewrite dset_twice.
  Qed.
  Lemma keys_unshadowed m (fr : frame) ks : get_keys E m fr = Ok ks -> unshadowed fr m.
  Proof.
    unfold get_keys. intros H ls s Hm Hr Hin. rewrite Hm, Hr in H. destruct (rmapl (column_values fr) ls) as [arrays|] eqn:Ea; simpl in H; [|discriminate].
    apply rmapl_ok in Ea. clear H Hm. induction Ea as [|l a ls arrays Hl _ IH]; [destruct Hin|]. destruct Hin as [->|Hin]; auto.
    unfold column_values in Hl. destruct (dget _ (f_cols fr) s) as [[d v]|]; [|discriminate]. unfold dmem in Hl. destruct (dget _ (f_links fr) s); [discriminate|auto].
  Qed.
  Lemma keys_after_link m (fr : frame) name lk ks : ~ uses_column name m -> get_keys E m fr = Ok ks ->
    get_keys E m (with_links fr (dset String.eqb (f_links fr) name lk)) = Ok ks.
  Proof.
    intros HN H. pose proof (keys_unshadowed _ _ _ H) as HU. rewrite (unshadowed_keys E), <- (unshadowed_keys E m fr HU) in *; auto.
    - rewrite <- H. rewrite (unshadowed_keys E m fr HU). now apply ikeys_core.
    - intros ls s Hm Hr Hin. simpl. rewrite (dget_dset _ sspec). destruct (String.eqb s name) eqn:Es; [|eapply HU; eauto].
      apply sspec in Es. subst s. exfalso. apply HN. split; eauto.
  Qed.
  Lemma keys_in_world (w : lworld) f name lk fr g gr m ks : is_frame w f fr -> is_frame w g gr -> get_keys E m gr = Ok ks -> (g = f -> ~ uses_column name m) ->
    exists gr', get_frame (set_link w f name lk) g = Ok gr' /\ get_keys E m gr' = Ok ks.
  Proof.
    intros Hf Hg HK HN. unfold set_link. unfold is_frame in Hf. rewrite Hf. destruct (Nat.eqb_spec g f) as [->|N].
    - exists (with_links fr (dset String.eqb (f_links fr) name lk)). split; [apply get_frame_is, (set_frame_is _ _ _ _ _ _ Hf); now rewrite Nat.eqb_refl|].
      assert (gr = fr) as -> by (unfold is_frame in Hg; congruence). apply keys_after_link; auto.
    - exists gr. split; auto. apply get_frame_is, (set_frame_is _ _ _ _ _ _ Hf). apply Nat.eqb_neq in N. now rewrite N.
  Qed.

  Context (veq_spec : forall a b, v_eq E a b = true <-> a = b).
  (** computing the indexer of a link that could be made never fails *)
  Lemma make_indexer_total lk sk ok : (lk_agg lk = false -> NoDup ok) -> exists lk', make_indexer E lk sk ok = Ok lk'.
  Proof using veq_spec.
    intros HN. unfold make_indexer. destruct (lk_agg lk).
    - unfold factorize. rewrite (get_indexer_unique _ (keq_spec E veq_spec)) by (apply order_nodup; auto). simpl. eauto.
    - destruct (index_equals _ _ _); simpl; eauto. rewrite (get_indexer_unique _ (keq_spec E veq_spec)) by auto. simpl. eauto.
  Qed.
  Lemma create_both w f g sa sr oa orr :
    match create E w f g sa sr oa orr false, create E w f g sa sr oa orr true with
    | Ok lk0, Ok lk1 => copy_meta lk1 = lk0 /\ lk_missing lk1 = None /\ (lk_agg lk0 = false -> lk_grouper lk1 = None) /\ lk_flat lk1 <> None /\
        exists fr gr sk ok, is_frame w f fr /\ is_frame w g gr /\ lk_owner lk0 = f /\ lk_other lk0 = g /\ get_keys E (lk_self lk0) fr = Ok sk /\ get_keys E (lk_target lk0) gr = Ok ok /\
          make_indexer E lk0 sk ok = Ok lk1
    | Err x, Err y => x = y
    | _, _ => False
    end.
  Proof using veq_spec.
    unfold create. destruct (get_frame w f) as [fr|] eqn:Ef; simpl; auto. destruct (get_frame w g) as [gr|] eqn:Eg; simpl; auto.
    destruct (mk_meta sa sr) as [sm|]; simpl; auto. destruct (mk_meta oa orr) as [om|]; simpl; auto. destruct (check _ _); simpl; auto.
    destruct (get_keys E sm fr) as [sk|] eqn:Es; simpl; auto. destruct (get_keys E om gr) as [ok|] eqn:Eo; simpl; auto.
    destruct (if andb _ _ then _ else _) as [agg|] eqn:Ea; simpl; auto.
    assert (HN : agg = false -> NoDup ok).
    { intros ->. apply (unique_spec _ (keq_spec E veq_spec)). destruct (unique (keq E) sk), (unique (keq E) ok); simpl in Ea; auto; discriminate. }
    destruct (make_indexer_total (Link f g sm om (f_ldf gr) agg None None None) sk ok HN) as (lk1 & H1). rewrite H1.
    destruct (make_indexer_static E _ _ _ _ H1) as [HC HM]. repeat split; auto.
    - simpl. intros ->. unfold make_indexer in H1. simpl in H1. destruct (if index_equals _ _ _ then _ else _) in H1; simpl in H1; [|discriminate]. now injection H1 as <-.
    - pose proof (make_indexer_flat E veq_spec (Link f g sm om (f_ldf gr) agg None None None) sk ok lk1 HN H1) as [HF _]. congruence.
    - exists fr, gr, sk, ok. apply get_frame_is in Ef, Eg. simpl. repeat split; auto.
  Qed.

  (** [link] does not have the name of a column that it needs as a key *)
  Definition own_name (f : nat) (name : string) (lk : @link) : Prop :=
    ~ uses_column name (lk_self lk) /\ (lk_other lk = f -> ~ uses_column name (lk_target lk)).

  Lemma link_to_both w f g name a :
    match link_to E w f g name a false, link_to E w f g name a true with
    | (w2, Ok b2), (w1, Ok b1) => b1 = b2 /\ exists lk0 lk1, w2 = set_link w f name lk0 /\ w1 = set_link w f name lk1 /\ lk_agg lk0 = b2 /\
        is_link w2 f name lk0 /\ is_link w1 f name lk1 /\ copy_meta lk1 = lk0 /\ lk_missing lk1 = None /\ (b2 = false -> lk_grouper lk1 = None) /\ lk_flat lk1 <> None /\
        (own_name f name lk0 -> precompute E w2 lk0 = Ok lk1)
    | (w2, Err x2), (w1, Err x1) => x1 = x2 /\ w1 = w /\ w2 = w
    | _, _ => False
    end.
  Proof using veq_spec.
    unfold link_to. destruct (get_frame w f) as [fr|] eqn:Ef; simpl; auto. destruct (check (f_ldf fr) _); simpl; auto.
    destruct (resolve_args a) as [[[sa sr] [oa orr]]|]; simpl; auto. pose proof (create_both w f g sa sr oa orr) as HB.
    destruct (create E w f g sa sr oa orr false) as [lk0|], (create E w f g sa sr oa orr true) as [lk1|]; try contradiction; auto.
    destruct HB as (HC & HM & HG & HF & fr' & gr & sk & ok & F1 & F2 & O1 & O2 & K1 & K2 & HI).
    assert (lk_agg lk1 = lk_agg lk0) by (apply (f_equal lk_agg) in HC; exact HC).
    assert (fr' = fr) as -> by (apply get_frame_is in Ef; eapply is_frame_unique; eauto).
    split; auto. exists lk0, lk1. repeat split; auto.
    - apply (set_link_is w f name lk0 fr f name lk0 F1). now rewrite Nat.eqb_refl, String.eqb_refl.
    - apply (set_link_is w f name lk1 fr f name lk1 F1). now rewrite Nat.eqb_refl, String.eqb_refl.
    - intros [N1 N2]. unfold precompute. rewrite O1. rewrite O2 in N2.
      destruct (keys_in_world w f name lk0 fr f fr (lk_self lk0) sk F1 F1 K1 (fun _ => N1)) as (a1 & A1 & A2). rewrite A1. simpl. rewrite A2. simpl. rewrite O2.
      destruct (keys_in_world w f name lk0 fr g gr (lk_target lk0) ok F1 F2 K2 N2) as (b1 & B1 & B2). rewrite B1. simpl. rewrite B2. exact HI.
  Qed.

  (** both ways of making a link are accepted or rejected alike *)
  Theorem C69_delayed_links_are_accepted_alike fuel w f g name a :
    snd (lstep E fuel w (LLink f g name a false)) = snd (lstep E fuel w (LLink f g name a true)).
  Proof using veq_spec.
    simpl. pose proof (link_to_both w f g name a) as H. destruct (link_to E w f g name a false) as [w2 [b2|x2]], (link_to E w f g name a true) as [w1 [b1|x1]]; try contradiction; simpl.
    - destruct H as [-> _]. auto.
    - destruct H as [-> _]. auto.
  Qed.
  (** every read gives the same, through a link that does not aggregate *)
  Theorem C69_delayed_lookups_equal_precomputed fuel os f g name a lk o :
    let w := after E fuel os in
    let w1 := fst (lstep E fuel w (LLink f g name a true)) in
    let w2 := fst (lstep E fuel w (LLink f g name a false)) in
    snd (lstep E fuel w (LLink f g name a false)) = Ok (RAgg false) ->
    is_link w2 f name lk -> own_name f name lk ->
    is_read o = true -> snd (lstep E fuel w2 o) = snd (lstep E fuel w1 o).
  Proof using veq_spec.
    intros w w1 w2 HR HL HN Ho. pose proof (paired_links E fuel (os ++ [LLink f g name a true])) as P1. pose proof (paired_links E fuel (os ++ [LLink f g name a false])) as P2.
    pose proof (closed_after E fuel (os ++ [LLink f g name a false])) as HC. rewrite !after_one in P1, P2, HC. fold w in P1, P2, HC. fold w1 in P1. fold w2 in P2, HC.
    apply read_sim; auto. pose proof (link_to_both w f g name a) as H. unfold w1, w2 in *. cbn [lstep] in *.
    destruct (link_to E w f g name a false) as [u2 [b2|x2]], (link_to E w f g name a true) as [u1 [b1|x1]]; try contradiction; simpl in *; [|discriminate].
    destruct H as (-> & lk0 & lk1 & U2 & U1 & AG & L2 & L1 & CM & MI & GR & FL & PR). injection HR as ->.
    pose proof (is_link_unique _ _ _ _ _ L2 HL) as ->. specialize (PR HN). specialize (GR eq_refl).
    assert (HU : u1 = set_link u2 f name lk1) by (rewrite U1, U2; now rewrite set_link_twice).
    assert (SD : same_data u2 u1) by (rewrite HU; eapply set_link_same; [exact L2|]; rewrite CM; subst lk; reflexivity).
    constructor; auto.
    - intros h n. unfold view. rewrite HU, (set_link_get u2 f name lk lk1 h n L2). destruct (andb (Nat.eqb h f) (String.eqb n name)) eqn:Ea.
      + apply andb_true_iff in Ea. destruct Ea as [E1 E2]. apply Nat.eqb_eq in E1. apply sspec in E2. subst h n. apply get_link_is in L2. rewrite L2. cbn [rbind].
        unfold fresh at 1. assert (lk_flat lk = None) as -> by (subst lk; reflexivity). rewrite PR. cbn [rbind]. unfold fresh. destruct (lk_flat lk1) eqn:E1; [|congruence]. cbn [rbind]. now rewrite E1.
      + destruct (get_link u2 h n) as [x|]; cbn [rbind]; auto. unfold fresh. rewrite <- HU, (precompute_same E u2 u1 x SD). reflexivity.
    - intros h n. unfold gview. rewrite HU, (set_link_get u2 f name lk lk1 h n L2). destruct (andb (Nat.eqb h f) (String.eqb n name)) eqn:Ea; auto.
      apply andb_true_iff in Ea. destruct Ea as [E1 E2]. apply Nat.eqb_eq in E1. apply sspec in E2. subst h n. apply get_link_is in L2. rewrite L2, GR. subst lk. reflexivity.
  Qed.
  (** computing the indexers afterwards gives the frame that precomputing gives *)
  Lemma compute_done : forall names (w : lworld) f, (forall n, In n names -> exists lk, is_link w f n lk /\ lk_flat lk <> None) ->
    compute_list E w f false names = (w, Ok tt).
  Proof.
    induction names as [|n names IH]; simpl; intros w f H; auto. destruct (H n (or_introl eq_refl)) as (lk & Hl & Hf). apply get_link_is in Hl. rewrite Hl.
    destruct (lk_flat lk); [|congruence]. apply IH. intros m Hm. apply H. auto.
  Qed.
  Lemma compute_one : forall names (w : lworld) f name lk0 lk1, In name names ->
    (forall n, In n names -> n <> name -> exists lk, is_link w f n lk /\ lk_flat lk <> None) ->
    is_link w f name lk0 -> lk_flat lk0 = None -> precompute E w lk0 = Ok lk1 -> lk_flat lk1 <> None ->
    compute_list E w f false names = (set_link w f name lk1, Ok tt).
  Proof.
    induction names as [|n names IH]; simpl; intros w f name lk0 lk1 HI HO Hl H0 HP H1; [destruct HI|]. destruct (string_dec n name) as [->|Nn].
    - pose proof Hl as Hl'. apply get_link_is in Hl'. rewrite Hl', H0, HP. simpl. pose proof Hl as (fr & Hf & _). apply compute_done.
      intros m Hm. destruct (string_dec m name) as [->|Nm].
      + exists lk1. split; auto. apply (set_link_is w f name lk1 fr f name lk1 Hf). now rewrite Nat.eqb_refl, String.eqb_refl.
      + destruct (HO m (or_intror Hm) Nm) as (x & X1 & X2). exists x. split; auto.
        apply (set_link_is w f name lk1 fr f m x Hf). apply String.eqb_neq in Nm. now rewrite Nm, andb_false_r.
    - destruct (HO n (or_introl eq_refl) Nn) as (x & X1 & X2). apply get_link_is in X1. rewrite X1. destruct (lk_flat x); [|congruence]. simpl.
      destruct HI as [->|HI]; [congruence|]. eapply IH; eauto.
  Qed.
  Lemma in_links (d : dict string (@link)) n : In n (dkeys d) -> exists lk, dget String.eqb d n = Some lk.
  Proof.
    intros H. destruct (dget String.eqb d n) as [lk|] eqn:Ed; eauto. exfalso. revert Ed H. unfold dkeys. induction d as [|[k v] d IH]; simpl; auto.
    destruct (String.eqb n k) eqn:Ek; [discriminate|]. intros Ed [->|H]; [now rewrite String.eqb_refl in Ek|auto].
  Qed.
  Lemma links_in (d : dict string (@link)) n lk : dget String.eqb d n = Some lk -> In n (dkeys d).
  Proof.
    unfold dkeys. induction d as [|[k v] d IH]; simpl; [discriminate|]. destruct (String.eqb n k) eqn:Ek; auto. intros _. left. symmetry. now apply sspec.
  Qed.
  (** the other links of the frame having their indexers, [compute_indexers()] makes the delayed link what a
      precomputed one is, aggregating or not *)
  Theorem C69_computing_later_equals_precomputing fuel (w : lworld) f g name a b lk :
    let w1 := fst (lstep E fuel w (LLink f g name a true)) in
    let w2 := fst (lstep E fuel w (LLink f g name a false)) in
    snd (lstep E fuel w (LLink f g name a false)) = Ok (RAgg b) ->
    is_link w2 f name lk -> own_name f name lk ->
    (forall n lk', is_link w2 f n lk' -> n <> name -> lk_flat lk' <> None) ->
    lstep E fuel w2 (LCompute f false) = (w1, Ok RNone).
  Proof using veq_spec.
    intros w1 w2 HR HL HN HO. pose proof (link_to_both w f g name a) as H. unfold w1, w2 in *. cbn [lstep] in *.
    assert (HF : forall u r, link_to E w f g name a false = (u, Ok r) -> forall fr, is_frame u f fr -> f_ldf fr = true).
    { intros u r X fr Hfr. unfold link_to in X. destruct (get_frame w f) as [fr0|] eqn:Ef; simpl in X; [|discriminate].
      destruct (f_ldf fr0) eqn:El; simpl in X; [|discriminate]. destruct (rbind _ _) as [lkx|]; [|discriminate]. injection X as <- _. unfold set_link in Hfr. apply get_frame_is in Ef. unfold is_frame in Ef. rewrite Ef in Hfr.
      apply (set_frame_is _ _ _ _ _ _ Ef) in Hfr. rewrite Nat.eqb_refl in Hfr. subst fr. exact El. }
    destruct (link_to E w f g name a false) as [u2 [b2|x2]], (link_to E w f g name a true) as [u1 [b1|x1]]; try contradiction; simpl in *; [|discriminate].
    destruct H as (-> & lk0 & lk1 & U2 & U1 & AG & L2 & L1 & CM & MI & GR & FL & PR). injection HR as ->.
    pose proof (is_link_unique _ _ _ _ _ L2 HL) as ->. specialize (PR HN). pose proof L2 as (fr & Hfr & Hd).
    specialize (HF _ _ eq_refl _ Hfr). unfold on_frame. pose proof Hfr as Hfr'. apply get_frame_is in Hfr'. rewrite Hfr', HF. unfold compute_indexers. rewrite Hfr'.
    rewrite (compute_one _ u2 f name lk lk1); auto.
    - rewrite U2, set_link_twice, <- U1. reflexivity.
    - eapply links_in; eauto.
    - intros n Hn Nn. destruct (in_links _ _ Hn) as (x & X). exists x. assert (is_link u2 f n x) by (exists fr; auto). split; eauto.
    - subst lk. reflexivity.
  Qed.
  (** until then aggregations over a delayed link fail *)
  Theorem C69_delayed_aggregations_raise fuel os f g name a func x int_fill :
    let w := after E fuel os in
    let w2 := fst (lstep E fuel w (LLink f g name a false)) in
    snd (lstep E fuel w (LLink f g name a false)) = Ok (RAgg true) ->
    exists e, snd (lstep E fuel w2 (LAgg f [name] func x int_fill)) = Err e.
  Proof using veq_spec.
    intros w w2 HR. pose proof (paired_links E fuel (os ++ [LLink f g name a false])) as P2.
    rewrite !after_one in P2. fold w in P2. fold w2 in P2. pose proof (link_to_both w f g name a) as H. unfold w2 in *. cbn [lstep] in *.
    destruct (link_to E w f g name a false) as [u2 [b2|x2]], (link_to E w f g name a true) as [u1 [b1|x1]]; try contradiction; simpl in *; [|discriminate].
    destruct H as (-> & lk0 & lk1 & U2 & U1 & AG & L2 & L1 & CM & MI & GR & FL & PR). injection HR as ->.
    pose proof L2 as (fr & Hfr & Hd). unfold frame_item. apply get_frame_is in Hfr. rewrite Hfr. simpl. rewrite Hd. unfold make_node. rewrite AG.
    rewrite aggregate_eq. unfold top_other at 1. apply get_link_is in L2. rewrite L2. cbn [rbind]. destruct (get_frame u2 (lk_other lk0)) as [gr|]; cbn [rbind]; [|simpl; eauto].
    destruct (agg_values E _ u2 _ gr x) as [u3 r3] eqn:EA. pose proof (agg_values_sim E _ u2 _ _ _ _ _ _ (proj1 (evaluate_eext E fuel)) (sim_refl E _ P2) EA) as HS.
    destruct r3 as [c|]; cbn [rbind]; [|simpl; eauto]. destruct (check _ _); cbn [rbind]; [|simpl; eauto].
    destruct (match fst c with DInt => _ | _ => _ end) as [fill|]; cbn [rbind]; [|simpl; eauto].
    pose proof (sim_groups _ _ _ HS f name) as HG. unfold gview in HG. rewrite L2 in HG. simpl. destruct (get_link u3 f name) as [lk3|]; simpl; [|eauto].
    assert (lk_grouper lk0 = None) as HN by (rewrite <- CM; reflexivity). rewrite HN in HG. rewrite <- HG. simpl. eauto.
  Qed.
End Delayed.

(** persons (0) with households (1): the link is made without an indexer *)
Definition delayed_history : list lop0 :=
  [ LNew true [None] [row 1; row 2; row 3] [("age", ints [30; 40; 5]%Z); ("hh", ints [10; 11; 10]%Z)];
    LNew true [Some "hid"] [row 10; row 11; row 12] [("income", ints [100; 200; 300]%Z)] ].
Definition members_args : largs := LArgs ANone ANone ANone (AStr "hh") ANone ANone.
Example C69_applies :
  let w := w0 delayed_history in
  (exists lk, is_link (fst (lstep env0 3 w (LLink 0 1 "household" (to_index "hh") false))) 0 "household" lk /\ own_name 0 "household" lk) /\
  snd (lstep env0 3 w (LLink 0 1 "household" (to_index "hh") false)) = Ok (RAgg false) /\
  snd (lstep env0 3 w (LLink 1 0 "members" members_args false)) = Ok (RAgg true) /\
  read0 (fst (lstep env0 3 w (LLink 0 1 "household" (to_index "hh") false))) 0 ["household"; "income"] = Ok (RCol (ints [100; 200; 100]%Z)).
Proof.
  split; [|vm_compute; auto]. eexists. split; [eexists; split; vm_compute; reflexivity|]. split.
  - intros (_ & ls & H & Hin). simpl in H. injection H as <-. destruct Hin as [X|[]]. discriminate.
  - simpl. discriminate.
Qed.
(** the claim fails: an aggregating link made with [precompute=False] cannot aggregate *)
Theorem C69_delayed_aggregation_refuted :
  let agg pre := snd (lstep env0 3 (w0 (delayed_history ++ [LLink 1 0 "members" members_args pre])) (LAgg 1 ["members"] FSum (XText "age") (i (-1)))) in
  agg true = Ok (RCol (ints [35; 40; -1]%Z)) /\ agg false = Err TypeError.
Proof. vm_compute. auto. Qed.
(** ... and a delayed link named like its key column cannot be read at all *)
Theorem C69_delayed_name_of_key_refuted :
  let rd pre := read0 (w0 (delayed_history ++ [LLink 0 1 "hh" (to_index "hh") pre])) 0 ["hh"; "income"] in
  rd true = Ok (RCol (ints [100; 200; 100]%Z)) /\ rd false = Err AttributeError.
Proof. vm_compute. auto. Qed.

Example C77_applies : Forall (fun r : lop0 => is_read r = true) [LRead 0 ["household"; "income"]; LEval 0 "household" []] /\
  read0 (w0 (persons_households_zones ++ [LRead 0 ["household"; "income"]; LEval 0 "household" []])) 0 ["household"; "income"] = Ok (RCol (ints [100; 200; 100; 0]%Z)).
Proof. split; [repeat constructor|vm_compute; reflexivity]. Qed.

(** Reading is not an operation without effect: it stores the indexer of a delayed link, so that a later
    change of the keys is no longer seen. *)
Theorem C78_reading_pins_the_keys_refuted :
  let prefix := delayed_history ++ [LLink 0 1 "household" (to_index "hh") false] in
  let suffix := [LSetColumn 0 "hh" (ints [12; 12; 12]%Z)] in
  read0 (w0 (prefix ++ suffix)) 0 ["household"; "income"] = Ok (RCol (ints [300; 300; 300]%Z)) /\
  read0 (w0 (prefix ++ [LRead 0 ["household"; "income"]] ++ suffix)) 0 ["household"; "income"] = Ok (RCol (ints [100; 200; 100]%Z)).
Proof. vm_compute. auto. Qed.
