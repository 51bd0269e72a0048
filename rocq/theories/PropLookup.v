(** Properties C60 and C61: lookups through links follow the keys. *)
From Verif Require Import Prelude DictProofs ExprModel ScopeModel ScopeProofs LdfModel SpecLdf LdfProofs LdfKeys LdfReads LdfInv LdfGood LdfLookup LdfExample.
Local Open Scope string_scope.
Local Open Scope nat_scope.
Local Open Scope list_scope.

Section Lookups.
  Context {L V : Type} (E : venv L V).
  Notation frame := (@frame V).
  Notation lworld := (@lworld V).

  Lemma nth_seq_from {A} (t : list A) (d : A) : forall k l, (forall i, i < length l -> nth_error t (k + i) = nth_error l i) ->
    map (fun i => match nth_error t i with Some o => o | None => d end) (seq k (length l)) = l.
  Proof.
    intros k l. revert k. induction l as [|x l IH]; intros k H; simpl; auto. pose proof (H 0 ltac:(simpl; lia)) as X. rewrite Nat.add_0_r in X. rewrite X. simpl.
    f_equal. apply IH. intros i Hi. change (nth_error l i) with (nth_error (x :: l) (S i)). rewrite <- (H (S i)) by (simpl; lia). f_equal. lia.
  Qed.
  Lemma nth_seq_self {A} (t : list A) (d : A) : map (fun i => match nth_error t i with Some o => o | None => d end) (seq 0 (length t)) = t.
  Proof. apply nth_seq_from. auto. Qed.

  (** [out] holds, for each row of frame [f], the value of [vals] at the row that following the keys
      along [path] reaches, and [y] where nothing is reached *)
  Definition follows (w : lworld) (f : nat) (path : list string) (vals : list V) (y : V) (out : list V) : Prop :=
    exists fr, is_frame w f fr /\ length out = nrows fr /\
      forall i, i < nrows fr -> exists o, reach w f path i o /\ (forall o', reach w f path i o' -> o' = o) /\
        nth_error out i = match o with Some j => nth_error vals j | None => Some y end.

  Theorem C61_chained_lookups_follow_the_keys fuel os f path g gr s d vals y :
    (forall a b, v_eq E a b = true <-> a = b) ->
    orderly_run E fuel (new_lworld E) os ->
    let w := after E fuel os in
    path <> [] -> lookups w f path g ->
    is_frame w g gr -> is_column gr s (d, vals) -> (forall lk, ~ is_link w g s lk) ->
    v_store E d (fill_of w gr s d) = Ok y ->
    exists w' out, lstep E fuel w (LRead f (path ++ [s])) = (w', Ok (RCol (d, out))) /\
      follows w f path vals y out /\ same_data w w'.
  Proof.
    intros veq_spec HO w HN HL Hg Hc Hs HY.
    pose proof (orderly_good E veq_spec _ _ HO) as HG. fold w in HG.
    assert (HR : reachable E fuel w) by (exists os; reflexivity).
    pose proof (reachable_ok E _ _ HR) as HW. pose proof (reachable_ldf E _ _ HR) as HD.
    assert (Hs' : dget String.eqb (f_links gr) s = None).
    { destruct (dget String.eqb (f_links gr) s) as [lk|] eqn:Ed; auto. exfalso. apply (Hs lk). exists gr. auto. }
    inversion HL as [|? s1 path1 lk ? fr gr1 Hl Ha Hr Hf Hg1 HE HL1]; subst; [congruence|]. clear HN.
    destruct (good_goes E veq_spec _ _ _ _ _ _ HW HG Hl Ha Hr Hf Hg1) as (ts1 & G1 & G2 & G3 & G4).
    set (comp := map (fun o => match o with Some i => match nth_error ts1 i with Some o' => o' | None => None end | None => None end) (map Some (seq 0 (nrows fr)))).
    assert (HC0 : comp = ts1).
    { unfold comp. rewrite map_map, <- G2. apply nth_seq_self. }
    assert (HC : chain E w [(f, s1)] (nrows gr1) ts1).
    { rewrite <- HC0. unfold comp. constructor; auto.
      - intros I X. apply HE in X. rewrite <- G2 in X. destruct ts1; [destruct I|discriminate].
      - rewrite G2. constructor. }
    assert (HT : top_other w [(f, s1)] = Ok (lk, lk_other lk)) by (simpl; apply get_link_is in Hl; rewrite Hl; reflexivity).
    destruct (walk_lookups E veq_spec w f HW HG HD _ _ _ HL1 _ _ _ _ _ Hg1 Hg HT HC) as (h' & ts' & lk' & W1 & W2 & W3 & W4 & W5).
    destruct (leaf_read E w f h' gr lk' g s d vals ts' y Hg W2 W3 HW HD Hc Hs' HY) as (w' & out & O1 & O2 & [O3 O4]).
    { exists fr. split; auto. congruence. }
    exists w', out. split; [|split; auto].
    - cbn [lstep app]. unfold subscript. unfold frame_item. destruct Hl as (fr0 & Hf0 & Hd). assert (fr0 = fr) as -> by (eapply is_frame_unique; eauto).
      apply get_frame_is in Hf. rewrite Hf. cbn [rbind]. rewrite Hd. unfold make_node. rewrite Ha.
      assert (Hl : is_link w f s1 lk) by (exists fr; auto).
      destruct (HG _ _ _ Hl) as (x & z & sk & ok & GD). pose proof (gd_chained _ _ _ _ _ _ _ _ GD) as ->. rewrite (is_frame_unique _ _ _ _ (gd_other _ _ _ _ _ _ _ _ GD) Hg1).
      fold (node f [(f, s1)] gr1). rewrite W1, O1. reflexivity.
    - exists fr. split; auto. split; [congruence|]. intros i Hi.
      destruct (nth_error ts1 i) as [o1|] eqn:E1; [|apply nth_error_None in E1; lia]. destruct (W5 _ _ E1) as (o' & N1 & N2).
      pose proof (targets_reach w f s1 lk ts1 path1 i Hl G3 _ E1 o' N2) as HRe. exists o'. split; auto. split.
      + intros o2 H2. eapply (reach_unique E veq_spec); eauto.
      + specialize (O4 _ _ N1). destruct o'; auto.
  Qed.

  (** one link: the value of the unique target row with the key of the row *)
  Theorem C60_lookups_follow_the_keys fuel os f s lk gr c d vals y fr :
    (forall a b, v_eq E a b = true <-> a = b) ->
    orderly_run E fuel (new_lworld E) os ->
    let w := after E fuel os in
    is_link w f s lk -> lk_agg lk = false -> readable w lk ->
    is_frame w f fr -> is_frame w (lk_other lk) gr -> (nrows gr = 0 -> nrows fr = 0) ->
    is_column gr c (d, vals) -> (forall lk', ~ is_link w (lk_other lk) c lk') ->
    v_store E d (fill_of w gr c d) = Ok y ->
    exists w' out, lstep E fuel w (LRead f [s; c]) = (w', Ok (RCol (d, out))) /\ same_data w w' /\ length out = nrows fr /\
      forall i, i < nrows fr ->
        (exists j, matches w f lk i j /\ (forall j', matches w f lk i j' -> j' = j) /\ nth_error out i = nth_error vals j) \/
        ((forall j, ~ matches w f lk i j) /\ nth_error out i = Some y).
  Proof.
    intros veq_spec HO w Hl Ha Hr Hf Hg HE Hc Hs HY.
    destruct (C61_chained_lookups_follow_the_keys fuel os f [s] (lk_other lk) gr c d vals y veq_spec HO) as (w' & out & H1 & (fr' & F1 & F2 & F3) & H3); auto.
    - discriminate.
    - econstructor; eauto. constructor.
    - exists w', out. assert (fr' = fr) as -> by (eapply is_frame_unique; eauto). repeat split; auto; [apply H3|apply H3|].
      intros i Hi. destruct (F3 i Hi) as (o & R1 & R2 & R3). inversion R1 as [|? ? ? lk1 ? j ? Hl1 Hm Hr1|? ? ? lk1 ? Hl1 Hn]; subst.
      + left. inversion Hr1; subst. pose proof (is_link_unique _ _ _ _ _ Hl1 Hl) as ->. exists j. split; auto. split; auto.
        intros j' Hj'. assert (X : Some j' = Some j) by (apply R2; eapply reach_on; eauto; constructor). congruence.
      + right. pose proof (is_link_unique _ _ _ _ _ Hl1 Hl) as ->. auto.
  Qed.

  (** ... and if the target has no rows while there are rows to look up, the read fails *)
  Theorem C60_lookup_into_an_empty_table_raises fuel os f s lk gr c d vals fr :
    (forall a b, v_eq E a b = true <-> a = b) ->
    orderly_run E fuel (new_lworld E) os ->
    let w := after E fuel os in
    is_link w f s lk -> lk_agg lk = false -> readable w lk ->
    is_frame w f fr -> is_frame w (lk_other lk) gr -> nrows gr = 0 -> nrows fr <> 0 ->
    is_column gr c (d, vals) -> (forall lk', ~ is_link w (lk_other lk) c lk') ->
    snd (lstep E fuel w (LRead f [s; c])) = Err IndexError.
  Proof.
    intros veq_spec HO w Hl Ha Hr Hf Hg HZ HNZ Hc Hs.
    pose proof (orderly_good E veq_spec _ _ HO) as HG. fold w in HG.
    assert (HR : reachable E fuel w) by (exists os; reflexivity).
    pose proof (reachable_ok E _ _ HR) as HW.
    destruct (good_goes E veq_spec _ _ _ _ _ _ HW HG Hl Ha Hr Hf Hg) as (ts & G1 & G2 & G3 & G4).
    assert (Hs' : dget String.eqb (f_links gr) c = None).
    { destruct (dget String.eqb (f_links gr) c) as [lk'|] eqn:Ed; auto. exfalso. apply (Hs lk'). exists gr. auto. }
    unfold is_column in Hc. pose proof (fo_cols _ (HW _ _ Hg) _ _ _ Hc) as HV. rewrite HZ in HV. apply length_zero_iff_nil in HV. subst vals.
    assert (HRR : forall fill, snd (resolve_root E w f [(f, s)] (d, []) fill) = Err IndexError).
    { intros fill. unfold resolve_root. destruct (resolve E w [(f, s)] (fst (d, @nil V)) (snd (d, @nil V)) fill) as [w1 r1] eqn:Er. destruct (resolve_pure E _ _ _ _ _ _ _ Er) as (R1 & _).
      subst r1. simpl. destruct G1 as (miss & Hv & _). rewrite Hv. simpl. destruct ts as [|o ts]; [simpl in G2; congruence|]. destruct o as [j|].
      - exfalso. specialize (G4 j (or_introl eq_refl)). lia.
      - reflexivity. }
    cbn [lstep]. unfold subscript, frame_item. pose proof Hl as (fr0 & Hf0 & Hd). assert (fr0 = fr) as -> by (eapply is_frame_unique; eauto).
    apply get_frame_is in Hf. rewrite Hf. cbn [rbind]. rewrite Hd. unfold make_node. rewrite Ha.
    assert (HT : top_other w [(f, s)] = Ok (lk, lk_other lk)) by (simpl; apply get_link_is in Hl; rewrite Hl; reflexivity).
    apply get_frame_is in Hg. specialize (HRR (if lk_chained lk then column_fill gr d c else lw_class w d)).
    cbn [walk]. unfold item_item. destruct (lk_chained lk); rewrite HT; cbn [rbind]; rewrite Hg; cbn [rbind]; rewrite ?Hs'; unfold get_column; rewrite Hc; cbn [fst];
    destruct (resolve_root E w f [(f, s)] (d, []) _) as [w1 [c1|x]]; simpl in HRR |- *; congruence.
  Qed.
End Lookups.

(** the hypotheses hold of a chain of two links, one stored and one computed when read, to a plain frame *)
Example C61_applies : let w := w0 persons_households_zones in
  orderly_run env0 3 (new_lworld env0) persons_households_zones /\ lookups w 0 ["household"; "home"] 2 /\
  (exists gr vals, is_frame w 2 gr /\ is_column gr "area" (DFloat, vals) /\ (forall lk, ~ is_link w 2 "area" lk) /\
                   v_store env0 DFloat (fill_of w gr "area" DFloat) = Ok None) /\
  reach w 0 ["household"; "home"] 2 (Some 1) /\ reach w 0 ["household"; "home"] 3 None.
Proof.
  assert (HO : orderly_run env0 3 (new_lworld env0) persons_households_zones) by (cbn [orderly_run persons_households_zones orderly]; tauto).
  assert (HL : lookups (w0 persons_households_zones) 0 ["household"; "home"] 2).
  { eapply lookups_on; [eexists; split; vm_compute; reflexivity|reflexivity| |vm_compute; reflexivity|vm_compute; reflexivity|vm_compute; discriminate|].
    - left. discriminate.
    - eapply lookups_on; [eexists; split; vm_compute; reflexivity|reflexivity| |vm_compute; reflexivity|vm_compute; reflexivity|vm_compute; discriminate|].
      + right. split; intros fr H; vm_compute in H; injection H as <-; intros ls s H1 H2 H3; vm_compute in H1, H2, H3.
        * injection H1 as <-. destruct H3 as [H3|[]]. injection H3 as <-. reflexivity.
        * discriminate.
      + apply lookups_here. }
  split; [exact HO|]. split; [exact HL|]. split.
  { eexists. eexists. split; [vm_compute; reflexivity|]. split; [vm_compute; reflexivity|]. split; [|reflexivity].
    intros lk (fr & H1 & H2). vm_compute in H1. injection H1 as <-. discriminate. }
  assert (HK : follows (w0 persons_households_zones) 0 ["household"; "home"] [i 80%Z; i 70%Z] None [i 70; i 80; i 70; None]%Z).
  { destruct (C61_chained_lookups_follow_the_keys env0 3 persons_households_zones 0 ["household"; "home"] 2
      (Frame false [None] [row 8; row 7] [("area", floats [80; 70]%Z)] [] (v_default env0) []) "area" DFloat [i 80%Z; i 70%Z] None cell_eq_spec HO) as (w' & out & H1 & H2 & _).
    - discriminate.
    - exact HL.
    - vm_compute. reflexivity.
    - reflexivity.
    - intros lk (fr & H1 & H2). vm_compute in H1. injection H1 as <-. discriminate.
    - reflexivity.
    - apply (f_equal snd) in H1. vm_compute in H1. injection H1 as <-. exact H2. }
  destruct HK as (fr & F1 & F2 & F3). vm_compute in F1. injection F1 as <-. split.
  - destruct (F3 2) as (o & R1 & R2 & R3); [vm_compute; lia|]. destruct o as [[|[|j]]|]; simpl in R3; try discriminate; auto. destruct j; discriminate.
  - destruct (F3 3) as (o & R1 & R2 & R3); [vm_compute; lia|]. destruct o as [[|[|j]]|]; simpl in R3; try discriminate; auto. destruct j; discriminate.
Qed.
Example C60_empty_applies : let os := [ LNew true [None] [row 1] [("k", ints [1%Z])]; LNew false [None] [] [("x", ints [])]; LLink 0 1 "t" (to_index "k") true ] in
  read0 (w0 os) 0 ["t"; "x"] = Err IndexError.
Proof. reflexivity. Qed.
