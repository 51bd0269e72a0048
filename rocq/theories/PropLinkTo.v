(** Properties C62 and C72: what [link_to] accepts and reports. *)
From Verif Require Import Prelude DictProofs ExprModel ScopeModel ScopeProofs LdfModel SpecLdf LdfProofs LdfKeys LdfReads LdfInv LdfGood LdfLookup LdfLinks LdfSim LdfExample PropReads.
Local Open Scope string_scope.
Local Open Scope nat_scope.
Local Open Scope list_scope.

(** * The documentation of [link_to] (api.py 272-318) *)

(** labels as they may be given *)
Inductive labels_of : larg -> list llabel -> Prop :=
| one_label s : labels_of (AStr s) [LName s]
| several_labels ls : labels_of (AList ls) ls.
(** the key of one side: the common arguments override its own ones; columns and levels exclude each
    other; the whole index by default *)
Inductive wanted (on levels own_on own_levels : larg) : meta -> Prop :=
| common_columns ls : labels_of on ls -> levels = ANone -> own_levels = ANone -> wanted on levels own_on own_levels (Meta (Some ls) false)
| common_levels ls : labels_of levels ls -> on = ANone -> own_on = ANone -> wanted on levels own_on own_levels (Meta (Some ls) true)
| own_columns ls : on = ANone -> levels = ANone -> own_levels = ANone -> labels_of own_on ls -> wanted on levels own_on own_levels (Meta (Some ls) false)
| own_levels ls : on = ANone -> levels = ANone -> own_on = ANone -> labels_of own_levels ls -> wanted on levels own_on own_levels (Meta (Some ls) true)
| whole_index : on = ANone -> levels = ANone -> own_on = ANone -> own_levels = ANone -> wanted on levels own_on own_levels (Meta None true).
Definition wants (a : largs) (self other : meta) : Prop :=
  wanted (a_on a) (a_levels a) (a_on_self a) (a_self_levels a) self /\ wanted (a_on a) (a_levels a) (a_on_other a) (a_other_levels a) other.
(** columns and levels for the same side *)
Definition conflicting (a : largs) : Prop :=
  (a_on a <> ANone /\ a_levels a <> ANone) \/
  ((a_on a <> ANone \/ a_on_self a <> ANone) /\ (a_levels a <> ANone \/ a_self_levels a <> ANone)) \/
  ((a_on a <> ANone \/ a_on_other a <> ANone) /\ (a_levels a <> ANone \/ a_other_levels a <> ANone)).

Section LinkTo.
  Context {L V : Type} (E : venv L V).
  Notation frame := (@frame V).
  Notation lworld := (@lworld V).

  (** the labels exist in the frame (and a column is not hidden by a link of the same name) *)
  Definition has_keys (fr : frame) (m : meta) : Prop :=
    match me_labels m with
    | None => True
    | Some ls => ls <> [] /\
        if me_rows m then length ls <= length (f_levels fr) /\ Forall (fun l => exists n, level_number fr l n) ls
        else Forall (fun l => exists s c, l = LName s /\ is_column fr s c /\ dget String.eqb (f_links fr) s = None) ls
    end.
  Definition level_count (fr : frame) (m : meta) : nat := match me_labels m with None => length (f_levels fr) | Some ls => length ls end.
  (** no two rows have the same key *)
  Definition keys_unique (fr : frame) (m : meta) : Prop := forall i j k, row_key fr m i k -> row_key fr m j k -> i = j.

  Lemma rmapl_total {A B} (f : A -> res B) : forall l, (exists r, rmapl f l = Ok r) <-> Forall (fun a => exists b, f a = Ok b) l.
  Proof.
    induction l as [|a l IH]; simpl; [split; eauto|]. split.
    - intros (r & H). destruct (f a) as [b|] eqn:Ef; simpl in H; [|discriminate]. destruct (rmapl f l) as [t|] eqn:Er; simpl in H; [|discriminate]. constructor; eauto. apply IH. eauto.
    - intros H. inversion H as [|? ? (b & Hb) Ht]; subst. rewrite Hb. simpl. apply IH in Ht. destruct Ht as (r & ->). simpl. eauto.
  Qed.
  Lemma F2_length {A B} (R : A -> B -> Prop) l m : Forall2 R l m -> length m = length l. Proof. induction 1; simpl; auto. Qed.
  Lemma get_keys_total m (fr : frame) : (exists ks, get_keys E m fr = Ok ks) <-> has_keys fr m.
  Proof.
    unfold get_keys, has_keys. destruct (me_labels m) as [ls|]; [|split; eauto].
    assert (HE : forall arrays : list (list V), length arrays = length ls -> (exists ks, match arrays with [] => Err ValueError | _ => Ok (keys_of E (nrows fr) arrays) end = Ok ks) <-> ls <> []).
    { intros arrays HL. destruct arrays, ls; try discriminate; split; try (intros (ks & X); discriminate); try congruence; eauto; intros _; discriminate. }
    destruct (me_rows m).
    - unfold check. destruct (Nat.leb_spec (length ls) (length (f_levels fr))) as [HL|HL]; simpl; [|split; [intros (ks & X); discriminate|intros (_ & X & _); lia]].
      assert (Forall (fun l => exists n, level_number fr l n) ls <-> Forall (fun l => exists arr, level_values E fr l = Ok arr) ls) as ->.
      { rewrite !Forall_forall. split; intros H l I; specialize (H l I); now apply (level_values_total E fr l). }
      rewrite <- rmapl_total. destruct (rmapl (level_values E fr) ls) as [arrays|] eqn:Er; simpl.
      + apply rmapl_ok in Er. pose proof (F2_length _ _ _ Er) as Hl. rewrite (HE arrays Hl). split; [intros; repeat split; eauto|tauto].
      + split; [intros (ks & X); discriminate|]. intros (_ & _ & r & X). discriminate.
    - assert (Forall (fun l => exists s c, l = LName s /\ is_column fr s c /\ dget String.eqb (f_links fr) s = None) ls <-> Forall (fun l => exists arr, column_values fr l = Ok arr) ls) as ->.
      { rewrite !Forall_forall. split; intros H l I; specialize (H l I).
        - destruct H as (s & [d v] & -> & Hc & Hl). unfold column_values, is_column in *. rewrite Hc. unfold dmem. rewrite Hl. eauto.
        - destruct H as (arr & H). unfold column_values in H. destruct l as [s|]; [|discriminate]. destruct (dget _ (f_cols fr) s) as [[d v]|] eqn:Ed; [|discriminate].
          unfold dmem in H. destruct (dget _ (f_links fr) s) eqn:El; [discriminate|]. exists s, (d, v). auto. }
      rewrite <- rmapl_total. destruct (rmapl (column_values fr) ls) as [arrays|] eqn:Er; simpl.
      + apply rmapl_ok in Er. pose proof (F2_length _ _ _ Er) as Hl. rewrite (HE arrays Hl). split; [intros; repeat split; eauto|tauto].
      + split; [intros (ks & X); discriminate|]. intros (_ & r & X). discriminate.
  Qed.

  Lemma given_none a : given a = false <-> a = ANone. Proof. destruct a; simpl; split; auto; discriminate. Qed.
  Lemma labels_given a ls : labels_of a ls -> given a = true. Proof. now destruct 1. Qed.
  Lemma mk_labels a rows ls : labels_of a ls -> mk_meta a rows = Ok (Meta (Some ls) rows). Proof. now destruct 1. Qed.
  (** the arguments are resolved as documented *)
  Lemma resolve_wants a sm om : wants a sm om <->
    exists s o, resolve_args a = Ok (s, o) /\ mk_meta (fst s) (snd s) = Ok sm /\ mk_meta (fst o) (snd o) = Ok om.
  Proof.
    unfold wants, resolve_args. destruct a as [on lv so oo sl ol]. simpl. split.
    - intros [HS HO].
      destruct on as [|x|z|l], lv as [|x'|z'|l']; inversion HS; subst; inversion HO; subst; try discriminate;
        repeat match goal with H : labels_of _ _ |- _ => inversion H; subst; clear H end; simpl;
        (eexists; eexists; split; [reflexivity|split; reflexivity]).
    - intros (s & o & HR & HS & HO).
      destruct on as [|x|z|l], lv as [|x'|z'|l']; simpl in HR; try discriminate;
      destruct so as [|xs|zs|ls]; simpl in HR; try discriminate; destruct sl as [|xt|zt|lt]; simpl in HR; try discriminate;
      destruct oo as [|ys|ws|ks]; simpl in HR; try discriminate; destruct ol as [|yt|wt|kt]; simpl in HR; try discriminate;
      injection HR as <- <-; simpl in HS, HO; try discriminate; injection HS as <-; injection HO as <-;
      (split; [first [apply whole_index; reflexivity | apply own_columns; [reflexivity|reflexivity|reflexivity|constructor] | apply own_levels; [reflexivity|reflexivity|reflexivity|constructor] | apply common_columns; [constructor|reflexivity|reflexivity] | apply common_levels; [constructor|reflexivity|reflexivity]]
              |first [apply whole_index; reflexivity | apply own_columns; [reflexivity|reflexivity|reflexivity|constructor] | apply own_levels; [reflexivity|reflexivity|reflexivity|constructor] | apply common_columns; [constructor|reflexivity|reflexivity] | apply common_levels; [constructor|reflexivity|reflexivity]]]).
  Qed.

  Context (veq_spec : forall a b, v_eq E a b = true <-> a = b).
  Lemma unique_keys m (fr : frame) ks : frame_ok fr -> get_keys E m fr = Ok ks -> (unique (keq E) ks = true <-> keys_unique fr m).
  Proof using veq_spec.
    intros FO H. apply get_keys_ikeys in H. rewrite (unique_spec _ (keq_spec E veq_spec)), NoDup_nth_error. pose proof (fun i k => ikeys_row_key E m fr ks i k FO H) as HR. split.
    - intros HN i j k Hi Hj. apply HR in Hi, Hj. apply HN; [apply nth_error_Some; congruence|congruence].
    - intros HU i j Hi Hij. destruct (nth_error ks i) as [k|] eqn:Ei; [|apply nth_error_None in Ei; lia]. apply (HU i j k); apply HR; congruence.
  Qed.
  Lemma check_true b e : b = true -> check b e = Ok tt. Proof. now intros ->. Qed.

  (** everything that a call can do, given the keys it asks for *)
  Lemma link_result fuel w f g name a pre fr gr sm om : world_ok w ->
    is_frame w f fr -> f_ldf fr = true -> is_frame w g gr -> wants a sm om -> level_count fr sm = level_count gr om -> has_keys fr sm -> has_keys gr om ->
    let r := lstep E fuel w (LLink f g name a pre) in
    (exists lk, r = (set_link w f name lk, Ok (RAgg (lk_agg lk))) /\ lk_other lk = g /\ lk_self lk = sm /\ lk_target lk = om /\
      ((keys_unique gr om /\ lk_agg lk = false) \/ (keys_unique fr sm /\ ~ keys_unique gr om /\ lk_agg lk = true))) \/
    (~ keys_unique fr sm /\ ~ keys_unique gr om /\ r = (w, Err RuntimeError)).
  Proof using veq_spec.
    intros HW Hf HL Hg HA HC KS KO r. subst r. cbn [lstep]. unfold link_to. pose proof Hf as Hf'. apply get_frame_is in Hf'. rewrite Hf'. cbn [rbind]. rewrite HL. cbn [check rbind].
    apply resolve_wants in HA. destruct HA as ([sa sr] & [oa orr] & HR & HS & HO). rewrite HR. cbn [rbind fst snd] in *.
    unfold create. rewrite Hf'. cbn [rbind]. pose proof Hg as Hg'. apply get_frame_is in Hg'. rewrite Hg'. cbn [rbind]. rewrite HS, HO. cbn [rbind].
    unfold level_count in HC. rewrite check_true by (apply Nat.eqb_eq; exact HC). cbn [rbind].
    apply get_keys_total in KS, KO. destruct KS as (sk & KS), KO as (ok & KO). rewrite KS, KO. cbn [rbind].
    pose proof (unique_keys sm fr sk (HW _ _ Hf) KS) as US. pose proof (unique_keys om gr ok (HW _ _ Hg) KO) as UO.
    assert (HM : forall agg, (agg = false -> unique (keq E) ok = true) -> exists lk, (if pre then make_indexer E (Link f g sm om (f_ldf gr) agg None None None) sk ok else Ok (Link f g sm om (f_ldf gr) agg None None None)) = Ok lk /\
              lk_other lk = g /\ lk_self lk = sm /\ lk_target lk = om /\ lk_agg lk = agg).
    { intros agg HN. destruct pre; [|eexists; split; [reflexivity|repeat split; reflexivity]].
      destruct (make_indexer_total E veq_spec (Link f g sm om (f_ldf gr) agg None None None) sk ok) as (lk & Hlk).
      - simpl. intros X. apply (unique_spec _ (keq_spec E veq_spec)). auto.
      - exists lk. split; auto. destruct (make_indexer_static E _ _ _ _ Hlk) as [HC' _]. unfold copy_meta in HC'. simpl in HC'. injection HC' as _ X2 X3 X4 _ X6. auto. }
    destruct (unique (keq E) ok) eqn:Eo.
    - assert ((if (unique (keq E) sk && true)%bool then Ok false else if unique (keq E) sk then Ok true else Ok false) = (Ok false : res bool)) as -> by (destruct (unique (keq E) sk); reflexivity).
      destruct (HM false) as (lk & H1 & H2 & H3 & H4 & H5); auto. left. exists lk. cbn [rbind]. rewrite H1. repeat split; auto. left. split; auto. now apply UO.
    - destruct (unique (keq E) sk) eqn:Es; cbn [andb rbind].
      + destruct (HM true) as (lk & H1 & H2 & H3 & H4 & H5); [discriminate|]. left. exists lk. rewrite H1. repeat split; auto. right. repeat split; auto; [now apply US|].
        intros X. apply UO in X. discriminate.
      + right. repeat split; auto; intros X; [apply US in X|apply UO in X]; discriminate.
  Qed.

  (** [link_to] reports aggregation exactly when only the own keys are unique; many-to-many links are rejected *)
  Theorem C62_links_are_classified fuel os f g name a pre fr gr sm om :
    let w := after E fuel os in
    is_frame w f fr -> f_ldf fr = true -> is_frame w g gr -> wants a sm om -> level_count fr sm = level_count gr om -> has_keys fr sm -> has_keys gr om ->
    let r := lstep E fuel w (LLink f g name a pre) in
    (snd r = Ok (RAgg false) <-> keys_unique gr om) /\
    (snd r = Ok (RAgg true) <-> keys_unique fr sm /\ ~ keys_unique gr om) /\
    (r = (w, Err RuntimeError) <-> ~ keys_unique fr sm /\ ~ keys_unique gr om).
  Proof using veq_spec.
    intros w Hf HL Hg HA HC KS KO r. assert (HW : world_ok w) by (apply (reachable_ok E fuel); exists os; reflexivity).
    destruct (link_result fuel w f g name a pre fr gr sm om HW Hf HL Hg HA HC KS KO) as [(lk & H & _ & _ & _ & [[HU HG]|(HU & HN & HG)])|(HU & HN & H)]; fold r in H; rewrite H, ?HG; simpl; repeat split; intros; try discriminate; try tauto.
  Qed.
  (** the positions stored by [link_to] are those of the matching rows, also when both sides have the same keys *)
  Theorem C62_stored_positions fuel os f g name a fr gr sm om lk flat :
    let w := after E fuel os in
    is_frame w f fr -> f_ldf fr = true -> is_frame w g gr -> wants a sm om -> level_count fr sm = level_count gr om -> has_keys fr sm -> has_keys gr om ->
    keys_unique gr om ->
    let w' := fst (lstep E fuel w (LLink f g name a true)) in
    is_link w' f name lk -> lk_flat lk = Some flat ->
    length flat = nrows fr /\
    forall i z, nth_error flat i = Some z ->
      (exists j k, z = Z.of_nat j /\ row_key fr sm i k /\ row_key gr om j k) \/ (z = (-1)%Z /\ exists k, row_key fr sm i k /\ forall j, ~ row_key gr om j k).
  Proof using veq_spec.
    intros w Hf HL Hg HA HC KS KO HU w' Hl HF. assert (HW : world_ok w) by (apply (reachable_ok E fuel); exists os; reflexivity).
    unfold w' in *. cbn [lstep] in *. unfold link_to in Hl. pose proof Hf as Hf'. apply get_frame_is in Hf'. rewrite Hf' in Hl. cbn [rbind] in Hl. rewrite HL in Hl. cbn [check rbind] in Hl.
    pose proof HA as HA'. apply resolve_wants in HA'. destruct HA' as ([sa sr] & [oa orr] & HR & HS & HO). rewrite HR in Hl. cbn [rbind fst snd] in *.
    unfold create in Hl. rewrite Hf' in Hl. cbn [rbind] in Hl. pose proof Hg as Hg'. apply get_frame_is in Hg'. rewrite Hg' in Hl. cbn [rbind] in Hl. rewrite HS, HO in Hl. cbn [rbind] in Hl.
    unfold level_count in HC. rewrite check_true in Hl by (apply Nat.eqb_eq; exact HC). cbn [rbind] in Hl.
    apply get_keys_total in KS, KO. destruct KS as (sk & KS), KO as (ok & KO). rewrite KS, KO in Hl. cbn [rbind] in Hl.
    pose proof (proj2 (unique_keys om gr ok (HW _ _ Hg) KO) HU) as UO. rewrite UO in Hl.
    assert ((if (unique (keq E) sk && true)%bool then Ok false else if unique (keq E) sk then Ok true else Ok false) = (Ok false : res bool)) as X by (destruct (unique (keq E) sk); reflexivity).
    rewrite X in Hl. cbn [rbind] in Hl. apply (unique_spec _ (keq_spec E veq_spec)) in UO.
    destruct (make_indexer E (Link f g sm om (f_ldf gr) false None None None) sk ok) as [lk1|] eqn:EM; simpl in Hl.
    - pose proof (make_indexer_flat E veq_spec (Link f g sm om (f_ldf gr) false None None None) sk ok lk1 (fun _ => UO) EM) as [HF1 _].
      apply (set_link_is w f name lk1 fr f name lk Hf) in Hl. rewrite Nat.eqb_refl, String.eqb_refl in Hl. simpl in Hl. subst lk1. rewrite HF1 in HF. injection HF as <-.
      apply get_keys_ikeys in KS, KO. destruct (ikeys_spec E _ _ _ (HW _ _ Hf) KS) as [LS _]. split; [now rewrite map_length|]. intros i z Hz. rewrite nth_error_map in Hz.
      destruct (nth_error sk i) as [k|] eqn:Ek; [|discriminate]. injection Hz as <-. pose proof (proj1 (ikeys_row_key E _ _ _ i k (HW _ _ Hf) KS) Ek) as RK.
      simpl. unfold pos_or_missing. destruct (position (keq E) ok k) as [j|] eqn:Ep.
      + left. exists j, k. repeat split; auto. apply (ikeys_row_key E _ _ _ j k (HW _ _ Hg) KO). now apply (position_some _ (keq_spec E veq_spec)) in Ep.
      + right. split; auto. exists k. split; auto. intros j Hj. apply (ikeys_row_key E _ _ _ j k (HW _ _ Hg) KO) in Hj. apply (position_none _ (keq_spec E veq_spec)) in Ep. apply Ep. eapply nth_error_In; eauto.
    - destruct (make_indexer_total E veq_spec (Link f g sm om (f_ldf gr) false None None None) sk ok (fun _ => UO)) as (x & Y). congruence.
  Qed.

  (** exactly these calls are accepted *)
  Theorem C72_accepted_iff fuel os f g name a pre :
    let w := after E fuel os in
    (exists b, snd (lstep E fuel w (LLink f g name a pre)) = Ok (RAgg b)) <->
    exists fr gr sm om, is_frame w f fr /\ f_ldf fr = true /\ is_frame w g gr /\ wants a sm om /\
      level_count fr sm = level_count gr om /\ has_keys fr sm /\ has_keys gr om /\ (keys_unique fr sm \/ keys_unique gr om).
  Proof using veq_spec.
    intros w. assert (HW : world_ok w) by (apply (reachable_ok E fuel); exists os; reflexivity). split.
    - intros (b & H). cbn [lstep] in H. unfold link_to in H. destruct (get_frame w f) as [fr|] eqn:Ef; cbn [rbind] in H; [|discriminate].
      destruct (f_ldf fr) eqn:El; cbn [check rbind] in H; [|discriminate]. destruct (resolve_args a) as [[[sa sr] [oa orr]]|] eqn:Ea; cbn [rbind fst snd] in H; [|discriminate].
      unfold create in H. rewrite Ef in H. cbn [rbind] in H. destruct (get_frame w g) as [gr|] eqn:Eg; cbn [rbind] in H; [|discriminate].
      destruct (mk_meta sa sr) as [sm|] eqn:Es; cbn [rbind] in H; [|discriminate]. destruct (mk_meta oa orr) as [om|] eqn:Eo; cbn [rbind] in H; [|discriminate].
      unfold check in H. destruct (Nat.eqb_spec (nlevels sm fr) (nlevels om gr)) as [EN|]; cbn [rbind] in H; [|discriminate].
      destruct (get_keys E sm fr) as [sk|] eqn:Ks; cbn [rbind] in H; [|discriminate]. destruct (get_keys E om gr) as [ok|] eqn:Ko; cbn [rbind] in H; [|discriminate].
      apply get_frame_is in Ef, Eg. exists fr, gr, sm, om. repeat split; auto.
      + apply (resolve_wants a sm om). exists (sa, sr), (oa, orr). auto.
      + apply (resolve_wants a sm om). exists (sa, sr), (oa, orr). auto.
      + apply get_keys_total. eauto.
      + apply get_keys_total. eauto.
      + destruct (unique (keq E) sk) eqn:U1; [left; apply (unique_keys sm fr sk); auto; now apply (HW f)|]. destruct (unique (keq E) ok) eqn:U2; [|simpl in H; discriminate].
        right. apply (unique_keys om gr ok); auto. now apply (HW g).
    - intros (fr & gr & sm & om & H1 & H2 & H3 & H4 & H5 & H6 & H7 & H8).
      destruct (link_result fuel w f g name a pre fr gr sm om HW H1 H2 H3 H4 H5 H6 H7) as [(lk & H & _)|(X & Y & _)]; [rewrite H; simpl; eauto|tauto].
  Qed.
  (** an accepted call stores a link with the keys that the documentation promises, and changes nothing else *)
  Theorem C72_accepted_links_as_documented fuel os f g name a pre b :
    let w := after E fuel os in
    let w' := fst (lstep E fuel w (LLink f g name a pre)) in
    snd (lstep E fuel w (LLink f g name a pre)) = Ok (RAgg b) ->
    exists fr lk, is_frame w f fr /\ wants a (lk_self lk) (lk_target lk) /\ lk_other lk = g /\ lk_agg lk = b /\
      is_frame w' f (with_links fr (dset String.eqb (f_links fr) name lk)) /\
      (forall h, h <> f -> forall x, is_frame w' h x <-> is_frame w h x) /\ lw_class w' = lw_class w.
  Proof using veq_spec.
    intros w w' H. assert (HW : world_ok w) by (apply (reachable_ok E fuel); exists os; reflexivity).
    destruct (proj1 (C72_accepted_iff fuel os f g name a pre) (ex_intro _ b H)) as (fr & gr & sm & om & H1 & H2 & H3 & H4 & H5 & H6 & H7 & H8). fold w in H1, H3.
    destruct (link_result fuel w f g name a pre fr gr sm om HW H1 H2 H3 H4 H5 H6 H7) as [(lk & HE & A1 & A2 & A3 & _)|(X & Y & _)]; [|tauto].
    unfold w'. rewrite HE in H |- *. simpl in *. injection H as <-. exists fr, lk. rewrite A2, A3. repeat split; auto; try apply H4.
    - unfold set_link. unfold is_frame in H1. rewrite H1. apply (set_frame_is _ _ _ _ _ _ H1). now rewrite Nat.eqb_refl.
    - intros X. unfold set_link in X. unfold is_frame in H1. rewrite H1 in X. apply (set_frame_is _ _ _ _ _ _ H1) in X. apply Nat.eqb_neq in H. now rewrite H in X.
    - intros X. unfold set_link. unfold is_frame in H1. rewrite H1. apply (set_frame_is _ _ _ _ _ _ H1). apply Nat.eqb_neq in H. now rewrite H.
    - unfold set_link. destruct (nth_error _ _); reflexivity.
  Qed.
  Theorem C72_rejected_changes_nothing fuel w f g name a pre x :
    snd (lstep E fuel w (LLink f g name a pre)) = Err x -> fst (lstep E fuel w (LLink f g name a pre)) = w.
  Proof using. cbn [lstep]. unfold link_to. destruct (rbind _ _); simpl; [discriminate|auto]. Qed.
  Theorem C72_conflicts_are_rejected fuel w f g name a pre fr :
    is_frame w f fr -> f_ldf fr = true -> conflicting a -> lstep E fuel w (LLink f g name a pre) = (w, Err LinkageSpec).
  Proof using.
    intros Hf HL HC. cbn [lstep]. unfold link_to. apply get_frame_is in Hf. rewrite Hf. cbn [rbind]. rewrite HL. cbn [check rbind].
    assert (resolve_args a = Err LinkageSpec) as ->; [|reflexivity]. unfold resolve_args, conflicting in *.
    destruct a as [[|?|?|?] [|?|?|?] [|?|?|?] [|?|?|?] [|?|?|?] [|?|?|?]]; simpl in *; auto; exfalso; intuition congruence.
  Qed.
  Theorem C72_level_mismatch_is_rejected fuel w f g name a pre fr gr sm om :
    is_frame w f fr -> f_ldf fr = true -> is_frame w g gr -> wants a sm om -> level_count fr sm <> level_count gr om ->
    lstep E fuel w (LLink f g name a pre) = (w, Err AssertionError).
  Proof using.
    intros Hf HL Hg HA HC. cbn [lstep]. unfold link_to. pose proof Hf as Hf'. apply get_frame_is in Hf'. rewrite Hf'. cbn [rbind]. rewrite HL. cbn [check rbind].
    apply resolve_wants in HA. destruct HA as ([sa sr] & [oa orr] & HR & HS & HO). rewrite HR. cbn [rbind fst snd] in *.
    unfold create. rewrite Hf'. cbn [rbind]. apply get_frame_is in Hg. rewrite Hg. cbn [rbind]. rewrite HS, HO. cbn [rbind].
    unfold level_count in HC. apply Nat.eqb_neq in HC. unfold nlevels. rewrite HC. reflexivity.
  Qed.
End LinkTo.

(** tables by two levels, one of them a column on the other side *)
Definition two_level_frames : list lop0 :=
  [ LNew true [Some "a"; Some "b"] [[i 1; i 1]; [i 1; i 2]; [i 2; i 1]]%Z [("x", ints [10; 20; 30]%Z); ("hh", ints [7; 7; 8]%Z)];
    LNew true [None] [row 1; row 2] [("p", ints [1; 2]%Z); ("q", ints [1; 1]%Z)] ].
Example C62_applies :
  let w := w0 two_level_frames in
  let sm := Meta (Some [LName "a"; LPos (-1)]) true in let om := Meta (Some [LName "p"; LName "q"]) false in
  let a := LArgs ANone ANone ANone (AList [LName "p"; LName "q"]) (AList [LName "a"; LPos (-1)]) ANone in
  wants a sm om /\ (forall fr gr, is_frame w 0 fr -> is_frame w 1 gr -> level_count fr sm = level_count gr om /\ has_keys fr sm /\ has_keys gr om /\ keys_unique fr sm /\ keys_unique gr om) /\
  snd (lstep env0 3 w (LLink 0 1 "t" a true)) = Ok (RAgg false) /\
  snd (lstep env0 3 w (LLink 1 0 "back" (LArgs ANone ANone (AStr "p") ANone ANone (AStr "a")) true)) = Ok (RAgg true) /\
  snd (lstep env0 3 w (LLink 0 1 "many" (LArgs ANone ANone ANone (AStr "q") (AStr "a") ANone) true)) = Err RuntimeError.
Proof.
  split; [split; [apply own_levels; (reflexivity || constructor)|apply own_columns; (reflexivity || constructor)]|]. split; [|vm_compute; auto].
  intros fr gr Hf Hg.
  assert (HW : world_ok (w0 two_level_frames)) by (apply (reachable_ok env0 3); exists two_level_frames; reflexivity).
  assert (Hfo : frame_ok fr /\ frame_ok gr) by (split; [exact (HW _ _ Hf)|exact (HW _ _ Hg)]). clear HW.
  vm_compute in Hf, Hg. injection Hf as <-. injection Hg as <-. destruct Hfo as [F1 F2]. split; [reflexivity|]. repeat split.
  - discriminate.
  - simpl; lia.
  - constructor; [exists 0; split; [simpl; lia|split; [reflexivity|]]|constructor; [exists 1; split; [simpl; lia|right; reflexivity]|constructor]].
    intros [|[|m]] H; try discriminate; auto. destruct m; discriminate.
  - discriminate.
  - constructor; [|constructor; [|constructor]]; (eexists; eexists; split; [reflexivity|split; reflexivity]).
  - apply (unique_keys env0 cell_eq_spec _ _ [[i 1; i 1]; [i 1; i 2]; [i 2; i 1]]%Z F1); reflexivity.
  - apply (unique_keys env0 cell_eq_spec _ _ [[i 1; i 1]; [i 2; i 1]]%Z F2); reflexivity.
Qed.
Example C72_applies : conflicting (LArgs (AStr "x") ANone ANone ANone (AStr "a") ANone) /\
  snd (lstep env0 3 (w0 two_level_frames) (LLink 0 1 "t" (LArgs (AStr "x") ANone ANone ANone (AStr "a") ANone) true)) = Err LinkageSpec.
Proof. split; [right; left; split; [left|right]; discriminate|reflexivity]. Qed.

(** What the documentation says further does not hold: an integer for [levels] raises TypeError ("It can be
    specified as an integer or a string"); mis-specified linkages do not all raise
    LinkageSpecificationError; unknown columns do not raise KeyError. *)
Theorem C79_integer_level_refuted :
  let w := w0 [ LNew true [Some "a"] [row 1] []; LNew true [Some "a"] [row 1] [] ] in
  snd (lstep env0 3 w (LLink 0 1 "t" (LArgs ANone (AInt 0) ANone ANone ANone ANone) true)) = Err TypeError /\
  snd (lstep env0 3 w (LLink 0 1 "t" (LArgs ANone (AList [LPos 0]) ANone ANone ANone ANone) true)) = Ok (RAgg false).
Proof. vm_compute. auto. Qed.
Theorem C79_error_kinds_refuted :
  let w := w0 two_level_frames in
  snd (lstep env0 3 w (LLink 0 1 "t" (LArgs ANone ANone ANone ANone ANone ANone) true)) = Err AssertionError /\
  snd (lstep env0 3 w (LLink 0 1 "t" (LArgs ANone ANone (AStr "nope") ANone ANone ANone) true)) = Err LinkageSpec.
Proof. vm_compute. auto. Qed.
