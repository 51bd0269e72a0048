(** What is read depends on the frames and on what their links give, not on which indexers happen to be stored. *)
From Verif Require Import Prelude DictProofs ExprModel ScopeModel ScopeProofs LdfModel SpecLdf LdfProofs LdfKeys LdfReads LdfInv LdfGood LdfLinks.
Local Open Scope string_scope.
Local Open Scope nat_scope.
Local Open Scope list_scope.

Section Sim.
  Context {L V : Type} (E : venv L V).
  Notation lworld := (@lworld V).
  Notation frame := (@frame V).
  Notation column := (prod dtype (list V)).
  Notation item := (@item V).

  Record sim (w1 w2 : lworld) : Prop := Sim {
    sim_data : same_data w1 w2;
    sim_view : forall f n, view E w1 f n = view E w2 f n;
    sim_groups : forall f n, gview w1 f n = gview w2 f n;
    sim_left : all_links paired w1;
    sim_right : all_links paired w2
  }.
  Lemma sim_refl w : all_links paired w -> sim w w. Proof. constructor; auto using same_refl. Qed.
  Lemma sim_sym w1 w2 : sim w1 w2 -> sim w2 w1. Proof. intros []; constructor; auto using same_sym. Qed.
  Lemma sim_trans w1 w2 w3 : sim w1 w2 -> sim w2 w3 -> sim w1 w3.
  Proof. intros [A B C D F] [A' B' C' D' F']. constructor; auto; [eapply same_trans; eauto|intros; now rewrite B|intros; now rewrite C]. Qed.

  Lemma indexer_paired w f n w' r : all_links paired w -> indexer_and_missing E w f n = (w', r) -> all_links paired w'.
  Proof.
    intros HG H. unfold indexer_and_missing in H. destruct (get_link w f n) as [lk0|] eqn:El; [|injection H as <- _; auto].
    destruct (match lk_flat lk0 with Some _ => _ | None => _ end) as [lk|]; [|injection H as <- _; auto].
    destruct (lk_flat lk) as [flat|] eqn:Ef; [|injection H as <- _; auto]. injection H as <- _. apply get_link_is in El.
    intros h s x Hx. apply get_link_is in Hx. rewrite (set_link_get _ _ _ _ _ _ _ El) in Hx. destruct (andb _ _).
    - injection Hx as <-. intros X. discriminate X.
    - apply get_link_is in Hx. eapply HG; eauto.
  Qed.
  Lemma indexer_groups w f n w' r : all_links paired w -> grouped w f n -> indexer_and_missing E w f n = (w', r) -> forall h s, gview w' h s = gview w h s.
  Proof.
    intros HG HN H h s. unfold indexer_and_missing in H. destruct (get_link w f n) as [lk0|] eqn:El; [|injection H as <- _; auto].
    destruct (match lk_flat lk0 with Some _ => _ | None => _ end) as [lk|] eqn:Ep; [|injection H as <- _; auto].
    destruct (lk_flat lk) as [flat|] eqn:Ef; [|injection H as <- _; auto]. injection H as <- _. apply get_link_is in El.
    unfold gview. rewrite (set_link_get _ _ _ _ _ _ _ El). destruct (andb (Nat.eqb h f) (String.eqb s n)) eqn:Ea; auto.
    apply andb_true_iff in Ea. destruct Ea as [E1 E2]. apply Nat.eqb_eq in E1. apply sspec in E2. subst h s.
    pose proof El as El'. apply get_link_is in El'. rewrite El'. simpl. destruct (lk_flat lk0) as [fl|] eqn:E0; [injection Ep as <-; auto|].
    destruct (HG _ _ _ El E0) as [G1 _]. destruct (lk_agg lk0) eqn:Ea; [exfalso; exact (HN _ El Ea G1)|].
    unfold precompute in Ep. destruct (get_frame w (lk_owner lk0)); simpl in Ep; [|discriminate]. destruct (get_keys E _ _) in Ep; simpl in Ep; [|discriminate].
    destruct (get_frame w (lk_other lk0)); simpl in Ep; [|discriminate]. destruct (get_keys E _ _) in Ep; simpl in Ep; [|discriminate].
    unfold make_indexer in Ep. rewrite Ea in Ep. destruct (if index_equals _ _ _ then _ else _) in Ep; simpl in Ep; [|discriminate]. now injection Ep as <-.
  Qed.
  (** reading from [w] stays similar to [w] *)
  Lemma sim_indexer w0 : forall w f n w' r, sim w0 w -> grouped w f n -> indexer_and_missing E w f n = (w', r) -> sim w0 w'.
  Proof.
    intros w f n w' r HS HN H. eapply sim_trans; [exact HS|]. destruct (indexer_view E _ _ _ _ _ H) as (_ & B & C). constructor; auto.
    - intros h s. symmetry. eapply indexer_groups; eauto. apply HS.
    - apply HS.
    - eapply indexer_paired; eauto. apply HS.
  Qed.

  Lemma sim_closed w w' : sim w w' -> closed w -> closed w'.
  Proof.
    intros HS HC f n lk Hl. destruct (same_link _ _ _ _ _ (same_sym _ _ (sim_data _ _ HS)) Hl) as (lk' & Hl' & HM). specialize (HC _ _ _ Hl').
    unfold within, nframes in *. rewrite (same_length _ _ (sim_data _ _ HS)) in HC. unfold copy_meta in HM. injection HM as H1 H2 _ _ _ _. now rewrite H1, H2 in HC.
  Qed.

  (** every frame of [w1] is a frame of [w2], with the same number, and reads the same there *)
  Record ext (w1 w2 : lworld) : Prop := Ext {
    ex_frames : forall f a, is_frame w1 f a -> exists b, is_frame w2 f b /\ drop_caches a = drop_caches b;
    ex_class : lw_class w1 = lw_class w2;
    ex_view : forall f n, f < nframes w1 -> view E w1 f n = view E w2 f n;
    ex_groups : forall f n, f < nframes w1 -> gview w1 f n = gview w2 f n;
    ex_closed : closed w1;
    ex_left : all_links paired w1;
    ex_right : all_links paired w2
  }.
  Lemma sim_ext w1 w2 : closed w1 -> sim w1 w2 -> ext w1 w2.
  Proof. intros HC HS. pose proof HS as [A B C D F]. constructor; auto; [intros f a Hf; eapply same_frame; eauto|apply A]. Qed.
  Lemma ext_compose w0 w1 w2 w3 : sim w1 w0 -> ext w1 w2 -> sim w2 w3 -> ext w0 w3.
  Proof.
    intros S1 [A B C D F G H] S2. pose proof (same_length _ _ (sim_data _ _ S1)) as HL. constructor.
    - intros f a Ha. destruct (same_frame _ _ _ _ (same_sym _ _ (sim_data _ _ S1)) Ha) as (b & Hb & HD). destruct (A _ _ Hb) as (c & Hc & HE).
      destruct (same_frame _ _ _ _ (sim_data _ _ S2) Hc) as (d & Hd & HF). exists d. split; auto. congruence.
    - destruct (sim_data _ _ S1) as [_ X1], (sim_data _ _ S2) as [_ X2]. congruence.
    - intros f n Hf. unfold nframes in *. rewrite <- (sim_view _ _ S1), <- (sim_view _ _ S2). apply C. lia.
    - intros f n Hf. unfold nframes in *. rewrite <- (sim_groups _ _ S1), <- (sim_groups _ _ S2). apply D. lia.
    - eapply sim_closed; eauto.
    - apply S1.
    - apply S2.
  Qed.

  Definition hist_in (w : lworld) (h : list (nat * string)) : Prop := Forall (fun p => fst p < nframes w) h.
  Definition item_in (w : lworld) (i : item) : Prop :=
    match i with ILeaf r h | INode r h | IAgg r h => r < nframes w /\ hist_in w h | ISeries _ => True end.
  Lemma in_sim w w' i : sim w w' -> item_in w i -> item_in w' i.
  Proof.
    intros HS. assert (HL : nframes w = nframes w') by (apply same_length, HS). unfold item_in, hist_in. rewrite HL. auto.
  Qed.
  Lemma get_in (w : lworld) f : f < nframes w -> exists a, get_frame w f = Ok a /\ is_frame w f a.
  Proof. intros H. apply nth_error_Some in H. destruct (nth_error (lw_frames w) f) as [a|] eqn:Ea; [|congruence]. exists a. unfold get_frame. rewrite Ea. auto. Qed.
  Lemma in_get (w : lworld) f a : get_frame w f = Ok a -> f < nframes w.
  Proof. intros H. apply get_frame_is in H. apply nth_error_Some. unfold is_frame in H. congruence. Qed.

  Lemma ext_get w1 w2 f : ext w1 w2 -> f < nframes w1 -> exists a b, get_frame w1 f = Ok a /\ get_frame w2 f = Ok b /\ drop_caches a = drop_caches b.
  Proof.
    intros HX Hf. destruct (get_in _ _ Hf) as (a & Ha & Ia). destruct (ex_frames _ _ HX _ _ Ia) as (b & Ib & HD). apply get_frame_is in Ib. eauto.
  Qed.
  Lemma drop_link (a b : frame) s : drop_caches a = drop_caches b ->
    match dget String.eqb (f_links a) s, dget String.eqb (f_links b) s with
    | Some x, Some y => copy_meta x = copy_meta y | None, None => True | _, _ => False end.
  Proof.
    intros H. unfold drop_caches, with_links in H. injection H as _ _ _ _ H _ _. pose proof (f_equal (fun d => dget String.eqb d s) H) as X. simpl in X. rewrite !dget_map in X.
    destruct (dget _ (f_links a) s), (dget _ (f_links b) s); try discriminate; auto. congruence.
  Qed.
  Lemma drop_parts (a b : frame) : drop_caches a = drop_caches b -> f_ldf a = f_ldf b /\ f_cols a = f_cols b /\ nrows a = nrows b /\ f_fill a = f_fill b /\ f_colfill a = f_colfill b.
  Proof. intros H. unfold drop_caches, with_links in H. unfold nrows. injection H as -> _ -> -> _ -> ->. auto. Qed.
  Lemma make_node_meta a b root h : copy_meta a = copy_meta b -> make_node (V:=V) a root h = make_node b root h.
  Proof. intros H. unfold copy_meta in H. injection H as _ _ _ _ H1 H2. unfold make_node. now rewrite H1, H2. Qed.
  Lemma ext_link w1 w2 f n : ext w1 w2 -> f < nframes w1 ->
    match get_link w1 f n, get_link w2 f n with
    | Ok a, Ok b => copy_meta a = copy_meta b /\ lk_grouper a = lk_grouper b /\ lk_other a < nframes w1
    | Err x, Err y => x = y | _, _ => False end.
  Proof.
    intros HX Hf. pose proof (ex_groups _ _ HX f n Hf) as HG. unfold gview in HG. destruct (get_link w1 f n) as [lk|] eqn:El.
    - apply get_link_is in El. pose proof (ex_closed _ _ HX _ _ _ El) as [_ HW]. apply get_link_is in El. revert HG. unfold get_link in El |- *.
      destruct (ext_get _ _ f HX Hf) as (a & b & Ga & Gb & HD). rewrite Ga in El. rewrite Gb. simpl in El |- *. pose proof (drop_link _ _ n HD) as HL.
      destruct (dget _ (f_links a) n) as [x|]; [|discriminate]. injection El as ->. destruct (dget _ (f_links b) n) as [y|]; [|contradiction]. auto.
    - revert El HG. unfold get_link. destruct (ext_get _ _ f HX Hf) as (a & b & Ga & Gb & HD). rewrite Ga, Gb. simpl. pose proof (drop_link _ _ n HD) as HL.
      destruct (dget _ (f_links a) n) as [x|]; [discriminate|]. intros El. injection El as <-. destruct (dget _ (f_links b) n) as [y|]; [contradiction|]. auto.
  Qed.
  Lemma ext_top w1 w2 h : ext w1 w2 -> hist_in w1 h -> match top_other w1 h, top_other w2 h with
                                       | Ok (a, g), Ok (b, g') => copy_meta a = copy_meta b /\ lk_grouper a = lk_grouper b /\ g = g' /\ g < nframes w1
                                       | Err x, Err y => x = y | _, _ => False end.
  Proof.
    intros HX HI. destruct h as [|[f n] h]; simpl; auto. inversion HI; subst. simpl in *. pose proof (ext_link _ _ f n HX ltac:(auto)) as HL.
    destruct (get_link w1 f n) as [a|], (get_link w2 f n) as [b|]; simpl; auto. destruct HL as (A & B & C). repeat split; auto. apply (f_equal lk_other) in A. exact A.
  Qed.
  Lemma frame_item_ext w1 w2 f s : ext w1 w2 -> f < nframes w1 -> frame_item w1 f s = frame_item w2 f s.
  Proof.
    intros HX Hf. unfold frame_item. destruct (ext_get _ _ f HX Hf) as (a & b & Ga & Gb & HD). rewrite Ga, Gb. simpl.
    pose proof (drop_link _ _ s HD) as HL. destruct (drop_parts _ _ HD) as (_ & HC & _). destruct (dget _ (f_links a) s) as [x|], (dget _ (f_links b) s) as [y|]; try contradiction.
    - now rewrite (make_node_meta x y).
    - unfold get_column. now rewrite HC.
  Qed.
  Lemma presolve_in vw vw' k : (forall f s, f < k -> vw f s = vw' f s) -> forall hist, Forall (fun p => fst p < k) hist -> forall d vals fill,
    presolve E vw hist d vals fill = presolve E vw' hist d vals fill.
  Proof.
    intros H. induction hist as [|[f s] h IH]; intros HF d vals fill; simpl; auto. inversion HF; subst. rewrite H by auto.
    destruct (vw' f s) as [[ix miss]|]; simpl; auto. match goal with |- rbind ?x _ = _ => destruct x; simpl; auto end.
  Qed.
  Lemma resolve_root_ext w1 w2 root h c fill : ext w1 w2 -> root < nframes w1 -> hist_in w1 h -> snd (resolve_root E w1 root h c fill) = snd (resolve_root E w2 root h c fill).
  Proof.
    intros HX HR HI. unfold resolve_root. destruct (resolve E w1 h _ _ fill) as [w1' r1] eqn:E1. destruct (resolve E w2 h _ _ fill) as [w2' r2] eqn:E2.
    destruct (resolve_pure E _ _ _ _ _ _ _ E1) as (-> & _). destruct (resolve_pure E _ _ _ _ _ _ _ E2) as (-> & _).
    rewrite (presolve_in _ _ _ (ex_view _ _ HX) h HI). destruct (presolve E (view E w2) h _ _ fill); auto.
    destruct (ext_get _ _ root HX HR) as (fa & fb & Ga & Gb & HD). rewrite Ga, Gb. simpl. destruct (drop_parts _ _ HD) as (_ & _ & HN & _). rewrite HN. destruct (check _ _); auto.
  Qed.
  Lemma item_item_ext w1 w2 i s : ext w1 w2 -> item_in w1 i -> snd (item_item E w1 i s) = snd (item_item E w2 i s).
  Proof.
    intros HX HI. destruct i as [root h|root h|root h|c]; simpl; auto; destruct HI as [HR HI]; pose proof (ext_top _ _ h HX HI) as HT;
    destruct (top_other w1 h) as [[la g]|], (top_other w2 h) as [[lb g']|]; simpl; try contradiction; try congruence; destruct HT as (_ & _ & <- & Hg);
    destruct (ext_get _ _ g HX Hg) as (x & y & Gx & Gy & HF); rewrite Gx, Gy; simpl;
    destruct (drop_parts _ _ HF) as (_ & HC & _ & HFi & HCf).
    - unfold get_column. rewrite HC. destruct (dget _ (f_cols y) s) as [c|]; auto. rewrite (ex_class _ _ HX).
      pose proof (resolve_root_ext w1 w2 root h c (lw_class w2 (fst c)) HX HR HI) as HRe.
      destruct (resolve_root E w1 root h c _) as [? []], (resolve_root E w2 root h c _) as [? []]; simpl in *; congruence.
    - pose proof (drop_link _ _ s HF) as HD. destruct (dget _ (f_links x) s) as [lx|], (dget _ (f_links y) s) as [ly|]; try contradiction.
      + simpl. now rewrite (make_node_meta lx ly).
      + unfold get_column. rewrite HC. destruct (dget _ (f_cols y) s) as [c|]; auto.
        assert (column_fill x (fst c) s = column_fill y (fst c) s) as -> by (unfold column_fill; now rewrite HFi, HCf).
        pose proof (resolve_root_ext w1 w2 root h c (column_fill y (fst c) s) HX HR HI) as HRe.
        destruct (resolve_root E w1 root h c _) as [? []], (resolve_root E w2 root h c _) as [? []]; simpl in *; congruence.
  Qed.
  Lemma make_node_in w lk root h : root < nframes w -> hist_in w h -> item_in w (make_node lk root h).
  Proof. intros A B. unfold make_node. destruct (lk_agg lk); [|destruct (lk_chained lk)]; simpl; auto. Qed.
  Lemma item_item_in w i s w' i' : all_links paired w -> closed w -> item_ok w i -> item_in w i -> item_item E w i s = (w', Ok i') -> item_in w' i'.
  Proof.
    intros HP HC HO HI H. destruct (item_item_P E (sim w) (sim_indexer w) _ _ _ _ _ (sim_refl _ HP) HO H) as (HS & _). apply (in_sim _ _ _ HS). clear HS HO.
    destruct i as [root h|root h|root h|c]; simpl in H, HI; try discriminate; destruct HI as [HR HI].
    - destruct (rbind _ _) as [c|]; [|discriminate]. destruct (resolve_root E w root h c _) as [w1 [c'|]]; [|discriminate]. injection H as _ <-. exact I.
    - destruct (top_other w h) as [[lk g]|] eqn:Et; simpl in H; [|discriminate]. destruct (get_frame w g) as [gr|] eqn:Eg; simpl in H; [|discriminate].
      destruct (dget String.eqb (f_links gr) s) as [lk'|].
      + injection H as _ <-. apply make_node_in; auto. constructor; auto. simpl. eapply in_get; eauto.
      + destruct (get_column gr s) as [c|]; [|discriminate]. destruct (resolve_root E w root h c _) as [w1 [c'|]]; [|discriminate]. injection H as _ <-. exact I.
  Qed.
  Lemma item_ok_ext w1 w2 i : ext w1 w2 -> item_in w1 i -> item_ok w1 i -> item_ok w2 i.
  Proof.
    intros HX HI HO. assert (HH : forall h, hist_in w1 h -> hist_plain w1 h -> hist_plain w2 h).
    { induction h as [|[f n] h IH]; intros A B; constructor; inversion A as [|? ? A1 A2]; inversion B as [|? ? B1 B2]; subst.
      - intros lk Hl. simpl in *. pose proof (ext_link _ _ f n HX A1) as HE. apply get_link_is in Hl. rewrite Hl in HE.
        destruct (get_link w1 f n) as [a|] eqn:Ea; [|contradiction]. destruct HE as (HM & _). apply get_link_is in Ea.
        specialize (B1 _ Ea). apply (f_equal lk_agg) in HM. simpl in HM. congruence.
      - now apply IH. }
    destruct i as [root h|root h|root h|c]; simpl in *; auto; destruct HI as [_ HI]; apply HH; auto. destruct h; simpl; [constructor|now inversion HI].
  Qed.
  Lemma walk_ext : forall path w1 w2 i, ext w1 w2 -> item_ok w1 i -> item_in w1 i -> snd (walk E w1 i path) = snd (walk E w2 i path).
  Proof.
    induction path as [|s path IH]; intros w1 w2 i HX HO HI; auto. cbn [walk].
    pose proof (item_item_ext w1 w2 i s HX HI) as HR. pose proof (item_ok_ext _ _ _ HX HI HO) as HO2.
    destruct (item_item E w1 i s) as [w1' r1] eqn:E1. destruct (item_item E w2 i s) as [w2' r2] eqn:E2. simpl in HR. subst r2.
    destruct (item_item_P E (sim w1) (sim_indexer w1) _ _ _ _ _ (sim_refl _ (ex_left _ _ HX)) HO E1) as (A1 & _ & C1).
    destruct (item_item_P E (sim w2) (sim_indexer w2) _ _ _ _ _ (sim_refl _ (ex_right _ _ HX)) HO2 E2) as (A2 & _ & _).
    destruct r1 as [i'|]; auto. apply IH; auto; [eapply ext_compose; [exact A1|exact HX|exact A2]|]. eapply (item_item_in w1); [apply HX|apply HX|exact HO|exact HI|exact E1].
  Qed.
  Lemma item_of_frame (w : lworld) f s i : frame_item w f s = Ok i -> item_ok w i /\ item_in w i.
  Proof.
    intros Ef. unfold frame_item in Ef. destruct (get_frame w f) as [fr|] eqn:Efr; simpl in Ef; [|discriminate]. pose proof (in_get _ _ _ Efr) as Hin. apply get_frame_is in Efr.
    destruct (dget String.eqb (f_links fr) s) as [lk|] eqn:Ed.
    - injection Ef as <-. split; [|apply make_node_in; auto; constructor; auto]. unfold make_node. destruct (lk_agg lk) eqn:Ea; simpl; [constructor|].
      assert (plain w f s) by (intros lk' H'; rewrite (is_link_unique w f s lk' lk H'); [auto|exists fr; auto]).
      destruct (lk_chained lk); simpl; repeat constructor; auto.
    - destruct (get_column fr s); simpl in Ef; [|discriminate]. injection Ef as <-. split; exact I.
  Qed.
  Lemma walk_in : forall path w i w' i', all_links paired w -> closed w -> item_ok w i -> item_in w i -> walk E w i path = (w', Ok i') -> item_in w' i'.
  Proof.
    induction path as [|s path IH]; simpl; intros w i w' i' HP HC HO HI H; [injection H as <- <-; auto|].
    destruct (item_item E w i s) as [w1 [i1|]] eqn:E1; [|discriminate].
    destruct (item_item_P E (sim w) (sim_indexer w) _ _ _ _ _ (sim_refl _ HP) HO E1) as (A1 & _ & C1).
    eapply (IH w1 i1); eauto; [apply A1|eapply sim_closed; eauto|]. eapply item_item_in; eauto.
  Qed.
  Lemma subscript_in w f path w' i' : all_links paired w -> closed w -> subscript E w f path = (w', Ok i') -> item_in w' i'.
  Proof.
    intros HP HC H. destruct path as [|s path]; simpl in H; [discriminate|]. destruct (frame_item w f s) as [i|] eqn:Ef; [|discriminate].
    destruct (item_of_frame _ _ _ _ Ef) as [A B]. eapply walk_in; eauto.
  Qed.
  Lemma subscript_ext w1 w2 f path : ext w1 w2 -> f < nframes w1 -> snd (subscript E w1 f path) = snd (subscript E w2 f path).
  Proof.
    intros HX Hf. destruct path as [|s path]; simpl; auto. rewrite <- (frame_item_ext w1 w2 f s HX Hf). destruct (frame_item w1 f s) as [i|] eqn:Ef; auto.
    destruct (item_of_frame _ _ _ _ Ef) as [A B]. apply walk_ext; auto.
  Qed.

  Definition eext (ev : lworld -> nat -> aggarg L -> lworld * res column) : Prop :=
    (forall w0 w f a w' r, sim w0 w -> ev w f a = (w', r) -> sim w0 w' /\ same_data w w') /\
    forall w1 w2 f a, ext w1 w2 -> f < nframes w1 -> snd (ev w1 f a) = snd (ev w2 f a).
  (** the evaluation over the target of an aggregation *)
  Definition agg_values (ev : lworld -> nat -> aggarg L -> lworld * res column) (w : lworld) (g : nat) (gr : frame) (a : aggarg L) : lworld * res column :=
    let pandas_eval := do o <- v_eval E a (dget String.eqb (f_cols gr)); as_series E (nrows gr) o in
    match a with
    | XText s => match dget String.eqb (f_cols gr) s with
                 | Some c => if dmem String.eqb (f_links gr) s then (w, Err RuntimeError) else (w, Ok c)
                 | None => if f_ldf gr then match ev w g a with (w1, Err AttributeError) => (w1, pandas_eval) | p => p end else (w, pandas_eval)
                 end
    | XTree _ => if f_ldf gr then match ev w g a with (w1, Err AttributeError) => (w1, pandas_eval) | p => p end else (w, pandas_eval)
    end.
  Lemma agg_values_sim ev w0 w g gr a w' r : eext ev -> sim w0 w -> agg_values ev w g gr a = (w', r) -> sim w0 w'.
  Proof.
    intros [HE _] HS H. unfold agg_values in H. set (pe := rbind (v_eval E a _) _) in H.
    assert (HEv : match ev w g a with (w1, Err AttributeError) => (w1, pe) | p => p end = (w', r) -> sim w0 w').
    { intros X. destruct (ev w g a) as [u q] eqn:Q. destruct (HE w0 _ _ _ _ _ HS Q) as [S1 _].
      destruct q as [c|e]; [injection X as <- _; auto|]. destruct e; injection X as <- _; auto. }
    destruct a as [s|e].
    - destruct (dget String.eqb (f_cols gr) s) as [c|].
      + destruct (dmem String.eqb (f_links gr) s); injection H as <- _; auto.
      + destruct (f_ldf gr); [auto|]. injection H as <- _; auto.
    - destruct (f_ldf gr); [auto|]. injection H as <- _; auto.
  Qed.
  Lemma agg_values_ext ev w1 w2 g x y a : eext ev -> ext w1 w2 -> g < nframes w1 -> drop_caches x = drop_caches y ->
    snd (agg_values ev w1 g x a) = snd (agg_values ev w2 g y a).
  Proof.
    intros [_ HE] HX Hg HF. destruct (drop_parts _ _ HF) as (HL & HC & HN & _ & _). unfold agg_values. rewrite HL, HC, HN.
    set (pe := rbind (v_eval E a _) _). specialize (HE _ _ g a HX Hg).
    assert (HEv : snd (match ev w1 g a with (w1, Err AttributeError) => (w1, pe) | p => p end) = snd (match ev w2 g a with (w1, Err AttributeError) => (w1, pe) | p => p end)).
    { destruct (ev w1 g a) as [u1 q1], (ev w2 g a) as [u2 q2]. simpl in HE. subst q2. destruct q1 as [c|e]; auto. destruct e; auto. }
    destruct a as [s|e].
    - destruct (dget String.eqb (f_cols y) s) as [c|].
      + rewrite (drop_dmem _ _ s HF). destruct (dmem String.eqb (f_links y) s); auto.
      + destruct (f_ldf y); auto.
    - destruct (f_ldf y); auto.
  Qed.
  Definition agg_column (func : aggf) (ifill : V) (grouper : option (list Z)) (c : column) : res (column * V) :=
    do _ <- check (orb (negb (numeric_only func)) (numeric_type (fst c))) RuntimeError;
    do fill <- match fst c with DInt | DUint | DBool => Ok ifill | DTime => Err NotImplementedErr | _ => Ok (v_nan E) end;
    do grouped <- group_reduce E func grouper c;
    Ok (grouped, fill).
  (** an aggregation: evaluate over the target, reduce the groups, follow the links *)
  Lemma aggregate_eq ev w root h func a ifill :
    aggregate E ev w root h func a ifill =
    match (do (lk, g) <- top_other w h; do gr <- get_frame w g; Ok (g, gr)) with
    | Err x => (w, Err x)
    | Ok (g, gr) =>
        let (w1, r) := agg_values ev w g gr a in
        match (do c <- r;
               do _ <- check (orb (negb (numeric_only func)) (numeric_type (fst c))) RuntimeError;
               do fill <- match fst c with DInt | DUint | DBool => Ok ifill | DTime => Err NotImplementedErr | _ => Ok (v_nan E) end;
               do (lk, _) <- top_other w1 h;
               do grouped <- group_reduce E func (lk_grouper lk) c;
               Ok (grouped, fill)) with
        | Err x => (w1, Err x)
        | Ok (grouped, fill) => resolve_root E w1 root h grouped fill
        end
    end.
  Proof. reflexivity. Qed.
  Lemma top_same (w w' : lworld) h lk g : sim w w' -> top_other w h = Ok (lk, g) -> exists lk', top_other w' h = Ok (lk', g) /\ lk_grouper lk' = lk_grouper lk.
  Proof.
    intros HS H. destruct h as [|[f n] h]; simpl in *; [discriminate|]. destruct (get_link w f n) as [a|] eqn:Ea; simpl in H; [|discriminate]. injection H as -> <-.
    pose proof (sim_groups _ _ HS f n) as HG. unfold gview in HG. rewrite Ea in HG.
    apply get_link_is in Ea. destruct (same_link _ _ _ _ _ (sim_data _ _ HS) Ea) as (b & Hb & HM). apply get_link_is in Hb. rewrite Hb in HG |- *. simpl.
    exists b. apply (f_equal lk_other) in HM. simpl in HM. rewrite HM. auto.
  Qed.
  Lemma aggregate_ext ev w1 w2 root h func a ifill : eext ev -> ext w1 w2 -> root < nframes w1 -> hist_in w1 h ->
    snd (aggregate E ev w1 root h func a ifill) = snd (aggregate E ev w2 root h func a ifill).
  Proof.
    intros HE HX HR HI. rewrite !aggregate_eq. pose proof (ext_top _ _ h HX HI) as HT.
    destruct (top_other w1 h) as [[la g]|] eqn:T1, (top_other w2 h) as [[lb g']|] eqn:T2; simpl; try contradiction; try congruence; destruct HT as (_ & _ & <- & Hg).
    destruct (ext_get _ _ g HX Hg) as (x & y & Gx & Gy & HF). rewrite Gx, Gy. cbn [rbind].
    pose proof (agg_values_ext ev w1 w2 g x y a HE HX Hg HF) as HV. destruct (agg_values ev w1 g x a) as [w1' r1] eqn:E1. destruct (agg_values ev w2 g y a) as [w2' r2] eqn:E2. simpl in HV. subst r2.
    pose proof (agg_values_sim ev w1 w1 _ _ _ _ _ HE (sim_refl _ (ex_left _ _ HX)) E1) as S1. pose proof (agg_values_sim ev w2 w2 _ _ _ _ _ HE (sim_refl _ (ex_right _ _ HX)) E2) as S2.
    pose proof (ext_compose _ _ _ _ S1 HX S2) as HX'.
    destruct r1 as [c|]; simpl; auto. destruct (check _ _); simpl; auto. destruct (match fst c with DInt => _ | _ => _ end) as [fill|]; simpl; auto.
    assert (HL : nframes w1 = nframes w1') by (apply same_length, S1). assert (HI' : hist_in w1' h) by (unfold hist_in; now rewrite <- HL).
    pose proof (ext_top _ _ h HX' HI') as HT'. destruct (top_other w1' h) as [[la' g1]|], (top_other w2' h) as [[lb' g2]|]; simpl; try contradiction; try congruence.
    destruct HT' as (_ & HG & _). rewrite HG. destruct (group_reduce E func (lk_grouper lb') c) as [gc|]; simpl; auto. apply resolve_root_ext; auto. lia.
  Qed.

  Lemma call_ext ev w1 w2 i func e : eext ev -> ext w1 w2 -> item_in w1 i -> snd (call_method E ev w1 i func e) = snd (call_method E ev w2 i func e).
  Proof. intros HE HX HI. unfold call_method. destruct i; auto. destruct (aggf_named func); auto. destruct HI. now apply aggregate_ext. Qed.
  Lemma call_P ev w0 w i func e w' r : eext ev -> sim w0 w -> item_ok w i -> call_method E ev w i func e = (w', r) -> sim w0 w'.
  Proof.
    intros [HE _] HS HI H. unfold call_method in H. destruct i as [root h|root h|root h|c]; try (injection H as <- _; auto).
    destruct (aggf_named func); [|injection H as <- _; auto]. eapply (aggregate_P E (sim w0) (sim_indexer w0)) in H; [apply H| |exact HS|exact HI].
    intros u f a0 u' r' X Y. eapply HE; eauto.
  Qed.
  Lemma eval_chain_ext ev : eext ev -> forall subs w1 w2 f name ld, ext w1 w2 -> f < nframes w1 ->
    snd (eval_chain E ev w1 f name subs ld) = snd (eval_chain E ev w2 f name subs ld).
  Proof.
    intros HE. induction subs as [|[sub ct] subs IH]; intros w1 w2 f name ld HX Hf; cbn [eval_chain]; auto.
    pose proof (subscript_ext w1 w2 f (name :: rev (ch_chain ct)) HX Hf) as HR.
    destruct (subscript E w1 f _) as [u1 r1] eqn:E1. destruct (subscript E w2 f _) as [u2 r2] eqn:E2. simpl in HR. subst r2.
    destruct (subscript_P E (sim w1) (sim_indexer w1) _ _ _ _ _ (sim_refl _ (ex_left _ _ HX)) E1) as (A1 & _ & C1).
    destruct (subscript_P E (sim w2) (sim_indexer w2) _ _ _ _ _ (sim_refl _ (ex_right _ _ HX)) E2) as (A2 & _ & C2).
    destruct r1 as [i|]; auto. specialize (C1 _ eq_refl). specialize (C2 _ eq_refl). pose proof (subscript_in _ _ _ _ _ (ex_left _ _ HX) (ex_closed _ _ HX) E1) as Hi.
    pose proof (ext_compose _ _ _ _ A1 HX A2) as HX'. assert (HL : nframes w1 = nframes u1) by (apply same_length, A1).
    destruct (ch_func ct) as [[func e]|].
    - pose proof (call_ext ev u1 u2 i func e HE HX' Hi) as HC. destruct (call_method E ev u1 i func e) as [v1 q1] eqn:Q1. destruct (call_method E ev u2 i func e) as [v2 q2] eqn:Q2. simpl in HC. subst q2.
      pose proof (call_P ev u1 _ _ _ _ _ _ HE (sim_refl _ (ex_left _ _ HX')) C1 Q1) as B1. pose proof (call_P ev u2 _ _ _ _ _ _ HE (sim_refl _ (ex_right _ _ HX')) C2 Q2) as B2.
      destruct q1 as [c|]; auto. destruct (to_operand E (ISeries c)); auto. apply IH; [eapply ext_compose; eauto|]. assert (HL' : nframes u1 = nframes v1) by (apply same_length, B1). lia.
    - destruct (to_operand E i); auto. apply IH; auto. lia.
  Qed.
  Lemma eval_chain_P' ev w0 : eext ev -> forall subs w f name ld w' r, sim w0 w -> eval_chain E ev w f name subs ld = (w', r) -> sim w0 w'.
  Proof.
    intros [HE _] subs w f name ld w' r HS H. eapply (eval_chain_P E (sim w0) (sim_indexer w0)) in H; [apply H| |exact HS].
    intros u f' a0 u' r' X Y. eapply HE; eauto.
  Qed.
  Lemma eval_chains_ext ev : eext ev -> forall chains w1 w2 f ld, ext w1 w2 -> f < nframes w1 ->
    snd (eval_chains E ev w1 f chains ld) = snd (eval_chains E ev w2 f chains ld).
  Proof.
    intros HE. induction chains as [|[name subs] t IH]; intros w1 w2 f ld HX Hf; cbn [eval_chains]; auto.
    destruct (ext_get _ _ f HX Hf) as (a & b & Ga & Gb & HF). rewrite Ga, Gb. simpl.
    rewrite (drop_dmem _ _ name HF). destruct (check _ _); auto.
    pose proof (eval_chain_ext ev HE subs w1 w2 f name ld HX Hf) as HR.
    destruct (eval_chain E ev w1 f name subs ld) as [u1 r1] eqn:E1. destruct (eval_chain E ev w2 f name subs ld) as [u2 r2] eqn:E2. simpl in HR. subst r2.
    pose proof (eval_chain_P' ev w1 HE _ _ _ _ _ _ _ (sim_refl _ (ex_left _ _ HX)) E1) as B1. pose proof (eval_chain_P' ev w2 HE _ _ _ _ _ _ _ (sim_refl _ (ex_right _ _ HX)) E2) as B2.
    destruct r1; auto. apply IH; [eapply ext_compose; eauto|]. assert (HL' : nframes w1 = nframes u1) by (apply same_length, B1). lia.
  Qed.
  Lemma eval_symbols_ext w1 w2 f : ext w1 w2 -> f < nframes w1 -> forall syms ld, eval_symbols E w1 f syms ld = eval_symbols E w2 f syms ld.
  Proof.
    intros HX Hf. induction syms as [|s syms IH]; intros ld; simpl; auto. rewrite (frame_item_ext w1 w2 f s HX Hf).
    destruct (rbind _ _) as [o|x]; auto. destruct x; auto. now rewrite IH.
  Qed.
  Lemma evaluate_eext : forall fuel, eext (fun w f a => evaluate E fuel w f a []) /\ forall w1 w2 f a local, ext w1 w2 -> f < nframes w1 -> snd (evaluate E fuel w1 f a local) = snd (evaluate E fuel w2 f a local).
  Proof.
    induction fuel as [|n [IH _]].
    { split; [|auto]. split; [|auto]. intros w0 w f a w' r X Y. eapply (evaluate_P E (sim w0) (sim_indexer w0)); eauto. }
    assert (HM : forall w1 w2 f a local, ext w1 w2 -> f < nframes w1 -> snd (evaluate E (S n) w1 f a local) = snd (evaluate E (S n) w2 f a local)).
    { intros w1 w2 f a local HX Hf. cbn [evaluate]. destruct (ext_get _ _ f HX Hf) as (x & y & Gx & Gy & HF). rewrite Gx, Gy. cbn [rbind].
      destruct (drop_parts _ _ HF) as (HL & _ & HN & _). rewrite HL. destruct (check _ _); cbn [rbind]; auto. destruct (parse_arg E a) as [ex|]; cbn [rbind]; auto.
      rewrite (eval_symbols_ext w1 w2 f HX Hf). destruct (eval_symbols E w2 f _ _) as [ld|]; cbn [rbind]; auto.
      pose proof (eval_chains_ext _ IH (e_chains ex) w1 w2 f ld HX Hf) as HR.
      destruct (eval_chains E _ w1 f _ ld) as [u1 r1], (eval_chains E _ w2 f _ ld) as [u2 r2]. simpl in HR. subst r2. destruct r1; simpl; auto. now rewrite HN. }
    split; [|exact HM]. split; [|intros; apply HM; auto]. intros w0 w f a w' r X Y. eapply (evaluate_P E (sim w0) (sim_indexer w0)); eauto.
  Qed.

  Definition read_frame (o : @lop L V) : nat := match o with LRead f _ | LAgg f _ _ _ _ | LEval f _ _ => f | _ => 0 end.
  Lemma read_ext fuel w1 w2 o : is_read o = true -> ext w1 w2 -> read_frame o < nframes w1 -> snd (lstep E fuel w1 o) = snd (lstep E fuel w2 o).
  Proof.
    intros Ho HX Hf. destruct o; try discriminate; cbn [lstep]; simpl in Hf.
    - pose proof (subscript_ext w1 w2 f path HX Hf) as HR. destruct (subscript E w1 f path) as [u1 r1], (subscript E w2 f path) as [u2 r2]. simpl in HR. subst r2.
      unfold out_item. destruct r1 as [[| | |]|]; auto.
    - pose proof (subscript_ext w1 w2 f path HX Hf) as HR. destruct (subscript E w1 f path) as [u1 r1] eqn:E1. destruct (subscript E w2 f path) as [u2 r2] eqn:E2. simpl in HR. subst r2.
      destruct (subscript_P E (sim w1) (sim_indexer w1) _ _ _ _ _ (sim_refl _ (ex_left _ _ HX)) E1) as (A1 & _ & C1).
      destruct (subscript_P E (sim w2) (sim_indexer w2) _ _ _ _ _ (sim_refl _ (ex_right _ _ HX)) E2) as (A2 & _ & C2).
      destruct r1 as [i|]; auto. pose proof (subscript_in _ _ _ _ _ (ex_left _ _ HX) (ex_closed _ _ HX) E1) as Hi. destruct i as [root h|root h|root h|c]; auto. destruct Hi as [Hi1 Hi2].
      pose proof (ext_compose _ _ _ _ A1 HX A2) as HX'.
      pose proof (aggregate_ext _ u1 u2 root h func a int_fill (proj1 (evaluate_eext fuel)) HX' Hi1 Hi2) as HR.
      destruct (aggregate E _ u1 root h func a int_fill) as [v1 q1], (aggregate E _ u2 root h func a int_fill) as [v2 q2]. simpl in HR. subst q2. unfold out_col. destruct q1; auto.
    - pose proof (proj2 (evaluate_eext fuel) w1 w2 f (XText text) local HX Hf) as HR. destruct (evaluate E fuel w1 f _ local) as [v1 q1], (evaluate E fuel w2 f _ local) as [v2 q2].
      simpl in HR. subst q2. unfold out_col. destruct q1; auto.
  Qed.
  Lemma read_out fuel w o : is_read o = true -> nframes w <= read_frame o -> snd (lstep E fuel w o) = match o with LRead _ [] | LAgg _ [] _ _ _ => Err KeyError | LEval _ _ _ => match fuel with O => Err RuntimeError | _ => Err AttributeError end | _ => Err AttributeError end.
  Proof.
    intros Ho Hf. assert (HG : get_frame w (read_frame o) = Err AttributeError).
    { unfold get_frame. destruct (nth_error (lw_frames w) (read_frame o)) eqn:En; auto. assert (read_frame o < nframes w) by (apply nth_error_Some; congruence). lia. }
    destruct o; try discriminate; simpl in HG; cbn [lstep].
    - destruct path; simpl; auto. unfold frame_item. now rewrite HG.
    - destruct path; simpl; auto. unfold frame_item. now rewrite HG.
    - destruct fuel; simpl; auto. now rewrite HG.
  Qed.
  Lemma read_sim fuel w1 w2 o : is_read o = true -> closed w1 -> sim w1 w2 -> snd (lstep E fuel w1 o) = snd (lstep E fuel w2 o).
  Proof.
    intros Ho HC HS. destruct (Nat.lt_ge_cases (read_frame o) (nframes w1)) as [H|H].
    - apply read_ext; auto. now apply sim_ext.
    - assert (HL : nframes w1 = nframes w2) by (apply same_length, HS). rewrite !read_out; auto. now rewrite <- HL.
  Qed.
  Lemma reads_sim fuel : forall os w w', Forall (fun o => is_read o = true) os -> all_links paired w -> fst (lrun E fuel w os) = w' -> sim w w'.
  Proof.
    induction os as [|o os IH]; simpl; intros w w' HF HP H; [subst; now apply sim_refl|]. inversion HF; subst.
    destruct (lstep E fuel w o) as [w1 r1] eqn:Es. destruct (lrun E fuel w1 os) as [w2 r2] eqn:El. simpl.
    pose proof (read_P E (sim w) (sim_indexer w) _ _ _ _ _ H2 (sim_refl _ HP) Es) as [S1 _].
    eapply sim_trans; [exact S1|]. apply (IH w1 w2); auto; [apply S1|now rewrite El].
  Qed.
End Sim.
