(** A frame whose rows are selected from another one: reading through its links. *)
From Verif Require Import Prelude DictProofs ExprModel ScopeModel ScopeProofs LdfModel SpecLdf LdfProofs LdfKeys LdfReads LdfInv LdfGood LdfLinks LdfSim.
Local Open Scope string_scope.
Local Open Scope nat_scope.
Local Open Scope list_scope.

Notation zeros flat := (nonzero (map (fun z => (z =? -1)%Z) flat)).

Lemma rows_at_one {A} ps (l r : list A) i p : rows_at ps l = Ok r -> nth_error ps i = Some p -> nth_error r i = nth_error l p.
Proof. intros H Hp. apply rows_at_nth in H. destruct H as [_ H]. destruct (H _ _ Hp) as (x & -> & ->). reflexivity. Qed.
Lemma rows_at_like {A B} ps (l : list A) (m : list B) r : rows_at ps l = Ok r -> length m = length l -> exists r', rows_at ps m = Ok r'.
Proof. intros H HL. apply rows_at_total. intros p Hp. rewrite HL. eapply rows_at_lt; eauto. Qed.
Lemma np_take_rows {A} ps (l : list A) ix r ix' : np_take l ix = Ok r -> rows_at ps ix = Ok ix' -> exists r', np_take l ix' = Ok r' /\ rows_at ps r = Ok r'.
Proof.
  intros H HI. destruct (rows_at_like ps ix r ix' HI (np_take_length _ _ _ H)) as (r' & Hr). exists r'. split; auto. pose proof H as H'. apply np_take_nth in H'. destruct H' as [HL HN].
  apply np_take_nth. split; [now rewrite (rows_at_length _ _ _ Hr), (rows_at_length _ _ _ HI)|]. intros i z Hz.
  assert (exists p, nth_error ps i = Some p) as (p & Hp).
  { destruct (nth_error ps i) eqn:Ep; eauto. apply nth_error_None in Ep. assert (i < length ix') by (apply nth_error_Some; congruence). rewrite (rows_at_length _ _ _ HI) in *. lia. }
  rewrite (rows_at_one _ _ _ _ _ HI Hp) in Hz. destruct (HN _ _ Hz) as (x & X1 & X2). exists x. split; auto. now rewrite (rows_at_one _ _ _ _ _ Hr Hp).
Qed.

Section Slice.
  Context {L V : Type} (E : venv L V).
  Notation lworld := (@lworld V).
  Notation frame := (@frame V).
  Notation column := (prod dtype (list V)).
  Notation item := (@item V).

  (** one step along a link *)
  Definition through (v : list Z * list nat) (d : dtype) (vals : list V) (fill : V) : res (list V) :=
    do vs <- np_take vals (fst v); fill_at E d vs (snd v) fill.

  Lemma fill_rows ps d (vs out vs' : list V) flat flat' fill : length vs = length flat ->
    fill_at E d vs (zeros flat) fill = Ok out -> rows_at ps flat = Ok flat' -> rows_at ps vs = Ok vs' ->
    exists out', fill_at E d vs' (zeros flat') fill = Ok out' /\ rows_at ps out = Ok out'.
  Proof.
    intros HL H HF HV. unfold fill_at in *. destruct (v_store E d fill) as [y|]; simpl in H |- *; [|discriminate].
    destruct (check _ _) as [u|] in H; simpl in H; [|discriminate]. injection H as <-. clear u.
    assert (forallb (fun i => i <? length vs') (zeros flat') = true) as ->.
    { apply forallb_forall. intros i Hi. apply Nat.ltb_lt. apply nonzero_spec in Hi. rewrite nth_error_map in Hi. destruct (nth_error flat' i) eqn:Ei; [|discriminate].
      rewrite (rows_at_length _ _ _ HV), <- (rows_at_length _ _ _ HF). apply nth_error_Some. congruence. }
    simpl. eexists. split; [reflexivity|]. apply rows_at_nth. rewrite fold_upd_length, (rows_at_length _ _ _ HV). split; auto. intros i p Hp.
    assert (Hpl : p < length vs) by (eapply rows_at_lt; [exact HV|eapply nth_error_In; eauto]).
    assert (Hil : i < length vs') by (rewrite (rows_at_length _ _ _ HV); apply nth_error_Some; congruence).
    rewrite !fold_upd_nth by auto. rewrite (rows_at_one _ _ _ _ _ HV Hp).
    assert (existsb (Nat.eqb i) (zeros flat') = existsb (Nat.eqb p) (zeros flat)) as ->.
    { assert (HX : forall fl k, existsb (Nat.eqb k) (zeros fl) = match nth_error fl k with Some z => (z =? -1)%Z | None => false end).
      { intros fl k. destruct (nth_error fl k) as [z|] eqn:Ek.
        - destruct (z =? -1)%Z eqn:Ez.
          + apply existsb_exists. exists k. split; [apply nonzero_spec; rewrite nth_error_map, Ek; simpl; now rewrite Ez|apply Nat.eqb_refl].
          + apply Bool.not_true_is_false. intros X. apply existsb_exists in X. destruct X as (j & Hj & Ej). apply Nat.eqb_eq in Ej. subst j. apply nonzero_spec in Hj. rewrite nth_error_map, Ek in Hj. simpl in Hj. congruence.
        - apply Bool.not_true_is_false. intros X. apply existsb_exists in X. destruct X as (j & Hj & Ej). apply Nat.eqb_eq in Ej. subst j. apply nonzero_spec in Hj. rewrite nth_error_map, Ek in Hj. discriminate. }
      rewrite !HX. now rewrite (rows_at_one _ _ _ _ _ HF Hp). }
    destruct (existsb _ _); [eauto|]. destruct (nth_error vs p) as [x|] eqn:Ex; [eauto|]. apply nth_error_None in Ex. lia.
  Qed.
  Lemma through_rows ps flat flat' d vals fill out : rows_at ps flat = Ok flat' -> through (flat, zeros flat) d vals fill = Ok out ->
    exists out', through (flat', zeros flat') d vals fill = Ok out' /\ rows_at ps out = Ok out'.
  Proof.
    intros HF H. unfold through in *. simpl in *. destruct (np_take vals flat) as [vs|] eqn:Ev; simpl in H; [|discriminate].
    destruct (np_take_rows _ _ _ _ _ Ev HF) as (vs' & V1 & V2). rewrite V1. simpl. eapply fill_rows; eauto. eapply np_take_length; eauto.
  Qed.

  Lemma presolve_snoc vw f s h d vals fill :
    presolve E vw (h ++ [(f, s)]) d vals fill = (do vs <- presolve E vw h d vals fill; do v <- vw f s; through v d vs fill).
  Proof.
    revert vals. induction h as [|[f' s'] h IH]; intros vals; cbn [app presolve].
    - destruct (vw f s) as [[ix miss]|]; cbn [rbind]; auto. unfold through. simpl. destruct (np_take vals ix); simpl; auto. destruct (fill_at _ _ _ _ _); auto.
    - destruct (vw f' s') as [[ix miss]|]; cbn [rbind]; auto. match goal with |- rbind ?x _ = _ => destruct x; cbn [rbind]; auto end.
  Qed.

  (** * A new frame does not change what the others read *)
  Lemma get_add (w : lworld) fr f : f < nframes w -> get_frame (add_frame w fr) f = get_frame w f.
  Proof. intros H. unfold get_frame, add_frame. simpl. now rewrite nth_error_app1. Qed.
  Lemma get_added (w : lworld) fr : get_frame (add_frame w fr) (nframes w) = Ok fr.
  Proof. unfold get_frame, add_frame, nframes. simpl. now rewrite nth_error_app2, Nat.sub_diag by auto. Qed.
  Lemma link_add (w : lworld) fr f n : f < nframes w -> get_link (add_frame w fr) f n = get_link w f n.
  Proof. intros H. unfold get_link. now rewrite get_add. Qed.
  Lemma link_added (w : lworld) fr n : get_link (add_frame w fr) (nframes w) n = match dget String.eqb (f_links fr) n with Some lk => Ok lk | None => Err KeyError end.
  Proof. unfold get_link. now rewrite get_added. Qed.
  Lemma precompute_add (w : lworld) fr lk : within (nframes w) lk -> precompute E (add_frame w fr) lk = precompute E w lk.
  Proof. intros [A B]. unfold precompute. now rewrite !get_add. Qed.
  Lemma ext_add (w : lworld) fr : closed w -> all_links paired w -> all_links paired (add_frame w fr) -> ext E w (add_frame w fr).
  Proof.
    intros HC HP HP'. constructor; auto.
    - intros f a Ha. exists a. split; auto. apply add_frame_is. auto.
    - intros f n Hf. unfold view. rewrite link_add by auto. destruct (get_link w f n) as [lk|] eqn:El; cbn [rbind]; auto. apply get_link_is in El.
      unfold fresh. rewrite precompute_add; auto. eapply HC; eauto.
    - intros f n Hf. unfold gview. now rewrite link_add.
  Qed.

  (** * Reading through a frame of selected rows *)
  Context (w : lworld) (fr' : frame) (f : nat) (ps : list nat).
  Notation g := (nframes w).
  Notation w' := (add_frame w fr').
  Definition cut_link (s : string) (lk : link) : Prop :=
    exists lk', dget String.eqb (f_links fr') s = Some lk' /\ copy_meta lk' = copy_meta lk /\ lk_grouper lk' = lk_grouper lk /\
      forall v, view E w f s = Ok v -> exists v', view E w' g s = Ok v' /\
        forall d vals fill out, through v d vals fill = Ok out -> exists out', through v' d vals fill = Ok out' /\ rows_at ps out = Ok out'.
  Context (HC : closed w) (HP : all_links paired w) (HP' : all_links paired w') (HN : nrows fr' = length ps)
    (s : string) (lk : link) (Hl : is_link w f s lk) (HK : cut_link s lk).
  Set Default Proof Using "Type*".
  Inductive cut : item -> item -> Prop :=
  | cut_leaf h : hist_in w h -> cut (ILeaf f (h ++ [(f, s)])) (ILeaf g (h ++ [(g, s)]))
  | cut_node h : hist_in w h -> cut (INode f (h ++ [(f, s)])) (INode g (h ++ [(g, s)]))
  | cut_agg h : hist_in w h -> cut (IAgg f (h ++ [(f, s)])) (IAgg g (h ++ [(g, s)])).
  Lemma cut_make lk1 lk2 h : copy_meta lk1 = copy_meta lk2 -> hist_in w h -> cut (make_node lk1 f (h ++ [(f, s)])) (make_node lk2 g (h ++ [(g, s)])).
  Proof.
    intros HM HI. rewrite (make_node_meta lk1 lk2 f _ HM). unfold make_node. destruct (lk_agg lk2); [|destruct (lk_chained lk2)]; constructor; auto.
  Qed.
  Lemma cut_top h a : hist_in w h -> top_other w (h ++ [(f, s)]) = Ok a ->
    exists lk', top_other w' (h ++ [(g, s)]) = Ok (lk', snd a) /\ copy_meta lk' = copy_meta (fst a) /\ lk_grouper lk' = lk_grouper (fst a) /\ snd a < nframes w.
  Proof.
    intros HI H. destruct h as [|[f0 s0] h]; simpl in *.
    - pose proof Hl as Hl'. apply get_link_is in Hl'. rewrite Hl' in H. simpl in H. injection H as <-. simpl. destruct HK as (lk' & K1 & K2 & K3 & _). exists lk'.
      rewrite link_added, K1. simpl. pose proof (f_equal lk_other K2) as X. simpl in X. rewrite X. repeat split; auto. apply (HC _ _ _ Hl).
    - inversion HI; subst. simpl in *. rewrite link_add by auto. destruct (get_link w f0 s0) as [x|] eqn:Ex; simpl in H; [|discriminate]. injection H as <-. simpl.
      exists x. repeat split; auto. apply get_link_is in Ex. apply (HC _ _ _ Ex).
  Qed.
  Lemma cut_resolve h c fill w1 d vs w0 w0' : hist_in w h -> (forall h n, view E w0 h n = view E w h n) -> (forall h n, view E w0' h n = view E w' h n) ->
    (forall fr, get_frame w0' g = Ok fr -> nrows fr = length ps) -> (exists fr, get_frame w0' g = Ok fr) ->
    resolve_root E w0 f (h ++ [(f, s)]) c fill = (w1, Ok (d, vs)) ->
    exists w2 vs', rows_at ps vs = Ok vs' /\ resolve_root E w0' g (h ++ [(g, s)]) c fill = (w2, Ok (d, vs')).
  Proof.
    intros HI V0 V0' HF (fg & Hg) H. unfold resolve_root in *. destruct (resolve E w0 _ _ _ fill) as [u r] eqn:Er. destruct (resolve_pure E _ _ _ _ _ _ _ Er) as (R & _).
    destruct (resolve E w0' (h ++ [(g, s)]) _ _ fill) as [u' r'] eqn:Er'. destruct (resolve_pure E _ _ _ _ _ _ _ Er') as (R' & _).
    rewrite (presolve_ext E _ _ V0), presolve_snoc in R. rewrite (presolve_ext E _ _ V0'), presolve_snoc in R'.
    rewrite (presolve_in E (view E w') (view E w) (nframes w)) in R'; [|intros; symmetry; apply (ex_view _ _ _ (ext_add w fr' HC HP HP')); auto|auto].
    destruct (presolve E (view E w) h _ _ fill) as [vs0|]; cbn [rbind] in R, R'; [|subst r; discriminate].
    destruct (view E w f s) as [v|] eqn:Ev; cbn [rbind] in R; [|subst r; discriminate].
    destruct HK as (lk' & _ & _ & _ & K). destruct (K _ Ev) as (v' & V1 & V2). rewrite V1 in R'. cbn [rbind] in R'.
    subst r. destruct (through v (fst c) vs0 fill) as [out|] eqn:Et; [|discriminate]. destruct (V2 _ _ _ _ Et) as (out' & O1 & O2). rewrite O1 in R'. subst r'.
    destruct (rbind _ _) in H; [|discriminate]. injection H as _ <- <-. rewrite Hg. simpl. rewrite (HF _ Hg), (rows_at_length _ _ _ O2), Nat.eqb_refl. simpl. eauto.
  Qed.
  Lemma cut_resolve_here h c fill w1 d vs : hist_in w h -> resolve_root E w f (h ++ [(f, s)]) c fill = (w1, Ok (d, vs)) ->
    exists w2 vs', rows_at ps vs = Ok vs' /\ resolve_root E w' g (h ++ [(g, s)]) c fill = (w2, Ok (d, vs')).
  Proof.
    intros HI. apply cut_resolve; auto; rewrite get_added; [intros fr X; now injection X as <-|eauto].
  Qed.
  Lemma series_ends w0 c path u x : walk E w0 (ISeries c) path = (u, Ok x) -> x = ISeries c.
  Proof. destruct path; simpl; [congruence|discriminate]. Qed.
  Lemma walk_cut : forall path i i' w1 x, cut i i' -> walk E w i path = (w1, Ok x) ->
    match x with
    | ISeries (d, vals) => exists w2 vs, rows_at ps vals = Ok vs /\ walk E w' i' path = (w2, Ok (ISeries (d, vs)))
    | _ => w1 = w /\ exists x', cut x x' /\ walk E w' i' path = (w', Ok x')
    end.
  Proof.
    induction path as [|t path IH]; intros i i' w1 x HI H; cbn [walk] in H |- *.
    { injection H as <- <-. inversion HI; subst; split; eauto. }
    destruct (item_item E w i t) as [u [j|]] eqn:Ei; [|discriminate].
    assert (HJ : (u = w /\ exists j', cut j j' /\ item_item E w' i' t = (w', Ok j')) \/
                 (exists d vals u' vs, j = ISeries (d, vals) /\ rows_at ps vals = Ok vs /\ item_item E w' i' t = (u', Ok (ISeries (d, vs))))).
    { destruct HI as [h HI|h HI|h HI]; cbn [item_item] in Ei |- *; [| |discriminate].
      - right. destruct (top_other w (h ++ [(f, s)])) as [a|] eqn:Et; simpl in Ei; [|discriminate]. destruct (cut_top h a HI Et) as (lk' & T1 & T2 & T3 & T4). destruct a as [lka ga]. simpl in *.
        rewrite T1. cbn [rbind]. rewrite get_add by auto. destruct (get_frame w ga) as [gr|]; simpl in Ei |- *; [|discriminate]. destruct (get_column gr t) as [c|]; [|discriminate].
        destruct (resolve_root E w f _ c _) as [u1 [[d vs]|]] eqn:Er; [|discriminate]. injection Ei as <- <-.
        destruct (cut_resolve_here _ _ _ _ _ _ HI Er) as (u2 & vs' & R1 & R2). rewrite R2. exists d, vs, u2, vs'. auto.
      - destruct (top_other w (h ++ [(f, s)])) as [a|] eqn:Et; simpl in Ei; [|discriminate]. destruct (cut_top h a HI Et) as (lk' & T1 & T2 & T3 & T4). destruct a as [lka ga]. simpl in *.
        rewrite T1. cbn [rbind]. rewrite get_add by auto. destruct (get_frame w ga) as [gr|] eqn:Eg; simpl in Ei |- *; [|discriminate].
        destruct (dget String.eqb (f_links gr) t) as [lk2|].
        + left. injection Ei as <- <-. split; auto. exists (make_node lk2 g ((ga, t) :: h ++ [(g, s)])). split; auto.
          apply (cut_make lk2 lk2 ((ga, t) :: h)); auto. constructor; auto.
        + right. destruct (get_column gr t) as [c|]; [|discriminate]. destruct (resolve_root E w f _ c _) as [u1 [[d vs]|]] eqn:Er; [|discriminate]. injection Ei as <- <-.
          destruct (cut_resolve_here _ _ _ _ _ _ HI Er) as (u2 & vs' & R1 & R2). rewrite R2. exists d, vs, u2, vs'. auto. }
    destruct HJ as [(-> & j' & J1 & J2)|(d & vals & u' & vs & -> & J2 & J3)].
    - rewrite J2. eapply IH; eauto.
    - pose proof (series_ends _ _ _ _ _ H) as ->. rewrite J3. exists u', vs. split; auto. destruct path; [reflexivity|simpl in H; discriminate].
  Qed.
  Lemma subscript_cut path w1 x : subscript E w f (s :: path) = (w1, Ok x) ->
    match x with
    | ISeries (d, vals) => exists w2 vs, rows_at ps vals = Ok vs /\ subscript E w' g (s :: path) = (w2, Ok (ISeries (d, vs)))
    | _ => w1 = w /\ exists x', cut x x' /\ subscript E w' g (s :: path) = (w', Ok x')
    end.
  Proof.
    intros H. simpl in H |- *. unfold frame_item in *. rewrite get_added. simpl. destruct HK as (lk' & K1 & K2 & _). rewrite K1. pose proof Hl as (fr & Hf & Hd).
    apply get_frame_is in Hf. rewrite Hf in H. simpl in H. rewrite Hd in H. eapply walk_cut; [|exact H]. apply (cut_make lk lk' []); auto. constructor.
  Qed.
  Lemma agg_cut fuel path func a fill d vals : snd (lstep E fuel w (LAgg f (s :: path) func a fill)) = Ok (RCol (d, vals)) ->
    exists vs, rows_at ps vals = Ok vs /\ snd (lstep E fuel w' (LAgg g (s :: path) func a fill)) = Ok (RCol (d, vs)).
  Proof.
    intros H. cbn [lstep] in H |- *. destruct (subscript E w f (s :: path)) as [w1 [x|]] eqn:Es; [|discriminate].
    pose proof (subscript_cut path w1 x Es) as HS. destruct x as [|? ?|root h|c]; try discriminate.
    destruct HS as (-> & x' & Hc & ->). inversion Hc; subst. rename h0 into h.
    rewrite aggregate_eq in H |- *. destruct (top_other w (h ++ [(f, s)])) as [[la ga]|] eqn:Et; cbn [rbind] in H; [|discriminate].
    destruct (cut_top h _ ltac:(eassumption) Et) as (lk' & T1 & T2 & T3 & T4). simpl in T1, T2, T3, T4. rewrite T1. cbn [rbind]. rewrite get_add by auto.
    destruct (get_frame w ga) as [gr|] eqn:Eg; cbn [rbind] in H |- *; [|discriminate]. pose proof (ext_add w fr' HC HP HP') as HX.
    pose proof (agg_values_ext E (fun w f a => evaluate E fuel w f a []) w w' ga gr gr a (proj1 (evaluate_eext E fuel)) HX T4 eq_refl) as HV.
    destruct (agg_values E _ w ga gr a) as [w1 r1] eqn:E1. destruct (agg_values E _ w' ga gr a) as [w2 r2] eqn:E2. simpl in HV. subst r2.
    pose proof (agg_values_sim E _ w w _ _ _ _ _ (proj1 (evaluate_eext E fuel)) (sim_refl E _ HP) E1) as S1.
    pose proof (agg_values_sim E _ w' w' _ _ _ _ _ (proj1 (evaluate_eext E fuel)) (sim_refl E _ HP') E2) as S2.
    destruct r1 as [c|]; cbn [rbind] in H |- *; [|discriminate]. destruct (check _ _); cbn [rbind] in H |- *; [|discriminate].
    destruct (match fst c with DInt => _ | _ => _ end) as [fl|]; cbn [rbind] in H |- *; [|discriminate].
    destruct (top_same E w w1 _ _ _ S1 Et) as (la1 & A1 & A2). destruct (top_same E w' w2 _ _ _ S2 T1) as (la2 & B1 & B2). rewrite A1 in H. rewrite B1. cbn [rbind] in H |- *.
    rewrite A2 in H. rewrite B2, T3. destruct (group_reduce E func (lk_grouper la) c) as [gc|]; cbn [rbind] in H |- *; [|discriminate].
    destruct (resolve_root E w1 f _ gc fl) as [u1 [[d1 v1]|]] eqn:Er; simpl in H; [|discriminate]. injection H as -> ->.
    destruct (cut_resolve h gc fl u1 d vals w1 w2) as (u2 & vs & R1 & R2); auto.
    - intros k n. symmetry. apply (sim_view _ _ _ S1).
    - intros k n. symmetry. apply (sim_view _ _ _ S2).
    - intros fr X. apply get_frame_is in X. destruct (same_frame _ _ _ _ (same_sym _ _ (sim_data _ _ _ S2)) X) as (fr0 & X0 & XD). destruct (drop_parts _ _ XD) as (_ & _ & XN & _). rewrite XN.
      apply get_frame_is in X0. rewrite get_added in X0. injection X0 as <-. exact HN.
    - assert (X : is_frame w' g fr') by (apply get_frame_is, get_added). destruct (same_frame _ _ _ _ (sim_data _ _ _ S2) X) as (fr0 & X0 & _). exists fr0. now apply get_frame_is.
    - exists vs. split; auto. now rewrite R2.
  Qed.
End Slice.
