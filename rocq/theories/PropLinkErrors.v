(** Property C79: what [link_to] raises, and for which reasons. *)
From Verif Require Import Prelude DictProofs ExprModel ScopeModel ScopeProofs LdfModel SpecLdf LdfProofs LdfKeys LdfReads LdfInv LdfGood LdfLookup LdfLinks LdfSim LdfExample PropReads PropLinkTo.
Local Open Scope string_scope.
Local Open Scope nat_scope.
Local Open Scope list_scope.

Section Errors.
  Context {L V : Type} (E : venv L V).
  Context (veq_spec : forall a b, v_eq E a b = true <-> a = b).
  Notation frame := (@frame V).

  (** * What can be wrong with the key asked of one frame *)
  Inductive bad_key (fr : frame) : meta -> exn -> Prop :=
  | no_labels rows : bad_key fr (Meta (Some []) rows) ValueError
  | unknown_column ls l : In l ls -> (forall s c, l = LName s -> ~ is_column fr s c) -> bad_key fr (Meta (Some ls) false) LinkageSpec
  | column_hidden_by_link ls s c lk : In (LName s) ls -> is_column fr s c -> dget String.eqb (f_links fr) s = Some lk -> bad_key fr (Meta (Some ls) false) AttributeError
  | too_many_levels ls : length (f_levels fr) < length ls -> bad_key fr (Meta (Some ls) true) LinkageSpec
  | unknown_level ls s : In (LName s) ls -> ~ In (Some s) (f_levels fr) -> bad_key fr (Meta (Some ls) true) LinkageSpec
  | level_out_of_range ls z : In (LPos z) ls -> (z < - Z.of_nat (length (f_levels fr)) \/ Z.of_nat (length (f_levels fr)) <= z)%Z -> bad_key fr (Meta (Some ls) true) IndexError
  | ambiguous_level ls s i j : In (LName s) ls -> i <> j -> nth_error (f_levels fr) i = Some (Some s) -> nth_error (f_levels fr) j = Some (Some s) -> bad_key fr (Meta (Some ls) true) ValueError.

  (** a bare integer among the arguments that count *)
  Definition is_int (a : larg) : Prop := exists z, a = AInt z.
  Definition integer_given (a : largs) : Prop :=
    is_int (a_on a) \/ is_int (a_levels a) \/
    (a_on a = ANone /\ (is_int (a_on_self a) \/ is_int (a_on_other a))) \/
    (a_levels a = ANone /\ (is_int (a_self_levels a) \/ is_int (a_other_levels a))).

  (** * Why a call is refused *)
  Inductive refused (fr gr : frame) (a : largs) : exn -> Prop :=
  | not_linkable : f_ldf fr = false -> refused fr gr a AttributeError
  | columns_and_levels : conflicting a -> refused fr gr a LinkageSpec
  | integer_argument : integer_given a -> refused fr gr a TypeError
  | level_counts sm om : wants a sm om -> level_count fr sm <> level_count gr om -> refused fr gr a AssertionError
  | own_key sm om x : wants a sm om -> bad_key fr sm x -> refused fr gr a x
  | target_key sm om x : wants a sm om -> bad_key gr om x -> refused fr gr a x
  | many_to_many sm om : wants a sm om -> ~ keys_unique fr sm -> ~ keys_unique gr om -> refused fr gr a RuntimeError.

  Lemma rmapl_err {A B} (f : A -> res B) x : forall l, rmapl f l = Err x -> exists a, In a l /\ f a = Err x.
  Proof using.
    induction l as [|a l IH]; simpl; [discriminate|]. destruct (f a) as [b|y] eqn:Ef; simpl.
    - destruct (rmapl f l) as [t|y]; simpl; [discriminate|]. intros H. destruct (IH H) as (c & ? & ?). eauto.
    - intros H. exists a. split; [auto|congruence].
  Qed.
  Lemma another_level s : forall ls i, nth_error ls i = Some (Some s) -> length (filter (same_level (Some s)) ls) <> 1 -> exists j, i <> j /\ nth_error ls j = Some (Some s).
  Proof using.
    induction ls as [|o ls IH]; intros i Hi HL; [destruct i; discriminate|]. destruct i as [|i].
    - simpl in Hi. injection Hi as ->. cbn [filter] in HL. assert (same_level (Some s) (Some s) = true) as X by (simpl; apply String.eqb_refl). rewrite X in HL. cbn [length] in HL.
      destruct (filter (same_level (Some s)) ls) as [|x t] eqn:Ef; [simpl in HL; lia|]. assert (In x (filter (same_level (Some s)) ls)) as I by (rewrite Ef; left; reflexivity).
      apply filter_In in I. destruct I as [I Hx]. apply In_nth_error in I. destruct I as (j & Hj). apply same_level_spec in Hx. subst x. exists (S j). split; [lia|exact Hj].
    - destruct (same_level (Some s) o) eqn:Eo.
      + apply same_level_spec in Eo. subst o. exists 0. split; [lia|reflexivity].
      + cbn [filter] in HL. rewrite Eo in HL. destruct (IH i Hi HL) as (j & Hn & Hj). exists (S j). split; [lia|exact Hj].
  Qed.

  Lemma get_keys_bad m fr x : get_keys E m fr = Err x -> bad_key fr m x.
  Proof using.
    destruct m as [[ls|] rows]; unfold get_keys; cbn [me_labels me_rows]; [|discriminate]. destruct rows.
    - unfold check. destruct (Nat.leb_spec (length ls) (length (f_levels fr))) as [HL|HL]; cbn [rbind]; [|intros H; injection H as <-; now constructor].
      destruct (rmapl (level_values E fr) ls) as [arrays|y] eqn:Er; cbn [rbind].
      + apply rmapl_ok in Er. destruct arrays; [|discriminate]. inversion Er; subst. intros H. injection H as <-. constructor.
      + intros H. injection H as <-. apply rmapl_err in Er. destruct Er as (l & I & H). unfold level_values in H. cbv zeta in H. destruct l as [s|z].
        * destruct (position same_level (f_levels fr) (Some s)) as [n|] eqn:En.
          -- destruct (Nat.eqb_spec (length (filter (same_level (Some s)) (f_levels fr))) 1) as [|HN]; [discriminate|]. injection H as <-. apply position_level in En.
             destruct (another_level s _ _ En HN) as (j & Hj & Hn). now apply (ambiguous_level fr ls s n j).
          -- injection H as <-. apply (unknown_level fr ls s); auto. intros X. apply In_nth_error in X. destruct X as (n & Hn). exact (position_level_none _ _ _ En Hn).
        * destruct (orb _ _) eqn:Eo; [|discriminate]. injection H as <-. apply (level_out_of_range fr ls z); auto. apply orb_true_iff in Eo. rewrite Z.ltb_lt, Z.leb_le in Eo. destruct (Z.ltb_spec z 0); lia.
    - destruct (rmapl (column_values fr) ls) as [arrays|y] eqn:Er; cbn [rbind].
      + apply rmapl_ok in Er. destruct arrays; [|discriminate]. inversion Er; subst. intros H. injection H as <-. constructor.
      + intros H. injection H as <-. apply rmapl_err in Er. destruct Er as (l & I & H). unfold column_values in H. destruct l as [s|z].
        * destruct (dget String.eqb (f_cols fr) s) as [[d v]|] eqn:Ed.
          -- unfold dmem in H. destruct (dget String.eqb (f_links fr) s) as [lk|] eqn:El; [|discriminate]. injection H as <-. apply (column_hidden_by_link fr ls s (d, v) lk); auto.
          -- injection H as <-. apply (unknown_column fr ls (LName s)); auto. intros s' c X. injection X as <-. unfold is_column. congruence.
        * injection H as <-. apply (unknown_column fr ls (LPos z)); auto. intros s' c X. discriminate.
  Qed.
  Lemma bad_has m fr x : bad_key fr m x -> ~ has_keys fr m.
  Proof using.
    unfold has_keys. intros H. destruct H as [rows|ls l I H|ls s c lk I Hc Hl|ls HL|ls s I H|ls z I H|ls s i j I HN Hi Hj]; cbn [me_labels me_rows]; intros [HE HK]; try rewrite Forall_forall in HK.
    - now apply HE.
    - destruct (HK l I) as (s & c & -> & Hc & _). exact (H s c eq_refl Hc).
    - destruct (HK _ I) as (s' & c' & X & _ & HL). injection X as <-. congruence.
    - lia.
    - destruct HK as [_ HK]. destruct (HK _ I) as (n & _ & Hn & _). apply H. eapply nth_error_In; eauto.
    - destruct HK as [_ HK]. destruct (HK _ I) as (n & Hn & X). lia.
    - destruct HK as [_ HK]. destruct (HK _ I) as (n & _ & _ & HU). apply HN. rewrite (HU _ Hi). symmetry. now apply HU.
  Qed.
  Lemma wants_function a sm om sm' om' : wants a sm om -> wants a sm' om' -> sm' = sm /\ om' = om.
  Proof using.
    intros H H'. apply resolve_wants in H, H'. destruct H as (s & o & R & S1 & S2), H' as (s' & o' & R' & T1 & T2). rewrite R in R'. injection R' as <- <-. split; congruence.
  Qed.
  Lemma resolve_err a x : resolve_args a = Err x -> x = LinkageSpec /\ conflicting a.
  Proof using.
    unfold resolve_args, conflicting. destruct a as [[|?|?|?] [|?|?|?] [|?|?|?] [|?|?|?] [|?|?|?] [|?|?|?]]; simpl; intros H; try discriminate H; injection H as <-; (split; [reflexivity|]);
      solve [left; split; discriminate | right; left; split; first [left; discriminate|right; discriminate] | right; right; split; first [left; discriminate|right; discriminate]].
  Qed.
  Lemma integer_wants a sm om : integer_given a -> ~ wants a sm om.
  Proof using.
    intros HI [HS HO]. unfold integer_given, is_int in HI. destruct a as [on lv so oo sl ol]; simpl in *.
    destruct HI as [(z & ->)|[(z & ->)|[[-> [(z & ->)|(z & ->)]]|[-> [(z & ->)|(z & ->)]]]]]; inversion HS; subst; inversion HO; subst; try discriminate;
      repeat match goal with H : labels_of _ _ |- _ => inversion H; subst; clear H end.
  Qed.

  (** whatever is raised, it is for one of the reasons above, and of the kind given there *)
  Theorem C79_errors_have_reasons fuel os f g name a pre fr gr x :
    let w := after E fuel os in
    is_frame w f fr -> is_frame w g gr ->
    snd (lstep E fuel w (LLink f g name a pre)) = Err x -> refused fr gr a x.
  Proof using veq_spec.
    intros w Hf Hg H. assert (HW : world_ok w) by (apply (reachable_ok E fuel); exists os; reflexivity).
    pose proof (proj2 (get_frame_is _ _ _) Hf) as Gf. pose proof (proj2 (get_frame_is _ _ _) Hg) as Gg.
    pose proof H as H0. destruct (f_ldf fr) eqn:HL.
    2:{ cbn [lstep] in H. unfold link_to in H. rewrite Gf in H. cbn [rbind] in H. rewrite HL in H. cbn in H. injection H as <-. now apply not_linkable. }
    cbn [lstep] in H. unfold link_to in H. rewrite Gf in H. cbn [rbind] in H. rewrite HL in H. cbn [check rbind] in H.
    destruct (resolve_args a) as [[[sa sr] [oa orr]]|y] eqn:Ea; cbn [rbind fst snd] in H.
    2:{ injection H as <-. apply resolve_err in Ea. destruct Ea as [-> HC]. now apply columns_and_levels. }
    assert (HI : forall z, sa = AInt z \/ oa = AInt z -> integer_given a).
    { intros z HZ. unfold resolve_args in Ea. unfold integer_given, is_int. destruct a as [[|?|?|?] [|?|?|?] [|?|?|?] [|?|?|?] [|?|?|?] [|?|?|?]]; simpl in Ea; try discriminate Ea; injection Ea as <- <- <- <-;
        destruct HZ as [X|X]; try discriminate X; simpl; eauto 10. }
    unfold create in H. rewrite Gf, Gg in H. cbn [rbind] in H.
    destruct (mk_meta sa sr) as [sm|y] eqn:Es; cbn [rbind] in H.
    2:{ injection H as <-. destruct sa as [|s|z|l]; try discriminate Es. injection Es as <-. apply integer_argument, (HI z). now left. }
    destruct (mk_meta oa orr) as [om|y] eqn:Eo; cbn [rbind] in H.
    2:{ injection H as <-. destruct oa as [|s|z|l]; try discriminate Eo. injection Eo as <-. apply integer_argument, (HI z). now right. }
    assert (HA : wants a sm om) by (apply resolve_wants; exists (sa, sr), (oa, orr); auto).
    unfold check in H. destruct (Nat.eqb_spec (nlevels sm fr) (nlevels om gr)) as [EN|EN]; cbn [rbind] in H.
    2:{ injection H as <-. now apply (level_counts fr gr a sm om). }
    destruct (get_keys E sm fr) as [sk|y] eqn:Ks; cbn [rbind] in H; [|injection H as <-; apply (own_key fr gr a sm om); auto; now apply get_keys_bad].
    destruct (get_keys E om gr) as [ok|y] eqn:Ko; cbn [rbind] in H; [|injection H as <-; apply (target_key fr gr a sm om); auto; now apply get_keys_bad].
    assert (KS : has_keys fr sm) by (apply (get_keys_total E); eauto). assert (KO : has_keys gr om) by (apply (get_keys_total E); eauto).
    clear H. 
    destruct (link_result E veq_spec fuel w f g name a pre fr gr sm om HW Hf HL Hg HA EN KS KO) as [(lk & R & _)|(U1 & U2 & R)]; rewrite R in H0; cbn [snd] in H0; [discriminate|].
    injection H0 as <-. now apply (many_to_many fr gr a sm om).
  Qed.
  (** and whenever there is one of these reasons the call is refused *)
  Theorem C79_each_reason_refuses fuel os f g name a pre fr gr x :
    let w := after E fuel os in
    is_frame w f fr -> is_frame w g gr -> refused fr gr a x ->
    exists y, lstep E fuel w (LLink f g name a pre) = (w, Err y) /\ refused fr gr a y.
  Proof using veq_spec.
    intros w Hf Hg HR. destruct (snd (lstep E fuel w (LLink f g name a pre))) as [o|y] eqn:Es.
    - exfalso. assert (exists b, o = RAgg b) as (b & ->).
      { cbn [lstep] in Es. destruct (link_to E w f g name a pre) as [w' [b|z]]; cbn [snd] in Es; [injection Es as <-; eauto|discriminate]. }
      destruct (proj1 (C72_accepted_iff E veq_spec fuel os f g name a pre) (ex_intro _ b Es)) as (fr' & gr' & sm & om & H1 & H2 & H3 & H4 & H5 & H6 & H7 & H8). fold w in H1, H3.
      assert (fr' = fr) as -> by (unfold is_frame in *; congruence). assert (gr' = gr) as -> by (unfold is_frame in *; congruence). clear Es.
      destruct HR as [HL|HC|HI|sm' om' HA HN|sm' om' x HA HB|sm' om' x HA HB|sm' om' HA U1 U2].
      + congruence.
      + pose proof (C72_conflicts_are_rejected E fuel w f g name a pre fr Hf H2 HC) as X.
        destruct (proj2 (C72_accepted_iff E veq_spec fuel os f g name a pre)) as (b' & Y); [exists fr, gr, sm, om; auto 10|]. fold w in Y. rewrite X in Y. discriminate.
      + exact (integer_wants a sm om HI H4).
      + destruct (wants_function _ _ _ _ _ H4 HA) as [-> ->]. auto.
      + destruct (wants_function _ _ _ _ _ H4 HA) as [-> ->]. exact (bad_has _ _ _ HB H6).
      + destruct (wants_function _ _ _ _ _ H4 HA) as [-> ->]. exact (bad_has _ _ _ HB H7).
      + destruct (wants_function _ _ _ _ _ H4 HA) as [-> ->]. tauto.
    - exists y. split.
      + pose proof (C72_rejected_changes_nothing E fuel w f g name a pre y Es) as X. destruct (lstep E fuel w (LLink f g name a pre)) as [w' r]. cbn [fst snd] in *. now subst.
      + exact (C79_errors_have_reasons fuel os f g name a pre fr gr y Hf Hg Es).
  Qed.
End Errors.

(** each of the seven kinds of reason occurs *)
Example C79_applies :
  let w := w0 two_level_frames in
  let t a := snd (lstep env0 3 w (LLink 0 1 "t" a true)) in
  t (LArgs (AStr "x") ANone ANone ANone (AStr "a") ANone) = Err LinkageSpec /\
  t (LArgs ANone (AInt 0) ANone ANone ANone ANone) = Err TypeError /\
  t (LArgs ANone ANone ANone ANone ANone ANone) = Err AssertionError /\
  t (LArgs ANone ANone ANone (AStr "p") (AStr "zz") ANone) = Err LinkageSpec /\
  t (LArgs ANone ANone ANone (AStr "p") (AList [LPos 2]) ANone) = Err IndexError /\
  t (LArgs ANone ANone (AList []) (AList []) ANone ANone) = Err ValueError /\
  t (LArgs ANone ANone ANone (AStr "q") (AStr "a") ANone) = Err RuntimeError.
Proof. vm_compute. exact (conj eq_refl (conj eq_refl (conj eq_refl (conj eq_refl (conj eq_refl (conj eq_refl eq_refl)))))). Qed.
