(** C122: disabling choices of a model with nests, leaving them out, and the order of the choices, in whole runs and in exact arithmetic. *)
From Coq Require Import Reals Lra Sorted.
From Verif Require Import Prelude Arith CoreModel TreeModel DictProofs ParModel ExprModel SpecExpr ExprProofs ExprUses ExprMeaning ExprContainer ExprWorld ScopeModel SpecScope ScopeProofs ModelModel ModelProofs SpecModel KernelProofs EvalProofs ModelExample PropState ModelWorld ModelHist ModelTabs RunProofs PropUtility PropExpr SpecSampling SamplingProofs SpecNested SpecTree NestedProofs NestedExact TreeProofs TreeMore TreeHist RunOut SpecEnd EndProofs ParProofs OutProofs RunResult EndExample PropEnd SpecLogit MnlProofs PropMultinomial PropNested SpecCalc NestedEmbed NestedCalc PropNestedCalc PropConst PropOwn.
Local Open Scope string_scope.
Local Open Scope nat_scope.
Local Open Scope list_scope.

(** Every node of [t] has a counterpart [f i] in [t'] with the same name, the counterpart of its parent as parent, for a nest the same logsum
    scale; and it is a nest in [t'] exactly when it is one in [t].  ([t'] may have more nodes, and its nodes may have been made in another order.) *)
Definition tree_within (t t' : tree XR) (f : nat -> nat) : Prop :=
  forall i nd, in_model t i -> nth_error (t_heap t) i = Some nd -> in_model t' (f i) /\ exists nd', nth_error (t_heap t') (f i) = Some nd' /\
    nd_name nd' = nd_name nd /\ nd_parent nd' = option_map f (nd_parent nd) /\ (has_child t i -> nd_scale nd' = nd_scale nd) /\ (has_child t' (f i) <-> has_child t i).

  Lemma pos_unique (u : tree XR) (IV : inv XR u) a b i : nth_error (ids u) a = Some i -> nth_error (ids u) b = Some i -> a = b.
  Proof.
    intros A B. pose proof (ids_nodup XR u IV) as N. rewrite NoDup_nth_error in N. apply N; [apply nth_error_Some; congruence|congruence].
  Qed.
  Lemma at_pos (u : tree XR) k : k < length (t_all u) -> exists i, nth_error (ids u) k = Some i.
  Proof. rewrite all_ids. intros H. destruct (nth_error (ids u) k) as [i|] eqn:E; eauto. apply nth_error_None in E. lia. Qed.
  Lemma pos_lt (u : tree XR) k i : nth_error (ids u) k = Some i -> k < length (t_all u).
  Proof. rewrite all_ids. intros E. apply nth_error_Some. congruence. Qed.


Section Two.
  Context (t t' : tree XR) (INV : inv XR t) (INV' : inv XR t') (nl : nat) (DP : depth t = Ok nl) (DP' : depth t' = Ok nl) (Hd : 1 < nl).
  Context (VT : validate_tree t = Ok tt) (VT' : validate_tree t' = Ok tt) (f : nat -> nat) (TW : tree_within t t' f).
  Notation n := (length (t_all t)).
  Notation n' := (length (t_all t')).

  Lemma path_within i : stored XR t i -> path (t_heap t') (f i) = path (t_heap t) i.
  Proof using Type*.
    induction i as [i IH] using (well_founded_induction lt_wf). intros S. destruct (c_node XR t (proj1 INV) i S) as (nd & E & _ & P).
    destruct (TW i nd (proj2 (in_model_stored XR t i) S) E) as (_ & nd' & E' & N & Pa & _).
    rewrite (path_eq XR (t_heap t') (proj2 INV')), (path_eq XR (t_heap t) (proj2 INV)), E, E', N, Pa. destruct (nd_parent nd) as [p|] eqn:Ep; [|reflexivity]. cbn [option_map].
    rewrite IH; auto; [exact (hw_parent XR (t_heap t) (proj2 INV) i nd p E Ep)|apply P].
  Qed.
  Lemma label_within i : stored XR t i -> label_of XR t' nl (f i) = label_of XR t nl i.
  Proof using Type*. intros S. unfold label_of, full_name. now rewrite path_within. Qed.
  Lemma within_inj i j : stored XR t i -> stored XR t j -> f i = f j -> i = j.
  Proof using Type*.
    intros Si Sj E. apply (stored_inj XR t); auto; [apply INV|]. unfold full_name. rewrite <- (path_within i Si), <- (path_within j Sj). now rewrite E.
  Qed.
  Lemma within_stored i : stored XR t i -> stored XR t' (f i).
  Proof using Type*.
    intros S. destruct (c_node XR t (proj1 INV) i S) as (nd & E & _). apply in_model_stored. exact (proj1 (TW i nd (proj2 (in_model_stored XR t i) S) E)).
  Qed.

  (** the position in [t'] of the choice at position [k] of [t] *)
  Definition shift_pos (k : nat) : nat := match pos_in (ids t') (f (nth k (ids t) 0)) with Some q => q | None => 0 end.
  Notation s := shift_pos.
  Lemma shift_nth k i : nth_error (ids t) k = Some i -> nth_error (ids t') (s k) = Some (f i).
  Proof using Type*.
    intros E. unfold shift_pos. rewrite (nth_error_nth _ _ _ E). pose proof (within_stored i (nth_error_In _ _ E)) as S. apply In_nth_error in S. destruct S as [q Q].
    now rewrite (pos_in_nth _ _ q (ids_nodup XR t' INV') Q).
  Qed.
  Context (us us' : list util) (LU : length us = n) (LU' : length us' = n').
  Hypothesis SU : forall k, k < n -> nth (s k) us' None = nth k us None.
  Lemma tables_within : part_of n (tab_h t) (tab_sc t) us n' (tab_h t') (tab_sc t') us' s.
  Proof using Type*.
    split.
    - intros a b Ha Hb E. destruct (at_pos t a Ha) as [i Ei]. destruct (at_pos t b Hb) as [j Ej]. pose proof (shift_nth a i Ei) as Q. rewrite E, (shift_nth b j Ej) in Q. injection Q as Q.
      apply within_inj in Q; [|eapply nth_error_In; eauto|eapply nth_error_In; eauto]. subst j. exact (pos_unique t INV a b i Ei Ej).
    - intros k Hk. destruct (at_pos t k Hk) as [i Ei]. pose proof (shift_nth k i Ei) as Ei'. pose proof (nth_error_In _ _ Ei) as Si. pose proof (nth_error_In _ _ Ei') as Si'.
      destruct (c_node XR t (proj1 INV) i Si) as (nd & E & _ & P). destruct (TW i nd (proj2 (in_model_stored XR t i) Si) E) as (_ & nd' & E' & _ & Pa & SC & HC).
      pose proof (children_nil XR t k i INV Ei) as CN. pose proof (children_nil XR t' (s k) (f i) INV' Ei') as CN'. rewrite <- !all_ids in CN, CN'. fold (tab_h t) in CN. fold (tab_h t') in CN'.
      assert (PE : is_parent (t_heap t') (f i) = is_parent (t_heap t) i).
      { pose proof (has_child_iff XR t i INV Si) as H1. pose proof (has_child_iff XR t' (f i) INV' Si') as H2. destruct (is_parent (t_heap t) i), (is_parent (t_heap t') (f i)); auto; [exfalso|exfalso]; intuition congruence. }
      split; [exact (pos_lt _ _ _ Ei')|]. split; [|split; [|split]].
      + pose proof (parent_of_exp XR t k i nd INV Ei E) as Q. pose proof (parent_of_exp XR t' (s k) (f i) nd' INV' Ei' E') as Q'. fold (tab_h t) in Q. fold (tab_h t') in Q'. rewrite Pa in Q'.
        destruct (nd_parent nd) as [p|]; cbn [option_map] in *.
        * destruct Q as (q & Eq & ->). destruct Q' as (q' & Eq' & ->). cbn [option_map]. f_equal. apply (pos_unique t' INV' q' (s q) (f p)); auto. now apply shift_nth.
        * destruct Q as [-> _]. destruct Q' as [-> _]. reflexivity.
      + intros NC. assert (HP : is_parent (t_heap t) i = true) by (destruct (is_parent (t_heap t) i); auto; exfalso; apply NC; now apply CN).
        assert (N1 : nth k (tab_sc t) 0%R = unfin (exp_sc XR t i)) by (apply nth_error_nth; unfold tab_sc; rewrite nth_error_map, Ei; reflexivity).
        assert (N2 : nth (s k) (tab_sc t') 0%R = unfin (exp_sc XR t' (f i))) by (apply nth_error_nth; unfold tab_sc; rewrite nth_error_map, Ei'; reflexivity).
        rewrite N1, N2. unfold exp_sc. rewrite E, E', PE, HP, SC; auto. apply (has_child_iff XR t i INV Si). exact HP.
      + now apply SU.
      + rewrite CN, CN', PE. tauto.
  Qed.
  Hypothesis XU : forall j, j < n' -> ~ kept n s j -> end_node XR t' j -> nth j us' None = None.
  Lemma left_out_infeasible j : j < n' -> ~ kept n s j -> ~ feasible n' (tab_h t') us' j.
  Proof using Type*.
    revert j. apply (up_ind n' (tab_h t') (tab_lv t') (tab_bt t') (tab_wf t' INV' nl DP') (fun j => ~ kept n s j -> ~ feasible n' (tab_h t') us' j)). intros j Hj IH NK F. inversion F as [i C NZ|i c NZ I F']; subst.
    - apply NZ. apply XU; auto. now apply (tab_end t' INV' nl DP').
    - apply (IH c I); auto. intros (k & Hk & E). apply in_children in I. destruct I as [_ Pc]. pose proof (proj2 tables_within k Hk) as (_ & Q & _). rewrite E, Pc in Q.
      destruct (parent_of (tab_h t) k) as [p|] eqn:Ep; [|discriminate]. cbn in Q. injection Q as ->. apply NK. exists p. split; auto.
      destruct (tab_wf t INV nl DP) as (_ & _ & _ & _ & W & _). specialize (W k Hk). rewrite Ep in W. tauto.
  Qed.
  Lemma rows_within cols cols' scaled chk chk' o o' : choices t = Ok cols -> choices t' = Ok cols' ->
    stochastic_outputs t (map as_x us) scaled chk = Ok o -> stochastic_outputs t' (map as_x us') scaled chk' = Ok o' ->
    (forall l p, In (l, p) (fst (fst o)) -> In (l, p) (fst (fst o'))) /\ (forall l p, In (l, p) (fst (fst o')) -> In (l, p) (fst (fst o)) \/ (~ In l cols /\ p = Fin 0%R)) /\ snd (fst o') = snd (fst o).
  Proof using Type*.
    intros CH CH' H H'. unfold stochastic_outputs in H, H'. rewrite (tab_row t INV nl DP Hd) in H. rewrite (tab_row t' INV' nl DP' Hd) in H'.
    destruct (tab_scales t INV) as (_ & LS & PS). destruct (tab_scales t' INV') as (_ & LS' & PS'). pose proof (tab_wf t INV nl DP) as WF. pose proof (tab_wf t' INV' nl DP') as WF'.
    destruct (nested_probabilities XR (tab_h t) (tab_lv t) (map Fin (tab_sc t)) (tab_bt t) scaled (map as_x us) chk) as [[[p ls] tm]|] eqn:Q; [|discriminate].
    destruct (nested_probabilities XR (tab_h t') (tab_lv t') (map Fin (tab_sc t')) (tab_bt t') scaled (map as_x us') chk') as [[[p' ls'] tm']|] eqn:Q'; [|discriminate].
    pose proof (C104_disable_is_leave_out n (tab_h t) (tab_lv t) (tab_bt t) (tab_sc t) us n' (tab_h t') (tab_lv t') (tab_bt t') (tab_sc t') us' scaled s false
      WF (conj LS PS) LU WF' (conj LS' PS') LU' tables_within left_out_infeasible) as C. rewrite (unchecked _ _ _ _ _ _ _ _ Q), (unchecked _ _ _ _ _ _ _ _ Q') in C. destruct C as (C1 & C2 & ->).
    assert (LP : length p = n /\ length p' = n').
    { destruct (nested_real n (tab_h t) (tab_lv t) (tab_bt t) scaled (tab_sc t) WF (conj LS PS) us LU chk) as (e & q & _ & _ & R). rewrite Q in R.
      destruct (nested_real n' (tab_h t') (tab_lv t') (tab_bt t') scaled (tab_sc t') WF' (conj LS' PS') us' LU' chk') as (e' & q' & _ & _ & R'). rewrite Q' in R'.
      split; [destruct (Rleb _ _ && _)%bool in R|destruct (Rleb _ _ && _)%bool in R']; try discriminate; [injection R as -> _ _|injection R' as -> _ _]; unfold outp; now rewrite !map_length, seq_length. }
    destruct LP as [LP LP']. cbn [rbind] in H, H'. rewrite DP in H. rewrite DP' in H'. cbn [rbind] in H, H'.
    destruct (frame_row_ends XR t INV nl DP VT p cols CH LP) as (row & FR & (ks & KS & KE & ER)). destruct (frame_row_ends XR t' INV' nl DP' VT' p' cols' CH' LP') as (row' & FR' & (ks' & KS' & KE' & ER')).
    rewrite FR, CH in H. rewrite FR', CH' in H'. cbn [rbind] in H, H'. injection H as <-. injection H' as <-. cbn [fst snd].
    pose proof (choices_eq XR t nl INV VT DP) as CE. rewrite CH in CE. injection CE as ->. pose proof (choices_eq XR t' nl INV' VT' DP') as CE'. rewrite CH' in CE'. injection CE' as ->.
    assert (LB : forall k i, nth_error (ids t) k = Some i -> nth k (map (label_of XR t nl) (ids t)) (Flat "") = label_of XR t nl i) by (intros k i E; apply nth_error_nth; now rewrite nth_error_map, E).
    assert (LB' : forall k i, nth_error (ids t') k = Some i -> nth k (map (label_of XR t' nl) (ids t')) (Flat "") = label_of XR t' nl i) by (intros k i E; apply nth_error_nth; now rewrite nth_error_map, E).
    assert (SAME : forall k i, nth_error (ids t) k = Some i -> nth (s k) (map (label_of XR t' nl) (ids t')) (Flat "") = nth k (map (label_of XR t nl) (ids t)) (Flat "") /\ nth (s k) p' (nzero XR) = nth k p (nzero XR) /\ (end_node XR t' (s k) <-> end_node XR t k)).
    { intros k i E. pose proof (pos_lt t k i E) as Hk. pose proof (shift_nth k i E) as E'. rewrite (LB k i E), (LB' _ _ E'). split; [apply label_within; eapply nth_error_In; eauto|]. split.
      - rewrite (nth_indep p' (nzero XR) NaN) by (rewrite LP'; eapply pos_lt; eauto). rewrite (nth_indep p (nzero XR) NaN) by (rewrite LP; exact Hk). now apply C1.
      - rewrite (tab_end t INV nl DP), (tab_end t' INV' nl DP'). pose proof (proj2 tables_within k Hk) as (B & _ & _ & _ & CC). rewrite CC. tauto. }
    split; [|split; [|reflexivity]].
    - intros l v I. rewrite ER in I. rewrite ER'. apply in_map_iff in I. destruct I as (k & EQ & Ik). apply KE in Ik. destruct (at_pos t k (proj1 (proj1 (tab_end t INV nl DP k) Ik))) as [i Ei].
      destruct (SAME k i Ei) as (S1 & S2 & S3). apply in_map_iff. exists (s k). rewrite S1, S2. split; auto. apply KE', S3. exact Ik.
    - intros l v I. rewrite ER' in I. rewrite ER. apply in_map_iff in I. destruct I as (j & EQ & Ij). apply KE' in Ij. pose proof (proj1 (proj1 (tab_end t' INV' nl DP' j) Ij)) as Hj. destruct (at_pos t' j Hj) as [i' Ei'].
      pose proof (keptb_iff n (tab_sc t) n' (tab_sc t') s (conj LS PS) (conj LS' PS') j) as KI. destruct (keptb n s j) eqn:K.
      + destruct (proj1 KI eq_refl) as (k & Hk & <-). destruct (at_pos t k Hk) as [i Ei]. destruct (SAME k i Ei) as (S1 & S2 & S3). left. apply in_map_iff. exists k. rewrite <- S1, <- S2. split; auto. apply KE, S3. exact Ij.
      + assert (NK : ~ kept n s j) by (intros X; apply KI in X; discriminate). right. injection EQ as <- <-. split.
        * rewrite (LB' j i' Ei'). intros IL. apply in_map_iff in IL. destruct IL as (i & EL & Ii). apply NK. apply In_nth_error in Ii. destruct Ii as [k Ek]. exists k. split; [exact (pos_lt _ _ _ Ek)|].
          rewrite <- (label_within i (nth_error_In _ _ Ek)) in EL. apply (label_of_inj XR t' nl (f i) i' INV') in EL; [|apply within_stored; eapply nth_error_In; eauto|eapply nth_error_In; eauto].
          subst i'. apply (pos_unique t' INV' (s k) j (f i)); auto. now apply shift_nth.
        * rewrite (nth_indep p' (nzero XR) NaN) by (rewrite LP'; exact Hj). now apply C2.
  Qed.
End Two.


Section Whole.
  Context {L D N : Type} (E : env L XR D (val N)) (O : ops L N) (as_num : val N -> option xr).
  Notation mop := (mop E).
  Notation start := (new_mworld E).
  Context (NC : numexpr_computes E O as_num) (FL : frame_laws E) (NUL : ev_num E (ev_nan E) = VNull).

  (** Two models of the same depth. The tree of the first is part of the tree of the second, the two give the choices (nests included) that they
      share the same utilities, and the elemental choices that only the second has the utility -inf. Then every probability returned by the first
      run is returned, with the same label, by the second; the second returns nothing else but zeros for the other choices; and the second
      outputs are equal. *)
  Theorem C122_disabled_is_left_out (ops ops' : list mop) i j group group' clear clear' scale check check' ts1 m1 out ts2 m2 out' simple xs simple' xs' d d' cols cols' nl f r r' (uu uu' : list (option R)) :
    let w := mrun E start ops in let m := model E w i in let w' := mrun E start ops' in let m' := model E w' j in
    orderly_history E start ops -> orderly_history E start ops' -> m_utils m = None -> m_utils m' = None ->
    run_stochastic_all E (mheap E w) (mcont E w i) (mw_tabs w) m group clear scale check = (ts1, m1, Ok out) ->
    run_stochastic_all E (mheap E w') (mcont E w' j) (mw_tabs w') m' group' clear' scale check' = (ts2, m2, Ok out') ->
    selection (mheap E w) (mcont E w i) group = Ok (simple, xs) -> (forall y, In y xs -> meant E simple y) ->
    selection (mheap E w') (mcont E w' j) group' = Ok (simple', xs') -> (forall y, In y xs' -> meant E simple' y) ->
    m_du m = Some d -> choices (m_tree m) = Ok cols -> depth (m_tree m) = Ok nl -> r < length d ->
    m_du m' = Some d' -> choices (m_tree m') = Ok cols' -> depth (m_tree m') = Ok nl -> r' < length d' -> 1 < nl ->
    texts_row E O as_num (m_scope m) nl cols r (map (@e_raw L) xs) (map as_x uu) ->
    texts_row E O as_num (m_scope m') nl cols' r' (map (@e_raw L) xs') (map as_x uu') ->
    tree_within (m_tree m) (m_tree m') f ->
    (forall c c' l, nth_error cols c = Some l -> nth_error cols' c' = Some l -> nth c' uu' None = nth c uu None) ->
    (forall c' l, nth_error cols' c' = Some l -> ~ In l cols -> end_node XR (m_tree m') c' -> nth c' uu' None = None) ->
    exists row row' T terms terms', nth_error out r = Some (row, T, terms) /\ nth_error out' r' = Some (row', T, terms') /\
      (forall l p, In (l, p) row -> In (l, p) row') /\
      (forall l p, In (l, p) row' -> In (l, p) row \/ ~ In l cols /\ p = Fin 0%R).
  Proof.
    intros w m w' m' OH OH' MU MU' RR RR' S MT S' MT' DU CH DP Hr DU' CH' DP' Hr' Hd TR TR' TW SU XU.
    assert (LU : length uu = length cols) by (destruct TR as [Q _]; now rewrite map_length in Q).
    assert (LU' : length uu' = length cols') by (destruct TR' as [Q _]; now rewrite map_length in Q).
    unfold run_stochastic_all in RR. destruct (run_utilities E (mheap E w) (mcont E w i) (mw_tabs w) m group clear) as [[ta ma] [ta'|e]] eqn:RU; [|discriminate].
    injection RR as <- <- RR. destruct (rows_are_texts E O as_num NC FL NUL ops i group clear ta ma ta' simple xs d cols nl OH MU RU S MT DU CH DP) as (A1 & A2 & IV & V & LC & _ & TX). fold w m in A1, A2, IV, V, LC, TX.
    apply map_res_ok in RR. destruct RR as [_ RR]. destruct (RR r _ (TX r _ Hr TR)) as (o & SO & NO). rewrite A1 in SO.
    unfold run_stochastic_all in RR'. destruct (run_utilities E (mheap E w') (mcont E w' j) (mw_tabs w') m' group' clear') as [[tb mb] [tb'|e]] eqn:RU'; [|discriminate].
    injection RR' as <- <- RR'. destruct (rows_are_texts E O as_num NC FL NUL ops' j group' clear' tb mb tb' simple' xs' d' cols' nl OH' MU' RU' S' MT' DU' CH' DP') as (A1' & A2' & IV' & V' & LC' & _ & TX'). fold w' m' in A1', A2', IV', V', LC', TX'.
    apply map_res_ok in RR'. destruct RR' as [_ RR']. destruct (RR' r' _ (TX' r' _ Hr' TR')) as (o' & SO' & NO'). rewrite A1' in SO'.
    pose proof (choices_eq XR _ nl IV V DP) as CE. rewrite CH in CE. injection CE as CE. pose proof (choices_eq XR _ nl IV' V' DP') as CE'. rewrite CH' in CE'. injection CE' as CE'.
    assert (HS : forall k, k < length (t_all (m_tree m)) -> nth (shift_pos (m_tree m) (m_tree m') f k) uu' None = nth k uu None).
    { intros k Hk. destruct (at_pos _ k Hk) as [a Ea]. pose proof (shift_nth _ _ IV IV' nl DP DP' Hd V V' f TW k a Ea) as Eb.
      apply (SU k _ (label_of XR (m_tree m) nl a)); [rewrite CE, nth_error_map, Ea; reflexivity|]. rewrite CE', nth_error_map, Eb. cbn [option_map]. f_equal. apply (label_within _ _ IV IV' nl DP DP' Hd V V' f TW). eapply nth_error_In; eauto. }
    assert (HX : forall c, c < length (t_all (m_tree m')) -> ~ kept (length (t_all (m_tree m))) (shift_pos (m_tree m) (m_tree m') f) c -> end_node XR (m_tree m') c -> nth c uu' None = None).
    { intros c Hc NK EN. destruct (at_pos _ c Hc) as [b Eb]. apply (XU c (label_of XR (m_tree m') nl b)); auto; [rewrite CE', nth_error_map, Eb; reflexivity|].
      rewrite CE. intros IL. apply in_map_iff in IL. destruct IL as (a & EL & Ia). apply NK. pose proof Ia as Sa. apply In_nth_error in Ia. destruct Ia as [k Ek]. exists k. split; [exact (pos_lt _ _ _ Ek)|].
      rewrite <- (label_within _ _ IV IV' nl DP DP' Hd V V' f TW a Sa) in EL. apply (label_of_inj XR (m_tree m') nl (f a) b IV') in EL; [|apply (within_stored _ _ IV IV' nl DP DP' Hd V V' f TW); auto|eapply nth_error_In; eauto].
      subst b. apply (pos_unique _ IV' _ _ (f a)); auto. exact (shift_nth _ _ IV IV' nl DP DP' Hd V V' f TW k a Ek). }
    pose proof (rows_within (m_tree m) (m_tree m') IV IV' nl DP DP' Hd V V' f TW uu uu' (eq_trans LU LC) (eq_trans LU' LC') HS HX cols cols' scale check check' o o' CH CH' SO SO') as (R1 & R2 & R3).
    destruct o as [[row top] terms], o' as [[row' top'] terms']. cbn [fst snd] in *. subst top'. exists row, row', top, terms, terms'. auto.
  Qed.

  (** When the second tree has no other nodes, the runs return the same probabilities with the same labels: the order in which choices were
      added, and the other nodes made and replaced on the way, make no difference. *)
  Theorem C122_order_of_choices (ops ops' : list mop) i j group group' clear clear' scale check check' ts1 m1 out ts2 m2 out' simple xs simple' xs' d d' cols cols' nl f r r' (uu uu' : list (option R)) :
    let w := mrun E start ops in let m := model E w i in let w' := mrun E start ops' in let m' := model E w' j in
    orderly_history E start ops -> orderly_history E start ops' -> m_utils m = None -> m_utils m' = None ->
    run_stochastic_all E (mheap E w) (mcont E w i) (mw_tabs w) m group clear scale check = (ts1, m1, Ok out) ->
    run_stochastic_all E (mheap E w') (mcont E w' j) (mw_tabs w') m' group' clear' scale check' = (ts2, m2, Ok out') ->
    selection (mheap E w) (mcont E w i) group = Ok (simple, xs) -> (forall y, In y xs -> meant E simple y) ->
    selection (mheap E w') (mcont E w' j) group' = Ok (simple', xs') -> (forall y, In y xs' -> meant E simple' y) ->
    m_du m = Some d -> choices (m_tree m) = Ok cols -> depth (m_tree m) = Ok nl -> r < length d ->
    m_du m' = Some d' -> choices (m_tree m') = Ok cols' -> depth (m_tree m') = Ok nl -> r' < length d' -> 1 < nl ->
    texts_row E O as_num (m_scope m) nl cols r (map (@e_raw L) xs) (map as_x uu) ->
    texts_row E O as_num (m_scope m') nl cols' r' (map (@e_raw L) xs') (map as_x uu') ->
    tree_within (m_tree m) (m_tree m') f -> (forall l, In l cols' -> In l cols) ->
    (forall c c' l, nth_error cols c = Some l -> nth_error cols' c' = Some l -> nth c' uu' None = nth c uu None) ->
    exists row row' T terms terms', nth_error out r = Some (row, T, terms) /\ nth_error out' r' = Some (row', T, terms') /\ forall l p, In (l, p) row <-> In (l, p) row'.
  Proof.
    intros w m w' m' OH OH' MU MU' RR RR' S MT S' MT' DU CH DP Hr DU' CH' DP' Hr' Hd TR TR' TW SUB SU.
    destruct (C122_disabled_is_left_out ops ops' i j group group' clear clear' scale check check' ts1 m1 out ts2 m2 out' simple xs simple' xs' d d' cols cols' nl f r r' uu uu'
      OH OH' MU MU' RR RR' S MT S' MT' DU CH DP Hr DU' CH' DP' Hr' Hd TR TR' TW SU) as (row & row' & T & t1 & t2 & Q1 & Q2 & Q3 & Q4).
    { intros c' l H NI _. exfalso. apply NI, SUB. eapply nth_error_In; eauto. }
    exists row, row', T, t1, t2. split; [exact Q1|]. split; [exact Q2|]. intros l p. split; [apply Q3|]. intros I. destruct (Q4 l p I) as [|[NI _]]; auto.
    exfalso. apply NI, SUB.
    unfold run_stochastic_all in RR'. destruct (run_utilities E (mheap E w') (mcont E w' j) (mw_tabs w') m' group' clear') as [[tb mb] [tb'|e]] eqn:RU'; [|discriminate].
    injection RR' as <- <- RR'. destruct (rows_are_texts E O as_num NC FL NUL ops' j group' clear' tb mb tb' simple' xs' d' cols' nl OH' MU' RU' S' MT' DU' CH' DP') as (A1' & A2' & IV' & V' & LC' & _ & TX'). fold w' m' in A1', A2', IV', V', LC', TX'.
    apply map_res_ok in RR'. destruct RR' as [_ RR']. destruct (RR' r' _ (TX' r' _ Hr' TR')) as (o' & SO' & NO'). rewrite A1' in SO'. rewrite Q2 in NO'. injection NO' as <-.
    assert (LU' : length uu' = length (t_all (m_tree m'))) by (destruct TR' as [Q _]; rewrite map_length in Q; congruence).
    destruct (stochastic_outputs_ok XR (m_tree m') IV' nl DP' V' (map as_x uu') scale check' cols' (row', T, t2) CH') as (P & top & terms & row0 & _ & (ks & _ & KE & ER) & _ & _ & EQ); [now rewrite map_length|exact SO'|].
    injection EQ as EQ1 _ _. rewrite EQ1, ER in I. apply in_map_iff in I. destruct I as (k & EK & Ik). injection EK as <- _. apply nth_In. apply KE in Ik. destruct Ik as (key & a & Ek & _). rewrite LC'. apply nth_error_Some. congruence.
  Qed.
End Whole.

(** ** Examples: A (a nest with the choices C and D) and B, with the expression [1 @ A.C]; the same with the choice E in A, disabled by the expression [x @ A.E] (where [x] is -inf);
    and the first with D added before C. *)
Inductive variant : Type := Less | More | Swapped.
Definition treeE : tree XR := @Tree XR [@Node XR "A" None (Fin 1) 1 [("C", 2); ("D", 3); ("E", 4)]; @Node XR "B" None (Fin 1) 1 []; @Node XR "C" (Some 0) (Fin 1) 2 []; @Node XR "D" (Some 0) (Fin 1) 2 []; @Node XR "E" (Some 0) (Fin 1) 2 []] [("A", 0); ("B", 1); ("A.C", 2); ("A.D", 3); ("A.E", 4)] [0; 1] None.
Definition treeS1 : tree XR := @Tree XR [@Node XR "A" None (Fin 1) 1 [("D", 2)]; @Node XR "B" None (Fin 1) 1 []; @Node XR "D" (Some 0) (Fin 1) 2 []] [("A", 0); ("B", 1); ("A.D", 2)] [0; 1] None.
Definition treeS : tree XR := @Tree XR [@Node XR "A" None (Fin 1) 1 [("D", 2); ("C", 3)]; @Node XR "B" None (Fin 1) 1 []; @Node XR "D" (Some 0) (Fin 1) 2 []; @Node XR "C" (Some 0) (Fin 1) 2 []] [("A", 0); ("B", 1); ("A.D", 2); ("A.C", 3)] [0; 1] None.
Definition with_tree1 (t : tree XR) : mworld envX := set_model envX world1X (mw_tabs world1X) 0 (CM (E:=envX) t (m_scope (model envX world1X 0)) None None).
Lemma worldE_is : mstep envX world2N (MTree envX 0 (@NodeAdd XR 0 "E" (Fin 1))) = with_tree1 treeE.
Proof.
  change (mstep envX world2N (MTree envX 0 (@NodeAdd XR 0 "E" (Fin 1)))) with (set_model envX world2N (mw_tabs world2N) 0 (tree_op envX (model envX world2N 0) (@NodeAdd XR 0 "E" (Fin 1)))).
  unfold tree_op. change (set_cached (m_tree (model envX world2N 0)) (option_map u_cols (m_utils (model envX world2N 0)))) with treeN. cbn [run_op]. unfold node_add_choice.
  change (create_node XR treeN "E" (Fin 1) (Some 0)) with (@new_node XR treeN "A.E" "E" (Fin 1) (Some 0) 2). unfold new_node. rewrite scale_one. reflexivity.
Qed.
Lemma worldS1_is : mstep envX world1X (MTree envX 0 (@NodeAdd XR 0 "D" (Fin 1))) = with_tree1 treeS1.
Proof.
  change (mstep envX world1X (MTree envX 0 (@NodeAdd XR 0 "D" (Fin 1)))) with (set_model envX world1X (mw_tabs world1X) 0 (tree_op envX (model envX world1X 0) (@NodeAdd XR 0 "D" (Fin 1)))).
  unfold tree_op. change (set_cached (m_tree (model envX world1X 0)) (option_map u_cols (m_utils (model envX world1X 0)))) with treeX. cbn [run_op]. unfold node_add_choice.
  change (create_node XR treeX "D" (Fin 1) (Some 0)) with (@new_node XR treeX "A.D" "D" (Fin 1) (Some 0) 2). unfold new_node. rewrite scale_one. reflexivity.
Qed.
Lemma worldS_is : mstep envX (with_tree1 treeS1) (MTree envX 0 (@NodeAdd XR 0 "C" (Fin 1))) = with_tree1 treeS.
Proof.
  change (mstep envX (with_tree1 treeS1) (MTree envX 0 (@NodeAdd XR 0 "C" (Fin 1)))) with (set_model envX (with_tree1 treeS1) (mw_tabs (with_tree1 treeS1)) 0 (tree_op envX (model envX (with_tree1 treeS1) 0) (@NodeAdd XR 0 "C" (Fin 1)))).
  unfold tree_op. change (set_cached (m_tree (model envX (with_tree1 treeS1) 0)) (option_map u_cols (m_utils (model envX (with_tree1 treeS1) 0)))) with treeS1. cbn [run_op]. unfold node_add_choice.
  change (create_node XR treeS1 "C" (Fin 1) (Some 0)) with (@new_node XR treeS1 "A.C" "C" (Fin 1) (Some 0) 2). unfold new_node. rewrite scale_one. reflexivity.
Qed.
Definition callsL (v : variant) : list (mop envX) :=
  match v with
  | Less => nest_calls
  | More => nest_calls ++ [MTree envX 0 (@NodeAdd XR 0 "E" (Fin 1))]
  | Swapped => [MTree envX 0 (@NodeAdd XR 0 "D" (Fin 1)); MTree envX 0 (@NodeAdd XR 0 "C" (Fin 1))]
  end.
Definition treeL v : tree XR := match v with Less => treeN | More => treeE | Swapped => treeS end.
Definition startL v : mworld envX := match v with Less => world2N | More => with_tree1 treeE | Swapped => with_tree1 treeS end.
Definition textsL (v : variant) : list string := match v with More => ["1 @ A.C"; "x @ A.E"] | _ => ["1 @ A.C"] end.
Definition restL (texts : list string) : list (mop envX) :=
  [MUnits envX 0 ["u1"]; MDeclare envX 0 "x" (DeclVector 0);
   MAssign envX 0 "x" (VSeries (num:=xr) (FR:=framesX) ["u1"] [VNum NInf])] ++ map (fun x => MAppend envX 0 x None) texts.
Definition histL v : list (mop envX) := [MNew envX; MTree envX 0 (@AddChoices XR ["A"; "B"] false None)] ++ callsL v ++ restL (textsL v).
Definition worldL v := mrun envX (startL v) (restL (textsL v)).
Lemma worldL_is v : mrun envX (new_mworld envX) (histL v) = worldL v.
Proof. unfold worldL, startL. destruct v; rewrite <- ?worldS_is, <- ?worldS1_is, <- ?worldE_is, <- ?world2N_is, <- ?worldM_is, <- world1X_is; reflexivity. Qed.
Definition modelL v := model envX (worldL v) 0.
Lemma histL_orderly v : orderly_history envX (new_mworld envX) (histL v).
Proof.
  unfold histL, restL, textsL, callsL, nest_calls. destruct v; cbn [app map orderly_history].
  all: set (w0 := mstep envX (new_mworld envX) (MNew envX)).
  all: assert (W1 : mstep envX w0 (MTree envX 0 (@AddChoices XR ["A"; "B"] false None)) = world1X) by (rewrite <- world1X_is; reflexivity).
  all: rewrite W1, ?worldM_is, ?world2N_is, ?worldE_is, ?worldS1_is, ?worldS_is; unfold w0; clear W1 w0.
  all: repeat match goal with |- _ /\ _ => split end; try exact I; try (intros n s []; fail).
  all: try (unfold orderly; try exact I; try reflexivity).
  all: split; try (intros n s []; fail).
  all: try (split; [repeat constructor; cbn; intuition discriminate|cbn; tauto]).
  all: exists "A"; split; [vm_compute; auto|]; intros H; exfalso; vm_compute in H; intuition discriminate.
Qed.
Definition selL v := selection (mheap envX (worldL v)) (mcont envX (worldL v) 0) None.
Definition simpleL v : list string := match selL v with Ok (s, _) => s | Err _ => [] end.
Definition xsL v : list (@expression nat) := match selL v with Ok (_, xs) => xs | Err _ => [] end.
Definition runL v := run_utilities envX (mheap envX (worldL v)) (mcont envX (worldL v) 0) (mw_tabs (worldL v)) (modelL v) None true.
Definition colsL v : list label :=
  match v with
  | Less => [Tup ["A"; "."]; Tup ["B"; "."]; Tup ["A"; "C"]; Tup ["A"; "D"]]
  | More => [Tup ["A"; "."]; Tup ["B"; "."]; Tup ["A"; "C"]; Tup ["A"; "D"]; Tup ["A"; "E"]]
  | Swapped => [Tup ["A"; "."]; Tup ["B"; "."]; Tup ["A"; "D"]; Tup ["A"; "C"]]
  end.
Lemma selL_ok v : selL v = Ok (simpleL v, xsL v) /\ map (@e_raw nat) (xsL v) = textsL v /\ simpleL v = match v with More => ["x"] | _ => [] end.
Proof. destruct v; vm_compute; auto. Qed.
Lemma meantL v : forall y, In y (xsL v) -> meant envX (simpleL v) y.
Proof.
  intros y Iy. rewrite (proj2 (proj2 (selL_ok v))).
  destruct v; match type of Iy with In _ ?l => let v := eval vm_compute in l in change (In y v) in Iy end; repeat (destruct Iy as [<-|Iy]; [|]); try destruct Iy.
  all: split; [split; intros z Z; cbn in Z; intuition subst; reflexivity|]; split; [intros name us sub ct I1 I2 NF; cbn in I1; intuition|].
  all: intros body flt tree SF PP; vm_compute in SF; injection SF as <- <-; vm_compute in PP; injection PP as <-; split; try (intros z Z; cbn in Z; intuition subst; cbn; auto; fail).
  all: cbn; intuition; now constructor.
Qed.
Lemma partsL v : m_utils (modelL v) = None /\ m_du (modelL v) = Some ["u1"] /\ m_tree (modelL v) = treeL v /\ m_scope (modelL v) = [("x", SVector false (Some [VNum NInf]))].
Proof. destruct v; unfold modelL, worldL, restL; repeat split; vm_compute; reflexivity. Qed.
Definition usL v : list (option R) := match v with Less => [Some 0; Some 0; Some (0 + INR 1); Some 0] | More => [Some 0; Some 0; Some (0 + INR 1); Some 0; None] | Swapped => [Some 0; Some 0; Some 0; Some (0 + INR 1)] end%R.
Lemma rowL v : texts_row envX opsX backX (m_scope (modelL v)) 2 (colsL v) 0 (map (@e_raw nat) (xsL v)) (map as_x (usL v)).
Proof.
  rewrite (proj1 (proj2 (selL_ok v))), (proj2 (proj2 (proj2 (partsL v)))).
  destruct v; (split; [reflexivity|]); intros [|[|[|[|[|c]]]]] l H; try (destruct c; discriminate); try discriminate; cbn in H; injection H as <-; reflexivity.
Qed.
Lemma runL_returns v scale : exists ts m out,
  run_stochastic_all envX (mheap envX (worldL v)) (mcont envX (worldL v) 0) (mw_tabs (worldL v)) (modelL v) None true scale false = (ts, m, Ok out).
Proof.
  unfold run_stochastic_all. fold (runL v). destruct (partsL v) as (A1 & A2 & A3 & A4). assert (IV : inv XR (m_tree (modelL v))).
  { unfold modelL. rewrite <- worldL_is. assert (GD : good envX (model envX (mrun envX (new_mworld envX) (histL v)) 0)) by (apply good_all, history_good; first [exact envX_laws|apply histL_orderly|constructor]). exact (proj1 GD). }
  rewrite A3 in IV. assert (Q : exists row, snd (runL v) = Ok [row]) by (destruct v; eexists; vm_compute; no_nan; reflexivity).
  destruct Q as [row Q]. destruct (runL v) as [[ts m] o] eqn:RU. cbn [snd] in Q. subst o.
  pose proof (rows_are_texts envX opsX backX envX_computes envX_laws envX_null (histL v) 0 None true ts m [row] (simpleL v) (xsL v) ["u1"] (colsL v) 2) as T.
  cbv zeta in T. rewrite !worldL_is in T. fold (modelL v) in T.
  destruct T as (T1 & _ & _ & _ & _ & _ & TX); try assumption; try (apply histL_orderly); try apply selL_ok; try (apply meantL); try (rewrite A3; destruct v; reflexivity).
  rewrite A3 in T1. cbn [map_res rbind]. specialize (TX 0 _ (le_n 1) (rowL v)). injection TX as ->. rewrite T1.
  destruct (row_returns (treeL v) IV 2 ltac:(destruct v; reflexivity) (le_n 2) ltac:(destruct v; reflexivity) (colsL v) (usL v) scale ltac:(destruct v; reflexivity) ltac:(destruct v; reflexivity)) as [o Q].
  match goal with |- context [stochastic_outputs ?a ?b ?c ?d] => replace (stochastic_outputs a b c d) with (@Ok (list (label * num XR) * num XR * list (label * num XR)) o) by (symmetry; exact Q) end. cbn [rbind]. eauto.
Qed.
Lemma treeL_nest v i : in_model (treeL v) i -> (has_child (treeL v) i <-> i = 0).
Proof.
  intros _. split.
  - intros (c & nd & _ & H2 & H3). destruct v; (do 5 (destruct c as [|c]; [cbn in H2; try discriminate H2; injection H2 as <-; cbn in H3; try discriminate H3; now injection H3|])); destruct c; discriminate H2.
  - intros ->. exists 2. destruct v; eexists; (split; [first [exists "A.C"; cbn; tauto|exists "A.D"; cbn; tauto]|split; reflexivity]).
Qed.
Lemma less_in_more : tree_within (treeL Less) (treeL More) (fun i => i).
Proof.
  intros i nd IM H. assert (I2 : in_model (treeL More) i).
  { destruct IM as (k & I). exists k. cbn in I |- *. intuition. }
  split; auto. pose proof (treeL_nest Less i IM) as H1. pose proof (treeL_nest More i I2) as H2. cbn [treeL] in H.
  do 4 (destruct i as [|i]; [cbn in H; injection H as <-; eexists; split; [reflexivity|]; split; [reflexivity|]; split; [reflexivity|]; split; [reflexivity|rewrite H1, H2; cbn; split; (discriminate || auto)]|]). destruct i; discriminate H.
Qed.
Definition swap (i : nat) : nat := match i with 2 => 3 | 3 => 2 | _ => i end.
Lemma less_in_swapped : tree_within (treeL Less) (treeL Swapped) swap.
Proof.
  intros i nd IM H. assert (I2 : in_model (treeL Swapped) (swap i)).
  { destruct IM as (k & I). exists k. cbn in I |- *. destruct I as [I|[I|[I|[I|[]]]]]; injection I as <- <-; cbn; auto. }
  split; auto. pose proof (treeL_nest Less i IM) as H1. pose proof (treeL_nest Swapped (swap i) I2) as H2. cbn [treeL] in H.
  do 4 (destruct i as [|i]; [cbn in H; injection H as <-; eexists; split; [reflexivity|]; split; [reflexivity|]; split; [reflexivity|]; split; [reflexivity|rewrite H1, H2; cbn; split; (discriminate || auto)]|]). destruct i; discriminate H.
Qed.
Example C122_met_disabled : exists out out' row row' T terms terms',
  snd (run_stochastic_all envX (mheap envX (worldL Less)) (mcont envX (worldL Less) 0) (mw_tabs (worldL Less)) (modelL Less) None true true false) = Ok out /\
  snd (run_stochastic_all envX (mheap envX (worldL More)) (mcont envX (worldL More) 0) (mw_tabs (worldL More)) (modelL More) None true true false) = Ok out' /\
  nth_error out 0 = Some (row, T, terms) /\ nth_error out' 0 = Some (row', T, terms') /\
  (forall l p, In (l, p) row -> In (l, p) row') /\ (forall l p, In (l, p) row' -> In (l, p) row \/ ~ In l (colsL Less) /\ p = Fin 0%R).
Proof.
  destruct (runL_returns Less true) as (ts1 & m1 & out & R1). destruct (runL_returns More true) as (ts2 & m2 & out' & R2).
  destruct (partsL Less) as (A1 & A2 & A3 & A4). destruct (partsL More) as (B1 & B2 & B3 & B4).
  pose proof (C122_disabled_is_left_out envX opsX backX envX_computes envX_laws envX_null (histL Less) (histL More) 0 0 None None true true true false false
    ts1 m1 out ts2 m2 out' (simpleL Less) (xsL Less) (simpleL More) (xsL More) ["u1"] ["u1"] (colsL Less) (colsL More) 2 (fun i => i) 0 0 (usL Less) (usL More)) as T.
  cbv zeta in T. rewrite !worldL_is in T. fold (modelL Less) (modelL More) in T. rewrite A3, B3 in T.
  destruct T as (row & row' & TT & terms & terms' & Q1 & Q2 & Q3 & Q4); try assumption; try reflexivity; try (apply histL_orderly); try apply selL_ok; try (apply meantL); try (cbn; lia); try apply rowL; try apply less_in_more.
  - intros [|[|[|[|c]]]] [|[|[|[|[|c']]]]] l H H'; cbn in H, H'; try (destruct c; discriminate H); try (destruct c'; discriminate H'); try discriminate H; try discriminate H'; injection H as <-; try discriminate H'; reflexivity.
  - intros [|[|[|[|[|c']]]]] l H NI _; cbn in H; try (destruct c'; discriminate H); injection H as <-; try reflexivity; exfalso; apply NI; cbn; auto.
  - exists out, out', row, row', TT, terms, terms'. rewrite R1, R2. repeat (split; [assumption || reflexivity|]). exact Q4.
Qed.
Example C122_met_order : exists out out' row row' T terms terms',
  snd (run_stochastic_all envX (mheap envX (worldL Less)) (mcont envX (worldL Less) 0) (mw_tabs (worldL Less)) (modelL Less) None true true false) = Ok out /\
  snd (run_stochastic_all envX (mheap envX (worldL Swapped)) (mcont envX (worldL Swapped) 0) (mw_tabs (worldL Swapped)) (modelL Swapped) None true true false) = Ok out' /\
  nth_error out 0 = Some (row, T, terms) /\ nth_error out' 0 = Some (row', T, terms') /\ forall l p, In (l, p) row <-> In (l, p) row'.
Proof.
  destruct (runL_returns Less true) as (ts1 & m1 & out & R1). destruct (runL_returns Swapped true) as (ts2 & m2 & out' & R2).
  destruct (partsL Less) as (A1 & A2 & A3 & A4). destruct (partsL Swapped) as (B1 & B2 & B3 & B4).
  pose proof (C122_order_of_choices envX opsX backX envX_computes envX_laws envX_null (histL Less) (histL Swapped) 0 0 None None true true true false false
    ts1 m1 out ts2 m2 out' (simpleL Less) (xsL Less) (simpleL Swapped) (xsL Swapped) ["u1"] ["u1"] (colsL Less) (colsL Swapped) 2 swap 0 0 (usL Less) (usL Swapped)) as T.
  cbv zeta in T. rewrite !worldL_is in T. fold (modelL Less) (modelL Swapped) in T. rewrite A3, B3 in T.
  destruct T as (row & row' & TT & terms & terms' & Q1 & Q2 & Q3); try assumption; try reflexivity; try (apply histL_orderly); try apply selL_ok; try (apply meantL); try (cbn; lia); try apply rowL; try apply less_in_swapped.
  - cbn. tauto.
  - intros [|[|[|[|c]]]] [|[|[|[|c']]]] l H H'; cbn in H, H'; try (destruct c; discriminate H); try (destruct c'; discriminate H'); injection H as <-; try discriminate H'; reflexivity.
  - exists out, out', row, row', TT, terms, terms'. rewrite R1, R2. repeat (split; [assumption || reflexivity|]). exact Q3.
Qed.
