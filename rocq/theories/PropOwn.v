(** C118: more utility for one choice of a nested model, in whole runs and in exact arithmetic. *)
From Coq Require Import Reals Lra Sorted.
From Verif Require Import Prelude Arith CoreModel TreeModel DictProofs ParModel ExprModel SpecExpr ExprProofs ExprUses ExprMeaning ExprContainer ExprWorld ScopeModel SpecScope ScopeProofs ModelModel ModelProofs SpecModel KernelProofs EvalProofs ModelExample PropState ModelWorld ModelHist ModelTabs RunProofs PropUtility PropExpr SpecSampling SamplingProofs SpecNested SpecTree NestedProofs NestedExact TreeProofs TreeMore TreeHist RunOut SpecEnd EndProofs ParProofs OutProofs RunResult EndExample PropEnd SpecLogit MnlProofs PropMultinomial PropNested SpecCalc NestedCalc PropNestedCalc PropConst.
Local Open Scope string_scope.
Local Open Scope nat_scope.
Local Open Scope list_scope.

(** every nest inside another nest has at most the scale of that nest *)
Definition nests_narrow (t : tree XR) : Prop :=
  forall i nd p pd, in_model t i -> nth_error (t_heap t) i = Some nd -> has_child t i -> nd_parent nd = Some p -> nth_error (t_heap t) p = Some pd ->
    nle XR (nd_scale nd) (nd_scale pd) = true.

Definition unfin (x : xr) : R := match x with Fin r => r | _ => 0%R end.

Lemma unchecked h lv sc bt scaled us chk o : nested_probabilities XR h lv sc bt scaled us chk = Ok o -> nested_probabilities XR h lv sc bt scaled us false = Ok o.
Proof.
  unfold nested_probabilities. destruct lv; [discriminate|]. cbv zeta. rewrite andb_false_r. match goal with |- context [if ?b then _ else _] => destruct b end; [discriminate|auto].
Qed.

Section Tree.
  Context (t : tree XR) (INV : inv XR t) (nl : nat) (DP : depth t = Ok nl) (Hd : 1 < nl).
  Notation n := (length (t_all t)).
  Definition tab_h : list Z := map (exp_h XR t) (ids t).
  Definition tab_lv : list nat := map (fun i => level_of (t_heap t) i - 1) (ids t).
  Definition tab_bt : list bool := map (fun i => negb (is_parent (t_heap t) i)) (ids t).
  Definition tab_sc : list R := map (fun i => unfin (exp_sc XR t i)) (ids t).

  Lemma scale_real s : scale_ok XR s = true -> exists x, s = Fin x /\ (0 < x <= 1)%R.
  Proof using Type.
    unfold scale_ok. cbn [nlt nle nzero none_ XR]. rewrite andb_true_iff. destruct s as [x| | |]; cbn; intros [A B]; try discriminate.
    exists x. split; auto. split; [now apply Rltb_true in A|now apply Rleb_true in B].
  Qed.
  Lemma tab_scale i : In i (ids t) -> exists x, exp_sc XR t i = Fin x /\ (0 < x <= 1)%R.
  Proof using INV.
    intros I. destruct (c_node XR t (proj1 INV) i I) as (nd & EN & SO & _). unfold exp_sc. rewrite EN. destruct (is_parent (t_heap t) i); [now apply scale_real|]. exists 1%R. split; [reflexivity|lra].
  Qed.
  Lemma tab_scales : map (exp_sc XR t) (ids t) = map Fin tab_sc /\ length tab_sc = n /\ Forall (fun s => 0 < s)%R tab_sc.
  Proof using INV.
    unfold tab_sc. split; [|split].
    - rewrite map_map. apply map_ext_in. intros i I. destruct (tab_scale i I) as (x & -> & _). reflexivity.
    - rewrite map_length. symmetry. apply all_ids.
    - apply Forall_forall. intros s I. apply in_map_iff in I. destruct I as (i & <- & I). destruct (tab_scale i I) as (x & -> & P). cbn. tauto.
  Qed.
  Lemma tab_wf : wf_table n tab_h tab_lv tab_bt.
  Proof using INV DP. pose proof (flatten_wf XR t nl INV DP) as W. rewrite <- (all_ids XR t) in W. exact W. Qed.
  Lemma tab_row us scaled chk : row_outputs t us scaled chk = nested_probabilities XR tab_h tab_lv (map Fin tab_sc) tab_bt scaled us chk.
  Proof using INV DP Hd.
    unfold row_outputs. rewrite DP. cbn [rbind]. destruct (Nat.ltb_spec 1 nl); [|lia]. rewrite (flatten_eq XR t nl INV DP Hd). cbn [rbind]. rewrite <- (proj1 tab_scales). reflexivity.
  Qed.
  Lemma tab_end k : end_node XR t k <-> k < n /\ children n tab_h k = [].
  Proof using INV DP.
    rewrite (end_nodes XR t INV). rewrite <- (all_ids XR t). pose proof (proj2 (proj2 (proj2 (proj2 (proj2 tab_wf))))) as WB.
    assert (NB : forall k, k < n -> nth k tab_bt true = negb (is_parent (t_heap t) (nth k (ids t) 0))).
    { intros j Hj. rewrite all_ids in Hj. unfold tab_bt. rewrite (nth_indep _ true (negb (is_parent (t_heap t) 0))) by (now rewrite map_length). now rewrite (map_nth (fun i => negb (is_parent (t_heap t) i))). }
    split; intros [Hk Q]; split; auto; specialize (WB k Hk); rewrite (NB k Hk) in WB; tauto.
  Qed.
  Lemma tab_fall scaled : scaled = false \/ nests_narrow t -> scales_fall n tab_h scaled tab_sc.
  Proof using INV DP Hd.
    intros C p Hp HC. destruct tab_scales as (_ & LS & PS). rewrite all_ids in Hp. destruct (nth_error (ids t) p) as [i|] eqn:Ei; [|apply nth_error_None in Ei; lia].
    assert (IN : forall k j, nth_error (ids t) k = Some j -> nth k tab_sc 0%R = unfin (exp_sc XR t j)).
    { intros k j Q. apply nth_error_nth. unfold tab_sc. rewrite nth_error_map, Q. reflexivity. }
    rewrite (IN p i Ei). pose proof (nth_error_In _ _ Ei) as Ii. destruct (tab_scale i Ii) as (x & Ex & B). rewrite Ex. cbn [unfin].
    unfold outer_scale. destruct (c_node XR t (proj1 INV) i Ii) as (nd & EN & SO & _). pose proof (exp_h_parent XR t p i nd INV Ei EN) as HP.
    assert (NH : nth p tab_h (-1)%Z = exp_h XR t i) by (apply nth_error_nth; unfold tab_h; rewrite nth_error_map, Ei; reflexivity).
    unfold parent_of. rewrite NH. destruct (nd_parent nd) as [q|] eqn:EP; [|rewrite HP; cbn; lra]. destruct HP as (g & Eg & ->). destruct (Z.ltb_spec (Z.of_nat g) 0); [lia|]. rewrite Nat2Z.id.
    destruct scaled; [|lra]. destruct C as [C|C]; [discriminate|]. rewrite (IN g q Eg). pose proof (nth_error_In _ _ Eg) as Ig. destruct (tab_scale q Ig) as (y & Ey & _). rewrite Ey. cbn [unfin].
    assert (HCi : is_parent (t_heap t) i = true).
    { destruct (is_parent (t_heap t) i) eqn:Q; auto. exfalso. apply HC. apply (tab_end p). apply (end_nodes XR t INV). split; auto. rewrite (nth_error_nth _ _ _ Ei), Q. reflexivity. }
    destruct (c_node XR t (proj1 INV) q Ig) as (pd & EPd & SOp & _).
    assert (HCq : is_parent (t_heap t) q = true). { apply (has_child_iff XR t q INV Ig). exists i, nd. split; [now apply in_model_stored|auto]. }
    unfold exp_sc in Ex, Ey. rewrite EN, HCi in Ex. rewrite EPd, HCq in Ey.
    specialize (C i nd q pd (proj2 (in_model_stored XR t i) Ii) EN (proj2 (has_child_iff XR t i INV Ii) HCi) EP EPd). rewrite Ex, Ey in C. cbn in C. now apply Rleb_true in C.
  Qed.

  Lemma row_returns (VT : validate_tree t = Ok tt) cols us scaled : choices t = Ok cols -> length us = n -> exists o, stochastic_outputs t (map as_x us) scaled false = Ok o.
  Proof using INV DP Hd.
    intros CH LU. unfold stochastic_outputs. rewrite tab_row. destruct tab_scales as (_ & LS & PS).
    destruct (nested_real n tab_h tab_lv tab_bt scaled tab_sc tab_wf (conj LS PS) us LU false) as (e & q & He & Hq & ->). rewrite andb_false_r. cbn [rbind]. rewrite DP. cbn [rbind].
    assert (LP : length (map Fin (outp n tab_h q)) = n) by (unfold outp; now rewrite !map_length, seq_length).
    destruct (frame_row_ends XR t INV nl DP VT _ cols CH LP) as (row & FR & _). rewrite FR, CH. cbn [rbind]. eauto.
  Qed.

  (** two rows of utilities that differ at one end node *)
  Lemma row_monotone (VT : validate_tree t = Ok tt) cols (us : list util) k v scaled chk chk' o o' : choices t = Ok cols -> length us = n -> end_node XR t k -> (expu (nth k us None) <= expu v)%R ->
    stochastic_outputs t (map as_x us) scaled chk = Ok o -> stochastic_outputs t (map as_x (upd us k v)) scaled chk' = Ok o' ->
    forall l, nth_error cols k = Some l ->
    (exists p, In (l, p) (fst (fst o))) /\ (exists p', In (l, p') (fst (fst o'))) /\
    (forall p p', In (l, p) (fst (fst o)) -> In (l, p') (fst (fst o')) -> exists a b, p = Fin a /\ p' = Fin b /\ (a <= b)%R /\ ((expu (nth k us None) < expu v)%R -> (0 < a < 1)%R -> (a < b)%R) /\ ((0 < a)%R -> nth k us None <> None)) /\
    (scaled = false \/ nests_narrow t -> forall l' p p', l' <> l -> In (l', p) (fst (fst o)) -> In (l', p') (fst (fst o')) -> exists a b, p = Fin a /\ p' = Fin b /\ (b <= a)%R).
  Proof using INV DP Hd.
    intros CH LU EN HE H H' l Kl. assert (LU' : length (upd us k v) = n) by (now rewrite upd_length).
    assert (EX : forall us chk o, length us = n -> stochastic_outputs t (map as_x us) scaled chk = Ok o -> exists P top terms, row_outputs t (map as_x us) scaled false = Ok (map Fin P, top, terms) /\ length P = n /\
      end_row XR t cols (map Fin P) (fst (fst o))).
    { clear - INV DP Hd VT CH. intros us chk o LU H. unfold stochastic_outputs in H. rewrite tab_row in H. destruct (tab_scales) as (_ & LS & PS).
      destruct (nested_real n tab_h tab_lv tab_bt scaled tab_sc tab_wf (conj LS PS) us LU chk) as (e & q & He & Hq & E1). pose proof E1 as E2. rewrite E1 in H.
      match type of H with context [if ?b then _ else _] => destruct b end; [discriminate|]. apply unchecked in E2. cbn [rbind] in H. rewrite DP in H. cbn [rbind] in H.
      assert (LP : length (map Fin (outp n tab_h q)) = n) by (unfold outp; now rewrite !map_length, seq_length).
      destruct (frame_row_ends XR t INV nl DP VT (map Fin (outp n tab_h q)) cols CH LP) as (row & FR & ER). rewrite FR in H. cbn [rbind] in H. rewrite CH in H. cbn [rbind] in H. injection H as <-. cbn [fst].
      exists (outp n tab_h q). do 2 eexists. rewrite tab_row. split; [exact E2|]. split; [unfold outp; now rewrite map_length, seq_length|]. exact ER. }
    destruct (EX us chk o LU H) as (P & top & terms & R1 & LP & ER). destruct (EX _ chk' o' LU' H') as (P' & top' & terms' & R2 & LP' & ER').
    rewrite tab_row in R1, R2. destruct tab_scales as (_ & LS & PS). apply tab_end in EN. destruct EN as [Hk Ck].
    pose proof (C101_own_probability n tab_h tab_lv tab_bt scaled tab_sc us k v false P top terms P' top' terms' tab_wf (conj LS PS) LU Hk Ck HE R1 R2) as [M1 M2].
    assert (LC : length cols = n). { rewrite (choices_eq XR t nl INV VT DP) in CH. injection CH as <-. rewrite map_length. symmetry. apply all_ids. }
    assert (UNI : forall a b, nth a cols (Flat "") = nth b cols (Flat "") -> a < n -> b < n -> a = b).
    { intros a b Q Ha Hb. pose proof CH as CH'. rewrite (choices_eq XR t nl INV VT DP) in CH'. injection CH' as <-. rewrite all_ids in Ha, Hb.
      assert (NM : forall a, a < length (ids t) -> nth a (map (label_of XR t nl) (ids t)) (Flat "") = label_of XR t nl (nth a (ids t) 0)) by (intros c Hc; rewrite (nth_indep _ _ (label_of XR t nl 0)) by (now rewrite map_length); apply map_nth). rewrite !NM in Q by auto. apply (label_of_inj XR t nl) in Q; auto; try (apply nth_In; auto).
      eapply NoDup_nth; eauto. apply (ids_nodup XR t INV). }
    destruct ER as (ks & _ & KS & ->). destruct ER' as (ks' & _ & KS' & ->).
    assert (KI : In k ks /\ In k ks') by (split; [apply KS|apply KS']; apply tab_end; auto).
    assert (AT : forall P ks k', length P = n -> (forall k, In k ks <-> end_node XR t k) -> forall l' p, nth k' cols (Flat "") = l' -> k' < n -> In (l', p) (map (fun k => (nth k cols (Flat ""), nth k (map Fin P) (nzero XR))) ks) -> p = Fin (prob P k')).
    { intros P0 ks0 k' L0 KS0 l' p Q Hk' I. apply in_map_iff in I. destruct I as (j & I & J). injection I as I1 <-. apply KS0 in J. apply tab_end in J. destruct J as [Hj _].
      assert (j = k') by (apply UNI; congruence). subst j. unfold prob. exact (map_nth Fin P0 0%R k'). }
    pose proof (nth_error_nth _ _ (Flat "") Kl) as Nl. split; [|split; [|split]].
    - eexists. apply in_map_iff. exists k. rewrite Nl. split; [reflexivity|tauto].
    - eexists. apply in_map_iff. exists k. rewrite Nl. split; [reflexivity|tauto].
    - intros p p' I I'. exists (prob P k), (prob P' k). split; [exact (AT P ks k LP KS l p Nl Hk I)|]. split; [exact (AT P' ks' k LP' KS' l p' Nl Hk I')|]. split; auto. split; auto. intros PP.
      apply (C15_positive_iff_available n tab_h tab_lv tab_bt scaled tab_sc us false P top terms tab_wf (conj LS PS) LU R1 k Hk Ck) in PP.
      assert (FS : feasible n tab_h us k) by (destruct PP; auto). inversion FS; auto.
    - intros C l' p p' Q I I'. pose proof I as J. apply in_map_iff in J. destruct J as (j & J & Ij). injection J as Jl _. apply KS, tab_end in Ij. destruct Ij as [Hj _].
      exists (prob P j), (prob P' j). split; [exact (AT P ks j LP KS l' p Jl Hj I)|]. split; [exact (AT P' ks' j LP' KS' l' p' Jl Hj I')|].
      apply (C101_other_probabilities n tab_h tab_lv tab_bt scaled tab_sc us k v j false P top terms P' top' terms' tab_wf (conj LS PS) LU (tab_fall scaled C) Hk Ck HE Hj); auto. intros ->. congruence.
  Qed.
End Tree.

Section Whole.
  Context {L D N : Type} (E : env L XR D (val N)) (O : ops L N) (as_num : val N -> option xr).
  Notation mop := (mop E).
  Notation start := (new_mworld E).
  Context (NC : numexpr_computes E O as_num) (FL : frame_laws E) (NUL : ev_num E (ev_nan E) = VNull).

  (** A model with nests, and another with the same choices, data and decision units and one more expression, which applies to the
      elemental choice at position [c0] only, with the value [k > 0] for decision unit [r] ([k @ choice], a constant or anything else).
      The probability of this choice does not fall, and rises if it was strictly between 0 and 1; no other probability rises,
      provided that nests are not inside nests of a smaller scale, or that utilities are not scaled. *)
  Theorem C118_more_for_one_choice (ops ops' : list mop) i j group group' clear clear' scale check check' ts1 m1 out ts2 m2 out' simple xs simple' xs' x d cols nl k c0 l r (uu : list (option R)) :
    let w := mrun E start ops in let m := model E w i in let w' := mrun E start ops' in let m' := model E w' j in
    orderly_history E start ops -> orderly_history E start ops' -> m_utils m = None -> m_utils m' = None ->
    run_stochastic_all E (mheap E w) (mcont E w i) (mw_tabs w) m group clear scale check = (ts1, m1, Ok out) ->
    run_stochastic_all E (mheap E w') (mcont E w' j) (mw_tabs w') m' group' clear' scale check' = (ts2, m2, Ok out') ->
    selection (mheap E w) (mcont E w i) group = Ok (simple, xs) -> (forall y, In y xs -> meant E simple y) ->
    selection (mheap E w') (mcont E w' j) group' = Ok (simple', xs') -> (forall y, In y xs' -> meant E simple' y) ->
    one_more_text E w w' i j xs xs' x -> m_du m = Some d -> choices (m_tree m) = Ok cols -> depth (m_tree m) = Ok nl -> 1 < nl ->
    r < length d -> texts_row E O as_num (m_scope m) nl cols r (map (@e_raw L) xs) (map as_x uu) ->
    end_node XR (m_tree m) c0 -> nth_error cols c0 = Some l ->
    (forall c l', nth_error cols c = Some l' -> text_applies nl l' x = (c =? c0)) ->
    (forall sofar, text_value E O as_num (m_scope m) nl cols r c0 x sofar = Some (Fin k)) -> (0 < k)%R ->
    exists row row' top top' terms terms', nth_error out r = Some (row, top, terms) /\ nth_error out' r = Some (row', top', terms') /\
      (exists p p', In (l, p) row /\ In (l, p') row') /\
      (forall p p', In (l, p) row -> In (l, p') row' -> exists a b, p = Fin a /\ p' = Fin b /\ (a <= b)%R /\ ((0 < a < 1)%R -> (a < b)%R)) /\
      (scale = false \/ nests_narrow (m_tree m) ->
        forall l' p p', l' <> l -> In (l', p) row -> In (l', p') row' -> exists a b, p = Fin a /\ p' = Fin b /\ (b <= a)%R).
  Proof.
    intros w m w' m' OH OH' MU MU' RR RR' S MT S' MT' (T0 & T1 & T2 & T3) DU CH DP Hd Hr TR EN Kl AP KV KP. fold w' m' w m in T0, T1, T2.
    assert (DU' : m_du m' = Some d) by congruence. assert (CH' : choices (m_tree m') = Ok cols) by congruence. assert (DP' : depth (m_tree m') = Ok nl) by congruence.
    assert (LU : length uu = length cols) by (destruct TR as [Q _]; now rewrite map_length in Q).
    assert (Hc0 : c0 < length uu) by (rewrite LU; apply nth_error_Some; congruence).
    set (v := shift k (nth c0 uu None)).
    assert (TR' : texts_row E O as_num (m_scope m') nl cols r (map (@e_raw L) xs') (map as_x (upd uu c0 v))).
    { destruct TR as [_ TR]. split; [rewrite map_length, upd_length; congruence|]. intros c l' Q. rewrite T3, T1, texts_total_app, (TR c l' Q). cbn [obind]. rewrite (AP c l' Q).
      assert (Hc : c < length uu) by (rewrite LU; apply nth_error_Some; congruence).
      rewrite (nth_indep (map as_x uu) _ (as_x None)) by (now rewrite map_length). rewrite map_nth.
      rewrite (nth_indep (map as_x (upd uu c0 v)) _ (as_x None)) by (now rewrite map_length, upd_length). rewrite map_nth.
      destruct (Nat.eqb_spec c c0) as [->|Q0].
      - rewrite KV. cbn [obind]. rewrite nth_upd_eq by auto. f_equal. unfold v. destruct (nth c0 uu None); reflexivity.
      - rewrite nth_upd_neq by auto. reflexivity. }
    unfold run_stochastic_all in RR. destruct (run_utilities E (mheap E w) (mcont E w i) (mw_tabs w) m group clear) as [[ta ma] [ta'|e]] eqn:RU; [|discriminate].
    injection RR as <- <- RR. destruct (rows_are_texts E O as_num NC FL NUL ops i group clear ta ma ta' simple xs d cols nl OH MU RU S MT DU CH DP) as (A1 & A2 & IV & V & LC & _ & TX). fold w m in A1, A2, IV, V, LC, TX.
    apply map_res_ok in RR. destruct RR as [_ RR]. destruct (RR r _ (TX r _ Hr TR)) as (o & SO & NO). rewrite A1 in SO.
    unfold run_stochastic_all in RR'. destruct (run_utilities E (mheap E w') (mcont E w' j) (mw_tabs w') m' group' clear') as [[tb mb] [tb'|e]] eqn:RU'; [|discriminate].
    injection RR' as <- <- RR'. destruct (rows_are_texts E O as_num NC FL NUL ops' j group' clear' tb mb tb' simple' xs' d cols nl OH' MU' RU' S' MT' DU' CH' DP') as (B1 & _ & _ & _ & _ & _ & TX'). fold w' m' in B1, TX'.
    apply map_res_ok in RR'. destruct RR' as [_ RR']. destruct (RR' r _ (TX' r _ Hr TR')) as (o' & SO' & NO'). rewrite B1, T0 in SO'.
    assert (HE : (expu (nth c0 uu None) <= expu v)%R /\ ((0 < expu (nth c0 uu None))%R -> (expu (nth c0 uu None) < expu v)%R)).
    { unfold v. rewrite expu_shift. pose proof (expu_nonneg (nth c0 uu None)). assert (K1 : (1 < exp k)%R) by (rewrite <- exp_0; now apply exp_increasing). split; [nra|intros; nra]. }
    destruct (row_monotone (m_tree m) IV nl DP Hd V cols uu c0 v scale check check' o o' CH (eq_trans LU LC) EN (proj1 HE) SO SO' l Kl) as ((p & P1) & (p' & P2) & P3 & P4).
    destruct o as [[row top] terms], o' as [[row' top'] terms']. cbn [fst] in *. exists row, row', top, top', terms, terms'. split; [exact NO|]. split; [exact NO'|]. split; [eauto|]. split; [|exact P4].
    intros q q' I I'. destruct (P3 q q' I I') as (a & b & -> & -> & Le & Lt & Nz). exists a, b. repeat split; auto. intros AB. apply Lt; auto. apply (proj2 HE).
    specialize (Nz (proj1 AB)). destruct (nth c0 uu None); [apply exp_pos|congruence].
  Qed.
End Whole.

Print Assumptions C118_more_for_one_choice.

(** ** Without the condition on the scales another choice can gain, even if all scales are at most 1. *)
(** a nest (node 0, scale 1/2) with choice 4 and a nest (node 1, scale 1) with the choices 2 and 3 *)
Definition in_h : list Z := [-1; 0; 1; 1; 0]%Z.
Definition in_lv : list nat := [0; 1; 2; 2; 1].
Definition in_bt : list bool := [false; false; true; true; true].
Local Open Scope R_scope.
Definition in_sc : list R := [1/2; 1; 1; 1; 1].
Lemma in_wf : wf_table 5 in_h in_lv in_bt.
Proof.
  split; [lia|]. do 3 (split; [reflexivity|]). split.
  - intros i Hi. do 5 (destruct i as [|i]; [vm_compute; repeat split; lia|]). lia.
  - intros i Hi. do 5 (destruct i as [|i]; [vm_compute; split; congruence|]). lia.
Qed.
Lemma in_scales : length in_sc = 5%nat /\ Forall (fun s => 0 < s) in_sc.
Proof. split; [reflexivity|repeat constructor; lra]. Qed.
Definition in_us x : list util := [Some 0; Some 0; Some (ln x); Some 0; Some (ln 16 / 2)].
Lemma in_run x chk : 0 < x -> exists q T,
  q 3%nat = (1 + x) / ((1 + x) * (1 + x) + 16) /\
  exists t, nested_probabilities XR in_h in_lv (map Fin in_sc) in_bt true (map as_x (in_us x)) chk = Ok (map Fin (outp 5 in_h q), T, t).
Proof.
  intros Hx.
  destruct (nested_real 5 in_h in_lv in_bt true in_sc in_wf in_scales (in_us x) eq_refl chk) as (e & q & He & Hq & EQ).
  exists q. eexists.
  assert (E2 : e 2%nat = x).
  { rewrite (He 2%nat) by lia. change (leaf 5 in_h 2) with true. change (uof (in_us x) 2) with (Some (ln x)). change (dv in_h true in_sc 2) with 1. cbv iota. replace (ln x / 1) with (ln x) by field. now apply exp_ln. }
  assert (E3 : e 3%nat = 1).
  { rewrite (He 3%nat) by lia. change (leaf 5 in_h 3) with true. change (uof (in_us x) 3) with (Some 0). change (dv in_h true in_sc 3) with 1. cbv iota. replace (0 / 1) with 0 by field. apply exp_0. }
  assert (E4 : e 4%nat = 16).
  { rewrite (He 4%nat) by lia. change (leaf 5 in_h 4) with true. change (uof (in_us x) 4) with (Some (ln 16 / 2)). cbv iota.
    change (dv in_h true in_sc 4) with (1/2). replace (ln 16 / 2 / (1 / 2)) with (ln 16) by field. apply exp_ln. lra. }
  assert (ES1 : SUM e (children 5 in_h 1) = 1 + x).
  { change (children 5 in_h 1) with [2%nat; 3%nat]. unfold SUM; simpl. rewrite E2, E3. lra. }
  assert (E1 : e 1%nat = (1 + x) * (1 + x)).
  { rewrite (He 1%nat) by lia. rewrite ES1. change (leaf 5 in_h 1) with false. change (uof (in_us x) 1) with (Some 0). cbv iota.
    destruct (Rltb 0 (1 + x)) eqn:L; [|apply Rltb_false in L; lra].
    change (dv in_h true in_sc 1) with (1/2). change (NestedExact.sc in_sc 1) with 1.
    replace ((0 + 1 * ln (1 + x)) / (1 / 2)) with (ln (1 + x) + ln (1 + x)) by field. rewrite exp_plus, exp_ln; lra. }
  assert (ES0 : SUM e (children 5 in_h 0) = (1 + x) * (1 + x) + 16).
  { change (children 5 in_h 0) with [1%nat; 4%nat]. unfold SUM; simpl. rewrite E1, E4. lra. }
  assert (P : 0 < (1 + x) * (1 + x) + 16) by nra.
  assert (E0 : 0 < e 0%nat).
  { rewrite (He 0%nat) by lia. rewrite ES0. change (leaf 5 in_h 0) with false. change (uof (in_us x) 0) with (Some 0). cbv iota.
    destruct (Rltb 0 ((1 + x) * (1 + x) + 16)) eqn:L; [apply exp_pos|apply Rltb_false in L; lra]. }
  assert (ET : SUM e (tops 5 in_h) = e 0%nat).
  { change (tops 5 in_h) with [0%nat]. unfold SUM; simpl. lra. }
  assert (Q0 : q 0%nat = 1).
  { rewrite (Hq 0%nat) by lia. change (parent_of in_h 0) with (@None nat). cbv iota. unfold cnd.
    change (siblings 5 in_h 0) with (tops 5 in_h). rewrite ET. rewrite Rleb_pos by lra. field. lra. }
  assert (Q1 : q 1%nat = (1 + x) * (1 + x) / ((1 + x) * (1 + x) + 16)).
  { rewrite (Hq 1%nat) by lia. change (parent_of in_h 1) with (Some 0%nat). cbv iota. unfold cnd.
    change (siblings 5 in_h 1) with (children 5 in_h 0). rewrite ES0, E1, Q0. rewrite Rleb_pos by lra. field. lra. }
  split.
  - rewrite (Hq 3%nat) by lia. change (parent_of in_h 3) with (Some 1%nat). cbv iota. unfold cnd.
    change (siblings 5 in_h 3) with (children 5 in_h 1). rewrite ES1, E3, Q1. rewrite Rleb_pos by lra. field. split; lra.
  - eexists. rewrite EQ, ET. rewrite Rleb_pos by lra. reflexivity.
Qed.
Theorem C118_scales_up_to_one_refuted :
  ~ (forall n h lv bt (scales : list R) (us : list util) k v j chk p ls t p' ls' t',
     wf_table n h lv bt -> length scales = n /\ Forall (fun s => 0 < s <= 1) scales -> length us = n ->
     (k < n)%nat -> children n h k = [] -> expu (nth k us None) <= expu v -> (j < n)%nat -> j <> k ->
     nested_probabilities XR h lv (map Fin scales) bt true (map as_x us) chk = Ok (map Fin p, ls, t) ->
     nested_probabilities XR h lv (map Fin scales) bt true (map as_x (upd us k v)) chk = Ok (map Fin p', ls', t') ->
     prob p' j <= prob p j).
Proof.
  intros H.
  destruct (in_run 1 true) as (q & T & Q & t & R1); [lra|].
  destruct (in_run 2 true) as (q' & T' & Q' & t' & R2); [lra|].
  assert (HR : expu (nth 2 (in_us 1) None) <= expu (Some (ln 2))).
  { simpl. apply exp_le. apply ln_le; lra. }
  assert (SC : length in_sc = 5%nat /\ Forall (fun s => 0 < s <= 1) in_sc) by (split; [reflexivity|repeat constructor; lra]).
  specialize (H _ _ _ _ _ (in_us 1) 2%nat (Some (ln 2)) 3%nat true _ _ _ _ _ _ in_wf SC eq_refl ltac:(lia) eq_refl HR ltac:(lia) ltac:(lia) R1 R2).
  unfold prob in H. rewrite !outp_nth in H by lia. change (leaf 5 in_h 3) with true in H. cbv iota in H. rewrite Q, Q' in H. lra.
Qed.
Print Assumptions C118_scales_up_to_one_refuted.
Local Close Scope R_scope.

(** ** Example: the choices A (a nest with the choices C and D) and B; the expression [x], and then [1 @ A.C]. *)
Definition nest_calls : list (mop envX) := [MTree envX 0 (@NodeAdd XR 0 "C" (Fin 1)); MTree envX 0 (@NodeAdd XR 0 "D" (Fin 1))].
Definition histN (more : list string) : list (mop envX) := [MNew envX; MTree envX 0 (@AddChoices XR ["A"; "B"] false None)] ++ nest_calls ++ restX more.
Definition treeN : tree XR := @Tree XR [@Node XR "A" None (Fin 1) 1 [("C", 2); ("D", 3)]; @Node XR "B" None (Fin 1) 1 []; @Node XR "C" (Some 0) (Fin 1) 2 []; @Node XR "D" (Some 0) (Fin 1) 2 []]
  [("A", 0); ("B", 1); ("A.C", 2); ("A.D", 3)] [0; 1] None.
Definition world2N : mworld envX := set_model envX world1X (mw_tabs world1X) 0 (CM (E:=envX) treeN (m_scope (model envX world1X 0)) None None).
Definition treeM : tree XR := @Tree XR [@Node XR "A" None (Fin 1) 1 [("C", 2)]; @Node XR "B" None (Fin 1) 1 []; @Node XR "C" (Some 0) (Fin 1) 2 []] [("A", 0); ("B", 1); ("A.C", 2)] [0; 1] None.
Definition worldM : mworld envX := set_model envX world1X (mw_tabs world1X) 0 (CM (E:=envX) treeM (m_scope (model envX world1X 0)) None None).
Lemma worldM_is : mstep envX world1X (MTree envX 0 (@NodeAdd XR 0 "C" (Fin 1))) = worldM.
Proof.
  change (mstep envX world1X (MTree envX 0 (@NodeAdd XR 0 "C" (Fin 1)))) with (set_model envX world1X (mw_tabs world1X) 0 (tree_op envX (model envX world1X 0) (@NodeAdd XR 0 "C" (Fin 1)))). unfold worldM. f_equal.
  unfold tree_op. change (set_cached (m_tree (model envX world1X 0)) (option_map u_cols (m_utils (model envX world1X 0)))) with treeX. cbn [run_op]. unfold node_add_choice.
  change (create_node XR treeX "C" (Fin 1) (Some 0)) with (@new_node XR treeX "A.C" "C" (Fin 1) (Some 0) 2). unfold new_node. rewrite scale_one. reflexivity.
Qed.
Lemma world2N_is : mstep envX worldM (MTree envX 0 (@NodeAdd XR 0 "D" (Fin 1))) = world2N.
Proof.
  change (mstep envX worldM (MTree envX 0 (@NodeAdd XR 0 "D" (Fin 1)))) with (set_model envX worldM (mw_tabs worldM) 0 (tree_op envX (model envX worldM 0) (@NodeAdd XR 0 "D" (Fin 1)))).
  unfold tree_op. change (set_cached (m_tree (model envX worldM 0)) (option_map u_cols (m_utils (model envX worldM 0)))) with treeM. cbn [run_op]. unfold node_add_choice.
  change (create_node XR treeM "D" (Fin 1) (Some 0)) with (@new_node XR treeM "A.D" "D" (Fin 1) (Some 0) 2). unfold new_node. rewrite scale_one. reflexivity.
Qed.
Definition worldN more := mrun envX world2N (restX more).
Lemma worldN_is more : mrun envX (new_mworld envX) (histN more) = worldN more.
Proof.
  unfold worldN. rewrite <- world2N_is, <- worldM_is, <- world1X_is. reflexivity.
Qed.
Definition modelN more := model envX (worldN more) 0.
Lemma histN_orderly more : orderly_history envX (new_mworld envX) (histN more).
Proof.
  unfold histN, nest_calls, restX. cbn [app map orderly_history].
  set (w0 := mstep envX (new_mworld envX) (MNew envX)).
  assert (W1 : mstep envX w0 (MTree envX 0 (@AddChoices XR ["A"; "B"] false None)) = world1X) by (rewrite <- world1X_is; reflexivity).
  rewrite W1, worldM_is, world2N_is. unfold w0. clear W1 w0.
  repeat match goal with |- _ /\ _ => split end; try exact I; try (intros n s []; fail).
  all: try (unfold orderly; try exact I; try reflexivity).
  - split; [split; [repeat constructor; cbn; intuition discriminate|cbn; tauto]|intros n s []].
  - split; [|intros n s []]. exists "A". split; [vm_compute; auto|]. intros H. exfalso. vm_compute in H. intuition discriminate.
  - split; [|intros n s []]. exists "A". split; [vm_compute; auto|]. intros H. exfalso. vm_compute in H. intuition discriminate.
  - match goal with |- orderly_history _ ?w _ => generalize w end. induction more as [|x t IH]; intros w; cbn [map orderly_history]; auto. split; [exact I|]. apply IH.
Qed.
Definition selN more := selection (mheap envX (worldN more)) (mcont envX (worldN more) 0) None.
Definition runN more := run_utilities envX (mheap envX (worldN more)) (mcont envX (worldN more) 0) (mw_tabs (worldN more)) (modelN more) None true.
Definition simpleN more : list string := match selN more with Ok (s, _) => s | Err _ => [] end.
Definition xsN more : list (@expression nat) := match selN more with Ok (_, xs) => xs | Err _ => [] end.
Definition colsN : list label := [Tup ["A"; "."]; Tup ["B"; "."]; Tup ["A"; "C"]; Tup ["A"; "D"]].
Definition moreN := [[]; ["1 @ A.C"]].
Lemma selN_ok more : In more moreN -> selN more = Ok (simpleN more, xsN more) /\ map (@e_raw nat) (xsN more) = "x" :: more /\ simpleN more = ["x"].
Proof. intros [<-|[<-|[]]]; vm_compute; auto. Qed.
Lemma meantN more : In more moreN -> forall y, In y (xsN more) -> meant envX (simpleN more) y.
Proof.
  intros I y Iy. rewrite (proj2 (proj2 (selN_ok more I))).
  destruct I as [<-|[<-|[]]]; match type of Iy with In _ ?l => let v := eval vm_compute in l in change (In y v) in Iy end; repeat (destruct Iy as [<-|Iy]; [|]); try destruct Iy.
  all: split; [split; intros z Z; cbn in Z; intuition subst; reflexivity|]; split; [intros name us sub ct I1 I2 NF; cbn in I1; intuition|].
  all: intros body flt tree SF PP; vm_compute in SF; injection SF as <- <-; vm_compute in PP; injection PP as <-; split; try (intros z Z; cbn in Z; intuition subst; cbn; auto; fail).
  all: cbn; intuition; now constructor.
Qed.
Lemma partsN more : m_utils (modelN more) = None /\ m_du (modelN more) = Some ["u1"] /\ m_tree (modelN more) = treeN /\ m_scope (modelN more) = [("x", SVector false (Some [VNum (Fin 5)]))].
Proof.
  unfold modelN, worldN, restX. cbn [app map]. unfold mrun. cbn [fold_left].
  assert (G : forall l w, model envX (fold_left (mstep envX) (map (fun x => MAppend envX 0 x None) l) w) 0 = model envX w 0).
  { induction l as [|x t IH]; intros w; cbn [map fold_left]; auto. rewrite IH. reflexivity. }
  rewrite G. repeat split; vm_compute; reflexivity.
Qed.
Definition five : option R := Some (0 + 5)%R.
Lemma rowN more : texts_row envX opsX backX (m_scope (modelN more)) 2 colsN 0 (map (@e_raw nat) (xsN [])) (map as_x [five; five; five; five]).
Proof.
  rewrite (proj1 (proj2 (selN_ok [] (or_introl eq_refl)))). rewrite (proj2 (proj2 (proj2 (partsN more)))).
  split; [reflexivity|]. intros [|[|[|[|c]]]] l H; try (destruct c; discriminate); cbn in H; injection H as <-; cbn; reflexivity.
Qed.
Lemma runN_returns more : In more moreN -> forall scale, exists ts m out,
  run_stochastic_all envX (mheap envX (worldN more)) (mcont envX (worldN more) 0) (mw_tabs (worldN more)) (modelN more) None true scale false = (ts, m, Ok out).
Proof.
  intros I scale. unfold run_stochastic_all. fold (runN more).
  assert (Q : exists ts m a b c d, runN more = (ts, m, Ok [[Fin a; Fin b; Fin c; Fin d]]) /\ m_tree m = treeN).
  { destruct I as [<-|[<-|[]]]; do 6 eexists; (split; [vm_compute; no_nan; reflexivity|reflexivity]). }
  destruct Q as (ts & m & a & b & c & d & -> & ->). cbn [map_res rbind].
  destruct (partsN more) as (_ & _ & A3 & _). assert (IV : inv XR treeN).
  { rewrite <- A3. unfold modelN. rewrite <- worldN_is. assert (GD : good envX (model envX (mrun envX (new_mworld envX) (histN more)) 0)) by (apply good_all, history_good; first [exact envX_laws|apply histN_orderly|constructor]). exact (proj1 GD). }
  change [Fin a; Fin b; Fin c; Fin d] with (map as_x [Some a; Some b; Some c; Some d]).
  destruct (row_returns treeN IV 2 eq_refl (le_n 2) eq_refl colsN [Some a; Some b; Some c; Some d] scale eq_refl eq_refl) as [o ->]. cbn [rbind]. eauto.
Qed.
(** A.C becomes more probable, and no other choice does *)
Example C118_met : exists out out' row row' top top' terms terms' a b,
  snd (run_stochastic_all envX (mheap envX (worldN [])) (mcont envX (worldN []) 0) (mw_tabs (worldN [])) (modelN []) None true false false) = Ok out /\
  snd (run_stochastic_all envX (mheap envX (worldN ["1 @ A.C"])) (mcont envX (worldN ["1 @ A.C"]) 0) (mw_tabs (worldN ["1 @ A.C"])) (modelN ["1 @ A.C"]) None true false false) = Ok out' /\
  nth_error out 0 = Some (row, top, terms) /\ nth_error out' 0 = Some (row', top', terms') /\
  In (Tup ["A"; "C"], Fin a) row /\ In (Tup ["A"; "C"], Fin b) row' /\ (a <= b)%R /\
  (forall l' p p', l' <> Tup ["A"; "C"] -> In (l', p) row -> In (l', p') row' -> exists a b, p = Fin a /\ p' = Fin b /\ (b <= a)%R).
Proof.
  assert (I0 : In [] moreN) by (cbn; auto). assert (I1 : In ["1 @ A.C"] moreN) by (cbn; auto).
  destruct (runN_returns [] I0 false) as (ts1 & m1 & out & R1). destruct (runN_returns _ I1 false) as (ts2 & m2 & out' & R2).
  destruct (partsN []) as (A1 & A2 & A3 & A4). destruct (partsN ["1 @ A.C"]) as (B1 & B2 & B3 & B4).
  pose proof (C118_more_for_one_choice envX opsX backX envX_computes envX_laws envX_null (histN []) (histN ["1 @ A.C"]) 0 0 None None true true false false false
    ts1 m1 out ts2 m2 out' (simpleN []) (xsN []) (simpleN ["1 @ A.C"]) (xsN ["1 @ A.C"]) "1 @ A.C" ["u1"] colsN 2 1%R 2 (Tup ["A"; "C"]) 0 [five; five; five; five]) as T.
  cbv zeta in T. rewrite !worldN_is in T.
  destruct T as (row & row' & top & top' & terms & terms' & Q1 & Q2 & (p & p' & P1 & P2) & Q3 & Q4).
  1-2: apply histN_orderly. 1-2: assumption. 1-2: assumption.
  - apply (selN_ok [] I0).
  - apply (meantN [] I0).
  - apply (selN_ok _ I1).
  - apply (meantN _ I1).
  - unfold one_more_text. fold (modelN []) (modelN ["1 @ A.C"]). rewrite A3, B3, A2, B2, A4, B4. repeat split.
  - exact A2.
  - fold (modelN []). rewrite A3. reflexivity.
  - fold (modelN []). rewrite A3. reflexivity.
  - lia.
  - cbn; lia.
  - apply rowN.
  - fold (modelN []). rewrite A3. exists "A.C", 2. split; [reflexivity|]. intros (c & nd & H1 & H2 & H3). destruct c as [|[|[|[|c]]]]; cbn in H2; try (injection H2 as <-; discriminate H3). destruct c; discriminate H2.
  - reflexivity.
  - intros [|[|[|[|c]]]] l H; try (destruct c; discriminate); cbn in H; injection H as <-; reflexivity.
  - intros sofar. cbn. reflexivity.
  - lra.
  - destruct (Q3 p p' P1 P2) as (a & b & -> & -> & Le & _).
    exists out, out', row, row', top, top', terms, terms', a, b. rewrite R1, R2. repeat (split; [assumption || reflexivity|]). apply Q4. auto.
Qed.
