(** C121: a constant in every utility of a model with nests, in exact arithmetic. *)
From Coq Require Import Reals Lra Psatz.
From Verif Require Import Prelude Arith CoreModel TreeModel DictProofs ParModel ExprModel SpecExpr ExprProofs ExprUses ExprMeaning ExprContainer ExprWorld ScopeModel SpecScope ScopeProofs ModelModel ModelProofs SpecModel KernelProofs EvalProofs ModelExample PropState ModelWorld ModelHist ModelTabs RunProofs PropUtility PropExpr SpecSampling SamplingProofs SpecNested SpecTree NestedProofs NestedExact TreeProofs TreeMore TreeHist RunOut SpecEnd EndProofs ParProofs OutProofs RunResult EndExample PropEnd SpecLogit MnlProofs PropMultinomial PropNested SpecCalc NestedCalc PropNestedCalc PropConst PropOwn.
Local Open Scope string_scope.
Local Open Scope nat_scope.
Local Open Scope list_scope.

(** ** A constant added at every node, when all elemental choices are on the level [D] *)
Section Shift.
  Local Open Scope R_scope.
  Context (n : nat) (h : list Z) (lv : list nat) (bt : list bool) (scales : list R).
  Hypothesis WF : wf_table n h lv bt.
  Hypothesis HS : length scales = n /\ Forall (fun s => 0 < s) scales.
  Context (D : nat) (LE : forall i, (i < n)%nat -> children n h i = [] -> nth i lv 0%nat = D) (c : R).
  Notation dv := (dv h true scales).
  Notation sc := (sc scales).
  Definition gain (i : nat) : R := c * INR (S D - nth i lv 0)%nat.

  Lemma child_level i j : (i < n)%nat -> In j (children n h i) -> (j < n)%nat /\ nth j lv 0%nat = S (nth i lv 0%nat).
  Proof using WF HS.
    intros Hi I. apply in_children in I. destruct I as [Hj E]. split; auto. destruct WF as (_ & _ & _ & _ & W & _). specialize (W j Hj). rewrite E in W. tauto.
  Qed.
  Lemma level_le i : (i < n)%nat -> (nth i lv 0 <= D)%nat.
  Proof using WF HS LE.
    revert i. apply (up_ind n h lv bt WF). intros i Hi IH. destruct (children n h i) as [|j t] eqn:Ec; [rewrite (LE i Hi Ec); lia|].
    assert (Ij : In j (children n h i)) by (rewrite Ec; now left). destruct (child_level i j Hi Ij) as [Hj Q]. rewrite <- Ec in IH. specialize (IH j Ij). lia.
  Qed.
  Lemma gain_child i j : (i < n)%nat -> In j (children n h i) -> gain i = c + gain j.
  Proof using WF HS LE.
    intros Hi I. destruct (child_level i j Hi I) as [Hj Q]. pose proof (level_le j Hj). unfold gain. rewrite Q in *.
    replace (S D - nth i lv 0)%nat with (S (S D - S (nth i lv 0)))%nat by lia. rewrite S_INR. ring.
  Qed.
  Lemma gain_end i : (i < n)%nat -> children n h i = [] -> gain i = c.
  Proof using HS LE. intros Hi C. unfold gain. rewrite (LE i Hi C). replace (S D - D)%nat with 1%nat by lia. cbn. ring. Qed.

  Context (us : list util) (LU : length us = n) (e e' q q' : nat -> R).
  Hypothesis He : nl_real n h true scales us e.
  Hypothesis He' : nl_real n h true scales (map (shift c) us) e'.
  Lemma all_terms i : (i < n)%nat -> e' i = exp (gain i / dv i) * e i.
  Proof using WF HS LE LU He He'.
    revert i. apply (up_ind n h lv bt WF). intros i Hi IH. rewrite (He i Hi), (He' i Hi). unfold uof.
    rewrite (nth_indep (map (shift c) us) None (shift c None)) by (rewrite map_length; lia). rewrite map_nth.
    pose proof (dv_pos n h lv bt true scales WF HS i Hi) as Hd. pose proof (sc_pos n scales HS i Hi) as Hs.
    unfold leaf. destruct (children n h i) as [|j t] eqn:Ec.
    - rewrite (gain_end i Hi Ec). destruct (nth i us None) as [x|]; cbn [shift]; [|ring]. rewrite <- exp_plus. f_equal. field. lra.
    - assert (Ij : In j (children n h i)) by (rewrite Ec; now left). rewrite <- Ec in *. destruct (nth i us None) as [x|]; cbn [shift]; [|ring].
      assert (ES : SUM e' (children n h i) = exp (gain j / sc i) * SUM e (children n h i)).
      { rewrite <- SUM_mult. apply SUM_ext. intros k Hk. rewrite IH by auto. rewrite (dv_child n h scales i k Hk). do 3 f_equal.
        pose proof (gain_child i j Hi Ij). pose proof (gain_child i k Hi Hk). lra. }
      rewrite ES, (gain_child i j Hi Ij). pose proof (exp_pos (gain j / sc i)) as Hx.
      destruct (Rltb 0 (SUM e (children n h i))) eqn:E0.
      + apply Rltb_true in E0. destruct (Rltb 0 (exp (gain j / sc i) * SUM e (children n h i))) eqn:E1.
        * rewrite ln_mult by auto. rewrite ln_exp. rewrite <- exp_plus. f_equal. field. lra.
        * apply Rltb_false in E1. assert (0 < exp (gain j / sc i) * SUM e (children n h i)) by (now apply Rmult_lt_0_compat). lra.
      + apply Rltb_false in E0. destruct (Rltb 0 (exp (gain j / sc i) * SUM e (children n h i))) eqn:E1; [|ring]. apply Rltb_true in E1. nra.
  Qed.
  Lemma all_cnd i : (i < n)%nat -> cnd n h e' i = cnd n h e i.
  Proof using WF HS LE LU He He'.
    intros Hi. unfold cnd. assert (ES : SUM e' (siblings n h i) = exp (gain i / dv i) * SUM e (siblings n h i)).
    { rewrite <- SUM_mult. apply SUM_ext. intros k Hk. assert (Hkn : (k < n)%nat) by (exact (sib_lt n h scales HS i k Hk)). rewrite all_terms by auto.
      assert (Q : dv k = dv i /\ gain k = gain i); [|destruct Q as [-> ->]; reflexivity].
      unfold NestedExact.dv. unfold siblings in Hk. destruct WF as (_ & _ & _ & _ & W & _). destruct (parent_of h i) as [p|] eqn:Ep.
      - pose proof Hk as Hk'. apply in_children in Hk. destruct Hk as [_ ->]. split; auto. specialize (W i Hi). rewrite Ep in W.
        assert (Ii : In i (children n h p)) by (apply in_children; auto). pose proof (gain_child p i (proj1 W) Ii). pose proof (gain_child p k (proj1 W) Hk'). lra.
      - apply in_tops in Hk. destruct Hk as [_ Ek]. rewrite Ek. split; auto. pose proof (W i Hi) as Wi. pose proof (W k Hkn) as Wk. rewrite Ep in Wi. rewrite Ek in Wk. unfold gain. now rewrite (proj2 Wi), (proj2 Wk). }
    rewrite ES, (all_terms i Hi). pose proof (exp_pos (gain i / dv i)) as Hx.
    destruct (Rleb (SUM e (siblings n h i)) 0) eqn:E0.
    - apply Rleb_true in E0. destruct (Rleb (exp (gain i / dv i) * SUM e (siblings n h i)) 0) eqn:E1; auto. apply Rleb_false in E1. nra.
    - apply Rleb_false in E0. destruct (Rleb (exp (gain i / dv i) * SUM e (siblings n h i)) 0) eqn:E1; [apply Rleb_true in E1; nra|]. field. lra.
  Qed.
  Hypothesis Hq : abs_real n h e q.
  Hypothesis Hq' : abs_real n h e' q'.
  Lemma all_abs i : (i < n)%nat -> q' i = q i.
  Proof using WF HS LE LU He He' Hq Hq'.
    revert i. apply (down_ind n h lv bt WF). intros i Hi IH. rewrite (Hq i Hi), (Hq' i Hi), (all_cnd i Hi). destruct (parent_of h i) as [p|] eqn:Ep; auto. now rewrite IH.
  Qed.
  Lemma all_top : SUM e' (tops n h) = exp (c * INR (S D)) * SUM e (tops n h).
  Proof using WF HS LE LU He He'.
    rewrite <- SUM_mult. apply SUM_ext. intros i Hi. apply in_tops in Hi. destruct Hi as [Hi Ep]. rewrite (all_terms i Hi). unfold NestedExact.dv. rewrite Ep.
    destruct WF as (_ & _ & _ & _ & W & _). specialize (W i Hi). rewrite Ep in W. unfold gain. rewrite (proj2 W), Nat.sub_0_r. do 2 f_equal. field.
  Qed.
End Shift.

(** With scaled utilities, and all elemental choices on level [D] (counted from 0), a constant added to the utility of every node changes no
    probability and multiplies the top output by e^(c (D + 1)). *)
Theorem C121_constant_at_every_node : forall n h lv bt (scales : list R) (us : list util) (c : R) D chk,
  wf_table n h lv bt -> (length scales = n /\ Forall (fun s => 0 < s) scales)%R -> length us = n ->
  (forall i, i < n -> children n h i = [] -> nth i lv 0 = D) ->
  match nested_probabilities XR h lv (map Fin scales) bt true (map as_x us) chk, nested_probabilities XR h lv (map Fin scales) bt true (map as_x (map (shift c) us)) chk with
  | Ok (p, ls, _), Ok (p', ls', _) => p' = p /\ exists x, ls = Fin x /\ ls' = Fin (exp (c * INR (S D)) * x)
  | Err x, Err y => x = y
  | _, _ => False
  end.
Proof.
  intros n h lv bt scales us c D chk WF HS HU LE. assert (HU' : length (map (shift c) us) = n) by now rewrite map_length.
  destruct (nested_real n h lv bt true scales WF HS us HU chk) as (e & q & He & Hq & ->). destruct (nested_real n h lv bt true scales WF HS _ HU' chk) as (e' & q' & He' & Hq' & ->).
  rewrite (all_top n h lv bt scales WF HS D LE c us HU e e' He He').
  assert (EB : Rleb (exp (c * INR (S D)) * SUM e (tops n h)) 0 = Rleb (SUM e (tops n h)) 0).
  { pose proof (exp_pos (c * INR (S D))). destruct (Rleb (SUM e (tops n h)) 0) eqn:E0.
    - apply Rleb_true in E0. destruct (Rleb (exp (c * INR (S D)) * _) 0) eqn:E1; auto. apply Rleb_false in E1. nra.
    - apply Rleb_false in E0. destruct (Rleb (exp (c * INR (S D)) * _) 0) eqn:E1; auto. apply Rleb_true in E1. nra. }
  rewrite EB. destruct (Rleb (SUM e (tops n h)) 0 && chk)%bool; auto. split; [|eauto]. f_equal. apply outp_ext.
  exact (all_abs n h lv bt scales WF HS D LE c us HU e e' q q' He He' Hq Hq').
Qed.

(** ** Whole runs *)
(** every elemental choice of the model is on the last level *)
Definition level_ends (t : tree XR) (nl : nat) : Prop := forall i nd, in_model t i -> nth_error (t_heap t) i = Some nd -> ~ has_child t i -> nd_level nd = nl.

Lemma row_shift (t : tree XR) (INV : inv XR t) (nl : nat) (DP : depth t = Ok nl) (Hd : 1 < nl) (us : list util) k chk chk' o o' : length us = length (t_all t) -> level_ends t nl ->
  stochastic_outputs t (map as_x us) true chk = Ok o -> stochastic_outputs t (map as_x (map (shift k) us)) true chk' = Ok o' ->
  fst (fst o') = fst (fst o) /\ exists T, snd (fst o) = Fin T /\ snd (fst o') = Fin (exp (k * INR nl) * T).
Proof.
  intros LU LE H H'. unfold stochastic_outputs in H, H'. rewrite (tab_row t INV nl DP Hd) in H, H'. destruct (tab_scales t INV) as (_ & LS & PS). pose proof (tab_wf t INV nl DP) as WF.
  assert (LV : forall i, i < length (t_all t) -> children (length (t_all t)) (tab_h t) i = [] -> nth i (tab_lv t) 0 = nl - 1).
  { intros i Hi C. assert (EN : end_node XR t i) by (apply (tab_end t INV nl DP); auto). rewrite all_ids in Hi. destruct (nth_error (ids t) i) as [j|] eqn:Ej; [|apply nth_error_None in Ej; lia].
    pose proof (nth_error_In _ _ Ej) as Ij. destruct (c_node XR t (proj1 INV) j Ij) as (nd & E & _ & _).
    assert (NL : nth i (tab_lv t) 0 = level_of (t_heap t) j - 1) by (apply nth_error_nth; unfold tab_lv; rewrite nth_error_map, Ej; reflexivity). rewrite NL. unfold level_of. rewrite E. f_equal. apply (LE j nd); auto; [now apply in_model_stored|].
    intros HC. apply (has_child_iff XR t j INV Ij) in HC. apply (end_nodes XR t INV) in EN. destruct EN as [_ EN]. rewrite (nth_error_nth _ _ _ Ej), HC in EN. discriminate EN. }
  destruct (nested_probabilities XR (tab_h t) (tab_lv t) (map Fin (tab_sc t)) (tab_bt t) true (map as_x us) chk) as [[[p ls] tm]|] eqn:Q; [|discriminate].
  destruct (nested_probabilities XR (tab_h t) (tab_lv t) (map Fin (tab_sc t)) (tab_bt t) true (map as_x (map (shift k) us)) chk') as [[[p' ls'] tm']|] eqn:Q'; [|discriminate].
  pose proof (C121_constant_at_every_node _ _ _ _ _ us k (nl - 1) false WF (conj LS PS) LU LV) as C. rewrite (unchecked _ _ _ _ _ _ _ _ Q), (unchecked _ _ _ _ _ _ _ _ Q') in C.
  replace (S (nl - 1)) with nl in C by lia. destruct C as [-> (T & -> & ->)]. cbn [rbind] in H, H'. rewrite DP in H, H'. cbn [rbind] in H, H'.
  match type of H with (do _ <- ?f; _) = _ => destruct f; [|discriminate] end. cbn [rbind] in H, H'. destruct (choices t); [|discriminate]. cbn [rbind] in H, H'. injection H as <-. injection H' as <-. cbn [fst snd]. eauto.
Qed.

Section Whole.
  Context {L D N : Type} (E : env L XR D (val N)) (O : ops L N) (as_num : val N -> option xr).
  Notation mop := (mop E).
  Notation start := (new_mworld E).
  Context (NC : numexpr_computes E O as_num) (FL : frame_laws E) (NUL : ev_num E (ev_nan E) = VNull).

  (** A model with nests whose elemental choices are all on the last level, and another with the same choices, data and decision units and one more
      expression, which has the value [k] in every column, those of the nests included (a constant without a filter). With scaled utilities every
      probability stays as it was, and the second output is multiplied by e^k for each level. *)
  Theorem C121_constant_everywhere (ops ops' : list mop) i j group group' clear clear' check check' ts1 m1 out ts2 m2 out' simple xs simple' xs' x d cols nl k r (uu : list (option R)) :
    let w := mrun E start ops in let m := model E w i in let w' := mrun E start ops' in let m' := model E w' j in
    orderly_history E start ops -> orderly_history E start ops' -> m_utils m = None -> m_utils m' = None ->
    run_stochastic_all E (mheap E w) (mcont E w i) (mw_tabs w) m group clear true check = (ts1, m1, Ok out) ->
    run_stochastic_all E (mheap E w') (mcont E w' j) (mw_tabs w') m' group' clear' true check' = (ts2, m2, Ok out') ->
    selection (mheap E w) (mcont E w i) group = Ok (simple, xs) -> (forall y, In y xs -> meant E simple y) ->
    selection (mheap E w') (mcont E w' j) group' = Ok (simple', xs') -> (forall y, In y xs' -> meant E simple' y) ->
    one_more_text E w w' i j xs xs' x -> m_du m = Some d -> choices (m_tree m) = Ok cols -> depth (m_tree m) = Ok nl -> 1 < nl ->
    r < length d -> texts_row E O as_num (m_scope m) nl cols r (map (@e_raw L) xs) (map as_x uu) -> level_ends (m_tree m) nl ->
    (forall c l, nth_error cols c = Some l -> text_applies nl l x = true /\ forall sofar, text_value E O as_num (m_scope m) nl cols r c x sofar = Some (Fin k)) ->
    exists row T terms terms', nth_error out r = Some (row, Fin T, terms) /\ nth_error out' r = Some (row, Fin (exp (k * INR nl) * T), terms').
  Proof.
    intros w m w' m' OH OH' MU MU' RR RR' S MT S' MT' (T0 & T1 & T2 & T3) DU CH DP Hd Hr TR LE AP. fold w' m' w m in T0, T1, T2.
    assert (DU' : m_du m' = Some d) by congruence. assert (CH' : choices (m_tree m') = Ok cols) by congruence. assert (DP' : depth (m_tree m') = Ok nl) by congruence.
    assert (LU : length uu = length cols) by (destruct TR as [Q _]; now rewrite map_length in Q).
    assert (TR' : texts_row E O as_num (m_scope m') nl cols r (map (@e_raw L) xs') (map as_x (map (shift k) uu))).
    { destruct TR as [_ TR]. split; [rewrite !map_length; congruence|]. intros c l' Q. rewrite T3, T1, texts_total_app, (TR c l' Q). cbn [obind]. destruct (AP c l' Q) as [-> KV]. rewrite KV. cbn [obind].
      assert (Hc : c < length uu) by (rewrite LU; apply nth_error_Some; congruence).
      rewrite (nth_indep (map as_x uu) _ (as_x None)) by (now rewrite map_length). rewrite map_nth.
      rewrite (nth_indep (map as_x (map (shift k) uu)) _ (as_x (shift k None))) by (now rewrite !map_length). rewrite !map_nth. destruct (nth c uu None); reflexivity. }
    unfold run_stochastic_all in RR. destruct (run_utilities E (mheap E w) (mcont E w i) (mw_tabs w) m group clear) as [[ta ma] [ta'|e]] eqn:RU; [|discriminate].
    injection RR as <- <- RR. destruct (rows_are_texts E O as_num NC FL NUL ops i group clear ta ma ta' simple xs d cols nl OH MU RU S MT DU CH DP) as (A1 & A2 & IV & V & LC & _ & TX). fold w m in A1, A2, IV, V, LC, TX.
    apply map_res_ok in RR. destruct RR as [_ RR]. destruct (RR r _ (TX r _ Hr TR)) as (o & SO & NO). rewrite A1 in SO.
    unfold run_stochastic_all in RR'. destruct (run_utilities E (mheap E w') (mcont E w' j) (mw_tabs w') m' group' clear') as [[tb mb] [tb'|e]] eqn:RU'; [|discriminate].
    injection RR' as <- <- RR'. destruct (rows_are_texts E O as_num NC FL NUL ops' j group' clear' tb mb tb' simple' xs' d cols nl OH' MU' RU' S' MT' DU' CH' DP') as (B1 & _ & _ & _ & _ & _ & TX'). fold w' m' in B1, TX'.
    apply map_res_ok in RR'. destruct RR' as [_ RR']. destruct (RR' r _ (TX' r _ Hr TR')) as (o' & SO' & NO'). rewrite B1, T0 in SO'.
    destruct (row_shift (m_tree m) IV nl DP Hd uu k check check' o o' (eq_trans LU LC) LE SO SO') as (Q & T & Q1 & Q2).
    destruct o as [[row top] terms], o' as [[row' top'] terms']. cbn [fst snd] in *. subst row' top top'. eauto 10.
  Qed.
End Whole.

(** ** The condition on levels is needed: a nest 0 with the choices 2 and 3, and the choice 1; all utilities 0, then 1. *)
Local Open Scope R_scope.
Definition lv_h : list Z := [-1; -1; 0; 0]%Z.
Definition lv_lv : list nat := [0; 0; 1; 1]%nat.
Definition lv_bt : list bool := [false; true; true; true].
Definition lv_sc : list R := [1; 1; 1; 1].
Lemma lv_wf : wf_table 4 lv_h lv_lv lv_bt.
Proof.
  split; [lia|]. do 3 (split; [reflexivity|]). split.
  - intros i Hi. do 4 (destruct i as [|i]; [vm_compute; repeat split; lia|]). lia.
  - intros i Hi. do 4 (destruct i as [|i]; [vm_compute; split; congruence|]). lia.
Qed.
Lemma lv_scales : length lv_sc = 4%nat /\ Forall (fun s => 0 < s) lv_sc.
Proof. split; [reflexivity|repeat constructor; lra]. Qed.
Lemma lv_run c chk : exists q T t, q 1%nat = 1 / (2 * exp c + 1) /\
  nested_probabilities XR lv_h lv_lv (map Fin lv_sc) lv_bt true (map as_x [Some c; Some c; Some c; Some c]) chk = Ok (map Fin (outp 4 lv_h q), T, t).
Proof.
  destruct (nested_real 4 lv_h lv_lv lv_bt true lv_sc lv_wf lv_scales [Some c; Some c; Some c; Some c] eq_refl chk) as (e & q & He & Hq & EQ).
  exists q. do 2 eexists. pose proof (exp_pos c) as Xc.
  assert (E1 : e 1%nat = exp c).
  { rewrite (He 1%nat) by lia. change (leaf 4 lv_h 1) with true. change (uof [Some c; Some c; Some c; Some c] 1) with (Some c). change (dv lv_h true lv_sc 1) with 1. cbv iota. f_equal. field. }
  assert (E2 : e 2%nat = exp c).
  { rewrite (He 2%nat) by lia. change (leaf 4 lv_h 2) with true. change (uof [Some c; Some c; Some c; Some c] 2) with (Some c). change (dv lv_h true lv_sc 2) with 1. cbv iota. f_equal. field. }
  assert (E3 : e 3%nat = exp c).
  { rewrite (He 3%nat) by lia. change (leaf 4 lv_h 3) with true. change (uof [Some c; Some c; Some c; Some c] 3) with (Some c). change (dv lv_h true lv_sc 3) with 1. cbv iota. f_equal. field. }
  assert (ES : SUM e (children 4 lv_h 0) = 2 * exp c).
  { change (children 4 lv_h 0) with [2%nat; 3%nat]. unfold SUM; simpl. rewrite E2, E3. lra. }
  assert (E0 : e 0%nat = exp c * (2 * exp c)).
  { rewrite (He 0%nat) by lia. rewrite ES. change (leaf 4 lv_h 0) with false. change (uof [Some c; Some c; Some c; Some c] 0) with (Some c). cbv iota.
    destruct (Rltb 0 (2 * exp c)) eqn:L; [|apply Rltb_false in L; lra]. change (dv lv_h true lv_sc 0) with 1. change (NestedExact.sc lv_sc 0) with 1.
    replace ((c + 1 * ln (2 * exp c)) / 1) with (c + ln (2 * exp c)) by field. rewrite exp_plus, exp_ln; lra. }
  assert (ET : SUM e (tops 4 lv_h) = exp c * (2 * exp c) + exp c).
  { change (tops 4 lv_h) with [0%nat; 1%nat]. unfold SUM; simpl. rewrite E0, E1. lra. }
  assert (P : 0 < exp c * (2 * exp c) + exp c) by nra.
  split.
  - rewrite (Hq 1%nat) by lia. change (parent_of lv_h 1) with (@None nat). cbv iota. unfold cnd. change (siblings 4 lv_h 1) with (tops 4 lv_h). rewrite ET, E1. rewrite Rleb_pos by lra. field. split; nra.
  - rewrite EQ, ET. rewrite Rleb_pos by lra. reflexivity.
Qed.
Theorem C121_any_levels_refuted :
  ~ (forall n h lv bt (scales : list R) (us : list util) (c : R) chk p ls t p' ls' t',
     wf_table n h lv bt -> length scales = n /\ Forall (fun s => 0 < s <= 1) scales -> length us = n ->
     nested_probabilities XR h lv (map Fin scales) bt true (map as_x us) chk = Ok (map Fin p, ls, t) ->
     nested_probabilities XR h lv (map Fin scales) bt true (map as_x (map (shift c) us)) chk = Ok (map Fin p', ls', t') -> p' = p).
Proof.
  intros H. destruct (lv_run 0 true) as (q & T & t & Q & R1). destruct (lv_run (0 + 1) true) as (q' & T' & t' & Q' & R2).
  assert (SC : length lv_sc = 4%nat /\ Forall (fun s => 0 < s <= 1) lv_sc) by (split; [reflexivity|repeat constructor; lra]).
  specialize (H _ _ _ _ _ [Some 0; Some 0; Some 0; Some 0] 1 true _ _ _ _ _ _ lv_wf SC eq_refl R1 R2).
  assert (HN : nth 1 (outp 4 lv_h q') 0 = nth 1 (outp 4 lv_h q) 0) by now rewrite H. rewrite !outp_nth in HN by lia. change (leaf 4 lv_h 1) with true in HN. cbv iota in HN. rewrite Q, Q', exp_0 in HN.
  pose proof (exp_increasing 0 (0 + 1) ltac:(lra)) as X. rewrite exp_0 in X. unfold Rdiv in HN. rewrite !Rmult_1_l in HN. apply (f_equal Rinv) in HN. rewrite !Rinv_inv in HN. lra.
Qed.
Local Close Scope R_scope.

(** ** Example: the nest A with the choices C and D, and the nest B with E and F; the expression [x @ A.C], and then the constant [1]. *)
Definition tree0V : tree XR := @Tree XR [@Node XR "A" None (Fin 1) 1 []; @Node XR "B" None (Fin 1) 1 []] [("A", 0); ("B", 1)] [0; 1] None.
Definition tree1V : tree XR := @Tree XR [@Node XR "A" None (Fin 1) 1 [("C", 2)]; @Node XR "B" None (Fin 1) 1 []; @Node XR "C" (Some 0) (Fin 1) 2 []] [("A", 0); ("B", 1); ("A.C", 2)] [0; 1] None.
Definition tree2V : tree XR := @Tree XR [@Node XR "A" None (Fin 1) 1 [("C", 2); ("D", 3)]; @Node XR "B" None (Fin 1) 1 []; @Node XR "C" (Some 0) (Fin 1) 2 []; @Node XR "D" (Some 0) (Fin 1) 2 []] [("A", 0); ("B", 1); ("A.C", 2); ("A.D", 3)] [0; 1] None.
Definition tree3V : tree XR := @Tree XR [@Node XR "A" None (Fin 1) 1 [("C", 2); ("D", 3)]; @Node XR "B" None (Fin 1) 1 [("E", 4)]; @Node XR "C" (Some 0) (Fin 1) 2 []; @Node XR "D" (Some 0) (Fin 1) 2 []; @Node XR "E" (Some 1) (Fin 1) 2 []] [("A", 0); ("B", 1); ("A.C", 2); ("A.D", 3); ("B.E", 4)] [0; 1] None.
Definition tree4V : tree XR := @Tree XR [@Node XR "A" None (Fin 1) 1 [("C", 2); ("D", 3)]; @Node XR "B" None (Fin 1) 1 [("E", 4); ("F", 5)]; @Node XR "C" (Some 0) (Fin 1) 2 []; @Node XR "D" (Some 0) (Fin 1) 2 []; @Node XR "E" (Some 1) (Fin 1) 2 []; @Node XR "F" (Some 1) (Fin 1) 2 []] [("A", 0); ("B", 1); ("A.C", 2); ("A.D", 3); ("B.E", 4); ("B.F", 5)] [0; 1] None.
Notation treeV := tree4V.
Definition with_tree (t : tree XR) : mworld envX := set_model envX world0X (mw_tabs world0X) 0 (CM (E:=envX) t (m_scope (model envX world0X 0)) None None).
Definition callsV : list (mop envX) := [MTree envX 0 (@AddChoices XR ["A"; "B"] false None); MTree envX 0 (@NodeAdd XR 0 "C" (Fin 1)); MTree envX 0 (@NodeAdd XR 0 "D" (Fin 1)); MTree envX 0 (@NodeAdd XR 1 "E" (Fin 1)); MTree envX 0 (@NodeAdd XR 1 "F" (Fin 1))].
Lemma world0V_is : mstep envX world0X (MTree envX 0 (@AddChoices XR ["A"; "B"] false None)) = with_tree tree0V.
Proof.
  change (mstep envX world0X (MTree envX 0 (@AddChoices XR ["A"; "B"] false None))) with (set_model envX world0X (mw_tabs world0X) 0 (tree_op envX (model envX world0X 0) (@AddChoices XR ["A"; "B"] false None))).
  unfold with_tree. f_equal. unfold tree_op.
  assert (Q : run_op XR (set_cached (m_tree (model envX world0X 0)) (option_map u_cols (m_utils (model envX world0X 0)))) (@AddChoices XR ["A"; "B"] false None) = tree0V); [|now rewrite Q].
  cbn [run_op]. change (set_cached (m_tree (model envX world0X 0)) (option_map u_cols (m_utils (model envX world0X 0)))) with (@new_tree XR).
  unfold add_choices. cbn [map combine add_pairs]. change (create_node XR (drop_cache XR (@new_tree XR)) "A" (none_ XR) None) with (@new_node XR (@new_tree XR) "A" "A" (Fin 1) None 1).
  assert (N1 : @new_node XR (@new_tree XR) "A" "A" (Fin 1) None 1 = (@Tree XR [@Node XR "A" None (Fin 1) 1 []] [("A", 0)] [] None, Ok 0)) by (unfold new_node; rewrite scale_one; reflexivity).
  rewrite N1. cbn beta iota zeta.
  match goal with |- context [create_node XR ?t "B" (none_ XR) None] => change (create_node XR t "B" (none_ XR) None) with (@new_node XR t "B" "B" (Fin 1) None 1) end.
  unfold new_node. rewrite scale_one. reflexivity.
Qed.
Lemma world1V_is : mstep envX (with_tree tree0V) (MTree envX 0 (@NodeAdd XR 0 "C" (Fin 1))) = with_tree tree1V.
Proof.
  change (mstep envX (with_tree tree0V) (MTree envX 0 (@NodeAdd XR 0 "C" (Fin 1)))) with (set_model envX (with_tree tree0V) (mw_tabs (with_tree tree0V)) 0 (tree_op envX (model envX (with_tree tree0V) 0) (@NodeAdd XR 0 "C" (Fin 1)))).
  unfold tree_op. change (set_cached (m_tree (model envX (with_tree tree0V) 0)) (option_map u_cols (m_utils (model envX (with_tree tree0V) 0)))) with tree0V. cbn [run_op]. unfold node_add_choice.
  change (create_node XR tree0V "C" (Fin 1) (Some 0)) with (@new_node XR tree0V "A.C" "C" (Fin 1) (Some 0) 2). unfold new_node. rewrite scale_one. reflexivity.
Qed.
Lemma world2V_is : mstep envX (with_tree tree1V) (MTree envX 0 (@NodeAdd XR 0 "D" (Fin 1))) = with_tree tree2V.
Proof.
  change (mstep envX (with_tree tree1V) (MTree envX 0 (@NodeAdd XR 0 "D" (Fin 1)))) with (set_model envX (with_tree tree1V) (mw_tabs (with_tree tree1V)) 0 (tree_op envX (model envX (with_tree tree1V) 0) (@NodeAdd XR 0 "D" (Fin 1)))).
  unfold tree_op. change (set_cached (m_tree (model envX (with_tree tree1V) 0)) (option_map u_cols (m_utils (model envX (with_tree tree1V) 0)))) with tree1V. cbn [run_op]. unfold node_add_choice.
  change (create_node XR tree1V "D" (Fin 1) (Some 0)) with (@new_node XR tree1V "A.D" "D" (Fin 1) (Some 0) 2). unfold new_node. rewrite scale_one. reflexivity.
Qed.
Lemma world3V_is : mstep envX (with_tree tree2V) (MTree envX 0 (@NodeAdd XR 1 "E" (Fin 1))) = with_tree tree3V.
Proof.
  change (mstep envX (with_tree tree2V) (MTree envX 0 (@NodeAdd XR 1 "E" (Fin 1)))) with (set_model envX (with_tree tree2V) (mw_tabs (with_tree tree2V)) 0 (tree_op envX (model envX (with_tree tree2V) 0) (@NodeAdd XR 1 "E" (Fin 1)))).
  unfold tree_op. change (set_cached (m_tree (model envX (with_tree tree2V) 0)) (option_map u_cols (m_utils (model envX (with_tree tree2V) 0)))) with tree2V. cbn [run_op]. unfold node_add_choice.
  change (create_node XR tree2V "E" (Fin 1) (Some 1)) with (@new_node XR tree2V "B.E" "E" (Fin 1) (Some 1) 2). unfold new_node. rewrite scale_one. reflexivity.
Qed.
Lemma world4V_is : mstep envX (with_tree tree3V) (MTree envX 0 (@NodeAdd XR 1 "F" (Fin 1))) = with_tree tree4V.
Proof.
  change (mstep envX (with_tree tree3V) (MTree envX 0 (@NodeAdd XR 1 "F" (Fin 1)))) with (set_model envX (with_tree tree3V) (mw_tabs (with_tree tree3V)) 0 (tree_op envX (model envX (with_tree tree3V) 0) (@NodeAdd XR 1 "F" (Fin 1)))).
  unfold tree_op. change (set_cached (m_tree (model envX (with_tree tree3V) 0)) (option_map u_cols (m_utils (model envX (with_tree tree3V) 0)))) with tree3V. cbn [run_op]. unfold node_add_choice.
  change (create_node XR tree3V "F" (Fin 1) (Some 1)) with (@new_node XR tree3V "B.F" "F" (Fin 1) (Some 1) 2). unfold new_node. rewrite scale_one. reflexivity.
Qed.
Definition textsV (more : bool) := if more then ["x @ A.C"; "1"] else ["x @ A.C"].
Definition restV (texts : list string) : list (mop envX) :=
  [MUnits envX 0 ["u1"]; MDeclare envX 0 "x" (DeclVector 0); MAssign envX 0 "x" (VSeries (num:=xr) (FR:=framesX) ["u1"] [VNum (Fin 5)])] ++ map (fun x => MAppend envX 0 x None) texts.
Definition histV (more : bool) : list (mop envX) := [MNew envX] ++ callsV ++ restV (textsV more).
Definition worldV (more : bool) := mrun envX (with_tree treeV) (restV (textsV more)).
Lemma worldV_is more : mrun envX (new_mworld envX) (histV more) = worldV more.
Proof. unfold worldV. rewrite <- world4V_is, <- world3V_is, <- world2V_is, <- world1V_is, <- world0V_is. destruct more; reflexivity. Qed.
Definition modelV more := model envX (worldV more) 0.
Lemma histV_orderly more : orderly_history envX (new_mworld envX) (histV more).
Proof.
  unfold histV, callsV, restV, textsV. destruct more; cbn [app map orderly_history].
  all: change (mstep envX (new_mworld envX) (MNew envX)) with world0X; rewrite world0V_is, world1V_is, world2V_is, world3V_is, world4V_is.
  all: repeat match goal with |- _ /\ _ => split end; try exact I; try (intros n s []; fail).
  all: try (unfold orderly; try exact I; try reflexivity).
  all: split; try (intros n s []; fail).
  all: try (split; [repeat constructor; cbn; intuition discriminate|cbn; tauto]).
  all: match goal with |- context [NodeAdd ?p _ _] => match p with 0 => exists "A" | 1 => exists "B" end end; (split; [vm_compute; tauto|]; intros H; exfalso; vm_compute in H; intuition discriminate).
Qed.
Definition selV more := selection (mheap envX (worldV more)) (mcont envX (worldV more) 0) None.
Definition simpleV more : list string := match selV more with Ok (s, _) => s | Err _ => [] end.
Definition xsV more : list (@expression nat) := match selV more with Ok (_, xs) => xs | Err _ => [] end.
Definition runV more := run_utilities envX (mheap envX (worldV more)) (mcont envX (worldV more) 0) (mw_tabs (worldV more)) (modelV more) None true.
Definition colsV : list label := [Tup ["A"; "."]; Tup ["B"; "."]; Tup ["A"; "C"]; Tup ["A"; "D"]; Tup ["B"; "E"]; Tup ["B"; "F"]].
Lemma selV_ok more : selV more = Ok (simpleV more, xsV more) /\ map (@e_raw nat) (xsV more) = textsV more /\ simpleV more = ["x"].
Proof. destruct more; vm_compute; auto. Qed.
Lemma meantV more : forall y, In y (xsV more) -> meant envX (simpleV more) y.
Proof.
  intros y Iy. rewrite (proj2 (proj2 (selV_ok more))).
  destruct more; match type of Iy with In _ ?l => let v := eval vm_compute in l in change (In y v) in Iy end; repeat (destruct Iy as [<-|Iy]; [|]); try destruct Iy.
  all: split; [split; intros z Z; cbn in Z; intuition subst; reflexivity|]; split; [intros name us sub ct I1 I2 NF; cbn in I1; intuition|].
  all: intros body flt tree SF PP; vm_compute in SF; injection SF as <- <-; vm_compute in PP; injection PP as <-; split; try (intros z Z; cbn in Z; intuition subst; cbn; auto; fail).
  all: cbn; intuition; now constructor.
Qed.
Lemma partsV more : m_utils (modelV more) = None /\ m_du (modelV more) = Some ["u1"] /\ m_tree (modelV more) = treeV /\ m_scope (modelV more) = [("x", SVector false (Some [VNum (Fin 5)]))].
Proof. destruct more; unfold modelV, worldV, restV; repeat split; vm_compute; reflexivity. Qed.
Definition usV (more : bool) : list (option R) := if more then [Some (0 + INR 1); Some (0 + INR 1); Some (0 + 5 + INR 1); Some (0 + INR 1); Some (0 + INR 1); Some (0 + INR 1)]%R else [Some 0; Some 0; Some (0 + 5); Some 0; Some 0; Some 0]%R.
Lemma rowV more : texts_row envX opsX backX (m_scope (modelV more)) 2 colsV 0 (map (@e_raw nat) (xsV more)) (map as_x (usV more)).
Proof.
  rewrite (proj1 (proj2 (selV_ok more))), (proj2 (proj2 (proj2 (partsV more)))).
  destruct more; (split; [reflexivity|]); intros [|[|[|[|[|[|c]]]]]] l H; try (destruct c; discriminate); cbn in H; injection H as <-; reflexivity.
Qed.
Lemma runV_returns more scale : exists ts m out,
  run_stochastic_all envX (mheap envX (worldV more)) (mcont envX (worldV more) 0) (mw_tabs (worldV more)) (modelV more) None true scale false = (ts, m, Ok out).
Proof.
  unfold run_stochastic_all. fold (runV more). destruct (partsV more) as (A1 & A2 & A3 & A4). assert (IV : inv XR (m_tree (modelV more))).
  { unfold modelV. rewrite <- worldV_is. assert (GD : good envX (model envX (mrun envX (new_mworld envX) (histV more)) 0)) by (apply good_all, history_good; first [exact envX_laws|apply histV_orderly|constructor]). exact (proj1 GD). }
  rewrite A3 in IV. assert (Q : exists row, snd (runV more) = Ok [row]) by (destruct more; eexists; vm_compute; no_nan; reflexivity).
  destruct Q as [row Q]. destruct (runV more) as [[ts m] o] eqn:RU. cbn [snd] in Q. subst o.
  pose proof (rows_are_texts envX opsX backX envX_computes envX_laws envX_null (histV more) 0 None true ts m [row] (simpleV more) (xsV more) ["u1"] colsV 2) as T.
  cbv zeta in T. rewrite !worldV_is in T. fold (modelV more) in T.
  destruct T as (T1 & _ & _ & _ & _ & _ & TX); try assumption; try (apply histV_orderly); try apply selV_ok; try (apply meantV); try (rewrite A3; reflexivity).
  rewrite A3 in T1. cbn [map_res rbind]. specialize (TX 0 _ (le_n 1) (rowV more)). injection TX as ->. rewrite T1.
  destruct (row_returns treeV IV 2 eq_refl (le_n 2) eq_refl colsV (usV more) scale eq_refl) as [o Q]; [destruct more; reflexivity|].
  match goal with |- context [stochastic_outputs ?a ?b ?c ?d] => replace (stochastic_outputs a b c d) with (@Ok (list (label * num XR) * num XR * list (label * num XR)) o) by (symmetry; exact Q) end. cbn [rbind]. eauto.
Qed.
Example C121_met : exists out out' row T terms terms',
  snd (run_stochastic_all envX (mheap envX (worldV false)) (mcont envX (worldV false) 0) (mw_tabs (worldV false)) (modelV false) None true true false) = Ok out /\
  snd (run_stochastic_all envX (mheap envX (worldV true)) (mcont envX (worldV true) 0) (mw_tabs (worldV true)) (modelV true) None true true false) = Ok out' /\
  nth_error out 0 = Some (row, Fin T, terms) /\ nth_error out' 0 = Some (row, Fin (exp (1 * 2) * T), terms').
Proof.
  destruct (runV_returns false true) as (ts1 & m1 & out & R1). destruct (runV_returns true true) as (ts2 & m2 & out' & R2).
  destruct (partsV false) as (A1 & A2 & A3 & A4). destruct (partsV true) as (B1 & B2 & B3 & B4).
  pose proof (C121_constant_everywhere envX opsX backX envX_computes envX_laws envX_null (histV false) (histV true) 0 0 None None true true false false
    ts1 m1 out ts2 m2 out' (simpleV false) (xsV false) (simpleV true) (xsV true) "1" ["u1"] colsV 2 (INR 1) 0 (usV false)) as T.
  cbv zeta in T. rewrite !worldV_is in T. fold (modelV false) (modelV true) in T.
  destruct T as (row & TT & terms & terms' & Q1 & Q2); try assumption; try (apply histV_orderly); try apply selV_ok; try (apply meantV); try (rewrite A3; reflexivity); try (cbn; lia); try apply rowV.
  - unfold one_more_text. fold (modelV false) (modelV true). rewrite A3, B3, A2, B2, A4, B4. rewrite (proj1 (proj2 (selV_ok false))), (proj1 (proj2 (selV_ok true))). repeat split.
  - rewrite A3. intros i nd _ H NC. destruct i as [|[|[|[|[|[|i]]]]]]; cbn in H; try (injection H as <-; cbn [nd_level]; try reflexivity); [| |destruct i; discriminate H].
    + exfalso. apply NC. exists 2. eexists. split; [exists "A.C"; cbn; auto|split; reflexivity].
    + exfalso. apply NC. exists 4. eexists. split; [exists "B.E"; cbn; tauto|split; reflexivity].
  - intros [|[|[|[|[|[|c]]]]]] l H; try (destruct c; discriminate); cbn in H; injection H as <-; (split; [reflexivity|]); intros sofar; cbn; reflexivity.
  - exists out, out', row, TT, terms, terms'. rewrite R1, R2. replace (1 * 2)%R with (INR 1 * INR 2)%R by (cbn; lra). repeat (split; [assumption || reflexivity|]). exact Q2.
Qed.
