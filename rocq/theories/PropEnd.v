(** Properties C82-C84: whole runs, from the texts of the expressions to the outputs. *)
From Coq Require Import Reals Lra.
From Flocq Require Import Core.Core IEEE754.BinarySingleNaN.
From Verif Require Import Prelude Arith CoreModel TreeModel DictProofs ParModel ExprModel SpecExpr ExprProofs ExprUses ExprMeaning ExprContainer ExprWorld ScopeModel SpecScope ScopeProofs ModelModel ModelProofs SpecModel KernelProofs EvalProofs ModelExample PropState ModelWorld ModelHist ModelTabs RunProofs PropUtility PropExpr SpecSampling SpecNested SpecTree TreeProofs TreeMore TreeHist RunOut SpecEnd EndProofs ParProofs OutProofs RunResult EndExample.
Local Open Scope string_scope.
Local Open Scope nat_scope.
Local Open Scope list_scope.

Section Whole.
  Context {L : Type} {F : arith} {D N : Type} (E : env L F D (val N)) (O : ops L N) (as_num : val N -> option (num F)).
  Notation num := (num F).
  Notation FR := (ev_frames E).
  Notation symbol := (symbol (num:=num) FR).
  Notation expression := (@expression L).
  Notation cm := (cm E).
  Notation mworld := (mworld E).
  Notation mop := (mop E).
  Notation start := (new_mworld E).
  Context (NC : numexpr_computes E O as_num) (FL : frame_laws E) (NUL : ev_num E (ev_nan E) = VNull).

  (** * C82 *)

  (** A run of a model without cached utilities: in each cell, the utility is the sum of the values of the
      expression texts that apply to the choice, where the values are those of the texts as written
      ([texts_total]) and the symbols stand for the data assigned to them. *)
  Theorem C82_utilities_mean_the_texts (ops : list mop) i group clear ts' m' t simple xs d cols nl :
    let w := mrun E start ops in let m := model E w i in
    orderly_history E start ops -> m_utils m = None ->
    run_utilities E (mheap E w) (mcont E w i) (mw_tabs w) m group clear = (ts', m', Ok t) ->
    selection (mheap E w) (mcont E w i) group = Ok (simple, xs) -> (forall x, In x xs -> meant E simple x) ->
    m_du m = Some d -> choices (m_tree m) = Ok cols -> depth (m_tree m) = Ok nl ->
    rectangle (length d) (length cols) t /\
    forall r c l v, r < length d -> nth_error cols c = Some l ->
      texts_total E O as_num (m_scope m) nl cols r c l (map (@e_raw L) xs) (nzero F) = Some v -> tcell t r c = v.
  Proof.
    intros w m OH MU R S MT DU CH DP. pose proof (computes_local E O as_num NC) as NL.
    assert (PN : forall x, In x xs -> plain_names simple x) by (intros x I; apply MT, I).
    pose proof (tidy_reachable E FL ops i group simple xs OH S PN) as TD. fold w m in TD. pose proof (table_ok_reachable E NL ops i) as TO. fold w m in TO.
    destruct (C50_utilities_are_sums E NL FL ops i group clear ts' m' t simple xs d cols nl OH MU R S PN DU CH DP) as [RC T]. fold w m in T.
    split; auto. intros r c l v Hr Hc TT.
    destruct (run_total E NL _ _ _ _ _ _ _ _ _ TO R simple xs S TD) as (d' & cols' & nl' & Q1 & Q2 & Q3 & _ & _ & RD & _).
    rewrite Q1 in DU. rewrite Q2 in CH. rewrite Q3 in DP. injection DU as ->. injection CH as ->. injection DP as ->.
    pose proof (run_ok E _ _ _ _ _ _ _ _ _ R) as (si & xs' & m1 & u & V & S' & EV & _). rewrite S in S'. injection S' as <- <-.
    destruct (evaluate_ok E _ _ _ _ _ _ _ TO EV) as (d' & cols' & nl' & sh & _ & _ & _ & _ & SH & _).
    assert (SI : forall y, In y simple -> reserved y = false -> exists s d0, dget String.eqb (m_scope m) y = Some s /\ filled FR s = true /\ get_simple FR s = Ok d0).
    { intros y I RY. destruct (run_filled E NL _ _ _ _ _ _ V S y I RY) as (s & G & FS). pose proof (shared_get E _ _ _ _ SH y) as SG. rewrite base_get in SG.
      assert (Q : y <> "NAN" /\ y <> "OUT" /\ y <> "NEG_INF") by (rewrite <- not_true_iff_false, reserved_cases in RY; tauto).
      destruct Q as (K1 & K2 & K3). apply String.eqb_neq in K1, K2, K3. rewrite K1, K2, K3 in SG. assert (I' := I). apply mem_in in I'. rewrite I' in SG.
      destruct SG as (s' & d0 & T1 & T2 & _). assert (s' = s) by congruence. subst. eauto. }
    assert (RG : reg (ev_fn E) (ev_parse E) (mw_ex w)) by (apply mreg_run, reg_new).
    destruct (symbols_simple E _ _ _ _ _ S) as (names & SY & _). destruct (selected_registered E w i group simple xs names RG S SY) as [_ S2].
    assert (AL : aligned E (length d) (length cols) (m_scope m)) by (eapply td_aligned; eauto).
    set (rho := fun x acc => cell_meaning E (m_scope m) nl cols x acc r c).
    assert (M : forall x acc, In x xs -> meaning E (m_scope m) nl cols simple x acc r c (rho x acc)).
    { intros x acc I. apply meaning_exists. eapply td_apart; eauto. }
    assert (Hc' : c < length cols) by (apply nth_error_Some; congruence).
    pose proof (T r c l Hr Hc rho M) as TT'.
    assert (TC : total (applies nl l) (fun x a => ev_ne E (e_trans x) (rho x a)) xs (nzero F) = Some v).
    { eapply texts_total_computed; eauto. intros x I. destruct (S2 x I) as (P & INC & _). split; [exact P|]. split; [now apply RD|]. split; [exact INC|now apply MT]. }
    congruence.
  Qed.
  (** the row of utilities of a unit is the row of the sums of the texts *)
  Lemma rows_are_texts (ops : list mop) i group clear ts' m' t simple xs d cols nl :
    let w := mrun E start ops in let m := model E w i in
    orderly_history E start ops -> m_utils m = None ->
    run_utilities E (mheap E w) (mcont E w i) (mw_tabs w) m group clear = (ts', m', Ok t) ->
    selection (mheap E w) (mcont E w i) group = Ok (simple, xs) -> (forall x, In x xs -> meant E simple x) ->
    m_du m = Some d -> choices (m_tree m) = Ok cols -> depth (m_tree m) = Ok nl ->
    m_tree m' = m_tree m /\ m_du m' = m_du m /\ inv F (m_tree m) /\ validate_tree (m_tree m) = Ok tt /\ length cols = length (t_all (m_tree m)) /\
    rectangle (length d) (length cols) t /\
    forall r us, r < length d -> texts_row E O as_num (m_scope m) nl cols r (map (@e_raw L) xs) us -> nth_error t r = Some us.
  Proof.
    intros w m OH MU R S MT DU CH DP. destruct (C82_utilities_mean_the_texts ops i group clear ts' m' t simple xs d cols nl OH MU R S MT DU CH DP) as [RC T]. fold w m in T.
    destruct (run_touch E _ _ _ _ _ _ _ _ _ R) as (T1 & T2 & _). assert (GD : good E m) by (apply good_all, history_good; auto; constructor).
    pose proof (run_ok E _ _ _ _ _ _ _ _ _ R) as (si & xs' & m1 & u & V & _). apply validate_ok in V. destruct V as (V & _).
    assert (LC : length cols = length (t_all (m_tree m))).
    { rewrite (choices_eq F (m_tree m) nl (proj1 GD) V DP) in CH. injection CH as <-. rewrite map_length. symmetry. apply all_ids. }
    refine (conj T1 (conj T2 (conj (proj1 GD) (conj V (conj LC (conj RC _)))))).
    intros r us Hr [LU TX]. destruct RC as [R1 R2]. rewrite Forall_forall in R2. destruct (nth_error t r) as [row|] eqn:Q; [|apply nth_error_None in Q; lia]. f_equal.
    pose proof (R2 row (nth_error_In _ _ Q)) as LR. apply (nth_ext row us (nzero F) (nzero F)); [congruence|]. intros c Hc.
    destruct (nth_error cols c) as [l|] eqn:QC; [|apply nth_error_None in QC; lia]. specialize (T r c l _ Hr QC (TX c l QC)). unfold tcell in T. now rewrite (nth_error_nth _ _ _ Q) in T.
  Qed.

  (** * C83 *)

  (** A stochastic run: for every decision unit, the probabilities, the top-level value and the terms solve the
      logit equations of the tree for the utilities that the texts stand for; the probabilities are labelled
      with the choices without children, the terms with all the choices. *)
  Theorem C83_stochastic_outputs (ops : list mop) i group clear scale check ts' m' out simple xs d cols nl :
    let w := mrun E start ops in let m := model E w i in
    orderly_history E start ops -> m_utils m = None ->
    run_stochastic_all E (mheap E w) (mcont E w i) (mw_tabs w) m group clear scale check = (ts', m', Ok out) ->
    selection (mheap E w) (mcont E w i) group = Ok (simple, xs) -> (forall x, In x xs -> meant E simple x) ->
    m_du m = Some d -> choices (m_tree m) = Ok cols -> depth (m_tree m) = Ok nl ->
    length out = length d /\
    forall r us, r < length d -> texts_row E O as_num (m_scope m) nl cols r (map (@e_raw L) xs) us ->
      exists P top terms row,
        logit_solution F (m_tree m) nl scale us P top terms /\ end_row F (m_tree m) cols P row /\
        length P = length cols /\ length terms = length cols /\ nth_error out r = Some (row, top, combine cols terms).
  Proof.
    intros w m OH MU R S MT DU CH DP. unfold run_stochastic_all in R. destruct (run_utilities E (mheap E w) (mcont E w i) (mw_tabs w) m group clear) as [[ts1 m1] [t|e]] eqn:RU; [|discriminate].
    injection R as <- <- R. destruct (rows_are_texts ops i group clear ts1 m1 t simple xs d cols nl OH MU RU S MT DU CH DP) as (T1 & T2 & IV & V & LC & [R1 _] & TX). fold w m in T1, T2, IV, V, LC, TX.
    apply map_res_ok in R. destruct R as [LO R]. split; [congruence|]. intros r us Hr TR. destruct (R r us (TX r us Hr TR)) as (o & SO & NO). rewrite T1 in SO.
    assert (LU : length us = length cols) by apply TR.
    destruct (stochastic_outputs_ok F (m_tree m) IV nl DP V us scale check cols o CH) as (P & top & terms & row & S1 & S2 & L1 & L2 & ->); [congruence|exact SO|].
    exists P, top, terms, row. repeat split; auto; congruence.
  Qed.
  (** The first output is the table of [run_stochastic], C27 and C51. *)
  Theorem C83_first_output h c ts m group clear scale check ts' m' p :
    run_stochastic E h c ts m group clear scale check = (ts', m', Ok p) ->
    exists out, run_stochastic_all E h c ts m group clear scale check = (ts', m', Ok out) /\ p = map (fun o => fst (fst o)) out.
  Proof using Type.
    unfold run_stochastic, run_stochastic_all. destruct (run_utilities E h c ts m group clear) as [[ts1 m1] [t|e]]; [|discriminate]. intros H. injection H as <- <- H.
    assert (G : forall l p, map_res (fun row => stochastic_row F (m_tree m1) row scale check) l = Ok p ->
      exists out, map_res (fun row => stochastic_outputs (m_tree m1) row scale check) l = Ok out /\ p = map (fun o => fst (fst o)) out).
    { clear. induction l as [|u l IH]; intros p H; cbn in H; [injection H as <-; exists []; auto|]. apply rbind_ok in H. destruct H as (b & B1 & H). apply rbind_ok in H. destruct H as (bs & B2 & H). injection H as <-.
      rewrite outputs_row in B1. apply rbind_ok in B1. destruct B1 as ([[row top] terms] & B1 & B3). injection B3 as <-. destruct (IH bs B2) as (out & O1 & ->). exists ((row, top, terms) :: out). split; auto.
      cbn. rewrite B1. cbn [rbind]. rewrite O1. reflexivity. }
    destruct (G t p H) as (out & G1 & G2). exists out. rewrite G1. auto.
  Qed.

  (** * C84 *)

  (** A discrete run with [n] draws, under any schedule of the threads: the result is labelled with the decision
      units; the entry of unit [r] for draw [j] shows the choice that the random number of (seed, r, j) selects from the
      probabilities, which solve the logit equations for the utilities that the texts stand for; the second
      output is the top-level value. *)
  Theorem C84_discrete_outputs (G : generator F) (ops : list mop) i n clear seed scale as_index squeeze ts' m' result logsums simple xs d cols nl :
    let w := mrun E start ops in let m := model E w i in
    orderly_history E start ops -> m_utils m = None ->
    run_discrete E G (mheap E w) (mcont E w i) (mw_tabs w) m (Z.of_nat n) clear seed scale as_index squeeze ts' m' (Ok (result, logsums)) ->
    selection (mheap E w) (mcont E w i) None = Ok (simple, xs) -> (forall x, In x xs -> meant E simple x) ->
    m_du m = Some d -> choices (m_tree m) = Ok cols -> depth (m_tree m) = Ok nl ->
    1 <= n /\ result_units result = d /\ length logsums = length d /\
    forall r us, r < length d -> texts_row E O as_num (m_scope m) nl cols r (map (@e_raw L) xs) us ->
      exists P top terms,
        logit_solution F (m_tree m) nl scale us P top terms /\ length P = length cols /\ nth_error logsums r = Some top /\
        forall j, j < n -> exists k e,
          chosen F n P (random_number F G seed (length d) n r j) k /\
          result_entry result r j = Some e /\ shows cols as_index e k.
  Proof.
    intros w m OH MU R S MT DU CH DP. unfold run_discrete in R. destruct (run_discrete_utilities E (mheap E w) (mcont E w i) (mw_tabs w) m (Z.of_nat n) clear) as [[ts1 m1] [t|e]] eqn:RU; [|destruct R as (_ & _ & R); discriminate].
    destruct R as (-> & -> & R). unfold run_discrete_utilities in RU. destruct (validate E (mheap E w) (mcont E w i) m None); [|discriminate].
    destruct (Z.ltb_spec (Z.of_nat n) 1) as [|Hn]; [discriminate|]. assert (Hn' : 1 <= n) by lia. split; auto. rewrite Nat2Z.id in R. cbn zeta in R.
    destruct (rows_are_texts ops i None clear ts1 m1 t simple xs d cols nl OH MU RU S MT DU CH DP) as (T1 & T2 & IV & V & LC & [R1 R2] & TX). fold w m in T1, T2, IV, V, LC, TX.
    destruct (sampling_task G (m_tree m1) t n seed scale) as [task|] eqn:ST; [|discriminate]. destruct R as (r0 & m0 & mem & er & PF & R). destruct er; [destruct R; discriminate|]. rewrite T1 in ST.
    assert (LU : forall u, In u t -> length u = length (t_all (m_tree m))). { intros u I. rewrite Forall_forall in R2. rewrite (R2 u I). exact LC. }
    pose proof (discrete_rows F G (m_tree m) nl DP t n seed scale task r0 m0 mem IV ST Hn' LU PF) as DR. rewrite R1 in DR, R.
    symmetry in R. apply rbind_ok in R. destruct R as (res & CV & R). injection R as <- <-.
    assert (LS : length (logsum_array mem (length d)) = length d) by (unfold logsum_array; now rewrite map_length, seq_length).
    assert (CH1 : choices (m_tree m1) = Ok cols) by (rewrite T1; exact CH). assert (DU1 : units E m1 = Ok d) by (unfold units; rewrite T2; fold m; rewrite DU; reflexivity).
    destruct (result_ok E m1 d cols n mem as_index squeeze DU1 CH1 Hn') as (res' & CV' & RE1 & RE2).
    { intros r j Hr Hj. destruct (DR r Hr) as (P & top & terms & RO & _ & DJ). destruct (DJ j Hj) as (k & CK & Hk & _). exists k. split; auto.
      assert (I : In (nth r t []) t) by (apply nth_In; lia). destruct (row_outputs_solution F (m_tree m) IV nl DP _ _ _ _ _ _ (LU _ I) RO) as (_ & L1 & _). rewrite (LU _ I) in L1. lia. }
    rewrite CV in CV'. injection CV' as <-.
    split; auto. split; auto. intros r us Hr TR. destruct (DR r Hr) as (P & top & terms & RO & CL & DJ).
    rewrite (nth_error_nth _ _ _ (TX r us Hr TR)) in RO. assert (LUS : length us = length (t_all (m_tree m))) by (destruct TR; congruence).
    destruct (row_outputs_solution F (m_tree m) IV nl DP us scale true P top terms LUS RO) as (LS1 & LS2 & _). exists P, top, terms. split; auto. split; [congruence|]. split.
    - unfold logsum_array. rewrite nth_error_map, nth_error_seq0 by auto. cbn. now rewrite CL.
    - intros j Hj. destruct (DJ j Hj) as (k & CK & Hk & CC). destruct (RE2 r j Hr Hj) as (e & E1 & E2). exists k, e. split; auto.
  Qed.
  (** Such a call returns exactly when every unit has a feasible choice: no schedule makes the difference (the
      error is then that of one of the units), and there always is a run. *)
  Theorem C84_returns (G : generator F) (ops : list mop) i n clear seed scale as_index squeeze ts1 m1 t d cols nl :
    let w := mrun E start ops in let m := model E w i in
    orderly_history E start ops -> m_utils m = None -> 1 <= n ->
    run_utilities E (mheap E w) (mcont E w i) (mw_tabs w) m None clear = (ts1, m1, Ok t) ->
    (forall simple xs, selection (mheap E w) (mcont E w i) None = Ok (simple, xs) -> forall x, In x xs -> plain_names simple x) ->
    m_du m = Some d -> choices (m_tree m) = Ok cols -> depth (m_tree m) = Ok nl ->
    (exists out, run_discrete E G (mheap E w) (mcont E w i) (mw_tabs w) m (Z.of_nat n) clear seed scale as_index squeeze ts1 m1 out) /\
    forall ts' m' out, run_discrete E G (mheap E w) (mcont E w i) (mw_tabs w) m (Z.of_nat n) clear seed scale as_index squeeze ts' m' out ->
      (is_ok out = true <-> forall u, In u t -> is_ok (row_outputs (m_tree m) u scale true) = true).
  Proof.
    intros w m OH MU Hn RU PN DU CH DP. pose proof (computes_local E O as_num NC) as NL.
    destruct (run_touch E _ _ _ _ _ _ _ _ _ RU) as (T1 & T2 & _). assert (GD : good E m) by (apply good_all, history_good; auto; constructor).
    pose proof (run_ok E _ _ _ _ _ _ _ _ _ RU) as (si & xs' & m2 & u & V & S & _). pose proof (validate_ok E _ _ _ _ V) as (VT & _).
    pose proof (proj1 (C50_utilities_are_sums E NL FL ops i None clear ts1 m1 t si xs' d cols nl OH MU RU S (PN si xs' S) DU CH DP)) as [R1 R2].
    assert (LC : length cols = length (t_all (m_tree m))).
    { rewrite (choices_eq F (m_tree m) nl (proj1 GD) VT DP) in CH. injection CH as <-. rewrite map_length. symmetry. apply all_ids. }
    assert (LU : forall u, In u t -> length u = length (t_all (m_tree m))). { intros u0 I. rewrite Forall_forall in R2. rewrite (R2 u0 I). exact LC. }
    assert (RD : run_discrete_utilities E (mheap E w) (mcont E w i) (mw_tabs w) m (Z.of_nat n) clear = (ts1, m1, Ok t)).
    { unfold run_discrete_utilities. rewrite V. destruct (Z.ltb_spec (Z.of_nat n) 1); [lia|]. exact RU. }
    destruct (sampling_task_ok F G (m_tree m) nl DP t n seed scale (proj1 GD)) as [task ST].
    assert (ST1 : sampling_task G (m_tree m1) t n seed scale = Ok task) by (rewrite T1; exact ST).
    unfold run_discrete. rewrite RD, Nat2Z.id, ST1. split.
    - destruct (parallel_for_exists F G (length t) task (fun _ => gseed G 0%Z) (fun _ => VI 0%Z)) as (mem & e & PF). destruct e.
      + exists (Err UtilityBounds). split; auto. split; auto. exists (fun _ => gseed G 0%Z), (fun _ => VI 0%Z), mem, true. split; eauto.
      + eexists. split; auto. split; auto. exists (fun _ => gseed G 0%Z), (fun _ => VI 0%Z), mem, false. split; [exact PF|reflexivity].
    - intros ts' m' out (-> & -> & r0 & m0 & mem & e & PF & Q). pose proof (discrete_no_error F G (m_tree m) nl DP t n seed scale task r0 m0 mem e (proj1 GD) ST Hn LU PF) as NE.
      destruct e.
      + destruct Q as [x ->]. split; [discriminate|]. intros H. destruct (proj1 NE eq_refl) as (u0 & y & I & RO). specialize (H u0 I). rewrite RO in H. discriminate.
      + pose proof (discrete_rows F G (m_tree m) nl DP t n seed scale task r0 m0 mem (proj1 GD) ST Hn LU PF) as DR. rewrite R1 in DR, Q.
        assert (CH1 : choices (m_tree m1) = Ok cols) by (rewrite T1; exact CH). assert (DU1 : units E m1 = Ok d) by (unfold units; rewrite T2; fold m; rewrite DU; reflexivity).
        destruct (result_ok E m1 d cols n mem as_index squeeze DU1 CH1 Hn) as (res' & CV' & _).
        { intros r j Hr Hj. destruct (DR r Hr) as (P & top & terms & RO & _ & DJ). destruct (DJ j Hj) as (k & CK & Hk & _). exists k. split; auto.
          assert (I : In (nth r t []) t) by (apply nth_In; lia). destruct (row_outputs_solution F (m_tree m) (proj1 GD) nl DP _ _ _ _ _ _ (LU _ I) RO) as (_ & L1 & _). rewrite (LU _ I) in L1. lia. }
        rewrite CV' in Q. cbn [rbind] in Q. subst out. split; auto. intros _ u0 I. destruct (row_outputs (m_tree m) u0 scale true) as [o|y] eqn:RO; [reflexivity|].
        exfalso. assert (false = true); [|discriminate]. apply NE. eauto.
  Qed.
End Whole.
Print Assumptions C82_utilities_mean_the_texts.
Print Assumptions C83_stochastic_outputs.
Print Assumptions C83_first_output.
Print Assumptions C84_discrete_outputs.
Print Assumptions C84_returns.

(** ** Exact arithmetic *)
From Verif Require Import SpecLogit MnlProofs SamplingProofs PropSampling PropMultinomial.

(** Over the real numbers the equations of a model without nests are the logit formula; the second output is
    the sum of the exponentials ... *)
Theorem C83_exact_logit : forall (us : list (option R)) P top terms,
  mnl_solution XR (map as_x us) P top terms -> some_feasible us ->
  P = map (fun u => Fin (expu u / SpecLogit.total us)) us /\ top = Fin (SpecLogit.total us) /\ terms = map (fun u => Fin (expu u)) us.
Proof.
  intros us P top terms (T1 & T2 & T3) SF. pose proof (C06_logit_formula us false SF) as H. unfold multinomial_probabilities in H. fold (nsum XR terms) in T2. rewrite <- T1, <- T2 in H.
  destruct (nle XR top (nzero XR)) eqn:Q; injection H as H1 H2 H3; repeat split; try congruence; rewrite T3; exact H1.
Qed.
Print Assumptions C83_exact_logit.
(** ... so the choice of a discrete run is alternative [k] exactly when the random number lies in the [k]-th cell. *)
Theorem C84_exact_choice : forall (us : list (option R)) P top terms (x : R) k,
  mnl_solution XR (map as_x us) P top terms -> some_feasible us -> (tinyR <= x <= 1)%R -> (k < length us)%nat ->
  (chosen XR 1 P (Fin x) k <-> in_cell (map (fun u => expu u / SpecLogit.total us)%R us) k x).
Proof.
  intros us P top terms x k S SF Hx Hk. destruct (C83_exact_logit us P top terms S SF) as (-> & _ & _). set (p := map (fun u => (expu u / SpecLogit.total us)%R) us).
  assert (MP : map (fun u => Fin (expu u / SpecLogit.total us)) us = map Fin p) by (unfold p; now rewrite map_map). rewrite MP.
  destruct (C06_sum_to_one_and_bounds us SF) as [S1 B1]. fold p in S1, B1.
  assert (NN : nonneg p). { unfold nonneg. eapply Forall_impl; [|exact B1]. cbn. intros a H. apply H. }
  assert (LP : length p = length us) by (unfold p; now rewrite map_length).
  assert (RM : Rmax x tinyR = x) by (apply Rmax_left; lra).
  pose proof (C01_cell p x k NN) as C. rewrite RM in C. rewrite S1 in C. rewrite <- C by (lia || lra). clear C.
  assert (PNE : map Fin p <> []). { intros Q. apply (f_equal (@length _)) in Q. rewrite map_length, LP in Q. cbn in Q. lia. }
  destruct (C01_any_arithmetic XR (map Fin p) (Fin x) PNE) as (i & E1 & E2). rewrite E1.
  assert (E3 : chosen XR 1 (map Fin p) (Fin x) i).
  { unfold chosen. cbn [Nat.eqb]. unfold pymax in E2. eapply first_reaching_ext; [|exact E2]. intros j Hj. cbn beta. now rewrite (running_rd XR). }
  split.
  - intros H. f_equal. f_equal. unfold chosen in H, E3. cbn [Nat.eqb] in H, E3. eapply first_reaching_fun; [exact E3|exact H].
  - intros H. apply Nat2Z.inj in H. now subst.
Qed.
Print Assumptions C84_exact_choice.

(** * C85 *)

(** The "top-level logsum term" of a model without nests is never the logsum (the logarithm of the sum of the
    exponentials, the expected maximum utility): it is the sum itself ... *)
Theorem C85_logsum_refuted : forall (us : list (option R)) P top terms,
  mnl_solution XR (map as_x us) P top terms -> some_feasible us -> top <> Fin (ln (SpecLogit.total us)).
Proof.
  intros us P top terms S SF. destruct (C83_exact_logit us P top terms S SF) as (_ & -> & _). intros Q. injection Q as Q.
  pose proof (MnlProofs.total_pos us SF) as T0. set (T := SpecLogit.total us) in *. pose proof (exp_ineq1 (ln T)) as X. rewrite exp_ln in X by auto.
  destruct (Req_dec (ln T) 0) as [Z|Z]; [rewrite <- Q in Z; lra|]. specialize (X Z). lra.
Qed.
(** ... so a constant added to every utility multiplies it; the logarithm of it behaves as a logsum. *)
Theorem C85_log_of_the_output_partial : forall (us : list (option R)) c P top terms P' top' terms',
  mnl_solution XR (map as_x us) P top terms -> mnl_solution XR (map as_x (map (shift c) us)) P' top' terms' -> some_feasible us ->
  exists s s', top = Fin s /\ top' = Fin s' /\ (0 < s)%R /\ s' = (exp c * s)%R /\ ln s' = (c + ln s)%R /\ P' = P.
Proof.
  intros us c P top terms P' top' terms' S S' SF. destruct (C83_exact_logit us P top terms S SF) as (-> & -> & _).
  assert (SF' : some_feasible (map (shift c) us)) by now apply some_feasible_shift. destruct (C83_exact_logit _ P' top' terms' S' SF') as (-> & -> & _).
  pose proof (MnlProofs.total_pos us SF) as T0. pose proof (total_shift c us) as TS. exists (SpecLogit.total us), (SpecLogit.total (map (shift c) us)).
  assert (TE : SpecLogit.total (map (shift c) us) = (exp c * SpecLogit.total us)%R) by (rewrite TS; ring).
  refine (conj eq_refl (conj eq_refl (conj T0 (conj TE (conj _ _))))).
  - rewrite TE, ln_mult, ln_exp by (auto; apply exp_pos). reflexivity.
  - rewrite map_map. apply map_ext. intros [x|]; cbn; rewrite TE; pose proof (exp_pos c); f_equal; [|unfold Rdiv; ring]. rewrite exp_plus. field. lra.
Qed.
Print Assumptions C85_logsum_refuted.
Print Assumptions C85_log_of_the_output_partial.

(** ** Examples *)
(** the history of EndExample.v meets the hypotheses of C82 ... *)
Definition example_run : list (list n1) := match snd run2 with Ok t => t | Err _ => [] end.
Definition example_state := fst run2.
Lemma example_run_ok : run_utilities env2 (mheap env2 world2) (mcont env2 world2 0) (mw_tabs world2) model2 None true = (fst example_state, snd example_state, Ok example_run).
Proof.
  assert (OK : is_ok (snd run2) = true) by (vm_compute; reflexivity). unfold example_run, example_state. fold run2. destruct run2 as [[a b] [t|e]]; [reflexivity|discriminate].
Qed.
Lemma world2_is : mrun env2 (new_mworld env2) history2 = world2.
Proof. unfold world2. reflexivity. Qed.
Lemma model2_is : model env2 world2 0 = model2.
Proof. unfold model2. reflexivity. Qed.
Lemma some_eq {A} (a b : A) : Some a = Some b -> b = a.
Proof. congruence. Qed.
Ltac named H := cbv zeta in H; rewrite world2_is, model2_is in H.
Example C82_hypotheses : forall r us, nth_error [row2 [9; 12; 21; 20]%Z; row2 [16; 19; 28; 26]%Z] r = Some us -> nth_error example_run r = Some us.
Proof.
  intros r us H. destruct selection2_ok as [S1 _].
  assert (MU : m_utils model2 = None) by (vm_compute; reflexivity).
  assert (DU : m_du model2 = Some ["u1"; "u2"]) by (vm_compute; reflexivity).
  assert (CH : choices (m_tree model2) = Ok cols2) by (vm_compute; reflexivity).
  assert (DP : depth (m_tree model2) = Ok 2) by (vm_compute; reflexivity).
  pose proof (rows_are_texts env2 O1 back1 env2_computes env2_laws env2_null history2 0 None true) as T. named T.
  specialize (T _ _ _ simple2 xs2 _ cols2 2 history2_orderly MU example_run_ok S1 all_meant DU CH DP). destruct T as (_ & _ & _ & _ & _ & _ & T).
  destruct texts2_selected as [T0 T1]. apply T.
  - destruct r as [|[|r]]; cbn [length]; try lia. destruct r; discriminate H.
  - destruct r as [|[|r]]; [| |destruct r; discriminate H]; cbn [nth_error] in H; apply some_eq in H; subst us; [exact T0|exact T1].
Qed.
(** ... and the table is what the model computes *)
Example C82_table : map (map B2SF) example_run = map (map B2SF) [row2 [9; 12; 21; 20]%Z; row2 [16; 19; 28; 26]%Z].
Proof. vm_compute. reflexivity. Qed.

(** C83: the same history run with [run_stochastic] returns for both units *)
Example C83_hypotheses :
  let R := run_stochastic_all env2 (mheap env2 world2) (mcont env2 world2 0) (mw_tabs world2) model2 None true true true in
  is_ok (snd R) = true /\ exists out P top terms row,
    snd R = Ok out /\ logit_solution F1 (m_tree model2) 2 true (row2 [16; 19; 28; 26]%Z) P top terms /\ end_row F1 (m_tree model2) cols2 P row /\ nth_error out 1 = Some (row, top, combine cols2 terms) /\
    map fst row = [Tup ["A"; "."]; Tup ["N"; "B"]; Tup ["N"; "C"]].
Proof.
  assert (OK : is_ok (snd (run_stochastic_all env2 (mheap env2 world2) (mcont env2 world2 0) (mw_tabs world2) model2 None true true true)) = true) by (vm_compute; reflexivity).
  assert (LB : rmap (fun out => nth 1 (map (fun o => map fst (fst (fst o))) out) []) (snd (run_stochastic_all env2 (mheap env2 world2) (mcont env2 world2 0) (mw_tabs world2) model2 None true true true)) = Ok [Tup ["A"; "."]; Tup ["N"; "B"]; Tup ["N"; "C"]]) by (vm_compute; reflexivity).
  intros R. split; [exact OK|]. fold R in OK, LB. destruct R as [[ts' m'] [out|e]] eqn:Q; [|discriminate]. subst R. cbn [snd] in *. exists out.
  destruct selection2_ok as [S1 _]. destruct texts2_selected as [_ T1].
  assert (MU : m_utils model2 = None) by (vm_compute; reflexivity).
  assert (DU : m_du model2 = Some ["u1"; "u2"]) by (vm_compute; reflexivity).
  assert (CH : choices (m_tree model2) = Ok cols2) by (vm_compute; reflexivity).
  assert (DP : depth (m_tree model2) = Ok 2) by (vm_compute; reflexivity).
  pose proof (C83_stochastic_outputs env2 O1 back1 env2_computes env2_laws env2_null history2 0 None true true true) as T. named T.
  specialize (T ts' m' out simple2 xs2 _ cols2 2 history2_orderly MU Q S1 all_meant DU CH DP). destruct T as [_ T].
  destruct (T 1 _ ltac:(cbn; lia) T1) as (P & top & terms & row & A1 & A2 & _ & _ & A3). exists P, top, terms, row. split; auto. split; auto. split; auto. split; auto.
  cbn [rmap rbind] in LB. injection LB as LB. rewrite <- LB. apply (f_equal (option_map (fun o => map fst (fst (fst o))))) in A3. rewrite <- nth_error_map in A3. symmetry. exact (nth_error_nth _ _ _ A3).
Qed.

(** C84: two draws, labels; the call returns, with an entry of unit 1 for the second draw *)
Definition tape1 : generator F1 := Generator F1 float64 (fun _ => half1) (fun s => (s, s)) (fun s => (0%Z, s)).
Example C84_hypotheses : exists ts' m' result logsums,
  run_discrete env2 tape1 (mheap env2 world2) (mcont env2 world2 0) (mw_tabs world2) model2 2%Z true 7%Z true false true ts' m' (Ok (result, logsums)) /\
  exists P top terms k e, logit_solution F1 (m_tree model2) 2 true (row2 [16; 19; 28; 26]%Z) P top terms /\
    chosen F1 2 P (random_number F1 tape1 7 2 2 1 1) k /\ result_entry result 1 1 = Some e /\ shows cols2 false e k.
Proof.
  destruct selection2_ok as [S1 _]. destruct texts2_selected as [_ T1].
  assert (MU : m_utils model2 = None) by (vm_compute; reflexivity).
  assert (DU : m_du model2 = Some ["u1"; "u2"]) by (vm_compute; reflexivity).
  assert (CH : choices (m_tree model2) = Ok cols2) by (vm_compute; reflexivity).
  assert (DP : depth (m_tree model2) = Ok 2) by (vm_compute; reflexivity).
  assert (OK : forallb (fun u => is_ok (row_outputs (m_tree model2) u true true)) example_run = true) by (vm_compute; reflexivity).
  pose proof (C84_returns env2 O1 back1 env2_computes env2_laws tape1 history2 0 2 true 7%Z true false true) as T. named T.
  specialize (T _ _ _ ["u1"; "u2"] cols2 2 history2_orderly MU ltac:(lia) example_run_ok). destruct T as [[out R] IFF].
  - intros si xs S x I. pose proof (eq_trans (eq_sym S1) S) as Q. assert (xs = xs2 /\ si = simple2) as [-> ->] by (clear - Q; split; congruence). apply all_meant, I.
  - exact DU.
  - exact CH.
  - exact DP.
  - pose proof (proj2 (IFF _ _ _ R)) as H. destruct out as [[result logsums]|e]; cycle 1.
    { discriminate H. intros u I. rewrite forallb_forall in OK. apply OK, I. }
    clear IFF H. do 4 eexists. split; [exact R|].
    pose proof (C84_discrete_outputs env2 O1 back1 env2_computes env2_laws env2_null tape1 history2 0 2 true 7%Z true false true) as T. named T.
    specialize (T _ _ result logsums simple2 xs2 _ cols2 2 history2_orderly MU R S1 all_meant DU CH DP). destruct T as (_ & _ & _ & T).
    destruct (T 1 _ ltac:(cbn; lia) T1) as (P & top & terms & A1 & _ & _ & A2). destruct (A2 1 ltac:(lia)) as (k & e & B1 & B2 & B3). exists P, top, terms, k, e. exact (conj A1 (conj B1 (conj B2 B3))).
Qed.

(** one infeasible alternative and two others *)
Example C83_exact_case : let us := [None; Some 1%R; Some 2%R] in
  exists P top terms, mnl_solution XR (map as_x us) P top terms /\ some_feasible us /\ nth 0 P (Fin 1) = Fin 0%R /\
    (chosen XR 1 P (Fin 1) 2).
Proof.
  intros us. assert (SF : some_feasible us) by (exists 1%R; cbn; auto).
  do 3 eexists. split; [split; [reflexivity|split; reflexivity]|]. split; auto.
  match goal with |- nth 0 ?P _ = _ /\ _ => set (Q := P) end.
  assert (S : mnl_solution XR (map as_x us) Q (fold_left (nadd XR) (map (nexp XR) (map as_x us)) (nzero XR)) (map (nexp XR) (map as_x us))) by (split; [reflexivity|split; reflexivity]).
  split.
  - destruct (C83_exact_logit us _ _ _ S SF) as (-> & _ & _). cbn. f_equal. unfold Rdiv. ring.
  - apply (C84_exact_choice us _ _ _ 1%R 2 S SF); [|cbn; lia|].
    + split; [|lra]. change 1%R with (bpow radix2 0). apply bpow_le. lia.
    + set (T := SpecLogit.total us). assert (TE : T = (exp 1 + exp 2)%R) by (unfold T, SpecLogit.total, us; cbn; ring).
      pose proof (exp_pos 1) as E1. pose proof (exp_pos 2) as E2. unfold in_cell, partial_sum. cbn.
      assert (T0 : (0 < T)%R) by lra.
      assert (Q1 : (exp 1 / T < 1)%R) by (apply Rmult_lt_reg_r with T; auto; unfold Rdiv; rewrite Rmult_assoc, Rinv_l; lra).
      assert (Q2 : (exp 1 / T + exp 2 / T = 1)%R) by (rewrite TE; field; lra). replace (0 + (exp 1 + (exp 2 + 0)))%R with T by (rewrite TE; ring). replace (0 / T)%R with 0%R by (unfold Rdiv; ring). lra.
Qed.

Example C85_case : let us := [None; Some 1%R] in exists P top terms, mnl_solution XR (map as_x us) P top terms /\ some_feasible us.
Proof. do 3 eexists. split; [split; [reflexivity|split; reflexivity]|]. exists 1%R. cbn. auto. Qed.
