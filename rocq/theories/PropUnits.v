(** C108, C109: decision units with the same data. *)
From Verif Require Import Prelude Arith CoreModel TreeModel DictProofs ParModel ParProofs ExprModel SpecExpr ExprProofs ExprWorld ExprSame ScopeModel SpecScope ScopeProofs ModelModel ModelProofs SpecModel KernelProofs EvalProofs PropState ModelWorld ModelHist ModelTabs RunProofs EvalTransfer PropUtility SpecTree TreeProofs TreeMore TreeHist RunOut SpecDraws SpecEnd OutProofs EndProofs PropEnd SamplingProofs RunResult ModelTrees PropMoved SpecUnits.
Local Open Scope string_scope.
Local Open Scope nat_scope.
Local Open Scope list_scope.

Section Units.
  Context {L : Type} {F : arith} {D cell : Type} (E : env L F D cell).
  Notation num := (num F).
  Notation FR := (ev_frames E).
  Notation symbol := (symbol (num:=num) FR).
  Notation expression := (@expression L).
  Notation cm := (cm E).
  Notation mop := (mop E).
  Notation start := (new_mworld E).
  Notation dget := (dget String.eqb).
  Context (NL : numexpr_local E) (FL : frame_laws E).

  Lemma same_xvalue simple xs k (scope scope' : dict string symbol) nl cols r r' c x acc :
    same_data E (evaluated_names simple xs) k scope r scope' r' -> In x xs -> c < k -> ready E scope nl cols simple x ->
    xvalue E scope nl cols r c x acc = xvalue E scope' nl cols r' c x acc.
  Proof.
    intros SD I Hc [_ _ _ RN]. apply NL. intros y Y. specialize (RN y Y). unfold cell_meaning.
    destruct (String.eqb y "OUT") eqn:Q1, (String.eqb y "NAN") eqn:Q2, (String.eqb y "NEG_INF") eqn:Q3; auto.
    destruct (find_chain (e_chains x) y) as [[name ct]|] eqn:FC.
    - unfold find_chain in FC. destruct (find _ (e_chains x)) as [[n0 us]|] eqn:FD; [|discriminate]. apply find_some in FD. destruct FD as [FD _].
      destruct (dget us y) as [ct0|]; [|discriminate]. injection FC as -> ->.
      assert (EN : evaluated_names simple xs name) by (right; exists x; split; auto; apply in_map_iff; exists (name, us); auto).
      specialize (SD name EN). destruct (dget scope name) as [s|], (dget scope' name) as [s'|]; try contradiction; auto. now apply SD.
    - destruct (dget (e_dl x) y) eqn:DL; auto.
      assert (EN : evaluated_names simple xs y).
      { left. destruct RN as [RN|[RN|RN]]; auto; exfalso.
        - apply reserved_cases in RN. rewrite !String.eqb_neq in *. tauto.
        - unfold substitutions in RN. apply in_app_or in RN. destruct RN as [RN|RN].
          + apply in_concat in RN. destruct RN as (l & L1 & L2). apply in_map_iff in L1. destruct L1 as ([n us] & <- & L1). cbn in L2.
            unfold find_chain in FC. destruct (find (fun p => mem y (dkeys (snd p))) (e_chains x)) as [[n1 u1]|] eqn:FD.
            * apply find_some in FD. destruct FD as [_ FD]. cbn in FD. apply mem_in in FD.
              destruct (dget u1 y) as [z|] eqn:DU; [discriminate|]. apply (dget_none String.eqb String.eqb_eq) in DU. tauto.
            * pose proof (find_none _ _ FD (n, us) L1) as X. cbn [snd] in X. apply (proj2 (mem_in y (dkeys us))) in L2. congruence.
          + apply (dget_none String.eqb String.eqb_eq) in DL. tauto. }
      specialize (SD y EN). destruct (dget scope y) as [s|], (dget scope' y) as [s'|]; try contradiction; auto. now apply SD.
  Qed.

  (** ** C108: the utilities *)
  Theorem C108_same_data_same_utilities (ops ops' : list mop) i j group group' clear clear' ts1 m1 t ts2 m2 t' simple xs simple' xs' d d' cols nl r r' :
    let w := mrun E start ops in let m := model E w i in let w' := mrun E start ops' in let m' := model E w' j in
    orderly_history E start ops -> orderly_history E start ops' -> m_utils m = None -> m_utils m' = None ->
    run_utilities E (mheap E w) (mcont E w i) (mw_tabs w) m group clear = (ts1, m1, Ok t) ->
    run_utilities E (mheap E w') (mcont E w' j) (mw_tabs w') m' group' clear' = (ts2, m2, Ok t') ->
    selection (mheap E w) (mcont E w i) group = Ok (simple, xs) -> (forall x, In x xs -> plain_names simple x) ->
    selection (mheap E w') (mcont E w' j) group' = Ok (simple', xs') -> (forall x, In x xs' -> plain_names simple' x) ->
    map (@e_raw L) xs = map (@e_raw L) xs' ->
    choices (m_tree m) = Ok cols -> choices (m_tree m') = Ok cols -> depth (m_tree m) = Ok nl -> depth (m_tree m') = Ok nl ->
    m_du m = Some d -> m_du m' = Some d' -> r < length d -> r' < length d' ->
    same_data E (evaluated_names simple xs) (length cols) (m_scope m) r (m_scope m') r' ->
    nth_error t r = nth_error t' r' /\ length t = length d /\ length t' = length d'.
  Proof.
    intros w m w' m' OH OH' MU MU' R R' S PN S' PN' RW CH CH' DP DP' DU DU' Hr Hr' SD.
    assert (XS : xs' = xs).
    { assert (RG : reg (ev_fn E) (ev_parse E) (mw_ex w)) by (apply mreg_run, reg_new). assert (RG' : reg (ev_fn E) (ev_parse E) (mw_ex w')) by (apply mreg_run, reg_new).
      destruct (symbols_simple E _ _ _ _ _ S) as (names & SY & _). destruct (selected_registered E w i group simple xs names RG S SY) as [_ S2].
      destruct (symbols_simple E _ _ _ _ _ S') as (names' & SY' & _). destruct (selected_registered E w' j group' simple' xs' names' RG' S' SY') as [_ S2'].
      symmetry. apply (parsed_all_same (ev_fn E) (ev_parse E)); auto; intros x I; [apply (S2 x I)|apply (S2' x I)]. }
    subst xs'.
    pose proof (tidy_reachable E FL ops i group simple xs OH S PN) as TD. fold w m in TD. pose proof (tidy_reachable E FL ops' j group' simple' xs OH' S' PN') as TD'. fold w' m' in TD'.
    pose proof (table_ok_reachable E NL ops i) as TO. fold w m in TO. pose proof (table_ok_reachable E NL ops' j) as TO'. fold w' m' in TO'.
    apply run_ok in R. destruct R as (si & x0 & m0 & u & VA & SA & EA & _ & ->). rewrite S in SA. injection SA as <- <-.
    apply run_ok in R'. destruct R' as (si & x0 & m3 & u' & VB & SB & EB & _ & ->). rewrite S' in SB. injection SB as <- <-.
    apply (evaluate_evaluated E NL) in EA; auto.
    2:{ intros y q I R G. destruct (run_filled E NL _ _ m group simple xs VA S y I R) as (q' & G' & FQ). congruence. }
    apply (evaluate_evaluated E NL) in EB; auto.
    2:{ intros y q I R G. destruct (run_filled E NL _ _ m' group' simple' xs VB S' y I R) as (q' & G' & FQ). congruence. }
    destruct EA as (d0 & c0 & n0 & [A1 A2 A3 A4 A5 A6 A7 A8 A9 A10]). destruct EB as (d1 & c1 & n1 & [B1 B2 B3 B4 B5 B6 B7 B8 B9 B10]).
    assert (d0 = d) by congruence. assert (c0 = cols) by congruence. assert (n0 = nl) by congruence. assert (d1 = d') by congruence. assert (c1 = cols) by congruence. assert (n1 = nl) by congruence. subst d0 c0 n0 d1 c1 n1.
    set (t := nth (u_ref u) ts1 []) in *. set (t' := nth (u_ref u') ts2 []) in *. clearbody t t'.
    split; [|split; [apply A8|apply B8]]. destruct A8 as [L1 W1]. destruct B8 as [L2 W2]. rewrite Forall_forall in W1, W2.
    destruct (nth_error t r) as [row|] eqn:NR; [|apply nth_error_None in NR; lia]. destruct (nth_error t' r') as [row'|] eqn:NR'; [|apply nth_error_None in NR'; lia]. f_equal.
    pose proof (W1 row (nth_error_In _ _ NR)) as LR. pose proof (W2 row' (nth_error_In _ _ NR')) as LR'.
    apply (nth_ext row row' (nzero F) (nzero F)); [congruence|]. intros c Hc. destruct (nth_error cols c) as [l|] eqn:QC; [|apply nth_error_None in QC; lia].
    specialize (A9 r c l Hr QC). specialize (B9 r' c l Hr' QC). unfold tcell in A9, B9. rewrite (nth_error_nth _ _ _ NR) in A9. rewrite (nth_error_nth _ _ _ NR') in B9.
    assert (Z : nth c (nth r (start_table E (mw_tabs w) m (length d) (length cols)) []) (nzero F) = nth c (nth r' (start_table E (mw_tabs w') m' (length d') (length cols)) []) (nzero F)).
    { unfold start_table. rewrite MU, MU'. pose proof (zeros_cell E (length d) (length cols) r c) as Z1. pose proof (zeros_cell E (length d') (length cols) r' c) as Z2. unfold tcell in Z1, Z2. now rewrite Z1, Z2. }
    rewrite Z in A9. rewrite (total_ext _ _ (xvalue E (m_scope m') nl cols r' c)) in A9; [congruence|].
    intros x a I. apply (same_xvalue simple xs (length cols)); auto. lia.
  Qed.

  (** ** C108: probabilities, logsums and simulated choices *)

  (** the number stored for a draw *)
  Definition picked (n : nat) (P : list num) (x : num) : option Z := if n =? 1 then Some (sample_once F P x) else logarithmic_search F x (nbf_cumsum F P).
  Lemma discrete_exact (G : generator F) (t : tree F) nl us n seed scaled task r0 m0 mem : depth t = Ok nl -> inv F t -> sampling_task G t us n seed scaled = Ok task -> 1 <= n ->
    (forall u, In u us -> length u = length (t_all t)) ->
    parallel_for F G (length us) task r0 m0 mem false ->
    forall r, r < length us -> exists P top terms, row_outputs t (nth r us []) scaled true = Ok (P, top, terms) /\ mem (CLs r) = VN top /\
      forall j, j < n -> exists z, mem (CRes r j) = VI z /\ picked n P (random_number F G seed (length us) n r j) = Some z.
  Proof using Type.
    intros DP INV ST Hn LU PF r Hr. destruct (sampling_task_unified F G t nl DP us n seed scaled task ST) as (f & fs & -> & F1 & F2).
    assert (NP : 0 < length (t_all t)).
    { rewrite all_ids. unfold depth in DP. destruct (ids t); [discriminate|cbn; lia]. }
    assert (LP : forall u p ls te, row_outputs t u scaled true = Ok (p, ls, te) -> In u us -> p <> []).
    { intros u p ls te RO I Q. destruct (row_outputs_solution F t INV nl DP u scaled true p ls te (LU u I) RO) as (_ & L1 & _). rewrite (LU u I), Q in L1. cbn in L1. lia. }
    assert (IR : In (nth r us []) us) by (apply nth_In; auto). unfold random_number, picked. destruct (Nat.eqb_spec n 1) as [->|N1].
    all: try rewrite <- (uniforms_nth F G (gseed G seed) (length us) r (nzero F) Hr); try rewrite <- (randints_nth F G (gseed G seed) (length us) r 0%Z Hr).
    - destruct (discrete_values_one F G f fs us seed r0 m0 mem false 1 (le_n 1) PF) as [A B]. unfold generate_rand_floats_for_parallel in *.
      set (x := nth r (uniforms F G (gseed G seed) (length us)) (nzero F)) in *.
      destruct (row_outputs t (nth r us []) scaled true) as [[[P top] terms]|e] eqn:RO.
      + exists P, top, terms. split; auto. destruct (B r (sample_once F P x) top Hr) as [B1 B2]; [rewrite F2, RO; reflexivity|]. split; auto. intros j Hj. assert (j = 0) by lia. subst j. eauto.
      + exfalso. assert (false = true); [|discriminate]. apply A. exists r, e. split; auto. fold x. rewrite F2, RO. reflexivity.
    - edestruct (discrete_values_many F G f fs us seed r0 m0 mem false n) as [A B]; [lia| | |exact PF|].
      + intros u p ls te Q I. rewrite F1 in Q. eapply LP; eauto.
      + intros cps x Hc. destruct (log_search_in_range F x cps Hc) as (i & Q & _). eauto.
      + unfold generate_rand_ints_for_parallel in *. destruct (row_outputs t (nth r us []) scaled true) as [[[P top] terms]|e] eqn:RO.
        * exists P, top, terms. split; auto. destruct (B r P top terms Hr) as (B1 & zs & SA & LZ & BZ); [now rewrite F1|]. split; auto. intros j Hj.
          set (s := nth r (randints F G (gseed G seed) (length us)) 0%Z) in *. apply search_all_nth in SA. destruct SA as [_ SA]. rewrite uniforms_length in SA. specialize (SA j Hj).
          rewrite <- (uniforms_nth F G (gseed G s) n j (nzero F) Hj). exists (nth j zs 0%Z). split; auto.
        * exfalso. assert (false = true); [|discriminate]. apply A. exists (nth r us []), e. split; auto. rewrite F1. exact RO.
  Qed.

  (** what a discrete run that returns has computed *)
  Lemma discrete_run_exact (G : generator F) (ops : list mop) i n clear seed scale as_index squeeze ts' m' result logsums :
    let w := mrun E start ops in let m := model E w i in
    tree_history E start ops ->
    run_discrete E G (mheap E w) (mcont E w i) (mw_tabs w) m (Z.of_nat n) clear seed scale as_index squeeze ts' m' (Ok (result, logsums)) ->
    exists t d cols, run_utilities E (mheap E w) (mcont E w i) (mw_tabs w) m None clear = (ts', m', Ok t) /\ m_du m = Some d /\ choices (m_tree m) = Ok cols /\
      length t = length d /\ length logsums = length d /\
      forall r us, nth_error t r = Some us -> exists P top terms, row_outputs (m_tree m) us scale true = Ok (P, top, terms) /\ nth_error logsums r = Some top /\
        forall j, j < n -> exists k e, picked n P (random_number F G seed 0 n r j) = Some (Z.of_nat k) /\ result_entry result r j = Some e /\ shows cols as_index e k.
  Proof using NL.
    intros w m OH R. unfold run_discrete in R.
    assert (V0 : is_ok (validate E (mheap E w) (mcont E w i) m None) = true /\ 1 <= n).
    { unfold run_discrete_utilities in R. destruct (validate E (mheap E w) (mcont E w i) m None); [|destruct R as (_ & _ & R); discriminate]. destruct (Z.ltb_spec (Z.of_nat n) 1); [destruct R as (_ & _ & R); discriminate|]. split; [reflexivity|lia]. }
    destruct V0 as [V0 Hn].
    assert (RD : run_discrete_utilities E (mheap E w) (mcont E w i) (mw_tabs w) m (Z.of_nat n) clear = run_utilities E (mheap E w) (mcont E w i) (mw_tabs w) m None clear).
    { unfold run_discrete_utilities. destruct (validate E (mheap E w) (mcont E w i) m None); [|discriminate]. destruct (Z.ltb_spec (Z.of_nat n) 1); [lia|]. reflexivity. }
    rewrite RD in R. clear RD. destruct (run_utilities E (mheap E w) (mcont E w i) (mw_tabs w) m None clear) as [[ts0 m0] [t|e]] eqn:RU; [|destruct R as (_ & _ & R); discriminate].
    destruct R as (E1 & E2 & R). subst ts' m'. rewrite Nat2Z.id in R. cbn zeta in R.
    destruct (run_touch E _ _ _ _ _ _ _ _ _ RU) as (T1 & T2 & _). assert (GD : inv F (m_tree m)) by (apply reachable_sound; exact OH).
    pose proof (table_ok_reachable E NL ops i) as TO. fold w m in TO. pose proof (run_ok E _ _ _ _ _ _ _ _ _ RU) as (si & xs & m3 & u & V & S & EV & _ & TT).
    destruct (evaluate_ok E _ _ _ _ _ _ _ TO EV) as (d & cols & nl & sh & DU & CH & DP & UC & SH & EA & _ & LD & _). apply validate_ok in V. destruct V as (V & _).
    pose proof (start_rect E NL _ _ _ cols TO DU UC) as SR. pose proof (eval_all_rect E NL _ _ _ _ _ _ _ _ _ EA SR) as RC. rewrite <- TT in RC.
    assert (LC : length cols = length (t_all (m_tree m))).
    { pose proof CH as CH'. rewrite (choices_eq F (m_tree m) nl GD V DP) in CH'. injection CH' as <-. rewrite map_length. symmetry. apply all_ids. }
    exists t, d, cols. split; [reflexivity|]. split; [exact DU|]. split; [exact CH|].
    destruct RC as [_ RC2]. rewrite Forall_forall in RC2. assert (RC1 : length t = length d) by (rewrite TT; exact LD).
    assert (LU : forall us, In us t -> length us = length (t_all (m_tree m))) by (intros us I; rewrite (RC2 us I); exact LC).
    destruct (sampling_task G (m_tree m0) t n seed scale) as [task|] eqn:ST; [|discriminate]. destruct R as (r0 & mm & mem & er & PF & R). destruct er; [destruct R; discriminate|]. rewrite T1 in ST. fold m in ST.
    pose proof (discrete_rows F G (m_tree m) nl DP t n seed scale task r0 mm mem GD ST Hn LU PF) as DR.
    pose proof (discrete_exact G (m_tree m) nl t n seed scale task r0 mm mem DP GD ST Hn LU PF) as DX. rewrite RC1 in DR, DX, R.
    symmetry in R. apply rbind_ok in R. destruct R as (res & CV & R). injection R as <- <-.
    assert (CH1 : choices (m_tree m0) = Ok cols) by (rewrite T1; exact CH). assert (DU1 : units E m0 = Ok d) by (unfold units; rewrite T2; fold m; rewrite DU; reflexivity).
    assert (DRK : forall r j, r < length d -> j < n -> exists k, mem (CRes r j) = VI (Z.of_nat k) /\ k < length cols).
    { intros r j Hr Hj. destruct (DR r Hr) as (P & top & terms & RO & _ & DJ). destruct (DJ j Hj) as (k & CK & Hk & _). exists k. split; auto.
      assert (I : In (nth r t []) t) by (apply nth_In; rewrite RC1; exact Hr). destruct (row_outputs_solution F (m_tree m) GD nl DP _ _ _ _ _ _ (LU _ I) RO) as (_ & L1 & _). rewrite (LU _ I) in L1. rewrite LC. rewrite <- L1. exact Hk. }
    destruct (result_ok E m0 d cols n mem as_index squeeze DU1 CH1 Hn DRK) as (res' & CV' & RE1 & RE2).
    rewrite CV in CV'. injection CV' as <-. split; [exact RC1|]. split; [unfold logsum_array; now rewrite map_length, seq_length|].
    intros r us N. assert (Hr : r < length d) by (rewrite <- RC1; apply nth_error_Some; congruence). destruct (DX r Hr) as (P & top & terms & RO & CL & DJ). rewrite (nth_error_nth _ _ _ N) in RO.
    exists P, top, terms. split; auto. split; [unfold logsum_array; rewrite nth_error_map, nth_error_seq0 by auto; cbn; now rewrite CL|].
    intros j Hj. destruct (DJ j Hj) as (z & CZ & PZ). destruct (DRK r j Hr Hj) as (k & CK & _). rewrite CK in CZ. injection CZ as <-. destruct (RE2 r j Hr Hj) as (e & E1 & E2). exists k, e. split; auto.
  Qed.

  (** The outputs of stochastic runs with the same tree: the probabilities, the top-level value and the terms of the two units. *)
  Theorem C108_same_data_same_probabilities (ops ops' : list mop) i j group group' clear clear' scale check ts1 m1 out ts2 m2 out' simple xs simple' xs' d d' cols r r' :
    let w := mrun E start ops in let m := model E w i in let w' := mrun E start ops' in let m' := model E w' j in
    orderly_history E start ops -> orderly_history E start ops' -> m_utils m = None -> m_utils m' = None ->
    run_stochastic_all E (mheap E w) (mcont E w i) (mw_tabs w) m group clear scale check = (ts1, m1, Ok out) ->
    run_stochastic_all E (mheap E w') (mcont E w' j) (mw_tabs w') m' group' clear' scale check = (ts2, m2, Ok out') ->
    selection (mheap E w) (mcont E w i) group = Ok (simple, xs) -> (forall x, In x xs -> plain_names simple x) ->
    selection (mheap E w') (mcont E w' j) group' = Ok (simple', xs') -> (forall x, In x xs' -> plain_names simple' x) ->
    map (@e_raw L) xs = map (@e_raw L) xs' ->
    m_tree m = m_tree m' -> choices (m_tree m) = Ok cols ->
    m_du m = Some d -> m_du m' = Some d' -> r < length d -> r' < length d' ->
    same_data E (evaluated_names simple xs) (length cols) (m_scope m) r (m_scope m') r' ->
    exists o, nth_error out r = Some o /\ nth_error out' r' = Some o.
  Proof.
    intros w m w' m' OH OH' MU MU' R R' S PN S' PN' RW TR CH DU DU' Hr Hr' SD. unfold run_stochastic_all in R, R'.
    destruct (run_utilities E (mheap E w) (mcont E w i) (mw_tabs w) m group clear) as [[ts3 m3] [t|e]] eqn:RU; [|discriminate].
    destruct (run_utilities E (mheap E w') (mcont E w' j) (mw_tabs w') m' group' clear') as [[ts4 m4] [t'|e]] eqn:RU'; [|discriminate].
    injection R as _ _ R. injection R' as _ _ R'.
    assert (DP : exists nl, depth (m_tree m) = Ok nl). { pose proof CH as CH'. unfold choices in CH'. apply rbind_ok in CH'. destruct CH' as (? & _ & CH'). apply rbind_ok in CH'. destruct CH' as (nl & CH' & _). eauto. } destruct DP as [nl DP].
    destruct (C108_same_data_same_utilities ops ops' i j group group' clear clear' ts3 m3 t ts4 m4 t' simple xs simple' xs' d d' cols nl r r' OH OH' MU MU' RU RU' S PN S' PN' RW CH) as (U & L1 & L2); auto; try (fold w' m'; rewrite <- TR; auto; fail).
    destruct (run_touch E _ _ _ _ _ _ _ _ _ RU) as (T1 & _). destruct (run_touch E _ _ _ _ _ _ _ _ _ RU') as (T2 & _).
    destruct (nth_error t r) as [us|] eqn:N; [|apply nth_error_None in N; lia]. symmetry in U.
    apply map_res_ok in R. apply map_res_ok in R'. destruct R as [_ R]. destruct R' as [_ R']. destruct (R r us N) as (o & SO & NO). destruct (R' r' us U) as (o' & SO' & NO').
    exists o. split; auto. rewrite NO'. f_equal. rewrite T1 in SO. rewrite T2 in SO'. fold m in SO. fold m' in SO'. rewrite <- TR in SO'. congruence.
  Qed.

  (** Discrete runs with the same tree: the second outputs of the two units are the same; if moreover the two units have the
      same position, and the runs the same seed and number of draws, they are given the same choices - whatever the other units. *)
  Theorem C108_same_data_same_choices (G : generator F) (ops ops' : list mop) i j n clear clear' seed scale as_index squeeze squeeze' ts1 m1 result logsums ts2 m2 result' logsums' simple xs simple' xs' d d' cols r r' :
    let w := mrun E start ops in let m := model E w i in let w' := mrun E start ops' in let m' := model E w' j in
    orderly_history E start ops -> orderly_history E start ops' -> m_utils m = None -> m_utils m' = None ->
    run_discrete E G (mheap E w) (mcont E w i) (mw_tabs w) m (Z.of_nat n) clear seed scale as_index squeeze ts1 m1 (Ok (result, logsums)) ->
    run_discrete E G (mheap E w') (mcont E w' j) (mw_tabs w') m' (Z.of_nat n) clear' seed scale as_index squeeze' ts2 m2 (Ok (result', logsums')) ->
    selection (mheap E w) (mcont E w i) None = Ok (simple, xs) -> (forall x, In x xs -> plain_names simple x) ->
    selection (mheap E w') (mcont E w' j) None = Ok (simple', xs') -> (forall x, In x xs' -> plain_names simple' x) ->
    map (@e_raw L) xs = map (@e_raw L) xs' ->
    m_tree m = m_tree m' -> choices (m_tree m) = Ok cols ->
    m_du m = Some d -> m_du m' = Some d' -> r < length d -> r' < length d' ->
    same_data E (evaluated_names simple xs) (length cols) (m_scope m) r (m_scope m') r' ->
    (exists top, nth_error logsums r = Some top /\ nth_error logsums' r' = Some top) /\
    (r = r' -> forall draw, draw < n -> exists e, result_entry result r draw = Some e /\ result_entry result' r draw = Some e).
  Proof.
    intros w m w' m' OH OH' MU MU' R R' S PN S' PN' RW TR CH DU DU' Hr Hr' SD.
    destruct (discrete_run_exact G ops i n clear seed scale as_index squeeze ts1 m1 result logsums) as (t & d0 & cols0 & RU & Q1 & Q2 & L1 & _ & X); [apply orderly_trees; exact OH|exact R|]. fold w m in RU, Q1, Q2, X.
    destruct (discrete_run_exact G ops' j n clear' seed scale as_index squeeze' ts2 m2 result' logsums') as (t' & d1 & cols1 & RU' & Q1' & Q2' & L1' & _ & X'); [apply orderly_trees; exact OH'|exact R'|]. fold w' m' in RU', Q1', Q2', X'.
    assert (d0 = d) by congruence. assert (d1 = d') by congruence. assert (cols0 = cols) by congruence. assert (cols1 = cols) by congruence. subst.
    assert (DP : exists nl, depth (m_tree m) = Ok nl). { pose proof CH as CH'. unfold choices in CH'. apply rbind_ok in CH'. destruct CH' as (? & _ & CH'). apply rbind_ok in CH'. destruct CH' as (nl & CH' & _). eauto. } destruct DP as [nl DP].
    destruct (C108_same_data_same_utilities ops ops' i j None None clear clear' ts1 m1 t ts2 m2 t' simple xs simple' xs' d d' cols nl r r' OH OH' MU MU' RU RU' S PN S' PN' RW CH) as (U & _ & _); auto; try (fold w' m'; rewrite <- TR; auto; fail).
    destruct (nth_error t r) as [us|] eqn:N; [|apply nth_error_None in N; lia]. symmetry in U.
    destruct (X r us N) as (P & top & terms & RO & NL1 & DJ). destruct (X' r' us U) as (P' & top' & terms' & RO' & NL2 & DJ'). rewrite <- TR, RO in RO'. injection RO' as <- <- <-.
    split; [eauto|]. intros <- k Hk. destruct (DJ k Hk) as (a & e & A1 & A2 & A3). destruct (DJ' k Hk) as (b & e' & B1 & B2 & B3). rewrite A1 in B1. injection B1 as B1. apply Nat2Z.inj in B1. subst b.
    exists e. split; auto. rewrite B2. f_equal. unfold shows in A3, B3. destruct as_index; [congruence|]. destruct A3 as (l & N1 & ->). destruct B3 as (l' & N2 & ->). congruence.
  Qed.
End Units.
