(** Properties C45, C50, C52, C53: validation, the utility table, repeated runs. *)
From Coq Require Import Reals Lra.
From Flocq Require Import IEEE754.BinarySingleNaN.
From Verif Require Import Prelude Arith CoreModel TreeModel DictProofs ParModel ExprModel SpecExpr ExprWorld ScopeModel SpecScope ScopeProofs ModelModel ModelProofs SpecModel KernelProofs EvalProofs ModelExample PropState ModelWorld ModelHist ModelTabs RunProofs.
Local Open Scope string_scope.
Local Open Scope nat_scope.
Local Open Scope list_scope.

Section Utility.
  Context {L : Type} {F : arith} {D cell : Type} (E : env L F D cell).
  Notation num := (num F).
  Notation FR := (ev_frames E).
  Notation symbol := (symbol (num:=num) FR).
  Notation expression := (@expression L).
  Notation cm := (cm E).
  Notation mworld := (mworld E).
  Notation mop := (mop E).
  Notation start := (new_mworld E).

  (** * C45 *)

  (** In every reachable state: when validation of a model (or of one group of expressions) succeeds, every
      symbol used by the expressions that a run would evaluate - by itself or with attributes - is a reserved
      word or declared and assigned. *)
  Definition uses_symbol (x : expression) (name : string) : Prop := In name (e_symbols x) \/ In name (dkeys (e_chains x)).
  Theorem C45_symbols_assigned (ops : list mop) i group simple xs :
    let w := mrun E start ops in let m := model E w i in
    validate E (mheap E w) (mcont E w i) m group = Ok tt ->
    selection (mheap E w) (mcont E w i) group = Ok (simple, xs) ->
    forall name, (In name simple \/ exists x, In x xs /\ uses_symbol x name) ->
      name = "NAN" \/ name = "OUT" \/ name = "NEG_INF" \/
      exists s, dget String.eqb (m_scope m) name = Some s /\ filled FR s = true.
  Proof.
    intros w m V S name U. assert (RG : reg (ev_fn E) (ev_parse E) (mw_ex w)) by (apply mreg_run, reg_new).
    apply validate_ok in V. destruct V as (_ & _ & names & SY & V). destruct (selected_registered E w i group simple xs names RG S SY) as [S1 S2].
    assert (I : In name names).
    { destruct U as [U|(x & I & [U|U])]; auto; destruct (S2 x I) as (_ & A & B); auto. }
    destruct (reserved name) eqn:R; [apply reserved_cases in R; tauto|]. right. right. right. now apply V.
  Qed.
  (** ... so that the evaluation, when it fails while looking up symbols, does so because of the data found there (a table
      used by itself, an attribute its table does not have, ...), never because a symbol is missing or
      empty - except for a reserved word with attributes ([OUT.x]), see below. *)
  Theorem C45_failures_partial (ops : list mop) i group simple xs :
    let w := mrun E start ops in let m := model E w i in
    validate E (mheap E w) (mcont E w i) m group = Ok tt ->
    selection (mheap E w) (mcont E w i) group = Ok (simple, xs) ->
    (forall e, shared_locals E (m_scope m) simple (base_locals E) = Err e ->
       exists name s, In name simple /\ dget String.eqb (m_scope m) name = Some s /\ filled FR s = true /\ get_simple FR s = Err e) /\
    (forall x e acc, In x xs -> (forall name, In name (dkeys (e_chains x)) -> reserved name = false) ->
       chain_locals E (m_scope m) (e_chains x) acc = Err e ->
       exists name us sub ct s, In (name, us) (e_chains x) /\ In (sub, ct) us /\
         dget String.eqb (m_scope m) name = Some s /\ filled FR s = true /\ get_chain FR s ct = Err e).
  Proof.
    intros w m V S. pose proof (C45_symbols_assigned ops i group simple xs V S) as A. fold w m in A.
    assert (RS : forall name, reserved name = false -> (In name simple \/ exists x, In x xs /\ uses_symbol x name) -> exists s, dget String.eqb (m_scope m) name = Some s /\ filled FR s = true).
    { intros name R U. apply A in U. rewrite <- not_true_iff_false, reserved_cases in R. tauto. }
    split.
    - assert (G : forall names acc e, (forall y, reserved y = true -> dmem String.eqb acc y = true) -> incl names simple -> shared_locals E (m_scope m) names acc = Err e ->
        exists name s, In name simple /\ dget String.eqb (m_scope m) name = Some s /\ filled FR s = true /\ get_simple FR s = Err e).
      { induction names as [|y names IH]; intros acc e B INC H; cbn in H; [discriminate|]. assert (INC' : incl names simple) by (intros z Z; apply INC; simpl; auto).
        destruct (dmem String.eqb acc y) eqn:M; [eauto|]. destruct (reserved y) eqn:RY; [rewrite B in M by auto; discriminate|].
        destruct (RS y RY (or_introl (INC y (or_introl eq_refl)))) as (s & GS & FS). rewrite GS in H. destruct (get_simple FR s) as [d|e'] eqn:GD; cbn in H.
        - eapply IH; [|exact INC'|exact H]. intros z RZ. unfold dmem. rewrite dget_dset_s. destruct (String.eqb z y); auto. apply B, RZ.
        - injection H as <-. exists y, s. split; [apply INC; simpl; auto|auto]. }
      intros e. apply G; [apply base_reserved|apply incl_refl].
    - intros x e acc I NR. assert (G : forall chains acc, incl chains (e_chains x) -> chain_locals E (m_scope m) chains acc = Err e ->
        exists name us sub ct s, In (name, us) (e_chains x) /\ In (sub, ct) us /\ dget String.eqb (m_scope m) name = Some s /\ filled FR s = true /\ get_chain FR s ct = Err e).
      { induction chains as [|[name us] t IH]; intros a INC H; cbn in H; [discriminate|].
        assert (IN : In (name, us) (e_chains x)) by (apply INC; simpl; auto). assert (IK : In name (dkeys (e_chains x))) by (eapply in_keys; eauto).
        destruct (RS name (NR name IK)) as (s & GS & FS). { right. exists x. split; auto. right. exact IK. }
        rewrite GS in H. destruct (usage_locals E s us a) as [a'|e'] eqn:UL; cbn in H.
        - apply (IH a'); auto. intros z Z. apply INC. simpl. auto.
        - injection H as ->. clear IH INC. assert (UG : forall us0 a0, incl us0 us -> usage_locals E s us0 a0 = Err e -> exists sub ct, In (sub, ct) us /\ get_chain FR s ct = Err e).
          { induction us0 as [|[sub ct] us0 IHu]; intros a0 J UL'; cbn in UL'; [discriminate|]. destruct (get_chain FR s ct) as [d|e'] eqn:GC; cbn in UL'.
            - eapply IHu; [|exact UL']. intros z Z. apply J. simpl. auto.
            - injection UL' as ->. exists sub, ct. split; auto. apply J. simpl. auto. }
          destruct (UG us a (incl_refl _) UL) as (sub & ct & J & GC). exists name, us, sub, ct, s. auto. }
      apply G, incl_refl.
  Qed.

  (** * C50 *)

  (** The hypotheses below hold in every state reached by an orderly history (choices built before data are
      assigned), for expressions in which no chained symbol ends in a digit and no simple symbol starts with
      two underscores. *)
  Lemma tidy_reachable (FL : frame_laws E) (ops : list mop) i group simple xs :
    let w := mrun E start ops in
    orderly_history E start ops -> selection (mheap E w) (mcont E w i) group = Ok (simple, xs) -> (forall x, In x xs -> plain_names simple x) ->
    tidy E (model E w i) simple xs.
  Proof.
    intros w OH S PN. assert (RG : reg (ev_fn E) (ev_parse E) (mw_ex w)) by (apply mreg_run, reg_new).
    assert (GD : good E (model E w i)) by (apply good_all, history_good; auto; constructor). constructor.
    - intros cols C. eapply good_labels; eauto.
    - apply GD.
    - intros x I. destruct (symbols_simple E _ _ _ _ _ S) as (names & SY & _). destruct (selected_registered E w i group simple xs names RG S SY) as [_ S2].
      destruct (S2 x I) as (P & _ & _). eapply parsed_apart; eauto.
  Qed.
  Lemma table_ok_reachable (NL : numexpr_local E) (ops : list mop) i : table_ok E (mw_tabs (mrun E start ops)) (model E (mrun E start ops) i).
  Proof. apply (run_separate E NL ops start). apply separate_new; auto. Qed.

  (** A successful run of a model without cached utilities gives the table whose cell for decision unit [r]
      and choice [c] is the sum, in order and starting from zero, of the values there of the expressions
      that apply to the choice - values computed with every name meaning what it should ([rho]). *)
  Theorem C50_utilities_are_sums (NL : numexpr_local E) (FL : frame_laws E) (ops : list mop) i group clear ts' m' t simple xs d cols nl :
    let w := mrun E start ops in let m := model E w i in
    orderly_history E start ops -> m_utils m = None ->
    run_utilities E (mheap E w) (mcont E w i) (mw_tabs w) m group clear = (ts', m', Ok t) ->
    selection (mheap E w) (mcont E w i) group = Ok (simple, xs) -> (forall x, In x xs -> plain_names simple x) ->
    m_du m = Some d -> choices (m_tree m) = Ok cols -> depth (m_tree m) = Ok nl ->
    rectangle (length d) (length cols) t /\
    forall r c l, r < length d -> nth_error cols c = Some l ->
      forall rho, (forall x acc, In x xs -> meaning E (m_scope m) nl cols simple x acc r c (rho x acc)) ->
        total (applies nl l) (fun x acc => ev_ne E (e_trans x) (rho x acc)) xs (nzero F) = Some (tcell t r c).
  Proof.
    intros w m OH MU R S PN DU CH DP. pose proof (tidy_reachable FL ops i group simple xs OH S PN) as TD. fold w m in TD.
    destruct (run_total E NL _ _ _ _ _ _ _ _ _ (table_ok_reachable NL ops i) R simple xs S TD) as (d' & cols' & nl' & Q1 & Q2 & Q3 & _ & R1 & _ & T).
    fold w m in Q1, Q2, Q3, T. rewrite Q1 in DU. rewrite Q2 in CH. rewrite Q3 in DP. injection DU as ->. injection CH as ->. injection DP as ->. split; auto.
    intros r c l Hr Hc rho M. specialize (T r c l Hr Hc rho M). unfold start_table in T. rewrite MU in T. now rewrite (zeros_cell E) in T.
  Qed.
  (** Such meanings exist, and then the value of each expression is the same for all of them. *)
  Theorem C50_meanings_exist scope nl cols simple x acc r c : names_apart simple x -> exists rho, meaning E scope nl cols simple x acc r c rho.
  Proof. intros NA. eexists. now apply meaning_exists. Qed.
  (** With cached utilities (a run, preval() or add_partial_utilities() before), the run adds to them. *)
  Theorem C50_starts_from_cached (NL : numexpr_local E) (FL : frame_laws E) (ops : list mop) i group clear ts' m' t simple xs d cols nl u :
    let w := mrun E start ops in let m := model E w i in
    orderly_history E start ops -> m_utils m = Some u ->
    run_utilities E (mheap E w) (mcont E w i) (mw_tabs w) m group clear = (ts', m', Ok t) ->
    selection (mheap E w) (mcont E w i) group = Ok (simple, xs) -> (forall x, In x xs -> plain_names simple x) ->
    m_du m = Some d -> choices (m_tree m) = Ok cols -> depth (m_tree m) = Ok nl ->
    rectangle (length d) (length cols) t /\
    forall r c l, r < length d -> nth_error cols c = Some l ->
      forall rho, (forall x acc, In x xs -> meaning E (m_scope m) nl cols simple x acc r c (rho x acc)) ->
        total (applies nl l) (fun x acc => ev_ne E (e_trans x) (rho x acc)) xs (tcell (nth (u_ref u) (mw_tabs w) []) r c) = Some (tcell t r c).
  Proof.
    intros w m OH MU R S PN DU CH DP. pose proof (tidy_reachable FL ops i group simple xs OH S PN) as TD. fold w m in TD.
    destruct (run_total E NL _ _ _ _ _ _ _ _ _ (table_ok_reachable NL ops i) R simple xs S TD) as (d' & cols' & nl' & Q1 & Q2 & Q3 & _ & R1 & _ & T).
    fold w m in Q1, Q2, Q3, T. rewrite Q1 in DU. rewrite Q2 in CH. rewrite Q3 in DP. injection DU as ->. injection CH as ->. injection DP as ->. split; auto.
    intros r c l Hr Hc rho M. specialize (T r c l Hr Hc rho M). unfold start_table in T. rewrite MU in T. exact T.
  Qed.

  (** * C53 *)

  (** two symbols declared alike; numbers must also have the same value *)
  Definition declared_alike (s s' : symbol) : Prop :=
    match s, s' with
    | SNumber v, SNumber v' => v = v'
    | SVector o _, SVector o' _ => o = o'
    | STable o ma al _, STable o' ma' al' _ => (o, ma, al) = (o', ma', al')
    | SMatrix o rc rr f _, SMatrix o' rc' rr' f' _ => (o, rc, rr, f) = (o', rc', rr', f')
    | _, _ => False
    end.
  (** Without cached utilities: models that differ only in the data assigned before are the same after new
      decision units, so that whatever follows has the same effects and results. *)
  Theorem C53_no_cache_partial (w w' : mworld) i d : i < length (mw_models w) ->
    mw_ex w' = mw_ex w -> mw_tabs w' = mw_tabs w -> length (mw_models w') = length (mw_models w) -> (forall j, j <> i -> model E w' j = model E w j) ->
    m_tree (model E w' i) = m_tree (model E w i) ->
    Forall2 (fun p q => fst p = fst q /\ declared_alike (snd p) (snd q)) (m_scope (model E w i)) (m_scope (model E w' i)) ->
    m_utils (model E w i) = None -> m_utils (model E w' i) = None ->
    mstep E w' (MUnits E i d) = mstep E w (MUnits E i d).
  Proof.
    intros LT EX TS LN OT TR SC U U'. cbn. unfold set_model. rewrite EX, TS. f_equal.
    assert (SU : set_units E (model E w' i) d = set_units E (model E w i) d).
    { unfold set_units. rewrite TR, U, U'. f_equal. clear -SC. induction SC as [|[n s] [n' s'] l l' [N A] H IH]; cbn; auto. cbn in N. subst n'. f_equal; auto. f_equal.
      destruct s, s'; cbn in *; try contradiction; congruence. }
    rewrite SU. apply (list_eq_nth (new_cm E)); [rewrite !upd_length; auto|]. rewrite upd_length. intros j Hj.
    destruct (Nat.eq_dec i j) as [->|N]; [rewrite !nth_upd_eq by lia; reflexivity|]. rewrite !nth_upd_neq by auto. apply (OT j). auto.
  Qed.
End Utility.
Print Assumptions C45_symbols_assigned.
Print Assumptions C45_failures_partial.
Print Assumptions C50_utilities_are_sums.
Print Assumptions C50_meanings_exist.
Print Assumptions C50_starts_from_cached.
Print Assumptions C53_no_cache_partial.

(** Concrete cases and counterexamples *)
Example C45_hypotheses_met :
  let w := idW [MAppend idE 0 "x * 2" None] in
  validate idE (mheap idE w) (mcont idE w 0) (model idE w 0) None = Ok tt /\
  rmap fst (selection (mheap idE w) (mcont idE w 0) None) = Ok ["x"] /\
  futilities _ _ w None = Ok [[sfz 6; sfz 6]; [sfz 10; sfz 10]].
Proof. vm_compute. auto. Qed.
(** A reserved word with an attribute passes validation, and evaluation then raises KeyError. *)
Theorem C45_reserved_word_refuted : exists ops,
  let w := mrun idE (new_mworld idE) ops in
  validate idE (mheap idE w) (mcont idE w 0) (model idE w 0) None = Ok tt /\ futilities _ _ w None = Err KeyError.
Proof. exists (two_choices _ _ ++ [MAppend idE 0 "OUT.x" None]). vm_compute. auto. Qed.
Print Assumptions C45_reserved_word_refuted.

Definition c50_ops : list (mop idE) := two_choices (fun x => x) (fun x => x) ++ [MAppend idE 0 "x + {'A': 2}" None; MAppend idE 0 "x * 2 @ B" None].
Example C50_hypotheses_met :
  let w := mrun idE (new_mworld idE) c50_ops in let m := model idE w 0 in
  numexpr_local idE /\ frame_laws idE /\ orderly_history idE (new_mworld idE) c50_ops /\
  (exists simple xs, selection (mheap idE w) (mcont idE w 0) None = Ok (simple, xs) /\ length xs = 2 /\ forall x, In x xs -> plain_names simple x) /\
  m_utils m = None /\ choices (m_tree m) = Ok [Flat "A"; Flat "B"] /\ depth (m_tree m) = Ok 1 /\
  futilities _ _ w None = Ok [[sfz 5; sfz 9]; [sfz 7; sfz 15]].
Proof.
  cbv zeta. split; [apply e_local|]. split; [apply e_frame_laws|]. split.
  - cbn. repeat split; try exact I; try (intros n s []); try (repeat constructor; cbn; intuition discriminate); intros; try discriminate; auto.
  - split; [|vm_compute; auto]. do 2 eexists. split; [vm_compute; reflexivity|]. split; [reflexivity|].
    intros x [<-|[<-|[]]]; split; intros y Y; cbn in Y; intuition subst; reflexivity.
Qed.
