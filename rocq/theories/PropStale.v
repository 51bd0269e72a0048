(** C30, C53: exactly what a run does with a table of utilities that was cached for other choices or other
    decision units. *)
From Verif Require Import Prelude Arith CoreModel TreeModel DictProofs ParModel ExprModel SpecExpr ExprWorld ScopeModel SpecScope ScopeProofs ModelModel ModelProofs SpecModel KernelProofs EvalProofs ModelExample PropState ModelWorld ModelHist ModelTabs RunProofs PropUtility PropRerun.
Local Open Scope string_scope.
Local Open Scope nat_scope.
Local Open Scope list_scope.

Section Stale.
  Context {L : Type} {F : arith} {D cell : Type} (E : env L F D cell).
  Notation num := (num F).
  Notation mop := (mop E).
  Notation start := (new_mworld E).

  Lemma choices_count (t : tree F) cols : choices t = Ok cols -> length cols = length (t_all t).
  Proof.
    unfold choices. intros H. apply rbind_ok in H. destruct H as ([] & _ & H). apply rbind_ok in H. destruct H as (d & _ & H).
    injection H as <-. destruct (d =? 1); rewrite map_length; unfold ids, dkeys, dvals; now rewrite map_length.
  Qed.

  Lemma run_shape (NL : numexpr_local E) h c ts (m : cm E) group clear ts' m' t : table_ok E ts m -> run_utilities E h c ts m group clear = (ts', m', Ok t) ->
    exists d cols v, m_du m = Some d /\ choices (m_tree m) = Ok cols /\
      (forall u, m_utils m = Some u -> length (u_cols u) = length cols /\ length (nth (u_ref u) ts []) = length d) /\
      m_tree m' = m_tree m /\ m_du m' = m_du m /\ length t = length d /\
      m_utils m' = Some v /\ nth (u_ref v) ts' [] = t /\ length (u_cols v) = length cols.
  Proof.
    intros TO R. pose proof (run_touch E _ _ _ _ _ _ _ _ _ R) as (A & B & _). apply run_ok in R. destruct R as (simple & xs & m1 & u & _ & _ & EV & -> & ->).
    apply evaluate_ok in EV; auto. destruct EV as (d & cols & nl & sh & DU & CH & DP & UC & SH & EA & _ & LE & _ & UCo & v & MU & RF & VV).
    exists d, cols, v. split; auto. split; auto. split; [|split; [exact A|split; [exact B|split; [exact LE|]]]].
    - intros u0 Hu. pose proof (UC u0 Hu) as U1. split; [exact U1|]. destruct (TO u0 Hu) as (_ & RC). pose proof RC as [RL _].
      assert (ST : start_table E ts m (length d) (length cols) = nth (u_ref u0) ts []) by (unfold start_table; now rewrite Hu).
      rewrite ST in EA. rewrite U1 in RC.
      assert (RC' : rectangle (length (nth (u_ref u0) ts [])) (length cols) (nth (u_ref u0) ts [])) by (split; [reflexivity|apply RC]).
      pose proof (eval_all_rect E NL _ _ _ _ _ _ _ _ _ EA RC') as [R2 _]. congruence.
    - split; [destruct clear; exact MU|]. split; [now rewrite RF|]. destruct VV as [VV|[_ ->]]; [now apply UC|reflexivity].
  Qed.

  (** In every history: a cached table whose number of rows is not the number of decision units, or whose number of
      columns is not the number of choices, makes every run raise. *)
  Theorem C53_other_shape_raises (NL : numexpr_local E) (ops : list mop) i group clear v d cols :
    let w := mrun E start ops in let m := model E w i in
    m_utils m = Some v -> m_du m = Some d -> choices (m_tree m) = Ok cols ->
    length (nth (u_ref v) (mw_tabs w) []) <> length d \/ length (u_cols v) <> length cols ->
    (exists x, snd (run_utilities E (mheap E w) (mcont E w i) (mw_tabs w) m group clear) = Err x) /\
    forall n, exists x, snd (run_discrete_utilities E (mheap E w) (mcont E w i) (mw_tabs w) m n clear) = Err x.
  Proof.
    intros w m MU DU CH NE. pose proof (table_ok_reachable E NL ops i) as TO. fold w m in TO.
    assert (G : forall g cl, exists x, snd (run_utilities E (mheap E w) (mcont E w i) (mw_tabs w) m g cl) = Err x).
    { intros g cl. destruct (run_utilities E (mheap E w) (mcont E w i) (mw_tabs w) m g cl) as [[ts' m'] [t|x]] eqn:R; [|cbn; eauto].
      apply (run_shape NL _ _ _ _ _ _ _ _ _ TO) in R. destruct R as (d0 & cols0 & v0 & DU0 & CH0 & U & _).
      destruct (U v MU) as [U1 U2]. rewrite DU in DU0. rewrite CH in CH0. injection DU0 as <-. injection CH0 as <-. exfalso. tauto. }
    split; [apply G|]. intros n. unfold run_discrete_utilities. destruct (validate E (mheap E w) (mcont E w i) m None) as [[]|x]; [|cbn; eauto].
    destruct (n <? 1)%Z; [cbn; eauto|apply G].
  Qed.

  Lemma mstep_run w i group clear scale check ts1 m1 t1 : i < length (mw_models w) ->
    run_utilities E (mheap E w) (mcont E w i) (mw_tabs w) (model E w i) group clear = (ts1, m1, Ok t1) ->
    let w' := mstep E w (MStochastic E i group clear scale check) in
    mw_tabs w' = ts1 /\ model E w' i = m1 /\ mw_ex w' = mw_ex w /\ length (mw_models w') = length (mw_models w).
  Proof.
    intros LT R w'. unfold w'. cbn [mstep]. unfold run_stochastic. rewrite R. cbn. split; auto. split; [|split; auto].
    - unfold model, set_model. cbn. now apply nth_upd_eq.
    - apply upd_length.
  Qed.

  (** After a run, decision units of another number make every further run raise - until a choice is added at the
      top or the units are restored: the cached table is never dropped. *)
  Theorem C53_another_number_of_units_raises (NL : numexpr_local E) (ops : list mop) i group clear scale check ts1 m1 t1 d' group' clear' :
    let w := mrun E start ops in
    let w' := mstep E (mstep E w (MStochastic E i group clear scale check)) (MUnits E i d') in
    i < length (mw_models w) ->
    run_utilities E (mheap E w) (mcont E w i) (mw_tabs w) (model E w i) group clear = (ts1, m1, Ok t1) ->
    length d' <> length t1 ->
    exists x, snd (run_utilities E (mheap E w') (mcont E w' i) (mw_tabs w') (model E w' i) group' clear') = Err x.
  Proof.
    intros w w' LT R NE. pose proof (table_ok_reachable E NL ops i) as TO. fold w in TO.
    destruct (mstep_run w i group clear scale check ts1 m1 t1 LT R) as (A1 & A2 & A3 & A4).
    destruct (run_shape NL _ _ _ _ _ _ _ _ _ TO R) as (d & cols & v & DU & CH & _ & T1 & D1 & LE & MU & TV & UC).
    set (w1 := mstep E w (MStochastic E i group clear scale check)) in *.
    set (ops' := ops ++ [MStochastic E i group clear scale check; MUnits E i d']).
    assert (W' : mrun E start ops' = w') by (unfold ops'; rewrite mrun_app; reflexivity).
    assert (M' : model E w' i = set_units E m1 d') by (unfold w'; cbn [mstep]; rewrite <- A2; unfold model, set_model; cbn [mw_models]; apply nth_upd_eq; rewrite A4; exact LT).
    assert (TS : mw_tabs w' = ts1) by (unfold w'; cbn; exact A1).
    pose proof (C53_other_shape_raises NL ops' i group' clear' v d' cols) as G. cbv zeta in G. rewrite W' in G. rewrite M', TS in *.
    apply G; auto.
    - cbn. now rewrite T1.
    - left. rewrite TV. congruence.
  Qed.

  (** With the same number of new units the values of the old ones stay in the utilities: every cell is the old cell
      of the same position plus the values of the expressions for the new units. *)
  Theorem C53_as_many_units_start_from_the_old (NL : numexpr_local E) (FL : frame_laws E) (ops : list mop) i group scale check ts1 m1 t1 d' mid group' ts2 m2 t2 simple xs cols nl :
    let w := mrun E start ops in
    let w' := mrun E w ([MStochastic E i group false scale check; MUnits E i d'] ++ mid) in
    i < length (mw_models w) -> orderly_history E start (ops ++ [MStochastic E i group false scale check; MUnits E i d'] ++ mid) ->
    run_utilities E (mheap E w) (mcont E w i) (mw_tabs w) (model E w i) group false = (ts1, m1, Ok t1) ->
    Forall (fun o => match o with MDeclare _ _ _ _ | MAssign _ _ _ _ | MAppend _ _ _ _ | MClearExprs _ _ => True | _ => False end) mid ->
    run_utilities E (mheap E w') (mcont E w' i) (mw_tabs w') (model E w' i) group' false = (ts2, m2, Ok t2) ->
    selection (mheap E w') (mcont E w' i) group' = Ok (simple, xs) -> (forall x, In x xs -> plain_names simple x) ->
    choices (m_tree (model E w' i)) = Ok cols -> depth (m_tree (model E w' i)) = Ok nl ->
    forall r c l, r < length d' -> nth_error cols c = Some l ->
      forall rho, (forall x acc, In x xs -> meaning E (m_scope (model E w' i)) nl cols simple x acc r c (rho x acc)) ->
        total (applies nl l) (fun x acc => ev_ne E (e_trans x) (rho x acc)) xs (tcell t1 r c) = Some (tcell t2 r c).
  Proof.
    intros w w' LT OH R1 HM R2 S PN CH DP. pose proof (table_ok_reachable E NL ops i) as TO. fold w in TO.
    destruct (mstep_run w i group false scale check ts1 m1 t1 LT R1) as (A1 & A2 & A3 & A4).
    destruct (run_shape NL _ _ _ _ _ _ _ _ _ TO R1) as (d & cols0 & v & DU & CH0 & _ & T1 & D1 & LE & MU & TV & UC).
    assert (KEEP : forall mid w0, Forall (fun o => match o with MDeclare _ _ _ _ | MAssign _ _ _ _ | MAppend _ _ _ _ | MClearExprs _ _ => True | _ => False end) mid ->
              mw_tabs w0 = ts1 -> m_utils (model E w0 i) = Some v -> m_du (model E w0 i) = Some d' -> i < length (mw_models w0) ->
              mw_tabs (mrun E w0 mid) = ts1 /\ m_utils (model E (mrun E w0 mid) i) = Some v /\ m_du (model E (mrun E w0 mid) i) = Some d').
    { clear. induction mid as [|o mid IH]; intros w0 HM H1 H2 H3 H4; [auto|]. inversion_clear HM as [|? ? Ho HM']. cbn [mrun fold_left].
      assert (NT : forall (w0 : mworld E) j m', j < length (mw_models w0) \/ length (mw_models w0) <= j -> i < length (mw_models w0) ->
                  m_utils m' = m_utils (model E w0 j) -> m_du m' = m_du (model E w0 j) ->
                  m_utils (model E (set_model E w0 (mw_tabs w0) j m') i) = m_utils (model E w0 i) /\ m_du (model E (set_model E w0 (mw_tabs w0) j m') i) = m_du (model E w0 i) /\
                  length (mw_models (set_model E w0 (mw_tabs w0) j m')) = length (mw_models w0)).
      { intros w1 j m' _ Li Q1 Q2. unfold set_model, model. cbn [mw_models]. rewrite upd_length. destruct (Nat.eq_dec j i) as [->|Ne].
        - rewrite nth_upd_eq by auto. auto.
        - rewrite nth_upd_neq by auto. auto. }
      destruct o; try contradiction; cbn [mstep].
      - destruct (NT w0 i0 (fst (declare E (model E w0 i0) name d)) ltac:(lia) H4) as (B1 & B2 & B3).
        + unfold declare. repeat (destruct (_ : bool) || destruct (new_symbol _ _) ); reflexivity.
        + unfold declare. repeat (destruct (_ : bool) || destruct (new_symbol _ _) ); reflexivity.
        + apply IH; auto; [congruence|congruence|lia].
      - destruct (NT w0 i0 (fst (assign_symbol E (model E w0 i0) name v0)) ltac:(lia) H4) as (B1 & B2 & B3).
        + unfold assign_symbol. repeat (match goal with |- context [match ?x with _ => _ end] => destruct x end); reflexivity.
        + unfold assign_symbol. repeat (match goal with |- context [match ?x with _ => _ end] => destruct x end); reflexivity.
        + apply IH; auto; [congruence|congruence|lia].
      - apply IH; auto.
      - apply IH; auto. }
    assert (W1 : w' = mrun E (mstep E (mstep E w (MStochastic E i group false scale check)) (MUnits E i d')) mid) by reflexivity.
    set (wr := mstep E w (MStochastic E i group false scale check)) in *.
    set (w1 := mstep E wr (MUnits E i d')) in *.
    assert (M1 : model E w1 i = set_units E m1 d') by (unfold w1; cbn [mstep]; rewrite <- A2; unfold model, set_model; cbn [mw_models]; apply nth_upd_eq; rewrite A4; exact LT).
    destruct (KEEP mid w1 HM) as (K1 & K2 & K3).
    { unfold w1. cbn. exact A1. }
    { rewrite M1. cbn. exact MU. }
    { rewrite M1. reflexivity. }
    { unfold w1. cbn [mstep set_model mw_models]. rewrite upd_length, A4. exact LT. }
    rewrite <- W1 in K1, K2, K3.
    set (ops' := ops ++ [MStochastic E i group false scale check; MUnits E i d'] ++ mid) in *.
    assert (W' : mrun E start ops' = w') by (unfold ops'; now rewrite mrun_app).
    pose proof (C50_starts_from_cached E NL FL ops' i group' false ts2 m2 t2 simple xs d' cols nl v) as T. rewrite W' in T. cbv zeta in T.
    rewrite K1 in T. rewrite TV in T. rewrite K1 in R2. apply T; auto.
  Qed.

  (** After a run, a new choice added under a node makes every further run raise. *)
  Theorem C30_nested_choice_after_a_run_raises (NL : numexpr_local E) (ops : list mop) i group clear scale check ts1 m1 t1 p name sc t' id group' clear' :
    let w := mrun E start ops in let m := model E w i in
    let w' := mstep E (mstep E w (MStochastic E i group clear scale check)) (MTree E i (NodeAdd p name sc)) in
    i < length (mw_models w) ->
    run_utilities E (mheap E w) (mcont E w i) (mw_tabs w) m group clear = (ts1, m1, Ok t1) ->
    node_add_choice F (m_tree m) p name sc = (t', Ok id) ->
    dmem String.eqb (t_all (m_tree m)) (full_name (t_heap (m_tree m)) p ++ "." ++ name)%string = false ->
    exists x, snd (run_utilities E (mheap E w') (mcont E w' i) (mw_tabs w') (model E w' i) group' clear') = Err x.
  Proof.
    intros w m w' LT R NA NEW. pose proof (table_ok_reachable E NL ops i) as TO. fold w m in TO.
    destruct (mstep_run w i group clear scale check ts1 m1 t1 LT R) as (A1 & A2 & A3 & A4).
    destruct (run_shape NL _ _ _ _ _ _ _ _ _ TO R) as (d & cols & v & DU & CH & _ & T1 & D1 & LE & MU & TV & UC).
    set (w1 := mstep E w (MStochastic E i group clear scale check)) in *.
    set (ops' := ops ++ [MStochastic E i group clear scale check; MTree E i (NodeAdd p name sc)]).
    assert (W' : mrun E start ops' = w') by (unfold ops'; rewrite mrun_app; reflexivity).
    assert (M' : model E w' i = tree_op E m1 (NodeAdd p name sc)) by (unfold w'; cbn [mstep]; rewrite <- A2; unfold model, set_model; cbn [mw_models]; apply nth_upd_eq; rewrite A4; exact LT).
    assert (TS : mw_tabs w' = ts1) by (unfold w'; cbn; exact A1).
    (* the tree after the addition *)
    assert (TR : t_all (m_tree (tree_op E m1 (NodeAdd p name sc))) = t_all t' /\ m_utils (tree_op E m1 (NodeAdd p name sc)) = Some v /\
                 length (t_all t') = S (length (t_all (m_tree m)))).
    { unfold tree_op. rewrite T1, MU. cbn [option_map run_op m_tree m_utils]. revert NA. unfold node_add_choice, create_node, new_node, set_cached. cbn [t_heap t_all t_top t_cached].
      rewrite NEW. destruct (name_ok name && scale_ok F sc)%bool; [|discriminate]. cbn. intros Q. injection Q as <- <-. cbn. split; auto. split; auto.
      rewrite (dset_absent _ string_eqb_spec); [now rewrite app_length, Nat.add_comm|]. intros IN. apply (dmem_iff _ string_eqb_spec) in IN. exact (eq_true_false_abs _ IN NEW). }
    destruct TR as (TR1 & TR2 & TR3).
    destruct (choices (m_tree (tree_op E m1 (NodeAdd p name sc)))) as [cols'|x] eqn:CH'.
    - pose proof (choices_count _ _ CH') as N1. pose proof (choices_count _ _ CH) as N0. fold m in N0.
      pose proof (C53_other_shape_raises NL ops' i group' clear' v d cols') as G. cbv zeta in G. rewrite W' in G. rewrite M', TS in *.
      apply G; auto.
      + cbn. congruence.
      + right. rewrite UC, N1, TR1, TR3. lia.
    - (* the tree does not validate *)
      rewrite M'. destruct (run_utilities E (mheap E w') (mcont E w' i) (mw_tabs w') (tree_op E m1 (NodeAdd p name sc)) group' clear') as [[a b] [t|y]] eqn:RU; [|cbn; eauto].
      exfalso. pose proof (table_ok_reachable E NL ops' i) as TO'. rewrite W', M' in TO'.
      destruct (run_shape NL _ _ _ _ _ _ _ _ _ TO' RU) as (d0 & cols0 & _ & _ & CH0 & _). congruence.
  Qed.
End Stale.

(** concrete histories that meet the hypotheses: two choices, two units, one run; then the history of each theorem *)
Definition ran : list (mop idE) := two_choices (fun x => x) (fun x => x) ++ [MAppend idE 0 "x" None; MAppend idE 0 "1 @ A" None].
Definition ran_world := mrun idE (new_mworld idE) ran.
Definition is_err {A} (r : res A) : bool := match r with Err _ => true | Ok _ => false end.
Example stale_hypotheses_met :
  let w' := mstep idE ran_world (MStochastic idE 0 None false false true) in
  length (mw_models ran_world) = 1 /\
  futilities _ _ ran_world None = Ok [[sfz 4; sfz 3]; [sfz 6; sfz 5]] /\
  (* as many units, with new values: added to the old ones; another number: raises *)
  futilities _ _ (mrun idE w' [MUnits idE 0 ["h3"; "h4"]; MClearExprs idE 0; MAppend idE 0 "2" None]) None = Ok [[sfz 6; sfz 5]; [sfz 8; sfz 7]] /\
  is_err (futilities _ _ (mrun idE w' [MUnits idE 0 ["h3"]; MClearExprs idE 0; MAppend idE 0 "2" None]) None) = true /\
  (* a choice under A *)
  is_err (snd (node_add_choice (B64 _ _) (m_tree (model idE ran_world 0)) 0 "C" (flz 1))) = false /\
  dmem String.eqb (t_all (m_tree (model idE ran_world 0))) "A.C" = false /\
  is_err (futilities _ _ (mstep idE w' (MTree idE 0 (NodeAdd (F:=B64 _ _) 0 "C" (flz 1)))) None) = true.
Proof. vm_compute. exact (conj eq_refl (conj eq_refl (conj eq_refl (conj eq_refl (conj eq_refl (conj eq_refl eq_refl)))))). Qed.

Print Assumptions C53_other_shape_raises.
Print Assumptions C53_another_number_of_units_raises.
Print Assumptions C53_as_many_units_start_from_the_old.
Print Assumptions C30_nested_choice_after_a_run_raises.
