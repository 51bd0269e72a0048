(** Property C56, isolation: nothing done to other models (copies included) changes a model. *)
From Verif Require Import Prelude Arith CoreModel TreeModel DictProofs ParModel ExprModel SpecExpr SpecContainer ExprWorld ScopeModel SpecScope ScopeProofs ModelModel ModelProofs SpecModel KernelProofs EvalProofs ModelExample PropState ModelWorld ModelHist ModelTabs ExprSets ModelInv RunProofs EvalTransfer PropUtility PropRerun PropPreval PropCopy.
Local Open Scope string_scope.
Local Open Scope nat_scope.
Local Open Scope list_scope.

Section Isolation.
  Context {L : Type} {F : arith} {D cell : Type} (E : env L F D cell).
  Notation num := (num F).
  Notation FR := (ev_frames E).
  Notation symbol := (symbol (num:=num) FR).
  Notation expression := (@expression L).
  Notation container := (@container L).
  Notation exprs := (list (@subgroup L)).
  Notation table := (list (list num)).
  Notation tables := (list (list (list num))).
  Notation cm := (cm E).
  Notation mworld := (mworld E).
  Notation mop := (mop E).
  Notation start := (new_mworld E).
  Notation dget := (dget String.eqb).
  Context (NL : numexpr_local E).

  (** calls that may change model [i]: all those made on it, except copying it *)
  Definition called_on (o : mop) : option nat :=
    match o with
    | MNew _ | MCopy _ _ _ | MSubset _ _ _ _ => None
    | MTree _ i _ | MUnits _ i _ | MDeclare _ i _ _ | MAssign _ i _ _ | MClearScope _ i | MAppend _ i _ _ | MClearExprs _ i | MDropGroup _ i _
    | MStochastic _ i _ _ _ _ | MDiscrete _ i _ _ | MPreval _ i _ _ _ | MEmpty _ i _ | MGive _ i _ _ _ _ _ _ => Some i
    end.
  Record same_for (w w' : mworld) (i : nat) : Prop := SameFor {
    sf_model : model E w' i = model E w i;
    sf_table : forall u, m_utils (model E w i) = Some u -> nth (u_ref u) (mw_tabs w') [] = nth (u_ref u) (mw_tabs w) [];
    sf_cont : mcont E w' i = mcont E w i;
    sf_groups : forall n r, In (n, r) (c_subs (mcont E w i)) -> deref (mheap E w') r = deref (mheap E w) r
  }.
  Lemma cont_step (w : world (L:=L)) (co : cop) i : own w -> i < length (w_conts w) -> (match co with OAdd _ _ _ => False | ONew | OCopy _ => True | OAppend j _ _ | OClear j | ODrop j _ => j <> i end) ->
    cont (cstep (ev_fn E) (ev_parse E) w co) i = cont w i /\ forall n r, In (n, r) (c_subs (cont w i)) -> deref (w_heap (cstep (ev_fn E) (ev_parse E) w co)) r = deref (w_heap w) r.
  Proof.
    intros O LT H. destruct co as [|j e g|j|j g|j|j k keys]; cbn [cstep]; [| | | | |contradiction].
    - cbn [w_heap]. rewrite cont_new. destruct (Nat.eqb_spec i (length (w_conts w))); [lia|]. auto.
    - destruct (append (ev_fn E) (ev_parse E) (w_heap w) (cont w j) e g) as [[h c] r] eqn:A. cbn [w_heap]. rewrite cont_upd. destruct (Nat.eqb_spec j i); [contradiction|]. cbn. split; auto.
      intros n1 q I. unfold append in A. destruct (parse _ _ e _ _) as [[s ch] [ex|x]]; [|injection A as <- _ _; auto].
      destruct g as [g|]; [destruct (dget (c_subs (cont w j)) g) as [r0|] eqn:G|]; injection A as <- _ _; auto.
      + unfold deref. rewrite nth_upd_neq; auto. intros <-. apply (dget_in String.eqb String.eqb_eq) in G. apply H. symmetry. eapply (ow_sep _ O i j); eauto.
      + apply deref_app. eapply ow_range; eauto.
    - cbn [w_heap]. rewrite cont_upd. destruct (Nat.eqb_spec j i); [contradiction|]. auto.
    - cbn [w_heap]. rewrite cont_upd. destruct (Nat.eqb_spec j i); [contradiction|]. auto.
    - unfold copy. destruct (copy_subs (w_heap w) (c_subs (cont w j)) []) as [h' subs] eqn:CS. cbn [w_heap]. rewrite cont_new. destruct (Nat.eqb_spec i (length (w_conts w))); [lia|]. split; auto.
      intros n2 r I. destruct (copy_subs_spec _ _ _ _ _ CS) as (t & rs & -> & _ & _).
      + intros n' r' I'. eapply ow_range; eauto.
      + apply (ow_keys _ O).
      + auto.
      + apply deref_app. eapply ow_range; eauto.
  Qed.
  Lemma same_step w o i : separate E w -> own (mw_ex w) -> length (w_conts (mw_ex w)) = length (mw_models w) -> i < length (mw_models w) -> called_on o <> Some i -> same_for w (mstep E w o) i.
  Proof.
    intros [SO SW] O LW LT NC.
    assert (EX : cont (mw_ex (mstep E w o)) i = cont (mw_ex w) i /\ forall n r, In (n, r) (c_subs (cont (mw_ex w) i)) -> deref (w_heap (mw_ex (mstep E w o))) r = deref (w_heap (mw_ex w)) r).
    { assert (LC : i < length (w_conts (mw_ex w))) by lia.
      destruct o as [|j o|j d|j name d|j name v|j|j text g|j|j g|j g cl sc ck|j n cl|j g dr cl|j f|j mi mask|j en|j gr gc gt gb gd gm]; cbn [mstep]; cbn in NC; auto.
      - apply (cont_step (mw_ex w) ONew); auto.
      - destruct o; auto.
      - apply (cont_step (mw_ex w) (OAppend j text g)); auto; congruence.
      - apply (cont_step (mw_ex w) (OClear j)); auto; congruence.
      - apply (cont_step (mw_ex w) (ODrop j g)); auto; congruence.
      - destruct (run_stochastic _ _ _ _ _ _ _ _ _) as [[ts m] r]. auto.
      - destruct (run_discrete_utilities _ _ _ _ _ _ _) as [[ts m] r]. auto.
      - destruct (preval E (mheap E w) (mcont E w j) (mw_tabs w) (model E w j) g dr cl) as [[[ts c] m] r]. cbn [mw_ex w_heap]. rewrite cont_upd. destruct (Nat.eqb_spec j i); [congruence|]. auto.
      - destruct (copy_model _ _ _ _) as [ts m]. cbn [mw_ex]. destruct (cf_exprs f); [apply (cont_step (mw_ex w) (OCopy j))|apply (cont_step (mw_ex w) ONew)]; auto.
      - destruct (copy_subset _ _ _ _ _) as [ts [m|x]]; auto. cbn [mw_ex]. apply (cont_step (mw_ex w) (OCopy j)); auto.
      - destruct (give _ _ _ _ _ _ _ _ _) as [ts m]. auto. }
    assert (TG : opt_target E o <> Some i) by (destruct o; cbn in NC |- *; congruence).
    constructor; [| |apply EX|apply EX].
    - rewrite step_model by auto. unfold target_of. destruct (opt_target E o) as [k|]; auto. destruct (Nat.eqb_spec k i); [congruence|auto].
    - intros u MU. destruct (opt_target E o) as [k|] eqn:OT.
      + pose proof (step_effect E NL w o k OT) as [_ K _ _]. apply K; [apply (SO i u MU)|]. intros W. refine (SW i k (u_ref u) _ _ W); [congruence|exists u; auto].
      + destruct o as [|j o|j d|j name d|j name v|j|j text g|j|j g|j g cl sc ck|j n cl|j g dr cl|j f|j mi mask|j en|j gr gc gt gb gd gm]; cbn in OT; try discriminate; cbn [mstep]; auto.
        * destruct (copy_model E (mw_tabs w) (model E w j) f) as [ts m] eqn:R. apply (copy_effect E NL) in R; auto. destruct R as ((add & ->) & _). cbn. apply app_nth1. apply (SO i u MU).
        * destruct (copy_subset E (mw_tabs w) (model E w j) mi mask) as [ts [m|x]] eqn:R.
          -- apply (subset_effect E NL) in R; auto. destruct R as ((add & ->) & _). cbn. apply app_nth1. apply (SO i u MU).
          -- cbn. unfold copy_subset in R. destruct (units E (model E w j)); [|injection R as <- _; auto]. destruct (index_equals _ mi a); [|injection R as <- _; auto].
             destruct (m_utils (model E w j)) as [v|]; [destruct (index_equals _ mi (u_index v)); [discriminate|injection R as <- _; auto]|discriminate].
  Qed.
  Lemma same_trans w1 w2 w3 i : same_for w1 w2 i -> same_for w2 w3 i -> same_for w1 w3 i.
  Proof.
    intros [A1 A2 A3 A4] [B1 B2 B3 B4]. constructor; try congruence.
    - intros u H. rewrite B2, A2; auto. congruence.
    - intros n r I. rewrite B4 with (n := n), A4 with (n := n); auto. now rewrite A3.
  Qed.
  Lemma same_run (ops ops' : list mop) i : i < length (mw_models (mrun E start ops)) -> Forall (fun o => called_on o <> Some i) ops' ->
    same_for (mrun E start ops) (mrun E start (ops ++ ops')) i.
  Proof.
    revert ops. induction ops' as [|o ops' IH]; intros ops LT F0; [rewrite app_nil_r; constructor; auto|]. inversion F0; subst.
    assert (S1 : same_for (mrun E start ops) (mrun E start (ops ++ [o])) i).
    { rewrite mrun_app. apply same_step; auto; [apply run_separate, separate_new; auto|apply reach_own|apply lengths_agree]. }
    eapply same_trans; [exact S1|]. replace (ops ++ o :: ops') with ((ops ++ [o]) ++ ops') by (now rewrite <- app_assoc). apply IH; auto.
    rewrite mrun_app. eapply Nat.lt_le_trans; [exact LT|]. apply step_models_grow.
  Qed.

  (** equal for the model: equal results *)
  Lemma same_subs (h h' : exprs) (c : container) : (forall n r, In (n, r) (c_subs c) -> deref h' r = deref h r) ->
    subs_of h' c = subs_of h c /\ forall g, get_group h' c g = get_group h c g.
  Proof.
    intros H. split.
    - unfold subs_of. apply map_ext_in. intros r I. apply in_vals_ex in I. destruct I as [n I]. eauto.
    - intros g. unfold get_group. destruct (dget (c_subs c) g) as [r|] eqn:G; auto. f_equal. eapply H. eapply (dget_in String.eqb String.eqb_eq); eauto.
  Qed.
  Lemma same_valid (h h' : exprs) (c : container) (m : cm) group : (forall n r, In (n, r) (c_subs c) -> deref h' r = deref h r) -> validate E h' c m group = validate E h c m group.
  Proof. intros A4. destruct (same_subs _ _ _ A4) as [S1 S2]. unfold validate, validate_gen, symbols_to_check, itersimple, iterchained; rewrite S1; destruct group; [now rewrite S2|reflexivity]. Qed.
  Lemma same_result (w w' : mworld) i group clear : same_for w w' i -> table_ok E (mw_tabs w) (model E w i) -> table_ok E (mw_tabs w') (model E w' i) ->
    snd (run_utilities E (mheap E w') (mcont E w' i) (mw_tabs w') (model E w' i) group clear) = snd (run_utilities E (mheap E w) (mcont E w i) (mw_tabs w) (model E w i) group clear).
  Proof.
    intros [A1 A2 A3 A4] T1 T2. rewrite A1, A3. rewrite A1 in T2. set (m := model E w i) in *. set (c := mcont E w i) in *. destruct (same_subs _ _ _ A4) as [S1 S2].
    assert (SEL : selection (mheap E w') c group = selection (mheap E w) c group) by (unfold selection, itersimple, iter; rewrite S1; destruct group; [now rewrite S2|reflexivity]).
    assert (VAL : validate E (mheap E w') c m group = validate E (mheap E w) c m group) by (unfold validate, validate_gen, symbols_to_check, itersimple, iterchained; rewrite S1; destruct group; [now rewrite S2|reflexivity]).
    unfold run_utilities. rewrite SEL, VAL. destruct (validate E (mheap E w) c m group); auto. destruct (selection (mheap E w) c group) as [[simple xs]|]; auto.
    unfold evaluate. destruct (m_du m) as [d|] eqn:DU; auto. destruct (choices (m_tree m)) as [cols|] eqn:CH; auto. destruct (depth (m_tree m)) as [nl|]; auto.
    unfold partial_utilities. destruct (validate_tree (m_tree m)); auto. unfold units. rewrite DU, CH.
    destruct (shared_locals E (m_scope m) simple (base_locals E)) as [sh|]; [|destruct (m_utils m); auto].
    destruct (m_utils m) as [u|] eqn:MU.
    - unfold deref_tab. rewrite (A2 u eq_refl). destruct (eval_all E (m_scope m) nl cols sh (length (u_cols u)) (nth (u_ref u) (mw_tabs w) []) xs) as [t r] eqn:EV.
      destruct r; cbn [rbind]; auto. destruct (existsb (existsb is_nan) t); auto. destruct (guard _ _); cbn [rbind snd u_ref]; auto. f_equal.
      destruct (T1 u MU) as [L1 _]. destruct (T2 u MU) as [L2 _]. now rewrite !nth_upd_eq by auto.
    - unfold deref_tab. cbn [u_ref u_cols]. rewrite !app_nth2, !Nat.sub_diag by lia. cbn [nth].
      destruct (eval_all E (m_scope m) nl cols sh (length cols) (zeros (length d) (length cols)) xs) as [t r] eqn:EV.
      destruct r; cbn [rbind]; auto. destruct (existsb (existsb is_nan) t); auto. destruct (guard _ _); cbn [rbind snd u_ref]; auto. f_equal.
      rewrite !nth_upd_eq by (rewrite app_length; cbn; lia). auto.
  Qed.

  (** Take any reachable world and one of its models.  Calls on other models, and copying any model (this one
      included), leave it as it was: its choices, scope and decision units, its cached utilities, its expressions, and
      what every run of it gives. *)
  Theorem C56_isolated (ops ops' : list mop) i group clear :
    let w := mrun E start ops in let w' := mrun E start (ops ++ ops') in
    i < length (mw_models w) -> Forall (fun o => called_on o <> Some i) ops' ->
    model E w' i = model E w i /\
    (forall u, m_utils (model E w i) = Some u -> nth (u_ref u) (mw_tabs w') [] = nth (u_ref u) (mw_tabs w) []) /\
    (forall ng, iter (mheap E w') (mcont E w' i) ng = iter (mheap E w) (mcont E w i) ng) /\
    (forall g, get_group (mheap E w') (mcont E w' i) g = get_group (mheap E w) (mcont E w i) g) /\
    snd (run_utilities E (mheap E w') (mcont E w' i) (mw_tabs w') (model E w' i) group clear) =
    snd (run_utilities E (mheap E w) (mcont E w i) (mw_tabs w) (model E w i) group clear).
  Proof.
    intros w w' LT F0. pose proof (same_run ops ops' i LT F0) as S. fold w w' in S. pose proof S as [A1 A2 A3 A4]. destruct (same_subs _ _ _ A4) as [S1 S2].
    split; [exact A1|]. split; [exact A2|]. rewrite A3. split; [|split; [exact S2|]].
    - intros ng. unfold iter. now rewrite S1.
    - rewrite <- A3 at 1. apply same_result; auto; apply (table_ok_reachable E NL).
  Qed.
  Theorem C56_isolated_probabilities (ops ops' : list mop) i group clear scale check :
    let w := mrun E start ops in let w' := mrun E start (ops ++ ops') in
    i < length (mw_models w) -> Forall (fun o => called_on o <> Some i) ops' ->
    snd (run_stochastic E (mheap E w') (mcont E w' i) (mw_tabs w') (model E w' i) group clear scale check) =
    snd (run_stochastic E (mheap E w) (mcont E w i) (mw_tabs w) (model E w i) group clear scale check).
  Proof.
    intros w w' LT F0. destruct (C56_isolated ops ops' i group clear LT F0) as (A1 & _ & _ & _ & R). fold w w' in A1, R. unfold run_stochastic.
    destruct (run_utilities E (mheap E w') (mcont E w' i) (mw_tabs w') (model E w' i) group clear) as [[ts1 m1] r1] eqn:R1.
    destruct (run_utilities E (mheap E w) (mcont E w i) (mw_tabs w) (model E w i) group clear) as [[ts2 m2] r2] eqn:R2. cbn [snd] in R. subst r2.
    destruct r1 as [t|x]; auto. cbn [snd]. pose proof (run_touch E _ _ _ _ _ _ _ _ _ R1) as (T1 & _). pose proof (run_touch E _ _ _ _ _ _ _ _ _ R2) as (T2 & _). now rewrite T1, T2, A1.
  Qed.
  Theorem C56_isolated_discrete (ops ops' : list mop) i n clear :
    let w := mrun E start ops in let w' := mrun E start (ops ++ ops') in
    i < length (mw_models w) -> Forall (fun o => called_on o <> Some i) ops' ->
    snd (run_discrete_utilities E (mheap E w') (mcont E w' i) (mw_tabs w') (model E w' i) n clear) =
    snd (run_discrete_utilities E (mheap E w) (mcont E w i) (mw_tabs w) (model E w i) n clear).
  Proof.
    intros w w' LT F0. destruct (C56_isolated ops ops' i None clear LT F0) as (A1 & _ & _ & _ & R). fold w w' in A1, R.
    destruct (same_run ops ops' i LT F0) as [_ _ A3 A4]. fold w w' in A3, A4. unfold run_discrete_utilities.
    replace (validate E (mheap E w') (mcont E w' i) (model E w' i) None) with (validate E (mheap E w) (mcont E w i) (model E w i) None); [|rewrite A1, A3; symmetry; now apply same_valid].
    destruct (validate E (mheap E w) (mcont E w i) (model E w i) None); auto. destruct (n <? 1)%Z; auto.
  Qed.
End Isolation.
