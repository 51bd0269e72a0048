(** C107: utilities that have become NaN. *)
From Flocq Require Import IEEE754.Binary IEEE754.BinarySingleNaN.
From Verif Require Import Prelude Arith CoreModel TreeModel DictProofs TreeProofs ParModel ParProofs PropParallel PropLost ExprModel SpecExpr ExprWorld ScopeModel SpecScope ScopeProofs ModelModel ModelProofs SpecModel KernelProofs EvalProofs ModelExample PropState ModelWorld ModelHist ModelTabs RunProofs PropUtility PropRerun PropStale PropFailed PropExternal SpecExternal.
Local Open Scope string_scope.
Local Open Scope nat_scope.
Local Open Scope list_scope.

(** sums with a NaN are NaN (true of IEEE arithmetic, below) *)
Definition nan_absorbs (F : arith) : Prop := forall x y : num F, is_nan x = true -> is_nan (nadd F x y) = true.

Section Poison.
  Context {L : Type} {F : arith} {D cell : Type} (E : env L F D cell).
  Notation num := (num F).
  Notation cm := (cm E).
  Notation mworld := (mworld E).
  Notation mop := (mop E).
  Notation start := (new_mworld E).
  Notation tables := (list (list (list num))).

  Definition poisoned (ts : tables) (m : cm) : Prop := exists u r c, m_utils m = Some u /\
    r < length (u_index u) /\ c < length (u_cols u) /\ is_nan (tcell (nth (u_ref u) ts []) r c) = true.
  Definition adds_choices (i : nat) (o : mop) : Prop :=
    match o with MTree _ j (AddChoice _ _) | MTree _ j (AddChoices _ _ _) => j = i | _ => False end.

  Context (NL : numexpr_local E) (NA : nan_absorbs F) (G : generator F).

  Lemma eval_all_nan scope nl cols sh k r c : forall xs u t res, eval_all E scope nl cols sh k u xs = (t, res) -> rectangle (length u) k u ->
    r < length u -> c < k -> is_nan (tcell u r c) = true -> is_nan (tcell t r c) = true.
  Proof.
    induction xs as [|x xs IH]; intros u t res H R Hr Hc N; cbn in H; [injection H as <- _; auto|].
    destruct (eval_one E scope nl cols sh k u x) as [u'|e] eqn:Q; [|injection H as <- _; auto].
    unfold eval_one in Q. apply rbind_ok in Q. destruct Q as (col & _ & Q). apply rbind_ok in Q. destruct Q as (l & _ & Q).
    destruct (kernel_cell E NL _ _ _ _ _ _ Q R) as (R' & _ & _ & K). assert (LU : length u' = length u) by apply R'. rewrite <- LU in R', Hr.
    eapply IH; eauto. specialize (K r c). rewrite <- LU in K. specialize (K Hr Hc). destruct (in_column col c); [|now rewrite K]. destruct K as (v & _ & ->). now apply NA.
  Qed.

  Lemma evaluate_poisoned ts (m : cm) simple xs ts' m' r : evaluate E ts m simple xs = (ts', m', r) -> table_ok E ts m -> poisoned ts m ->
    poisoned ts' m' /\ exists x, r = Err x.
  Proof.
    intros H TO (u & r0 & c0 & MU & Hr & Hc & N). assert (P0 : poisoned ts m) by (exists u, r0, c0; auto). unfold evaluate in H.
    destruct (m_du m) as [d|]; [|injection H as <- <- <-; eauto]. destruct (choices (m_tree m)) as [cols|]; [|injection H as <- <- <-; eauto].
    destruct (depth (m_tree m)) as [nl|]; [|injection H as <- <- <-; eauto].
    destruct (partial_utilities E ts m) as [[ts1 m1] r1] eqn:P. apply partial_touch in P. destruct P as (_ & _ & _ & _ & P).
    destruct r1 as [v|x]; [|destruct P as [-> ->]; injection H as <- <- <-; eauto]. destruct P as [MV [[Q ->]|[Q _]]]; [|congruence].
    assert (v = u) by congruence. subst v. destruct (TO u MU) as [LT R].
    assert (P1 : poisoned ts m1) by (exists u, r0, c0; auto).
    destruct (shared_locals E (m_scope m) simple (base_locals E)) as [sh|]; [|injection H as <- <- <-; eauto].
    destruct (eval_all E (m_scope m) nl cols sh (length (u_cols u)) (deref_tab ts (u_ref u)) xs) as [t rr] eqn:EA. injection H as <- <- H.
    unfold deref_tab in EA. assert (LU : length (nth (u_ref u) ts []) = length (u_index u)) by apply R. pose proof EA as EB. rewrite <- LU in R, Hr.
    apply (eval_all_nan _ _ _ _ _ r0 c0) in EB; auto. apply (eval_all_rect E NL) in EA; auto. split.
    - exists u, r0, c0. rewrite <- LU. split; auto. split; auto. split; auto. now rewrite nth_upd_eq.
    - destruct rr as [[]|e]; cbn in H; [|exists e; auto]. exists UtilityBounds. rewrite <- H.
      replace (existsb (existsb is_nan) t) with true; auto. symmetry. change (has_nan t = true). apply (has_nan_cell t _ _ EA). exists r0, c0. auto.
  Qed.
  Lemma run_poisoned h c ts (m : cm) g cl ts' m' r : run_utilities E h c ts m g cl = (ts', m', r) -> table_ok E ts m -> poisoned ts m ->
    poisoned ts' m' /\ exists x, r = Err x.
  Proof.
    intros H TO P. unfold run_utilities in H. destruct (validate E h c m g); [|injection H as <- <- <-; eauto].
    destruct (selection h c g) as [[simple xs]|]; [|injection H as <- <- <-; eauto].
    destruct (evaluate E ts m simple xs) as [[ts1 m1] r1] eqn:EV. apply evaluate_poisoned in EV; auto. destruct EV as (A & y & ->). injection H as <- <- <-. eauto.
  Qed.
  Lemma stochastic_poisoned h c ts (m : cm) g cl sc ck ts' m' r : run_stochastic E h c ts m g cl sc ck = (ts', m', r) -> table_ok E ts m -> poisoned ts m ->
    poisoned ts' m' /\ exists x, r = Err x.
  Proof.
    intros H TO P. unfold run_stochastic in H. destruct (run_utilities E h c ts m g cl) as [[ts1 m1] r1] eqn:R. apply run_poisoned in R; auto.
    destruct R as (A & y & ->). injection H as <- <- <-. eauto.
  Qed.
  Lemma discrete_poisoned h c ts (m : cm) n cl ts' m' r : run_discrete_utilities E h c ts m n cl = (ts', m', r) -> table_ok E ts m -> poisoned ts m ->
    poisoned ts' m' /\ exists x, r = Err x.
  Proof.
    intros H TO P. unfold run_discrete_utilities in H. destruct (validate E h c m None); [|injection H as <- <- <-; eauto].
    destruct (n <? 1)%Z; [injection H as <- <- <-; eauto|]. eapply run_poisoned; eauto.
  Qed.
  Lemma preval_poisoned h c ts (m : cm) g dr cl ts' c' m' r : preval E h c ts m g dr cl = (ts', c', m', r) -> table_ok E ts m -> poisoned ts m ->
    poisoned ts' m' /\ exists x, r = Err x.
  Proof.
    intros H TO P. unfold preval in H. destruct (validate E h c m (Some g)); [|injection H as <- <- <- <-; eauto].
    destruct (get_group h c g) as [s|]; [|injection H as <- <- <- <-; eauto].
    destruct (evaluate E ts m (sg_simple s) (sg_exprs s)) as [[ts1 m1] r1] eqn:EV. apply evaluate_poisoned in EV; auto. destruct EV as (A & y & ->). injection H as <- <- <- <-. eauto.
  Qed.

  Lemma keep_cached (m : cm) o u : (match o with AddChoice _ _ | AddChoices _ _ _ => False | _ => True end) -> m_utils m = Some u -> m_utils (tree_op E m o) = Some u.
  Proof.
    intros H MU. unfold tree_op. cbn [m_utils]. rewrite MU. cbn [option_map].
    assert (K : t_cached (run_op F (set_cached (m_tree m) (Some (u_cols u))) o) = Some (u_cols u)); [|now rewrite K].
    destruct o; try contradiction; cbn [run_op].
    - set (t0 := set_cached (m_tree m) (Some (u_cols u))). assert (Q : t_cached (fst (create_node F t0 name scale (Some p))) = Some (u_cols u)).
      { unfold create_node, new_node. destruct (dmem _ _ _); destruct (andb _ _); reflexivity. }
      unfold node_add_choice. destruct (create_node F t0 name scale (Some p)) as [t' [id|x]]; exact Q.
    - unfold set_scale. repeat (match goal with |- context [match ?x with _ => _ end] => destruct x end; cbn [fst t_cached set_cached]; auto).
    - unfold TreeModel.partial_utilities. repeat (match goal with |- context [match ?x with _ => _ end] => destruct x end; cbn [fst t_cached set_cached]; auto).
  Qed.

  Lemma poison_same ts (m m' : cm) : m_utils m' = m_utils m -> poisoned ts m -> poisoned ts m'.
  Proof using Type. intros Q (u & r & c & A & B). exists u, r, c. rewrite Q. auto. Qed.

  Lemma add_partial_poisoned ts (m : cm) rows cols cells rr rc ts' m' r : add_partial E G ts m rows cols cells rr rc ts' m' r ->
    table_ok E ts m -> poisoned ts m -> poisoned ts' m'.
  Proof.
    intros H TO (u & r0 & c0 & MU & Hr & Hc & N). destruct (TO u MU) as [LT [RL RW]].
    assert (PT : forall ts1 m1 q, partial_utilities E ts m = (ts1, m1, q) -> ts1 = ts /\ m_utils m1 = Some u /\ forall v, q = Ok v -> v = u).
    { intros ts1 m1 q P. apply partial_touch in P. destruct P as (_ & _ & _ & _ & P). destruct q as [v|x].
      - destruct P as [MV [[Q ->]|[Q _]]]; [|congruence]. split; auto. split; [congruence|]. intros w X. congruence.
      - destruct P as [-> ->]. split; auto. split; auto. discriminate. }
    inversion H as [ts1 m1 x PR|ts1 m1 v [ri ci] n task rr0 mem' e PR PF]; subst; clear H; unfold add_partial_prepare in PR;
      (destruct (validate_tree (m_tree m)) as [[]|]; [|first [discriminate PR | injection PR; intros; subst; exists u, r0, c0; now auto]]);
      (destruct (units E m) as [d|]; [|first [discriminate PR | injection PR; intros; subst; exists u, r0, c0; now auto]]);
      (destruct (choices (m_tree m)) as [ch|]; [|first [discriminate PR | injection PR; intros; subst; exists u, r0, c0; now auto]]);
      (destruct (add_axis E d rows rr) as [ri0|]; [|first [discriminate PR | injection PR; intros; subst; exists u, r0, c0; now auto]]);
      (destruct (add_axis E (map (ev_label E) ch) cols rc) as [ci0|]; [|first [discriminate PR | injection PR; intros; subst; exists u, r0, c0; now auto]]);
      (destruct (partial_utilities E ts m) as [[ts2 m2] [v0|y]] eqn:P; destruct (PT _ _ _ eq_refl) as (-> & MV & Q)).
    - injection PR as <- <- _. exists u, r0, c0. auto.
    - injection PR as <- <-. exists u, r0, c0. auto.
    - specialize (Q v0 eq_refl). subst v0.
      destruct (fast_indexed_add F (length (deref_tab ts (u_ref u))) (length (u_cols u)) cells (length cols) ri0 ci0) as [[n0 task0]|] eqn:FA; [|discriminate PR].
      cbn [rbind] in PR. injection PR as <- <- <- <- <- <- <-.
      assert (PF' := PF). unfold deref_tab in *.
      destruct (C23_any_schedule F G _ _ _ _ _ _ _ _ (fun a b => tcell (nth (u_ref u) ts []) a b) _ _ _ _ FA (fun a b => eq_refl) PF') as [_ C].
      destruct (C r0 c0) as (l & _ & _ & _ & V).
      exists u, r0, c0. do 3 (split; [now auto|]). rewrite nth_upd_eq by auto.
      assert (TC : tcell (table_of (length (nth (u_ref u) ts [])) (length (u_cols u)) mem') r0 c0 = match mem' (COut r0 c0) with VN x => x | VI _ => nzero F end) by (apply table_of_cell; lia).
      rewrite TC, V. clear - N NA. revert N. generalize (tcell (nth (u_ref u) ts []) r0 c0). induction l as [|off l IH]; intros x Nx; cbn; auto.
    - discriminate PR.
  Qed.
  Lemma step_poisoned (w : mworld) o i : separate E w -> real_outcome E G w o -> i < length (mw_models w) -> ~ adds_choices i o ->
    poisoned (mw_tabs w) (model E w i) -> poisoned (mw_tabs (mstep E w o)) (model E (mstep E w o) i).
  Proof.
    intros [O S] RO LT NC P. pose proof P as (u & r0 & c0 & MU & Hr & Hc & N). destruct (O i u MU) as [LR RR].
    assert (OTH : forall ts, nth (u_ref u) ts [] = nth (u_ref u) (mw_tabs w) [] -> poisoned ts (model E w i)).
    { intros ts Q. exists u, r0, c0. rewrite Q. auto. }
    rewrite step_model by auto. unfold target_of. destruct (opt_target E o) as [k|] eqn:TG.
    - destruct (Nat.eqb_spec k i) as [->|NE].
      + destruct o as [|k o|k d|k nm d|k nm v|k|k text g|k|k g|k g cl sc ck|k n cl|k g dr cl|k f|k mi mask|k en|k gr gc gt gb gd gm]; cbn in TG; try discriminate; injection TG as ->; cbn [mstep step_result].
        * destruct o; try (exfalso; apply NC; reflexivity); cbn [set_model mw_tabs]; try exact P; (apply (poison_same _ (model E w i)); auto; rewrite MU; apply (keep_cached _ _ u); auto; exact I).
        * exact P.
        * apply (poison_same _ (model E w i)); auto. unfold declare. destruct (reserved nm); auto. destruct (new_symbol E d); auto.
        * apply (poison_same _ (model E w i)); auto. unfold assign_symbol. destruct (dget _ _ nm); auto. destruct (assign _ _ _ _ _ v); auto.
        * exact P.
        * destruct (run_stochastic E (mheap E w) (mcont E w i) (mw_tabs w) (model E w i) g cl sc ck) as [[ts m] r] eqn:R. apply stochastic_poisoned in R; auto. apply R.
        * destruct (run_discrete_utilities E (mheap E w) (mcont E w i) (mw_tabs w) (model E w i) n cl) as [[ts m] r] eqn:R. apply discrete_poisoned in R; auto. apply R.
        * destruct (preval E (mheap E w) (mcont E w i) (mw_tabs w) (model E w i) g dr cl) as [[[ts c] m] r] eqn:R. apply preval_poisoned in R; auto. apply R.
        * apply (poison_same _ (model E w i)); auto. unfold empty_symbol. destruct (dget _ _ en); auto.
        * cbn [real_outcome] in RO. destruct (give E (mw_tabs w) (model E w i) gr gc gt gb gd gm) as [ts m]. destruct RO as [r RO]. cbn [fst snd set_model mw_tabs] in *.
          eapply add_partial_poisoned; eauto.
      + apply OTH. apply (ef_keep E _ _ _ _ (step_effect E NL w o k TG)); auto. intros WK. apply (S i k (u_ref u)); auto. exists u; auto.
    - destruct o as [|k o|k d|k nm d|k nm v|k|k text g|k|k g|k g cl sc ck|k n cl|k g dr cl|k f|k mi mask|k en|k gr gc gt gb gd gm]; cbn in TG; try discriminate; cbn [mstep]; try exact P.
      + destruct (copy_model E (mw_tabs w) (model E w k) f) as [ts m] eqn:R. apply (copy_effect E) in R; auto. destruct R as ((add & ->) & _). apply OTH. cbn. now apply app_nth1.
      + destruct (copy_subset E (mw_tabs w) (model E w k) mi mask) as [ts [m|x]] eqn:R.
        * apply (subset_effect E) in R; auto. destruct R as ((add & ->) & _). apply OTH. cbn. now apply app_nth1.
        * apply OTH. cbn. unfold copy_subset in R. destruct (units E (model E w k)); [|injection R as <- _; auto]. destruct (index_equals _ mi a); [|injection R as <- _; auto].
          destruct (m_utils (model E w k)); [destruct (index_equals _ mi (u_index u0)); [discriminate|injection R as <- _; auto]|discriminate].
  Qed.

  (** Once the utilities that a reachable model keeps contain a NaN, no run and no pre-evaluation on it succeeds any more,
      whatever is assigned, replaced or cleared, until choices are added to it at the top. *)
  Theorem C107_never_recovers (ops mid : list mop) i :
    let w := mrun E start ops in let w' := mrun E w mid in
    i < length (mw_models w) -> poisoned (mw_tabs w) (model E w i) -> real_history E G w mid ->
    Forall (fun o => ~ adds_choices i o) mid ->
    (forall group clear scale check, exists x, snd (run_stochastic E (mheap E w') (mcont E w' i) (mw_tabs w') (model E w' i) group clear scale check) = Err x) /\
    (forall n clear, exists x, snd (run_discrete_utilities E (mheap E w') (mcont E w' i) (mw_tabs w') (model E w' i) n clear) = Err x) /\
    (forall g drop cleanup, exists x, snd (preval E (mheap E w') (mcont E w' i) (mw_tabs w') (model E w' i) g drop cleanup) = Err x).
  Proof.
    intros w w' LT P RH HM. assert (SP : separate E w) by (apply (run_separate E NL ops start); apply separate_new; auto).
    assert (Q : separate E w' /\ poisoned (mw_tabs w') (model E w' i)).
    { unfold w'. clear w'. clearbody w. revert w LT P SP RH. induction mid as [|o mid' IH]; intros w LT P SP RH; [auto|]. inversion_clear HM as [|? ? Ho HM']. destruct RH as [RO RH]. cbn [mrun fold_left]. apply IH; auto.
      - pose proof (step_models_grow E w o). lia.
      - now apply step_poisoned.
      - now apply (step_separate E NL). }
    destruct Q as [[O _] PW]. specialize (O i). split; [|split].
    - intros g cl sc ck. destruct (run_stochastic E (mheap E w') (mcont E w' i) (mw_tabs w') (model E w' i) g cl sc ck) as [[ts m] r] eqn:R. apply stochastic_poisoned in R; auto. apply R.
    - intros n cl. destruct (run_discrete_utilities E (mheap E w') (mcont E w' i) (mw_tabs w') (model E w' i) n cl) as [[ts m] r] eqn:R. apply discrete_poisoned in R; auto. apply R.
    - intros g dr cl. destruct (preval E (mheap E w') (mcont E w' i) (mw_tabs w') (model E w' i) g dr cl) as [[[ts c] m] r] eqn:R. apply preval_poisoned in R; auto. apply R.
  Qed.
End Poison.

Theorem B64_nan_absorbs fexp flog : nan_absorbs (B64 fexp flog).
Proof.
  intros x y N. unfold ModelModel.is_nan in *. cbn [neqb nadd B64] in *. unfold f64_eq in *. apply negb_true_iff in N. apply negb_true_iff.
  destruct x as [s|s| |s m e B]; try discriminate.
  - destruct s; discriminate.
  - destruct y as [s|s| |s m e B]; reflexivity.
  - rewrite Beqb_refl in N. discriminate.
Qed.

(** "When a run reports utilities out of bounds (NaN), removing the cause lets the next run succeed." *)
Definition nan_world := mrun idE (new_mworld idE) (two_choices (fun x => x) (fun x => x) ++ [MAppend idE 0 "x" None; MAppend idE 0 "NAN" None]).
Definition corrected : list (mop idE) := [MClearExprs idE 0; MAppend idE 0 "x" None].
Theorem C107_correcting_the_cause_refuted :
  let U := fun w => futilities (fun x => x) (fun x => x) w None in
  U nan_world = Err UtilityBounds /\
  (* corrected before a run: fine; after a run: never again *)
  U (mrun idE nan_world corrected) = Ok [[sfz 3; sfz 3]; [sfz 5; sfz 5]] /\
  U (mrun idE nan_world (MStochastic idE 0 None true false true :: corrected)) = Err UtilityBounds /\
  (* adding a choice drops the kept table *)
  U (mrun idE nan_world (MStochastic idE 0 None true false true :: corrected ++ [MTree idE 0 (@AddChoice (B64 (fun x => x) (fun x => x)) "C" (flz 1))])) = Ok [[sfz 3; sfz 3; sfz 3]; [sfz 5; sfz 5; sfz 5]].
Proof. vm_compute. exact (conj eq_refl (conj eq_refl (conj eq_refl eq_refl))). Qed.

(** the hypotheses of the theorem hold there *)
Example C107_hypotheses_met :
  let w := mstep idE nan_world (MStochastic idE 0 None true false true) in
  length (mw_models w) = 1 /\
  match m_utils (model idE w 0) with
  | Some u => andb (0 <? length (u_index u)) (andb (0 <? length (u_cols u)) (ModelModel.is_nan (tcell (nth (u_ref u) (mw_tabs w) []) 0 0)))
  | None => false
  end = true.
Proof. vm_compute. exact (conj eq_refl eq_refl). Qed.

Print Assumptions C107_never_recovers.
Print Assumptions B64_nan_absorbs.
Print Assumptions C107_correcting_the_cause_refuted.
