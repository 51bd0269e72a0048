(** The utility tables of several models: each model has its own. *)
From Verif Require Import Prelude Arith CoreModel TreeModel DictProofs ParModel ExprModel SpecExpr ExprWorld ScopeModel SpecScope ModelModel ModelProofs SpecModel KernelProofs EvalProofs ModelWorld ModelHist.
Local Open Scope string_scope.
Local Open Scope nat_scope.
Local Open Scope list_scope.

Section Tabs.
  Context {L : Type} {F : arith} {D cell : Type} (E : env L F D cell).
  Notation num := (num F).
  Notation cm := (cm E).
  Notation mworld := (mworld E).
  Notation mop := (mop E).
  Notation table := (list (list num)).
  Notation tables := (list (list (list num))).
  Context (NL : numexpr_local E).
  Set Default Proof Using "Type*".

  Definition writes (m : cm) (ref : nat) : Prop := exists u, m_utils m = Some u /\ u_ref u = ref.
  Definition table_ok (ts : tables) (m : cm) : Prop := forall u, m_utils m = Some u ->
    u_ref u < length ts /\ rectangle (length (u_index u)) (length (u_cols u)) (nth (u_ref u) ts []).
  (** what a call on [m] does to the tables *)
  Record effect (ts : tables) (m : cm) (ts' : tables) (m' : cm) : Prop := Effect {
    ef_grow : length ts <= length ts';
    ef_keep : forall ref, ref < length ts -> ~ writes m ref -> nth ref ts' [] = nth ref ts [];
    ef_own : forall u', m_utils m' = Some u' -> writes m (u_ref u') \/ length ts <= u_ref u';
    ef_ok : table_ok ts m -> table_ok ts' m'
  }.
  Lemma effect_same ts (m m' : cm) : m_utils m' = m_utils m \/ m_utils m' = None -> effect ts m ts m'.
  Proof.
    intros H. constructor; auto.
    - intros u' Q. destruct H as [H|H]; [|congruence]. left. exists u'. split; auto. congruence.
    - intros T u' Q. destruct H as [H|H]; [|congruence]. apply T. congruence.
  Qed.
  (** changes that leave the cached table of the model alone *)
  Lemma effect_utils ts (m : cm) ts' m' m'' : effect ts m ts' m' -> m_utils m'' = m_utils m' -> effect ts m ts' m''.
  Proof. intros [A B C T] H. constructor; auto; [rewrite H; auto|]. intros O u Q. apply T; auto. congruence. Qed.

  Lemma eval_all_rect scope nl cols sh k : forall xs u t r, eval_all E scope nl cols sh k u xs = (t, r) -> rectangle (length u) k u -> rectangle (length u) k t.
  Proof.
    induction xs as [|x xs IH]; intros u t r H R; cbn in H; [injection H as <- _; auto|].
    destruct (eval_one E scope nl cols sh k u x) as [u'|e] eqn:Q; [|injection H as <- _; auto].
    unfold eval_one in Q. apply rbind_ok in Q. destruct Q as (col & _ & Q). apply rbind_ok in Q. destruct Q as (l & _ & Q).
    destruct (kernel_cell E NL _ _ _ _ _ _ Q R) as [R' _]. assert (LU : length u' = length u) by apply R'. rewrite <- LU in R'. apply IH in H; auto. now rewrite LU in H.
  Qed.

  Lemma evaluate_effect ts (m : cm) simple xs ts' m' r : evaluate E ts m simple xs = (ts', m', r) ->
    effect ts m ts' m' /\
    (forall u, r = Ok u -> exists u', m_utils m' = Some u' /\ u_ref u' = u_ref u /\
       (u_ref u' < length ts' -> length (nth (u_ref u) ts' []) = length (u_index u) /\ length (u_cols u') = length (u_cols u))).
  Proof.
    unfold evaluate. destruct (m_du m) as [d|] eqn:DU; [|intros H; injection H as <- <- <-; split; [apply effect_same; auto|discriminate]].
    destruct (choices (m_tree m)) as [cols|] eqn:CH; [|intros H; injection H as <- <- <-; split; [apply effect_same; auto|discriminate]].
    destruct (depth (m_tree m)) as [nl|]; [|intros H; injection H as <- <- <-; split; [apply effect_same; auto|discriminate]].
    destruct (partial_utilities E ts m) as [[ts1 m1] r1] eqn:P; apply partial_touch in P; destruct P as (_ & _ & _ & (add & TS) & P).
    destruct r1 as [u|x]; [|intros H; injection H as <- <- <-; destruct P as [-> ->]; split; [apply effect_same; auto|discriminate]]. destruct P as [MU P].
    assert (EF : effect ts m ts1 m1).
    { constructor.
      - rewrite TS, app_length. lia.
      - intros ref LT _. rewrite TS. now apply app_nth1.
      - intros u' Q. rewrite MU in Q. injection Q as <-. destruct P as [[P _]|(_ & d0 & c0 & _ & _ & -> & _)]; [left; exists u; auto|right; auto].
      - intros O u' Q. rewrite MU in Q. injection Q as <-. destruct P as [[P1 ->]|(_ & d0 & c0 & _ & _ & -> & ->)]; [apply O; auto|].
        cbn. rewrite app_length. cbn. split; [lia|]. rewrite app_nth2, Nat.sub_diag by lia. apply rect_repeat. }
    destruct (shared_locals E (m_scope m) simple (base_locals E)) as [sh|]; [|intros H; injection H as <- <- <-; split; [exact EF|discriminate]].
    destruct (eval_all E (m_scope m) nl cols sh (length (u_cols u)) (deref_tab ts1 (u_ref u)) xs) as [t r'] eqn:EV.
    intros H. injection H as <- <- <-. split.
    - destruct EF as [A B C T]. constructor.
      + rewrite upd_length. auto.
      + intros ref LT NW. rewrite nth_upd_neq; auto. intros <-. apply NW. destruct (C u MU) as [X|X]; auto. lia.
      + exact C.
      + intros O u' Q. rewrite MU in Q. injection Q as <-. destruct (T O u MU) as [LT R]. rewrite upd_length. split; auto.
        rewrite nth_upd_eq by auto. unfold deref_tab in EV. pose proof R as [R1 _]. rewrite <- R1 in R |- *. eapply eval_all_rect; eauto.
    - intros u0 Q. apply rbind_ok in Q. destruct Q as (_ & _ & Q). destruct (existsb _ t); [discriminate|]. apply rbind_ok in Q. destruct Q as (x & Q1 & Q). injection Q as <-.
      apply guard_ok in Q1. apply andb_true_iff in Q1. destruct Q1 as [Q1 Q2]. apply Nat.eqb_eq in Q1. apply Nat.eqb_eq in Q2.
      exists u. split; auto. split; auto. rewrite upd_length. intros LT. cbn. rewrite nth_upd_eq by auto. auto.
  Qed.

  Lemma run_effect h c ts (m : cm) g cl ts' m' r : run_utilities E h c ts m g cl = (ts', m', r) -> effect ts m ts' m'.
  Proof.
    unfold run_utilities. destruct (validate E h c m g); [|intros H; injection H as <- <- <-; apply effect_same; auto].
    destruct (selection h c g) as [[simple xs]|]; [|intros H; injection H as <- <- <-; apply effect_same; auto].
    destruct (evaluate E ts m simple xs) as [[ts1 m1] [u|x]] eqn:EV; apply evaluate_effect in EV; destruct EV as [EF _]; intros H; injection H as <- <- <-; auto.
    destruct cl; auto. eapply effect_utils; eauto.
  Qed.
  Lemma stochastic_effect h c ts (m : cm) g cl sc ck ts' m' r : run_stochastic E h c ts m g cl sc ck = (ts', m', r) -> effect ts m ts' m'.
  Proof.
    unfold run_stochastic. destruct (run_utilities E h c ts m g cl) as [[ts1 m1] r1] eqn:R. apply run_effect in R. destruct r1; intros H; injection H as <- <- <-; auto.
  Qed.
  Lemma discrete_effect h c ts (m : cm) n cl ts' m' r : run_discrete_utilities E h c ts m n cl = (ts', m', r) -> effect ts m ts' m'.
  Proof.
    unfold run_discrete_utilities. destruct (validate E h c m None); [|intros H; injection H as <- <- <-; apply effect_same; auto].
    destruct (n <? 1)%Z; [intros H; injection H as <- <- <-; apply effect_same; auto|]. apply run_effect.
  Qed.
  Lemma preval_effect h c ts (m : cm) g dr cl ts' c' m' r : preval E h c ts m g dr cl = (ts', c', m', r) -> effect ts m ts' m'.
  Proof.
    unfold preval. destruct (validate E h c m (Some g)); [|intros H; injection H as <- <- <- <-; apply effect_same; auto].
    destruct (get_group h c g) as [s|]; [|intros H; injection H as <- <- <- <-; apply effect_same; auto].
    destruct (evaluate E ts m (sg_simple s) (sg_exprs s)) as [[ts1 m1] r1] eqn:EV. apply evaluate_effect in EV. destruct EV as [EF EU].
    destruct r1 as [u|x]; [|intros H; injection H as <- <- <- <-; auto].
    destruct (if cl then _ else _) as [sc r2]. destruct (EU u eq_refl) as (u' & MU & RF & LN).
    assert (K : effect ts m ts1 (with_scope E (with_utils E m1 (Some u)) sc)).
    { destruct EF as [A B C T]. constructor; auto.
      - intros v Q. cbn in Q. injection Q as <-. rewrite <- RF. now apply C.
      - intros O v Q. cbn in Q. injection Q as <-. destruct (T O u' MU) as [LT [R1 R2]]. rewrite <- RF in *. destruct (LN LT) as [L1 L2]. split; auto. split; auto.
        rewrite Forall_forall in *. intros row I. rewrite (R2 row I). auto. }
    destruct r2; [|intros H; injection H as <- <- <- <-; auto].
    destruct dr; [destruct (drop_group c g)|]; intros H; injection H as <- <- <- <-; auto.
  Qed.

  Lemma give_effect ts (m : cm) rows cols cells rr rc out ts' m' : give E ts m rows cols cells rr rc out = (ts', m') -> effect ts m ts' m'.
  Proof.
    unfold give, add_partial_prepare. destruct (validate_tree (m_tree m)); [|intros H; injection H as <- <-; apply effect_same; auto]. destruct (units E m) as [d|]; [|intros H; injection H as <- <-; apply effect_same; auto].
    destruct (choices (m_tree m)) as [ch|]; [|intros H; injection H as <- <-; apply effect_same; auto]. destruct (add_axis E d rows rr) as [ri|]; [|intros H; injection H as <- <-; apply effect_same; auto].
    destruct (add_axis E (map (ev_label E) ch) cols rc) as [ci|]; [|intros H; injection H as <- <-; apply effect_same; auto].
    destruct (partial_utilities E ts m) as [[ts1 m1] r1] eqn:P. apply partial_touch in P. destruct P as (_ & _ & _ & (add & TS) & P).
    destruct r1 as [u|x]; [|intros H; injection H as <- <-; destruct P as [-> ->]; apply effect_same; auto]. destruct P as [MU P].
    assert (EF : effect ts m ts1 m1).
    { constructor.
      - rewrite TS, app_length. lia.
      - intros ref LT _. rewrite TS. now apply app_nth1.
      - intros u' Q. rewrite MU in Q. injection Q as <-. destruct P as [[P _]|(_ & d0 & c0 & _ & _ & -> & _)]; [left; exists u; auto|right; auto].
      - intros O u' Q. rewrite MU in Q. injection Q as <-. destruct P as [[P1 ->]|(_ & d0 & c0 & _ & _ & -> & ->)]; [apply O; auto|].
        cbn. rewrite app_length. cbn. split; [lia|]. rewrite app_nth2, Nat.sub_diag by lia. apply rect_repeat. }
    destruct (fast_indexed_add _ _ _ _ _ _ _); cbn [rbind]; intros H; injection H as <- <-; [|exact EF].
    destruct EF as [A B C T]. constructor.
    - rewrite upd_length. auto.
    - intros ref LT NW. rewrite nth_upd_neq; auto. intros <-. apply NW. destruct (C u MU) as [X|X]; auto. lia.
    - exact C.
    - intros O u' Q. rewrite MU in Q. injection Q as <-. destruct (T O u MU) as [LT R]. rewrite upd_length. split; auto.
      rewrite nth_upd_eq by auto. unfold deref_tab. destruct R as [R1 R2]. rewrite R1. unfold table_of. split; [now rewrite map_length, seq_length|].
      apply Forall_forall. intros row I. apply in_map_iff in I. destruct I as (z & <- & _). now rewrite map_length, seq_length.
  Qed.

  (** the effect of a call on the model it is made on *)
  Lemma step_effect w o i : opt_target E o = Some i -> effect (mw_tabs w) (model E w i) (mw_tabs (mstep E w o)) (step_result E w o).
  Proof.
    intros T. destruct o as [|k o|k d|k nm d|k nm v|k|k text g|k|k g|k g cl sc ck|k n cl|k g dr cl|k f|k mi mask|k en|k gr gc gt gb gd gm]; cbn in T; try discriminate; injection T as ->; cbn [mstep step_result].
    - destruct o; cbn; try (apply effect_same; auto; unfold tree_op; cbn [m_utils]; match goal with |- context[match ?x with _ => _ end] => destruct x; auto end).
    - apply effect_same; auto.
    - apply effect_same. left. unfold declare. destruct (reserved nm); auto. destruct (new_symbol E d); auto.
    - apply effect_same. left. unfold assign_symbol. destruct (dget _ _ nm); auto. destruct (assign _ _ _ _ _ v); auto.
    - apply effect_same; auto.
    - destruct (run_stochastic E (mheap E w) (mcont E w i) (mw_tabs w) (model E w i) g cl sc ck) as [[ts m] r] eqn:R. eapply stochastic_effect; eauto.
    - destruct (run_discrete_utilities E (mheap E w) (mcont E w i) (mw_tabs w) (model E w i) n cl) as [[ts m] r] eqn:R. eapply discrete_effect; eauto.
    - destruct (preval E (mheap E w) (mcont E w i) (mw_tabs w) (model E w i) g dr cl) as [[[ts c] m] r] eqn:R. eapply preval_effect; eauto.
    - apply effect_same. left. unfold empty_symbol. destruct (dget _ _ en); auto.
    - destruct (give E (mw_tabs w) (model E w i) gr gc gt gb gd gm) as [ts m] eqn:R. eapply give_effect; eauto.
  Qed.

  (** ** Every model has its own table *)
  Record separate (w : mworld) : Prop := Separate {
    sp_ok : forall i, table_ok (mw_tabs w) (model E w i);
    sp_own : forall i j ref, i <> j -> writes (model E w i) ref -> writes (model E w j) ref -> False
  }.
  Lemma separate_new : separate (new_mworld E).
  Proof. constructor; [intros [|i] u; discriminate|intros [|i] j ref _ (u & Q & _); discriminate]. Qed.

  Lemma model_out w i : length (mw_models w) <= i -> model E w i = new_cm E.
  Proof. intros H. unfold model. now apply nth_overflow. Qed.

  (** the new model of a copy *)
  Lemma copy_effect ts (m : cm) f ts' m' : copy_model E ts m f = (ts', m') -> table_ok ts m ->
    (exists add, ts' = ts ++ add) /\ (forall ref, writes m' ref -> length ts <= ref) /\ table_ok ts' m' /\
    (forall u, m_utils m = Some u -> cf_utils f = true -> exists u', m_utils m' = Some u' /\ u_index u' = u_index u /\ u_cols u' = u_cols u /\ nth (u_ref u') ts' [] = nth (u_ref u) ts []).
  Proof.
    unfold copy_model. intros H O. destruct (m_utils m) as [u|] eqn:MU; [destruct (cf_utils f)|]; injection H as <- <-.
    - split; [eexists; reflexivity|]. split; [intros ref (v & Q & <-); cbn in Q; injection Q as <-; cbn; auto|]. split.
      + intros v Q. cbn in Q. injection Q as <-. cbn. rewrite app_length. cbn. split; [lia|]. rewrite app_nth2, Nat.sub_diag by lia. cbn. apply O; auto.
      + intros v Q _. injection Q as <-. eexists. split; [reflexivity|]. cbn. split; auto. split; auto. rewrite app_nth2, Nat.sub_diag by lia. reflexivity.
    - split; [exists []; now rewrite app_nil_r|]. split; [intros ref (v & Q & _); discriminate|]. split; [intros v Q; discriminate|]. discriminate.
    - split; [exists []; now rewrite app_nil_r|]. split; [intros ref (v & Q & _); discriminate|]. split; [intros v Q; discriminate|]. discriminate.
  Qed.
  Lemma subset_effect ts (m : cm) mi mask ts' m' : copy_subset E ts m mi mask = (ts', Ok m') -> table_ok ts m ->
    (exists add, ts' = ts ++ add) /\ (forall ref, writes m' ref -> length ts <= ref) /\ table_ok ts' m'.
  Proof.
    unfold copy_subset. intros H O. destruct (units E m) as [d|]; [|discriminate]. destruct (index_equals _ mi d); [|discriminate].
    destruct (m_utils m) as [u|] eqn:MU; [destruct (index_equals _ mi (u_index u)); [|discriminate]|]; injection H as <- <-.
    - split; [eexists; reflexivity|]. split; [intros ref (v & Q & <-); cbn in Q; injection Q as <-; cbn; auto|].
      intros v Q. cbn in Q. injection Q as <-. cbn. rewrite app_length. cbn. split; [lia|]. rewrite app_nth2, Nat.sub_diag by lia. cbn.
      destruct (O u MU) as [_ R]. destruct (rect_keep mask _ _ _ R) as [R1 R2]. split; auto. unfold deref_tab. etransitivity; [exact R1|]. apply keep_length. now rewrite repeat_length.
    - split; [exists []; now rewrite app_nil_r|]. split; [intros ref (v & Q & _); discriminate|]. intros v Q; discriminate.
  Qed.

  Lemma ok_app ts add (m : cm) : table_ok ts m -> table_ok (ts ++ add) m.
  Proof. intros O u Q. destruct (O u Q) as [A B]. rewrite app_length. split; [lia|]. now rewrite app_nth1. Qed.
  Lemma separate_add w ts' m' e' : separate w -> (exists add, ts' = mw_tabs w ++ add) -> (forall ref, writes m' ref -> length (mw_tabs w) <= ref) -> table_ok ts' m' ->
    separate (MWorld e' ts' (mw_models w ++ [m'])).
  Proof.
    intros [O S] (add & TS) FR OK. set (w' := MWorld e' ts' (mw_models w ++ [m'])).
    assert (MOD : forall i, model E w' i = if i =? length (mw_models w) then m' else model E w i).
    { intros i. unfold model, w'. cbn. destruct (Nat.eqb_spec i (length (mw_models w))) as [->|N]; [rewrite app_nth2, Nat.sub_diag by lia; reflexivity|].
      destruct (lt_dec i (length (mw_models w))); [now apply app_nth1|]. rewrite !nth_overflow; auto; [lia|]. rewrite app_length. cbn. lia. }
    constructor.
    - intros i. rewrite MOD. destruct (i =? length (mw_models w)); [exact OK|]. cbn. rewrite TS. apply ok_app, O.
    - intros i j ref N W1 W2. rewrite MOD in W1, W2.
      assert (BD : forall k, writes (model E w k) ref -> ref < length (mw_tabs w)) by (intros k (u & Q & <-); apply (O k u Q)).
      destruct (Nat.eqb_spec i (length (mw_models w))), (Nat.eqb_spec j (length (mw_models w))); try lia.
      + apply FR in W1. apply BD in W2. lia.
      + apply FR in W2. apply BD in W1. lia.
      + exact (S i j ref N W1 W2).
  Qed.

  Lemma step_separate w o : separate w -> separate (mstep E w o).
  Proof.
    intros SP. pose proof SP as [O S]. destruct (opt_target E o) as [k|] eqn:TG.
    - pose proof (step_effect w o k TG) as [G K W T].
      assert (LEN : length (mw_models (mstep E w o)) = length (mw_models w)).
      { destruct o; cbn in TG; try discriminate; cbn [mstep]; try (cbn; now rewrite upd_length).
        - destruct o; cbn; rewrite ?upd_length; auto.
        - destruct (run_stochastic _ _ _ _ _ _ _ _ _) as [[ts m] r]. cbn. now rewrite upd_length.
        - destruct (run_discrete_utilities _ _ _ _ _ _ _) as [[ts m] r]. cbn. now rewrite upd_length.
        - destruct (preval _ _ _ _ _ _ _ _) as [[[ts c] m] r]. cbn. now rewrite upd_length.
        - destruct (give _ _ _ _ _ _ _ _ _) as [ts m]. cbn. now rewrite upd_length. }
      assert (MOD : forall i, model E (mstep E w o) i = model E w i \/ (i = k /\ model E (mstep E w o) i = step_result E w o)).
      { intros i. destruct (lt_dec i (length (mw_models w))) as [LT|GE].
        - rewrite step_model by auto. unfold target_of. rewrite TG. destruct (Nat.eqb_spec k i); auto.
        - left. rewrite !model_out; auto; lia. }
      assert (BD : forall i ref, writes (model E w i) ref -> ref < length (mw_tabs w)) by (intros i ref (u & Q & <-); apply (O i u Q)).
      assert (WM : forall i ref, writes (model E (mstep E w o) i) ref -> writes (model E w i) ref \/ (i = k /\ (writes (model E w k) ref \/ length (mw_tabs w) <= ref))).
      { intros i ref Q. destruct (MOD i) as [X|[-> X]]; rewrite X in Q; auto. right. split; auto. destruct Q as (u & Q & <-). now apply W. }
      constructor.
      + intros i. destruct (MOD i) as [X|[-> X]]; [|rewrite X; apply T, O]. destruct (Nat.eq_dec i k) as [->|N].
        * (* unchanged target *)
          intros u Q. rewrite X in Q. destruct (O k u Q) as [A B].
          destruct (lt_dec k (length (mw_models w))) as [LT|GE]; [|rewrite model_out in Q by lia; discriminate].
          pose proof (step_model E w o k LT) as SM. unfold target_of in SM. rewrite TG, Nat.eqb_refl in SM. apply T; [apply O|congruence].
        * intros u Q. rewrite X in Q. destruct (O i u Q) as [A B]. split; [lia|]. rewrite K; auto. intros WK. apply (S i k (u_ref u) N); auto. exists u; auto.
      + intros i j ref N W1 W2. apply WM in W1. apply WM in W2. destruct W1 as [W1|[-> [W1|W1]]], W2 as [W2|[EQ [W2|W2]]]; subst; try lia; try (eapply S; eassumption); try (now apply (S i k ref)); try (now apply (S k j ref)).
        * apply BD in W1. lia.
        * apply BD in W2. lia.
    - destruct o as [|k o|k d|k nm d|k nm v|k|k text g|k|k g|k g cl sc ck|k n cl|k g dr cl|k f|k mi mask|k en|k gr gc gt gb gd gm]; cbn in TG; try discriminate; cbn [mstep];
        try (constructor; [exact O|exact S]).
      + apply separate_add; auto; [exists []; now rewrite app_nil_r|intros ref (u & Q & _); discriminate|intros u Q; discriminate].
      + destruct (copy_model E (mw_tabs w) (model E w k) f) as [ts m] eqn:R. apply copy_effect in R; auto. destruct R as (A & B & C & _). apply separate_add; auto.
      + destruct (copy_subset E (mw_tabs w) (model E w k) mi mask) as [ts [m|x]] eqn:R.
        * apply subset_effect in R; auto. destruct R as (A & B & C). apply separate_add; auto.
        * assert (Q : ts = mw_tabs w).
          { unfold copy_subset in R. destruct (units E (model E w k)); [|injection R as <- _; auto]. destruct (index_equals _ mi a); [|injection R as <- _; auto].
            destruct (m_utils (model E w k)); [destruct (index_equals _ mi (u_index u)); [discriminate|injection R as <- _; auto]|discriminate]. }
          subst ts. constructor; [exact O|exact S].
  Qed.
  Lemma run_separate : forall ops w, separate w -> separate (mrun E w ops).
  Proof. induction ops as [|o ops IH]; intros w S; [exact S|]. cbn. apply IH. now apply step_separate. Qed.
End Tabs.
