(** More invariants of histories on several models: the names of a scope are distinct, groups belong to one
    container, the symbol sets of containers that were not copied. *)
From Verif Require Import Prelude Arith CoreModel TreeModel DictProofs ParModel ExprModel SpecExpr ExprWorld ScopeModel SpecScope ModelModel ModelProofs SpecModel KernelProofs ModelWorld.
Local Open Scope string_scope.
Local Open Scope nat_scope.
Local Open Scope list_scope.

Section Inv.
  Context {L : Type} {F : arith} {D cell : Type} (E : env L F D cell).
  Notation FR := (ev_frames E).
  Notation symbol := (symbol (num:=num F) FR).
  Notation cm := (cm E).
  Notation mworld := (mworld E).
  Notation mop := (mop E).

  (** ** Scopes are dictionaries *)
  Definition keyed (m : cm) : Prop := NoDup (dkeys (m_scope m)).
  Lemma del_symbols_keyed : forall l (s s' : dict string symbol) r, del_symbols E s l = (s', r) -> NoDup (dkeys s) -> NoDup (dkeys s').
  Proof.
    induction l as [|x l IH]; intros s s' r H N; simpl in H; [injection H as <- <-; auto|]. destruct (dmem String.eqb s x); [|injection H as <- <-; auto].
    eapply IH; eauto. now apply (ddel_keys_nodup String.eqb String.eqb_eq).
  Qed.
  Lemma del_symbols_get : forall l (s s' : dict string symbol) r, NoDup (dkeys s) -> del_symbols E s l = (s', r) ->
    (forall x v, dget String.eqb s' x = Some v -> dget String.eqb s x = Some v) /\
    (forall x, ~ In x l -> dget String.eqb s' x = dget String.eqb s x) /\
    (r = Ok tt -> forall x, In x l -> dget String.eqb s' x = None).
  Proof.
    induction l as [|x l IH]; intros s s' r N H; simpl in H; [injection H as <- <-; repeat split; auto; intros _ x []|].
    assert (DG : forall y, dget String.eqb (ddel String.eqb s x) y = if String.eqb y x then None else dget String.eqb s y).
    { intros y. destruct (String.eqb_spec y x) as [->|NE].
      - apply (dget_none String.eqb String.eqb_eq). now apply (ddel_key_gone String.eqb String.eqb_eq).
      - destruct (dget String.eqb s y) as [v|] eqn:G.
        + apply (in_dget String.eqb String.eqb_eq); [now apply (ddel_keys_nodup String.eqb String.eqb_eq)|]. apply (in_ddel String.eqb String.eqb_eq); auto.
          split; auto. now apply (dget_in String.eqb String.eqb_eq).
        + apply (dget_none String.eqb String.eqb_eq) in G. apply (dget_none String.eqb String.eqb_eq). intros I. apply G. apply in_keys_ex in I. destruct I as [v I].
          apply (in_ddel String.eqb String.eqb_eq) in I; auto. eapply in_keys. apply I. }
    destruct (dmem String.eqb s x) eqn:M.
    - apply IH in H; [|now apply (ddel_keys_nodup String.eqb String.eqb_eq)]. destruct H as (A & B & C). split; [|split].
      + intros y v G. apply A in G. rewrite DG in G. destruct (String.eqb y x); [discriminate|auto].
      + intros y NI. rewrite B by (simpl in NI; tauto). rewrite DG. destruct (String.eqb_spec y x); auto. subst. simpl in NI. tauto.
      + intros R y I. destruct (in_dec string_dec y l) as [J|J]; [now apply C|]. destruct I as [->|I]; [|contradiction]. rewrite B by auto. rewrite DG, String.eqb_refl. reflexivity.
    - injection H as <- <-. repeat split; auto. discriminate.
  Qed.
  (** the scope after preval is the old one, or what the deletion left *)
  Lemma preval_scope h c ts (m : cm) g dr cl ts' c' m' r : preval E h c ts m g dr cl = (ts', c', m', r) ->
    m_scope m' = m_scope m \/ exists l r', del_symbols E (m_scope m) l = (m_scope m', r').
  Proof.
    unfold preval. destruct (validate E h c m (Some g)); [|intros H; injection H as <- <- <- <-; auto].
    destruct (get_group h c g) as [s|]; [|intros H; injection H as <- <- <- <-; auto].
    destruct (evaluate E ts m (sg_simple s) (sg_exprs s)) as [[ts1 m1] r1] eqn:EV. apply evaluate_touch in EV. destruct EV as (A & B & C).
    destruct r1 as [u|x]; [|intros H; injection H as <- <- <- <-; auto].
    cbn [m_scope with_utils]. destruct (if cl then del_symbols E (m_scope m1) (symbols_to_clear h c s) else (m_scope m1, Ok tt)) as [sc r2] eqn:DS.
    assert (I : sc = m_scope m \/ exists l r', del_symbols E (m_scope m) l = (sc, r')).
    { destruct cl; [right; exists (symbols_to_clear h c s), r2; now rewrite <- B|]. injection DS as <- <-. auto. }
    destruct r2; [|intros H; injection H as <- <- <- <-; cbn; auto].
    destruct dr; [destruct (drop_group c g)|]; intros H; injection H as <- <- <- <-; cbn; auto.
  Qed.
  Lemma keyed_new : keyed (new_cm E). Proof. constructor. Qed.
  Lemma keyed_keys (m m' : cm) : keyed m -> dkeys (m_scope m') = dkeys (m_scope m) -> keyed m'.
  Proof. unfold keyed. now intros H ->. Qed.
  Lemma keyed_run (m m' : cm) : keyed m -> (m_scope m' = m_scope m \/ m_scope m' = []) -> keyed m'.
  Proof. unfold keyed. intros H [->| ->]; auto. constructor. Qed.

  Definition keyed_world (w : mworld) : Prop := Forall keyed (mw_models w).
  Lemma keyed_model w i : keyed_world w -> keyed (model E w i).
  Proof.
    intros C. unfold model. destruct (lt_dec i (length (mw_models w))) as [H|H]; [|rewrite nth_overflow by lia; apply keyed_new].
    unfold keyed_world in C. rewrite Forall_forall in C. apply C. now apply nth_In.
  Qed.
  Lemma keyed_upd (l : list cm) i m : Forall keyed l -> keyed m -> Forall keyed (upd l i m).
  Proof. intros FL C. revert i. induction FL as [|a l A FL IH]; intros [|i]; simpl; auto. Qed.
  Lemma step_keyed w o : keyed_world w -> keyed_world (mstep E w o).
  Proof.
    intros C. pose proof (fun i => keyed_model w i C) as CM.
    destruct o as [|i o|i d|i name d|i name v|i|i text g|i|i g|i g cl sc ck|i n cl|i g dr cl|i f|i mi mask|i en|i gr gc gt gb gd gm]; cbn [mstep].
    - apply Forall_app. split; auto. constructor; auto. apply keyed_new.
    - destruct o; try exact C; (apply keyed_upd; [exact C|]; apply (CM i)).
    - apply keyed_upd; auto. apply (keyed_keys (model E w i)); auto. apply set_units_keys.
    - apply keyed_upd; auto. unfold declare. destruct (reserved name); [apply CM|]. destruct (new_symbol E d); [|apply CM]. unfold keyed. cbn. apply (dset_keys_nodup String.eqb String.eqb_eq). apply CM.
    - apply keyed_upd; auto. unfold assign_symbol. destruct (dget _ _ name); [|apply CM]. destruct (assign _ _ _ _ _ v); [|apply CM]. unfold keyed. cbn. apply (dset_keys_nodup String.eqb String.eqb_eq). apply CM.
    - apply keyed_upd; auto. constructor.
    - exact C.
    - exact C.
    - exact C.
    - destruct (run_stochastic E (mheap E w) (mcont E w i) (mw_tabs w) (model E w i) g cl sc ck) as [[ts m] r] eqn:R.
      apply stochastic_touch in R. apply keyed_upd; auto. eapply keyed_run; [apply CM|apply R].
    - destruct (run_discrete_utilities E (mheap E w) (mcont E w i) (mw_tabs w) (model E w i) n cl) as [[ts m] r] eqn:R.
      apply discrete_touch in R. apply keyed_upd; auto. eapply keyed_run; [apply CM|apply R].
    - destruct (preval E (mheap E w) (mcont E w i) (mw_tabs w) (model E w i) g dr cl) as [[[ts c] m] r] eqn:R.
      apply preval_scope in R. apply keyed_upd; auto. destruct R as [R|(l & r' & R)]; [apply (keyed_run (model E w i)); auto|]. red. eapply del_symbols_keyed; [exact R|apply CM].
    - destruct (copy_model E (mw_tabs w) (model E w i) f) as [ts m] eqn:R. apply Forall_app. split; auto. constructor; auto. unfold copy_model in R.
      assert (I : NoDup (dkeys (if (cf_declared f || cf_assigned f)%bool then copy_scope E (cf_assigned f) None (m_scope (model E w i)) else []))).
      { destruct (cf_declared f || cf_assigned f)%bool; [rewrite copy_scope_keys; apply CM|constructor]. }
      destruct (m_utils (model E w i)); [destruct (cf_utils f)|]; injection R as <- <-; exact I.
    - destruct (copy_subset E (mw_tabs w) (model E w i) mi mask) as [ts [m|x]] eqn:R; [|exact C]. apply Forall_app. split; auto. constructor; auto.
      unfold copy_subset in R. destruct (units E (model E w i)); [|discriminate].
      destruct (index_equals _ _ _); [|discriminate]. destruct (m_utils (model E w i)); [destruct (index_equals _ _ _); [|discriminate]|];
        injection R as <- <-; red; cbn [m_scope]; rewrite copy_scope_keys; apply CM.
    - apply keyed_upd; auto. apply (keyed_keys (model E w i)); auto. apply empty_symbol_keys.
    - destruct (give E (mw_tabs w) (model E w i) gr gc gt gb gd gm) as [ts m] eqn:R. apply give_touch in R. destruct R as (_ & R & _). apply keyed_upd; auto. apply (keyed_keys (model E w i)); auto. now rewrite R.
  Qed.
  Lemma run_keyed : forall ops w, keyed_world w -> keyed_world (mrun E w ops).
  Proof. induction ops as [|o ops IH]; intros w C; [exact C|]. cbn. apply IH. now apply step_keyed. Qed.
  Lemma reach_keyed ops i : keyed (model E (mrun E (new_mworld E) ops) i).
  Proof. apply keyed_model, run_keyed. constructor. Qed.

  (** ** Expressions: a call does nothing to the containers, or one container operation *)
  Definition no_copying (o : mop) : Prop := match o with MCopy _ _ f => cf_exprs f = false | MSubset _ _ _ _ => False | _ => True end.
  Lemma ex_step (w : mworld) o : mw_ex (mstep E w o) = mw_ex w \/
    exists co, no_add co /\ (no_copying o -> no_copy co) /\ mw_ex (mstep E w o) = cstep (ev_fn E) (ev_parse E) (mw_ex w) co.
  Proof.
    destruct o as [|j o|j d|j name d|j name v|j|j text g|j|j g|j g cl sc ck|j n cl|j g dr cl|j f|j mi mask|j en|j gr gc gt gb gd gm]; cbn [mstep];
      try (left; reflexivity).
    - right. exists ONew. split; [exact I|]. split; [intros _; exact I|reflexivity].
    - left. destruct o; reflexivity.
    - right. exists (OAppend j text g). split; [exact I|]. split; [intros _; exact I|reflexivity].
    - right. exists (OClear j). split; [exact I|]. split; [intros _; exact I|reflexivity].
    - right. exists (ODrop j g). split; [exact I|]. split; [intros _; exact I|reflexivity].
    - destruct (run_stochastic _ _ _ _ _ _ _ _ _) as [[ts m] r]. auto.
    - destruct (run_discrete_utilities _ _ _ _ _ _ _) as [[ts m] r]. auto.
    - destruct (preval E (mheap E w) (mcont E w j) (mw_tabs w) (model E w j) g dr cl) as [[[ts c] m] r] eqn:P. apply preval_container in P.
      destruct P as [->| ->].
      + left. unfold mcont, mheap. cbn. rewrite (nth_upd_id _ _ _ new_container) by reflexivity. now destruct (mw_ex w).
      + right. exists (ODrop j g). split; [exact I|]. split; [intros _; exact I|reflexivity].
    - destruct (copy_model _ _ _ _) as [ts m]. right. exists (if cf_exprs f then OCopy j else ONew). cbn [mw_ex]. split; [destruct (cf_exprs f); exact I|].
      split; [|reflexivity]. cbn. now intros ->.
    - destruct (copy_subset _ _ _ _ _) as [ts [m|x]]; auto. right. exists (OCopy j). split; [exact I|]. split; [intros []|reflexivity].
    - destruct (give _ _ _ _ _ _ _ _ _) as [ts m]. auto.
  Qed.
  Lemma mown_run : forall ops w, own (mw_ex w) -> own (mw_ex (mrun E w ops)).
  Proof.
    induction ops as [|o ops IH]; intros w O; [exact O|]. cbn. apply IH. destruct (ex_step w o) as [->|(co & NA & _ & ->)]; auto.
    now apply step_view.
  Qed.
  Lemma reach_own ops : own (mw_ex (mrun E (new_mworld E) ops)).
  Proof. apply mown_run, own_new. Qed.
  Lemma mconsistent_run : forall ops w, own (mw_ex w) -> consistent (mw_ex w) -> Forall no_copying ops -> consistent (mw_ex (mrun E w ops)).
  Proof.
    induction ops as [|o ops IH]; intros w O C F0; [exact C|]. inversion F0; subst. cbn. apply IH; auto.
    - apply (mown_run [o] w O).
    - destruct (ex_step w o) as [->|(co & NA & NC & ->)]; auto. apply step_consistent; auto.
  Qed.
  Lemma reach_consistent ops : Forall no_copying ops -> consistent (mw_ex (mrun E (new_mworld E) ops)).
  Proof. intros NC. apply mconsistent_run; auto; [apply own_new|apply consistent_new]. Qed.
End Inv.
