(** Lemmas about the ChoiceModel operations (ModelModel.v): which parts of the state they touch. *)
From Verif Require Import Prelude Arith CoreModel TreeModel DictProofs ParModel ExprModel SpecExpr ExprWorld ScopeModel ModelModel.
Local Open Scope string_scope.
Local Open Scope nat_scope.
Local Open Scope list_scope.

Lemma rbind_ok {A B} (r : res A) (f : A -> res B) b : rbind r f = Ok b -> exists a, r = Ok a /\ f a = Ok b.
Proof. destruct r as [a|x]; simpl; [eauto|discriminate]. Qed.
Lemma guard_ok b x u : guard b x = Ok u -> b = true.
Proof. destruct b; simpl; auto; discriminate. Qed.

Section Touch.
  Context {L : Type} {F : arith} {D cell : Type} (E : env L F D cell).
  Notation cm := (cm E).
  Notation FR := (ev_frames E).
  Notation symbol := (symbol (num:=num F) FR).
  Notation mworld := (mworld E).

  (** *** the table a model works on *)
  Lemma partial_touch ts (m : cm) ts' m' r : partial_utilities E ts m = (ts', m', r) ->
    m_tree m' = m_tree m /\ m_scope m' = m_scope m /\ m_du m' = m_du m /\
    (exists add, ts' = ts ++ add) /\
    match r with
    | Ok u => m_utils m' = Some u /\
        ((m_utils m = Some u /\ ts' = ts) \/
         (m_utils m = None /\ exists d cols, m_du m = Some d /\ choices (m_tree m) = Ok cols /\ u = UTab (length ts) d cols /\ ts' = ts ++ [zeros (length d) (length cols)]))
    | Err _ => ts' = ts /\ m' = m
    end.
  Proof.
    unfold partial_utilities. destruct (validate_tree (m_tree m)); [|intros H; injection H as <- <- <-; repeat split; auto; exists []; now rewrite app_nil_r].
    unfold units. destruct (m_du m) as [d|] eqn:DU; [|intros H; injection H as <- <- <-; repeat split; auto; exists []; now rewrite app_nil_r].
    destruct (m_utils m) as [u|] eqn:U.
    { intros H; injection H as <- <- <-. repeat split; auto. exists []; now rewrite app_nil_r. }
    destruct (choices (m_tree m)) as [cols|x] eqn:C; intros H; injection H as <- <- <-.
    - cbn. repeat split; auto; [eexists; reflexivity|]. right. split; auto. exists d, cols. auto.
    - repeat split; auto. exists []; now rewrite app_nil_r.
  Qed.

  Lemma evaluate_touch ts (m : cm) simple xs ts' m' r : evaluate E ts m simple xs = (ts', m', r) ->
    m_tree m' = m_tree m /\ m_scope m' = m_scope m /\ m_du m' = m_du m.
  Proof.
    unfold evaluate. destruct (m_du m) as [d|] eqn:DU; [|intros H; injection H as <- <- <-; auto].
    destruct (choices (m_tree m)) as [cols|]; [|intros H; injection H as <- <- <-; auto].
    destruct (depth (m_tree m)); [|intros H; injection H as <- <- <-; auto].
    destruct (partial_utilities E ts m) as [[ts1 m1] [u|x]] eqn:P; apply partial_touch in P; destruct P as (A & B & C & _);
      [|intros H; injection H as <- <- <-; rewrite <- DU; auto].
    destruct (shared_locals _ _ _) as [sh|]; [|intros H; injection H as <- <- <-; rewrite <- DU; auto].
    destruct (eval_all _ _ _ _ _ _ _) as [t r'].
    intros H; injection H as <- <- <-; rewrite <- DU; auto.
  Qed.

  Lemma run_touch h c ts (m : cm) g cl ts' m' r : run_utilities E h c ts m g cl = (ts', m', r) ->
    m_tree m' = m_tree m /\ m_du m' = m_du m /\ (m_scope m' = m_scope m \/ m_scope m' = []).
  Proof.
    unfold run_utilities. destruct (validate E h c m g); [|intros H; injection H as <- <- <-; auto].
    destruct (selection h c g) as [[simple xs]|]; [|intros H; injection H as <- <- <-; auto].
    destruct (evaluate E ts m simple xs) as [[ts1 m1] r1] eqn:EV. apply evaluate_touch in EV. destruct EV as (A & B & C).
    destruct r1; intros H; injection H as <- <- <-; [destruct cl; cbn; auto|auto].
  Qed.

  Lemma stochastic_touch h c ts (m : cm) g cl sc ck ts' m' r : run_stochastic E h c ts m g cl sc ck = (ts', m', r) ->
    m_tree m' = m_tree m /\ m_du m' = m_du m /\ (m_scope m' = m_scope m \/ m_scope m' = []).
  Proof.
    unfold run_stochastic. destruct (run_utilities E h c ts m g cl) as [[ts1 m1] r1] eqn:R. apply run_touch in R.
    destruct r1; intros H; injection H as <- <- <-; auto.
  Qed.
  Lemma discrete_touch h c ts (m : cm) n cl ts' m' r : run_discrete_utilities E h c ts m n cl = (ts', m', r) ->
    m_tree m' = m_tree m /\ m_du m' = m_du m /\ (m_scope m' = m_scope m \/ m_scope m' = []).
  Proof.
    unfold run_discrete_utilities. destruct (validate E h c m None); [|intros H; injection H as <- <- <-; auto].
    destruct (n <? 1)%Z; [intros H; injection H as <- <- <-; auto|]. apply run_touch.
  Qed.

  Lemma del_symbols_incl : forall l (s s' : dict string symbol) r, del_symbols E s l = (s', r) -> incl (dkeys s') (dkeys s).
  Proof.
    induction l as [|x l IH]; intros s s' r H; simpl in H; [injection H as <- <-; apply incl_refl|].
    destruct (dmem String.eqb s x); [|injection H as <- <-; apply incl_refl]. apply IH in H.
    intros k I. apply H in I. clear -I. unfold dkeys in *. induction s as [|[k0 v0] t IHt]; simpl in *; auto.
    destruct (String.eqb x k0); simpl in *; auto. destruct I; auto.
  Qed.
  Lemma preval_touch h c ts (m : cm) g dr cl ts' c' m' r : preval E h c ts m g dr cl = (ts', c', m', r) ->
    m_tree m' = m_tree m /\ m_du m' = m_du m /\ incl (dkeys (m_scope m')) (dkeys (m_scope m)).
  Proof.
    unfold preval. destruct (validate E h c m (Some g)); [|intros H; injection H as <- <- <- <-; repeat split; auto; apply incl_refl].
    destruct (get_group h c g) as [s|]; [|intros H; injection H as <- <- <- <-; repeat split; auto; apply incl_refl].
    destruct (evaluate E ts m (sg_simple s) (sg_exprs s)) as [[ts1 m1] r1] eqn:EV. apply evaluate_touch in EV. destruct EV as (A & B & C).
    destruct r1 as [u|x]; [|intros H; injection H as <- <- <- <-; repeat split; auto; rewrite B; apply incl_refl].
    cbn [m_scope with_utils]. destruct (if cl then del_symbols E (m_scope m1) (symbols_to_clear h c s) else (m_scope m1, Ok tt)) as [sc r2] eqn:DS.
    assert (I : incl (dkeys sc) (dkeys (m_scope m))).
    { destruct cl; [apply del_symbols_incl in DS; now rewrite <- B|]. injection DS as <- <-. rewrite B. apply incl_refl. }
    destruct r2; [|intros H; injection H as <- <- <- <-; cbn; auto].
    destruct dr; [destruct (drop_group c g)|]; intros H; injection H as <- <- <- <-; cbn; auto.
  Qed.

  Lemma set_units_keys (m : cm) d : dkeys (m_scope (set_units E m d)) = dkeys (m_scope m).
  Proof. unfold dkeys. cbn. rewrite map_map. reflexivity. Qed.
  Lemma copy_scope_keys b mask (s : dict string symbol) : dkeys (copy_scope E b mask s) = dkeys s.
  Proof. unfold dkeys, copy_scope. rewrite map_map. reflexivity. Qed.
  Lemma dset_keys_incl {V} (s : dict string V) k v : incl (dkeys (dset String.eqb s k v)) (k :: dkeys s).
  Proof.
    intros x. unfold dkeys. induction s as [|[k0 v0] t IH]; simpl; auto. destruct (String.eqb k k0) eqn:Q; simpl; [tauto|].
    simpl in IH. tauto.
  Qed.

  (** *** reserved words *)
  Definition clean (m : cm) : Prop := forall x, In x (dkeys (m_scope m)) -> reserved x = false.
  Definition clean_world (w : mworld) : Prop := Forall clean (mw_models w).
  Lemma clean_new : clean (new_cm E). Proof. intros x []. Qed.
  Lemma clean_incl (m m' : cm) : clean m -> incl (dkeys (m_scope m')) (dkeys (m_scope m)) -> clean m'.
  Proof. intros C I x H. apply C, I, H. Qed.
  Lemma clean_model w i : clean_world w -> clean (model E w i).
  Proof.
    intros C. unfold model. destruct (lt_dec i (length (mw_models w))) as [H|H]; [|rewrite nth_overflow by lia; apply clean_new].
    unfold clean_world in C. rewrite Forall_forall in C. apply C. now apply nth_In.
  Qed.
  Lemma clean_upd (l : list cm) i m : Forall clean l -> clean m -> Forall clean (upd l i m).
  Proof. intros FL C. revert i. induction FL as [|a l A FL IH]; intros [|i]; simpl; auto. Qed.

  Lemma clean_declare (m : cm) name d : clean m -> clean (fst (declare E m name d)).
  Proof.
    intros C. unfold declare. destruct (reserved name) eqn:R; auto. destruct (new_symbol E d); auto. cbn.
    intros x I. apply dset_keys_incl in I. destruct I as [<-|I]; auto.
  Qed.
  Lemma clean_assign (m : cm) name v : clean m -> clean (fst (assign_symbol E m name v)).
  Proof.
    intros C. unfold assign_symbol. destruct (dget String.eqb (m_scope m) name) eqn:G; auto.
    destruct (assign _ _ _ _ _ _); auto. cbn. intros x I. apply dset_keys_incl in I. destruct I as [<-|I]; auto.
    apply (dget_in String.eqb String.eqb_eq) in G. apply C. eapply in_keys; eauto.
  Qed.
  Lemma clean_run (m m' : cm) : clean m -> (m_scope m' = m_scope m \/ m_scope m' = []) -> clean m'.
  Proof. intros C [H|H]; apply (clean_incl m); auto; rewrite H; [apply incl_refl|intros x []]. Qed.

  Lemma give_touch ts (m : cm) rows cols cells rr rc out ts' m' : give E ts m rows cols cells rr rc out = (ts', m') ->
    m_tree m' = m_tree m /\ m_scope m' = m_scope m /\ m_du m' = m_du m.
  Proof.
    unfold give, add_partial_prepare. destruct (validate_tree (m_tree m)); [|intros H; injection H as <- <-; auto]. destruct (units E m) as [d|]; [|intros H; injection H as <- <-; auto].
    destruct (choices (m_tree m)) as [ch|]; [|intros H; injection H as <- <-; auto]. destruct (add_axis E d rows rr) as [ri|]; [|intros H; injection H as <- <-; auto].
    destruct (add_axis E (map (ev_label E) ch) cols rc) as [ci|]; [|intros H; injection H as <- <-; auto].
    destruct (partial_utilities E ts m) as [[ts1 m1] r] eqn:P. apply partial_touch in P. destruct P as (A & B & C & _ & _). destruct r as [u|x]; [|intros H; injection H as <- <-; auto].
    destruct (fast_indexed_add _ _ _ _ _ _ _); cbn [rbind]; intros H; injection H as <- <-; auto.
  Qed.
  Lemma empty_symbol_keys (m : cm) name : dkeys (m_scope (fst (empty_symbol E m name))) = dkeys (m_scope m).
  Proof.
    unfold empty_symbol. destruct (dget String.eqb (m_scope m) name) as [s|] eqn:G; [|reflexivity]. cbn [fst with_scope m_scope]. apply (dset_keys String.eqb String.eqb_eq).
    apply (dget_in String.eqb String.eqb_eq) in G. apply in_map_iff. exists (name, s). auto.
  Qed.

  Lemma step_clean w o : clean_world w -> clean_world (mstep E w o).
  Proof.
    intros C. pose proof (fun i => clean_model w i C) as CM.
    destruct o as [|i o|i d|i name d|i name v|i|i text g|i|i g|i g cl sc ck|i n cl|i g dr cl|i f|i mi mask|i en|i gr gc gt gb gd gm]; cbn [mstep].
    - apply Forall_app. split; auto. constructor; auto. apply clean_new.
    - destruct o; try exact C; (apply clean_upd; [exact C|]; intros x I; apply (CM i x I)).
    - apply clean_upd; auto. apply (clean_incl (model E w i)); auto. rewrite set_units_keys. apply incl_refl.
    - apply clean_upd; auto. now apply clean_declare.
    - apply clean_upd; auto. now apply clean_assign.
    - apply clean_upd; auto. intros x [].
    - exact C.
    - exact C.
    - exact C.
    - destruct (run_stochastic E (mheap E w) (mcont E w i) (mw_tabs w) (model E w i) g cl sc ck) as [[ts m] r] eqn:R.
      apply stochastic_touch in R. apply clean_upd; auto. eapply clean_run; [apply CM|apply R].
    - destruct (run_discrete_utilities E (mheap E w) (mcont E w i) (mw_tabs w) (model E w i) n cl) as [[ts m] r] eqn:R.
      apply discrete_touch in R. apply clean_upd; auto. eapply clean_run; [apply CM|apply R].
    - destruct (preval E (mheap E w) (mcont E w i) (mw_tabs w) (model E w i) g dr cl) as [[[ts c] m] r] eqn:R.
      apply preval_touch in R. apply clean_upd; auto. eapply clean_incl; [apply CM|apply R].
    - destruct (copy_model E (mw_tabs w) (model E w i) f) as [ts m] eqn:R. apply Forall_app. split; auto. constructor; auto.
      apply (clean_incl (model E w i)); auto. unfold copy_model in R.
      assert (I : incl (dkeys (if (cf_declared f || cf_assigned f)%bool then copy_scope E (cf_assigned f) None (m_scope (model E w i)) else [])) (dkeys (m_scope (model E w i)))).
      { destruct (cf_declared f || cf_assigned f)%bool; [rewrite copy_scope_keys; apply incl_refl|intros x []]. }
      destruct (m_utils (model E w i)); [destruct (cf_utils f)|]; injection R as <- <-; exact I.
    - destruct (copy_subset E (mw_tabs w) (model E w i) mi mask) as [ts [m|x]] eqn:R; [|exact C]. apply Forall_app. split; auto. constructor; auto.
      apply (clean_incl (model E w i)); auto. unfold copy_subset in R. destruct (units E (model E w i)); [|discriminate].
      destruct (index_equals _ _ _); [|discriminate]. destruct (m_utils (model E w i)); [destruct (index_equals _ _ _); [|discriminate]|];
        injection R as <- <-; cbn [m_scope]; rewrite copy_scope_keys; apply incl_refl.
    - apply clean_upd; auto. apply (clean_incl (model E w i)); auto. rewrite empty_symbol_keys. apply incl_refl.
    - destruct (give E (mw_tabs w) (model E w i) gr gc gt gb gd gm) as [ts m] eqn:R. apply give_touch in R. destruct R as (_ & R & _). apply clean_upd; auto.
      apply (clean_incl (model E w i)); auto. rewrite R. apply incl_refl.
  Qed.
  Lemma run_clean : forall ops w, clean_world w -> clean_world (mrun E w ops).
  Proof. induction ops as [|o ops IH]; intros w C; [exact C|]. cbn. apply IH. now apply step_clean. Qed.

  (** *** validation *)
  Lemma check_symbols_ok scope a l : check_symbols E scope a l = Ok tt <->
    forall x, In x l -> check_symbol E scope a x = Ok tt.
  Proof.
    induction l as [|x l IH]; cbn [check_symbols]; [split; auto; intros _ y []|].
    destruct (check_symbol E scope a x) as [[]|e] eqn:Q; cbn [rbind].
    - rewrite IH. split; intros H y; [intros [<-|I]; auto|intros I; apply H; simpl; auto].
    - split; [discriminate|]. intros H. rewrite <- Q. apply H. simpl. auto.
  Qed.
  Lemma check_symbols_err scope a l x : check_symbols E scope a l = Err x -> x = ModelNotReady.
  Proof.
    induction l as [|y l IH]; cbn [check_symbols]; [discriminate|]. unfold check_symbol at 1.
    destruct (reserved y); cbn [rbind]; auto. destruct (dget String.eqb scope y) as [s|]; cbn [rbind]; [|congruence].
    destruct (a && negb (filled _ s))%bool; cbn [rbind]; auto. congruence.
  Qed.
  (** *** which model an operation changes *)
  Lemma in_dset_s {V} (d : dict string V) k v k' v' : In (k', v') (dset String.eqb d k v) -> (k' = k /\ v' = v) \/ In (k', v') d.
  Proof.
    induction d as [|[k0 v0] t IH]; simpl; [intros [H|[]]; injection H as <- <-; auto|].
    destruct (String.eqb_spec k k0) as [Q|Q]; simpl; intros [H|H]; auto.
    - injection H as <- <-. subst. auto.
    - destruct (IH H); auto.
  Qed.
  Lemma del_symbols_in : forall l (s s' : dict string symbol) r, del_symbols E s l = (s', r) -> incl s' s.
  Proof.
    induction l as [|x l IH]; intros s s' r H; simpl in H; [injection H as <- <-; apply incl_refl|].
    destruct (dmem String.eqb s x); [|injection H as <- <-; apply incl_refl]. apply IH in H.
    intros k I. apply H in I. clear -I. induction s as [|[k0 v0] t IHt]; simpl in *; auto.
    destruct (String.eqb x k0); simpl in *; auto. destruct I; auto.
  Qed.
  Lemma preval_in h c ts (m : cm) g dr cl ts' c' m' r : preval E h c ts m g dr cl = (ts', c', m', r) -> incl (m_scope m') (m_scope m).
  Proof.
    unfold preval. destruct (validate E h c m (Some g)); [|intros H; injection H as <- <- <- <-; apply incl_refl].
    destruct (get_group h c g) as [s|]; [|intros H; injection H as <- <- <- <-; apply incl_refl].
    destruct (evaluate E ts m (sg_simple s) (sg_exprs s)) as [[ts1 m1] r1] eqn:EV. apply evaluate_touch in EV. destruct EV as (A & B & C).
    destruct r1 as [u|x]; [|intros H; injection H as <- <- <- <-; rewrite B; apply incl_refl].
    cbn [m_scope with_utils]. destruct (if cl then del_symbols E (m_scope m1) (symbols_to_clear h c s) else (m_scope m1, Ok tt)) as [sc r2] eqn:DS.
    assert (I : incl sc (m_scope m)).
    { destruct cl; [apply del_symbols_in in DS; now rewrite <- B|]. injection DS as <- <-. rewrite B. apply incl_refl. }
    destruct r2; [|intros H; injection H as <- <- <- <-; cbn; auto].
    destruct dr; [destruct (drop_group c g)|]; intros H; injection H as <- <- <- <-; cbn; auto.
  Qed.
  (** the model a call is made on, when the call may change it *)
  Definition opt_target (o : mop E) : option nat :=
    match o with
    | MTree _ i _ | MUnits _ i _ | MDeclare _ i _ _ | MAssign _ i _ _ | MClearScope _ i
    | MStochastic _ i _ _ _ _ | MDiscrete _ i _ _ | MPreval _ i _ _ _ | MEmpty _ i _ | MGive _ i _ _ _ _ _ _ => Some i
    | _ => None
    end.
  Definition step_result (w : mworld) (o : mop E) : cm :=
    match o with
    | MTree _ i PartialUtilities => model E w i
    | MTree _ i o => tree_op E (model E w i) o
    | MUnits _ i d => set_units E (model E w i) d
    | MDeclare _ i name d => fst (declare E (model E w i) name d)
    | MAssign _ i name v => fst (assign_symbol E (model E w i) name v)
    | MClearScope _ i => clear_scope E (model E w i)
    | MStochastic _ i g clear scale check =>
        snd (fst (run_stochastic E (mheap E w) (mcont E w i) (mw_tabs w) (model E w i) g clear scale check))
    | MDiscrete _ i n clear => snd (fst (run_discrete_utilities E (mheap E w) (mcont E w i) (mw_tabs w) (model E w i) n clear))
    | MPreval _ i g drop cleanup => snd (fst (preval E (mheap E w) (mcont E w i) (mw_tabs w) (model E w i) g drop cleanup))
    | MEmpty _ i name => fst (empty_symbol E (model E w i) name)
    | MGive _ i rows cols cells rr rc out => snd (give E (mw_tabs w) (model E w i) rows cols cells rr rc out)
    | _ => new_cm E
    end.
  Definition target_of (w : mworld) (o : mop E) (i : nat) : cm :=
    match opt_target o with Some j => if j =? i then step_result w o else model E w i | None => model E w i end.
  Lemma upd_target (l : list cm) i j m d : i < length l -> nth i (upd l j m) d = if j =? i then m else nth i l d.
  Proof.
    intros H. destruct (Nat.eqb_spec j i) as [->|N]; [now apply nth_upd_eq|now apply nth_upd_neq].
  Qed.
  Lemma step_model w o i : i < length (mw_models w) -> model E (mstep E w o) i = target_of w o i.
  Proof.
    intros LT. unfold target_of, model.
    destruct o as [|j o|j d|j name d|j name v|j|j text g|j|j g|j g cl sc ck|j n cl|j g dr cl|j f|j mi mask|j en|j gr gc gt gb gd gm]; cbn [mstep opt_target step_result];
      try reflexivity; try (now apply upd_target); try (cbn; now apply app_nth1).
    - destruct o; try (now apply upd_target). destruct (Nat.eqb_spec j i) as [->|]; reflexivity.
    - destruct (run_stochastic _ _ _ _ _ _ _ _ _) as [[ts m] r]. now apply upd_target.
    - destruct (run_discrete_utilities _ _ _ _ _ _ _) as [[ts m] r]. now apply upd_target.
    - destruct (preval _ _ _ _ _ _ _ _) as [[[ts c] m] r]. now apply upd_target.
    - destruct (copy_model _ _ _ _) as [ts m]. cbn. now apply app_nth1.
    - destruct (copy_subset _ _ _ _ _) as [ts [m|x]]; cbn; [now apply app_nth1|reflexivity].
    - destruct (give _ _ _ _ _ _ _ _ _) as [ts m]. now apply upd_target.
  Qed.
  Lemma step_models_grow w o : length (mw_models w) <= length (mw_models (mstep E w o)).
  Proof.
    destruct o as [|j o|j d|j name d|j name v|j|j text g|j|j g|j g cl sc ck|j n cl|j g dr cl|j f|j mi mask|j en|j gr gc gt gb gd gm]; cbn [mstep]; try (cbn; rewrite ?app_length, ?upd_length; lia).
    - destruct o; cbn; rewrite ?upd_length; lia.
    - destruct (run_stochastic _ _ _ _ _ _ _ _ _) as [[ts m] r]. cbn. rewrite upd_length. lia.
    - destruct (run_discrete_utilities _ _ _ _ _ _ _) as [[ts m] r]. cbn. rewrite upd_length. lia.
    - destruct (preval _ _ _ _ _ _ _ _) as [[[ts c] m] r]. cbn. rewrite upd_length. lia.
    - destruct (copy_model _ _ _ _) as [ts m]. cbn. rewrite app_length. lia.
    - destruct (copy_subset _ _ _ _ _) as [ts [m|x]]; cbn; rewrite ?app_length; lia.
    - destruct (give _ _ _ _ _ _ _ _ _) as [ts m]. cbn. rewrite upd_length. lia.
  Qed.
End Touch.
