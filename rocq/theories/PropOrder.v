(** C110: the order of unrelated set-up calls does not matter. *)
From Flocq Require Import IEEE754.BinarySingleNaN.
From Verif Require Import Prelude Arith CoreModel TreeModel DictProofs ParModel ExprModel SpecExpr ExprWorld ScopeModel SpecScope ScopeProofs ModelModel ModelProofs SpecModel KernelProofs PropState ModelExample ModelHist RunOut SpecOrder PropReads.
Local Open Scope string_scope.
Local Open Scope nat_scope.
Local Open Scope list_scope.

Section Order.
  Context {L : Type} {F : arith} {D cell : Type} (E : env L F D cell).
  Notation num := (num F).
  Notation FR := (ev_frames E).
  Notation symbol := (symbol (num:=num) FR).
  Notation scope := (dict string symbol).
  Notation cm := (cm E).
  Notation mop := (mop E).
  Notation mworld := (mworld E).
  Notation start := (new_mworld E).
  Notation dget := (dget String.eqb).
  Notation dset := (dset String.eqb).

  (** ** Scopes that differ in the order of their symbols *)
  Record sameS (s s' : scope) : Prop := SameS { ss_n : NoDup (dkeys s); ss_n' : NoDup (dkeys s'); ss_get : forall x, dget s x = dget s' x }.
  Lemma sameS_trans a b c : sameS a b -> sameS b c -> sameS a c.
  Proof. intros [A1 A2 A3] [B1 B2 B3]. constructor; auto. intros x. now rewrite A3. Qed.
  Lemma sameS_nil : sameS [] []. Proof. constructor; cbn; auto; constructor. Qed.
  Lemma sameS_dset s s' x v : sameS s s' -> sameS (dset s x v) (dset s' x v).
  Proof. intros [A B C]. constructor; try (apply dset_keys_nodup; auto using String.eqb_eq). intros y. rewrite !(dget_dset String.eqb String.eqb_eq). now rewrite C. Qed.
  Lemma dget_map (f : symbol -> symbol) : forall (s : scope) x, dget (map (fun p => (fst p, f (snd p))) s) x = option_map f (dget s x).
  Proof. induction s as [|[k v] s IH]; intros x; cbn; auto. destruct (String.eqb x k); auto. Qed.
  Lemma keys_map (f : symbol -> symbol) (s : scope) : dkeys (map (fun p => (fst p, f (snd p))) s) = dkeys s.
  Proof. unfold dkeys. rewrite map_map. apply map_ext. auto. Qed.
  Lemma sameS_map f s s' : sameS s s' -> sameS (map (fun p => (fst p, f (snd p))) s) (map (fun p => (fst p, f (snd p))) s').
  Proof. intros [A B C]. constructor; rewrite ?keys_map; auto. intros x. rewrite !dget_map. now rewrite C. Qed.
  Lemma dget_ddel (s : scope) x y : NoDup (dkeys s) -> dget (ddel String.eqb s x) y = if String.eqb y x then None else dget s y.
  Proof.
    induction s as [|[k v] s IH]; intros N; cbn; [now destruct (String.eqb y x)|]. cbn in N. apply NoDup_cons_iff in N. destruct N as [N1 N2]. specialize (IH N2).
    destruct (String.eqb_spec x k) as [Q|Q]; cbn.
    - subst k. destruct (String.eqb y x) eqn:R; auto. apply String.eqb_eq in R. subst y. now apply (dget_none String.eqb String.eqb_eq).
    - rewrite IH. destruct (String.eqb y k) eqn:R; auto. apply String.eqb_eq in R. subst y. destruct (String.eqb_spec k x); congruence.
  Qed.
  Lemma sameS_ddel s s' x : sameS s s' -> sameS (ddel String.eqb s x) (ddel String.eqb s' x).
  Proof. intros [A B C]. constructor; try (apply ddel_keys_nodup; auto using String.eqb_eq). intros y. rewrite !dget_ddel by auto. now rewrite C. Qed.
  Lemma sameS_del : forall l s s', sameS s s' -> sameS (fst (del_symbols E s l)) (fst (del_symbols E s' l)) /\ snd (del_symbols E s l) = snd (del_symbols E s' l).
  Proof.
    induction l as [|x l IH]; intros s s' H; cbn; auto. assert (Q : dmem String.eqb s x = dmem String.eqb s' x) by (unfold dmem; now rewrite (ss_get _ _ H)). rewrite Q.
    destruct (dmem String.eqb s' x); auto. apply IH. now apply sameS_ddel.
  Qed.

  (** ** What reads the scope *)
  Lemma same_checks s s' a l : sameS s s' -> check_symbols E s a l = check_symbols E s' a l.
  Proof. intros [_ _ H]. induction l as [|x l IH]; cbn; auto. unfold check_symbol. now rewrite H, IH. Qed.
  Lemma same_shared s s' : sameS s s' -> forall l acc, shared_locals E s l acc = shared_locals E s' l acc.
  Proof. intros [_ _ H]. induction l as [|x l IH]; intros acc; cbn; auto. rewrite H, IH. destruct (dmem String.eqb acc x); auto. destruct (dget s' x) as [v|]; auto. destruct (get_simple FR v); cbn [rbind]; auto. Qed.
  Lemma same_chain_locals s s' : sameS s s' -> forall l acc, chain_locals E s l acc = chain_locals E s' l acc.
  Proof. intros [_ _ H]. induction l as [|[n u] l IH]; intros acc; cbn; auto. rewrite H. destruct (dget s' n) as [v|]; auto. destruct (usage_locals E v u acc); cbn [rbind]; auto. Qed.
  Lemma same_eval_all s s' nl cols sh k : sameS s s' -> forall xs u, eval_all E s nl cols sh k u xs = eval_all E s' nl cols sh k u xs.
  Proof.
    intros H. induction xs as [|x xs IH]; intros u; cbn; auto. assert (Q : eval_one E s nl cols sh k u x = eval_one E s' nl cols sh k u x).
    { unfold eval_one, locals_for. destruct (column_mask nl cols (e_filter x)); cbn [rbind]; auto. destruct (literal_locals E nl cols (e_dl x) _); cbn [rbind]; auto. now rewrite (same_chain_locals s s' H). }
    rewrite Q. destruct (eval_one E s' nl cols sh k u x); auto.
  Qed.

  (** ** Models that differ in the order of their symbols *)
  Definition sameM (m m' : cm) : Prop := m' = with_scope E m (m_scope m') /\ sameS (m_scope m) (m_scope m').
  Lemma sameM_trans a b c : sameM a b -> sameM b c -> sameM a c.
  Proof. intros [A1 A2] [B1 B2]. split; [|eapply sameS_trans; eauto]. rewrite B1, A1. reflexivity. Qed.
  Lemma sameM_scope m s s' : sameS s s' -> sameM (with_scope E m s) (with_scope E m s').
  Proof. split; auto. Qed.
  Lemma sameM_view m m' : sameM m m' -> m_tree m' = m_tree m /\ m_du m' = m_du m /\ m_utils m' = m_utils m.
  Proof. intros [-> _]. auto. Qed.
  Definition sameR {A} (a b : list (list (list num)) * cm * A) : Prop := fst (fst a) = fst (fst b) /\ sameM (snd (fst a)) (snd (fst b)) /\ snd a = snd b.

  Lemma same_partial ts m m' : sameM m m' -> sameR (partial_utilities E ts m) (partial_utilities E ts m').
  Proof.
    intros H. pose proof H as [HE HS]. destruct (sameM_view _ _ H) as (T & U & C). unfold partial_utilities, units. rewrite T, U, C.
    assert (Z : forall A (x : A), sameR (ts, m, x) (ts, m', x)) by (intros; split; cbn; auto).
    destruct (validate_tree (m_tree m)); [|apply Z]. destruct (m_du m); [|apply Z]. destruct (m_utils m); [apply Z|]. destruct (choices (m_tree m)); [|apply Z].
    split; [reflexivity|]. split; [|reflexivity]. cbn [fst snd]. split; [|exact HS]. rewrite HE. reflexivity.
  Qed.
  Lemma same_evaluate ts m m' simple xs : sameM m m' -> sameR (evaluate E ts m simple xs) (evaluate E ts m' simple xs).
  Proof.
    intros H. pose proof H as [_ HS]. destruct (sameM_view _ _ H) as (T & U & C). unfold evaluate. rewrite T, U.
    assert (Z : forall A (x : A), sameR (ts, m, x) (ts, m', x)) by (intros; split; cbn; auto).
    destruct (m_du m) as [d|]; [|apply Z]. destruct (choices (m_tree m)) as [cols|]; [|apply Z]. destruct (depth (m_tree m)) as [nl|]; [|apply Z].
    pose proof (same_partial ts m m' H) as (P1 & P2 & P3). destruct (partial_utilities E ts m) as [[ts1 m1] r1]. destruct (partial_utilities E ts m') as [[ts2 m2] r2]. cbn [fst snd] in P1, P2, P3. subst ts2 r2.
    destruct r1 as [u|e]; [|split; cbn; auto]. rewrite (same_shared _ _ HS). destruct (shared_locals E (m_scope m') simple (base_locals E)) as [sh|e]; [|split; cbn; auto].
    rewrite (same_eval_all _ _ _ _ _ _ HS). destruct (eval_all E (m_scope m') nl cols sh (length (u_cols u)) (deref_tab ts1 (u_ref u)) xs) as [t r]. split; cbn; auto.
  Qed.
  Lemma same_validate h c m m' g : sameM m m' -> validate E h c m g = validate E h c m' g.
  Proof.
    intros H. pose proof H as [_ HS]. destruct (sameM_view _ _ H) as (T & U & C). unfold validate, validate_gen, units. rewrite T, U. cbn [andb negb].
    destruct (validate_tree (m_tree m)); cbn [rbind]; auto. destruct (rmap (fun _ => tt) (match m_du m with Some d => Ok d | None => Err ModelNotReady end)); cbn [rbind]; auto.
    destruct (symbols_to_check h c g); cbn [rbind]; auto. now apply same_checks.
  Qed.
  Lemma same_run h c ts m m' g cl : sameM m m' -> sameR (run_utilities E h c ts m g cl) (run_utilities E h c ts m' g cl).
  Proof.
    intros H. unfold run_utilities. rewrite <- (same_validate h c m m' g H). destruct (validate E h c m g); [|split; cbn; auto]. destruct (selection h c g) as [[si xs]|]; [|split; cbn; auto].
    pose proof (same_evaluate ts m m' si xs H) as (P1 & P2 & P3). destruct (evaluate E ts m si xs) as [[ts1 m1] r1]. destruct (evaluate E ts m' si xs) as [[ts2 m2] r2]. cbn [fst snd] in P1, P2, P3. subst ts2 r2.
    destruct r1 as [u|e]; [|split; cbn; auto]. split; auto. split; auto. cbn [fst snd]. destruct cl; auto. destruct P2 as [-> _]. unfold clear_scope. apply (sameM_scope m1 [] []). apply sameS_nil.
  Qed.
  Lemma same_stochastic h c ts m m' g cl sc ck : sameM m m' -> sameR (run_stochastic E h c ts m g cl sc ck) (run_stochastic E h c ts m' g cl sc ck).
  Proof.
    intros H. unfold run_stochastic. pose proof (same_run h c ts m m' g cl H) as (P1 & P2 & P3). destruct (run_utilities E h c ts m g cl) as [[ts1 m1] r1]. destruct (run_utilities E h c ts m' g cl) as [[ts2 m2] r2]. cbn [fst snd] in P1, P2, P3. subst ts2 r2.
    destruct (sameM_view _ _ P2) as (T & _). destruct r1; split; cbn; auto. now rewrite T.
  Qed.
  Lemma same_stochastic_all h c ts m m' g cl sc ck : sameM m m' -> sameR (run_stochastic_all E h c ts m g cl sc ck) (run_stochastic_all E h c ts m' g cl sc ck).
  Proof.
    intros H. unfold run_stochastic_all. pose proof (same_run h c ts m m' g cl H) as (P1 & P2 & P3). destruct (run_utilities E h c ts m g cl) as [[ts1 m1] r1]. destruct (run_utilities E h c ts m' g cl) as [[ts2 m2] r2]. cbn [fst snd] in P1, P2, P3. subst ts2 r2.
    destruct (sameM_view _ _ P2) as (T & _). destruct r1; split; cbn; auto. now rewrite T.
  Qed.
  Lemma same_discrete h c ts m m' n cl : sameM m m' -> sameR (run_discrete_utilities E h c ts m n cl) (run_discrete_utilities E h c ts m' n cl).
  Proof. intros H. unfold run_discrete_utilities. rewrite <- (same_validate h c m m' None H). destruct (validate E h c m None); [|split; cbn; auto]. destruct (n <? 1)%Z; [split; cbn; auto|]. now apply same_run. Qed.
  Lemma same_preval h c ts m m' g dr cl : sameM m m' ->
    let a := preval E h c ts m g dr cl in let b := preval E h c ts m' g dr cl in fst (fst (fst a)) = fst (fst (fst b)) /\ snd (fst (fst a)) = snd (fst (fst b)) /\ sameM (snd (fst a)) (snd (fst b)) /\ snd a = snd b.
  Proof.
    intros H. unfold preval. rewrite <- (same_validate h c m m' (Some g) H). destruct (validate E h c m (Some g)); [|cbn; auto]. destruct (get_group h c g) as [s|]; [|cbn; auto].
    pose proof (same_evaluate ts m m' (sg_simple s) (sg_exprs s) H) as (P1 & P2 & P3). destruct (evaluate E ts m _ _) as [[ts1 m1] r1]. destruct (evaluate E ts m' _ _) as [[ts2 m2] r2]. cbn [fst snd] in P1, P2, P3. subst ts2 r2.
    destruct r1 as [u|e]; [|cbn; auto]. cbn [m_scope with_utils]. pose proof P2 as [PE PS].
    assert (X : forall s1 s2, sameS s1 s2 -> sameM (with_scope E (with_utils E m1 (Some u)) s1) (with_scope E (with_utils E m2 (Some u)) s2)) by (intros s1 s2 HS; rewrite PE; split; auto).
    destruct cl.
    - destruct (sameS_del (symbols_to_clear h c s) _ _ PS) as [Q1 Q2]. destruct (del_symbols E (m_scope m1) _) as [s1 r1]. destruct (del_symbols E (m_scope m2) _) as [s2 r2]. cbn [fst snd] in Q1, Q2. subst r2.
      destruct r1; [|cbn; auto]. destruct dr; [|cbn; auto]. destruct (drop_group c g) as [c' r']. cbn; auto.
    - destruct dr; [|cbn; auto]. destruct (drop_group c g) as [c' r']. cbn; auto.
  Qed.
  Lemma same_copy ts m m' f : sameM m m' -> fst (copy_model E ts m f) = fst (copy_model E ts m' f) /\ sameM (snd (copy_model E ts m f)) (snd (copy_model E ts m' f)).
  Proof.
    intros H. pose proof H as [_ HS]. destruct (sameM_view _ _ H) as (T & U & C). unfold copy_model. rewrite T, U, C.
    assert (X : sameS (if orb (cf_declared f) (cf_assigned f) then copy_scope E (cf_assigned f) None (m_scope m) else []) (if orb (cf_declared f) (cf_assigned f) then copy_scope E (cf_assigned f) None (m_scope m') else [])).
    { destruct (orb (cf_declared f) (cf_assigned f)); [apply sameS_map; exact HS|apply sameS_nil]. }
    destruct (m_utils m) as [u|]; [destruct (cf_utils f)|]; (split; [reflexivity|split; [reflexivity|exact X]]).
  Qed.
  Lemma same_subset ts m m' mi mask : sameM m m' -> fst (copy_subset E ts m mi mask) = fst (copy_subset E ts m' mi mask) /\
    match snd (copy_subset E ts m mi mask), snd (copy_subset E ts m' mi mask) with Ok a, Ok b => sameM a b | Err x, Err y => x = y | _, _ => False end.
  Proof.
    intros H. pose proof H as [_ HS]. destruct (sameM_view _ _ H) as (T & U & C). unfold copy_subset, units. rewrite T, U, C.
    pose proof (sameS_map (copy_symbol FR true (Some mask)) _ _ HS) as X. destruct (m_du m) as [d|]; [|cbn; auto]. destruct (index_equals (ev_eq E) mi d); [|cbn; auto].
    destruct (m_utils m) as [u|]; [destruct (index_equals (ev_eq E) mi (u_index u)); [|cbn; auto]|]; (split; [reflexivity|split; [reflexivity|exact X]]).
  Qed.
  Lemma same_give ts m m' rows cols cells rr rc o : sameM m m' ->
    fst (give E ts m rows cols cells rr rc o) = fst (give E ts m' rows cols cells rr rc o) /\ sameM (snd (give E ts m rows cols cells rr rc o)) (snd (give E ts m' rows cols cells rr rc o)).
  Proof.
    intros H. destruct (sameM_view _ _ H) as (T & U & C). unfold give.
    assert (P : sameR (add_partial_prepare E ts m rows cols cells rr rc) (add_partial_prepare E ts m' rows cols cells rr rc)).
    { unfold add_partial_prepare, units. rewrite T, U. destruct (validate_tree (m_tree m)); [|split; cbn; auto]. destruct (m_du m); [|split; cbn; auto]. destruct (choices (m_tree m)); [|split; cbn; auto].
      destruct (add_axis E _ rows rr); [|split; cbn; auto]. destruct (add_axis E _ cols rc); [|split; cbn; auto].
      pose proof (same_partial ts m m' H) as (P1 & P2 & P3). destruct (partial_utilities E ts m) as [[ts1 m1] r1]. destruct (partial_utilities E ts m') as [[ts2 m2] r2]. cbn [fst snd] in P1, P2, P3. subst ts2 r2. destruct r1; split; cbn; auto. }
    destruct P as (P1 & P2 & P3). destruct (add_partial_prepare E ts m rows cols cells rr rc) as [[ts1 m1] r1]. destruct (add_partial_prepare E ts m' rows cols cells rr rc) as [[ts2 m2] r2]. cbn [fst snd] in P1, P2, P3. subst ts2 r2.
    destruct r1 as [[[u ix] p]|]; cbn; auto.
  Qed.

  (** ** Calls on the data of one model *)
  (** a call on symbol [x]: what becomes of it depends on it, the tree and the units *)
  Definition on_symbol (x : string) (k : cm -> option symbol -> option symbol) (m : cm) : cm :=
    match k m (dget (m_scope m) x) with Some s => with_scope E m (dset (m_scope m) x s) | None => m end.
  Definition k_declare (x : string) (d : decl (cell:=cell)) : cm -> option symbol -> option symbol :=
    fun _ _ => if reserved x then None else match new_symbol E d with Ok s => Some s | Err _ => None end.
  Definition k_assign (v : value (num:=num) FR) : cm -> option symbol -> option symbol :=
    fun m o => match o with Some s => match assign (ev_eq E) FR (units E m) (choice_index E m) s v with Ok s' => Some s' | Err _ => None end | None => None end.
  Definition k_empty : cm -> option symbol -> option symbol := fun _ o => option_map (empty FR) o.
  Definition data_call (o : mop) : option (nat * (cm -> cm)) :=
    match o with
    | MTree _ i PartialUtilities => Some (i, fun m => m)
    | MTree _ i o => Some (i, fun m => tree_op E m o)
    | MUnits _ i d => Some (i, fun m => set_units E m d)
    | MDeclare _ i x d => Some (i, on_symbol x (k_declare x d))
    | MAssign _ i x v => Some (i, on_symbol x (k_assign v))
    | MEmpty _ i x => Some (i, on_symbol x k_empty)
    | MClearScope _ i => Some (i, clear_scope E)
    | _ => None
    end.
  Definition text_call (o : mop) : option (@cop) :=
    match o with MAppend _ i t g => Some (OAppend i t g) | MClearExprs _ i => Some (OClear i) | MDropGroup _ i g => Some (ODrop i g) | _ => None end.
  Lemma upd_self {A} (l : list A) i d : upd l i (nth i l d) = l.
  Proof. revert i. induction l as [|a l IH]; intros [|i]; cbn; auto. now rewrite IH. Qed.
  Lemma data_step o i f w : data_call o = Some (i, f) -> mstep E w o = set_model E w (mw_tabs w) i (f (model E w i)).
  Proof.
    destruct o; cbn [data_call]; try discriminate; intros H.
    - destruct o; injection H as <- <-; try reflexivity. cbn [mstep]. unfold set_model, model. destruct w. cbn. now rewrite upd_self.
    - injection H as <- <-. reflexivity.
    - injection H as <- <-. cbn [mstep]. f_equal. unfold declare, on_symbol, k_declare. destruct (reserved name); auto. destruct (new_symbol E d); auto.
    - injection H as <- <-. cbn [mstep]. f_equal. unfold assign_symbol, on_symbol, k_assign. destruct (dget (m_scope (model E w i0)) name); auto. destruct (assign _ _ _ _ _ _); auto.
    - injection H as <- <-. reflexivity.
    - injection H as <- <-. cbn [mstep]. f_equal. unfold empty_symbol, on_symbol, k_empty. destruct (dget (m_scope (model E w i0)) name); auto.
  Qed.
  Lemma text_step o c w : text_call o = Some c -> mstep E w o = set_exprs E w c.
  Proof. destruct o; cbn [text_call]; try discriminate; intros H; injection H as <-; reflexivity. Qed.

  Definition respects (f : cm -> cm) : Prop := forall m m', sameM m m' -> sameM (f m) (f m').
  Definition steady (k : cm -> option symbol -> option symbol) : Prop := forall m m' o, m_tree m = m_tree m' -> m_du m = m_du m' -> k m o = k m' o.
  Lemma steady_declare x d : steady (k_declare x d). Proof. intros m m' o _ _. reflexivity. Qed.
  Lemma steady_assign v : steady (k_assign v). Proof. intros m m' o T U. unfold k_assign, units, choice_index. now rewrite T, U. Qed.
  Lemma steady_empty : steady k_empty. Proof. intros m m' o _ _. reflexivity. Qed.
  Lemma on_symbol_respects x k : steady k -> respects (on_symbol x k).
  Proof.
    intros K m m' H. pose proof H as [HE HS]. destruct (sameM_view _ _ H) as (T & U & _). unfold on_symbol. rewrite <- (ss_get _ _ HS), (K m' m _ T U).
    destruct (k m (dget (m_scope m) x)) as [s|]; auto. split; [rewrite HE; reflexivity|]. cbn [m_scope with_scope]. now apply sameS_dset.
  Qed.
  Lemma tree_respects o : respects (fun m => tree_op E m o).
  Proof. intros m m' H. pose proof H as [HE HS]. destruct (sameM_view _ _ H) as (T & U & C). unfold tree_op. rewrite T, U, C. split; [reflexivity|exact HS]. Qed.
  Lemma units_respects d : respects (fun m => set_units E m d).
  Proof.
    intros m m' H. pose proof H as [HE HS]. destruct (sameM_view _ _ H) as (T & U & C). unfold set_units. rewrite T, C. split; [reflexivity|]. cbn [m_scope].
    exact (sameS_map (fun s => if is_number E s then s else empty FR s) _ _ HS).
  Qed.
  Lemma clear_respects : respects (clear_scope E).
  Proof. intros m m' [HE HS]. rewrite HE. unfold clear_scope. split; [reflexivity|apply sameS_nil]. Qed.
  Lemma data_respects o i f : data_call o = Some (i, f) -> respects f.
  Proof.
    destruct o; cbn [data_call]; try discriminate; intros H; [destruct o| | | | |]; injection H as <- <-;
      auto using tree_respects, units_respects, clear_respects, on_symbol_respects, steady_declare, steady_assign, steady_empty.
    intros m m' H. exact H.
  Qed.

  (** ** Worlds *)
  Record sameW (w w' : mworld) : Prop := SameW { sw_ex : mw_ex w = mw_ex w'; sw_tabs : mw_tabs w = mw_tabs w'; sw_models : Forall2 sameM (mw_models w) (mw_models w') }.
  Lemma sameW_trans a b c : sameW a b -> sameW b c -> sameW a c.
  Proof.
    intros [A1 A2 A3] [B1 B2 B3]. constructor; try congruence. revert B3. generalize (mw_models c) as lc. induction A3 as [|x y lx ly H A IH]; intros lc B; inversion B; subst; constructor; eauto using sameM_trans.
  Qed.
  Lemma sameM_new : sameM (new_cm E) (new_cm E). Proof. split; [reflexivity|apply sameS_nil]. Qed.
  Lemma sameW_model w w' i : sameW w w' -> sameM (model E w i) (model E w' i).
  Proof. intros [_ _ H]. unfold model. revert i. induction H; intros [|i]; cbn; auto using sameM_new. Qed.
  Lemma forall2_upd (l l' : list cm) i m m' : Forall2 sameM l l' -> sameM m m' -> Forall2 sameM (upd l i m) (upd l' i m').
  Proof. intros H HM. revert i. induction H; intros [|i]; cbn; constructor; auto. Qed.
  Lemma sameW_set w w' ts i m m' : sameW w w' -> sameM m m' -> sameW (set_model E w ts i m) (set_model E w' ts i m').
  Proof. intros [A B C] H. constructor; cbn; auto. now apply forall2_upd. Qed.
  Lemma same_step w w' o : sameW w w' -> sameW (mstep E w o) (mstep E w' o).
  Proof.
    intros H. destruct (data_call o) as [[i f]|] eqn:DC.
    { rewrite !(data_step o i f _ DC), <- (sw_tabs _ _ H). apply sameW_set; auto. apply (data_respects _ _ _ DC). now apply sameW_model. }
    destruct (text_call o) as [c|] eqn:TC.
    { rewrite !(text_step o c _ TC). unfold set_exprs. rewrite (sw_ex _ _ H), (sw_tabs _ _ H). constructor; cbn; auto. apply H. }
    pose proof (sw_ex _ _ H) as X1. pose proof (sw_tabs _ _ H) as X2. pose proof (sw_models _ _ H) as X3.
    destruct o; cbn [data_call text_call] in DC, TC; try discriminate; try (destruct o; discriminate); cbn [mstep]; unfold mheap, mcont; rewrite <- ?X1, <- ?X2.
    - constructor; cbn; auto. apply Forall2_app; auto using sameM_new.
    - pose proof (same_stochastic (w_heap (mw_ex w)) (cont (mw_ex w) i) (mw_tabs w) _ _ g clear scale check (sameW_model w w' i H)) as (P1 & P2 & _).
      destruct (run_stochastic _ _ _ _ _ _ _ _ _) as [[ts1 m1] r1]. destruct (run_stochastic _ _ _ _ (model E w' i) _ _ _ _) as [[ts2 m2] r2]. cbn [fst snd] in P1, P2. subst ts2. now apply sameW_set.
    - pose proof (same_discrete (w_heap (mw_ex w)) (cont (mw_ex w) i) (mw_tabs w) _ _ n_draws clear (sameW_model w w' i H)) as (P1 & P2 & _).
      destruct (run_discrete_utilities _ _ _ _ _ _ _) as [[ts1 m1] r1]. destruct (run_discrete_utilities _ _ _ _ (model E w' i) _ _) as [[ts2 m2] r2]. cbn [fst snd] in P1, P2. subst ts2. now apply sameW_set.
    - pose proof (same_preval (w_heap (mw_ex w)) (cont (mw_ex w) i) (mw_tabs w) _ _ g drop cleanup (sameW_model w w' i H)) as P. cbv zeta in P.
      destruct (preval _ _ _ _ _ _ _ _) as [[[ts1 c1] m1] r1]. destruct (preval _ _ _ _ (model E w' i) _ _ _) as [[[ts2 c2] m2] r2]. cbn [fst snd] in P. destruct P as (-> & -> & P & _). constructor; cbn; auto. now apply forall2_upd.
    - pose proof (same_copy (mw_tabs w) _ _ f (sameW_model w w' i H)) as [P1 P2].
      destruct (copy_model _ _ _ _) as [ts1 m1]. destruct (copy_model _ _ (model E w' i) _) as [ts2 m2]. cbn [fst snd] in P1, P2. subst ts2. constructor; cbn; auto. apply Forall2_app; auto.
    - pose proof (same_subset (mw_tabs w) _ _ mask_index mask (sameW_model w w' i H)) as [P1 P2].
      destruct (copy_subset _ _ _ _ _) as [ts1 [m1|]]; destruct (copy_subset _ _ (model E w' i) _ _) as [ts2 [m2|]]; cbn [fst snd] in P1, P2; try contradiction; subst ts2; constructor; cbn; auto. apply Forall2_app; auto.
    - pose proof (same_give (mw_tabs w) _ _ rows cols cells reindex_rows reindex_cols outcome (sameW_model w w' i H)) as [P1 P2].
      destruct (give _ _ _ _ _ _ _ _ _) as [ts1 m1]. destruct (give _ _ (model E w' i) _ _ _ _ _ _) as [ts2 m2]. cbn [fst snd] in P1, P2. subst ts2. now apply sameW_set.
  Qed.
  Lemma same_steps : forall l w w', sameW w w' -> sameW (mrun E w l) (mrun E w' l).
  Proof. induction l as [|o l IH]; intros w w' H; cbn; auto. apply IH. now apply same_step. Qed.
  Lemma sameW_start : sameW start start. Proof. constructor; cbn; auto. Qed.

  (** ** Exchanging two calls *)
  Notation valid m := (sameM m m).
  Lemma sym_sym x y k k' m : valid m -> steady k -> steady k' -> x <> y -> sameM (on_symbol y k' (on_symbol x k m)) (on_symbol x k (on_symbol y k' m)).
  Proof.
    intros V K K' N. assert (FX : forall s : scope, forall v, dget (dset s x v) y = dget s y) by (intros; rewrite (dget_dset String.eqb String.eqb_eq); destruct (String.eqb_spec y x); congruence).
    assert (FY : forall s : scope, forall v, dget (dset s y v) x = dget s x) by (intros; rewrite (dget_dset String.eqb String.eqb_eq); destruct (String.eqb_spec x y); congruence).
    unfold on_symbol at 2 4. destruct (k m (dget (m_scope m) x)) as [a|] eqn:A, (k' m (dget (m_scope m) y)) as [b|] eqn:B; unfold on_symbol; cbn [m_scope with_scope]; rewrite ?FX, ?FY; rewrite ?(K (with_scope E m _) m _ eq_refl eq_refl), ?(K' (with_scope E m _) m _ eq_refl eq_refl), ?A, ?B; auto.
    - apply (sameM_scope m). destruct V as [_ [N1 _ _]]. constructor; try (repeat apply dset_keys_nodup; auto using String.eqb_eq). intros z. rewrite !(dget_dset String.eqb String.eqb_eq).
      destruct (String.eqb_spec z x), (String.eqb_spec z y); congruence.
    - apply (sameM_scope m). apply sameS_dset. apply V.
    - apply (sameM_scope m). apply sameS_dset. apply V.
  Qed.
  (** declaring and emptying do not depend on the tree and the units, and leave nothing for [set_units] to empty *)
  Definition em (s : symbol) : symbol := if is_number E s then s else empty FR s.
  Record plain_sym (k : cm -> option symbol -> option symbol) : Prop := PlainSym {
    pl_any : forall m m' o, k m o = k m' o;
    pl_em : forall m o, k m (option_map em o) = k m o;
    pl_empty : forall m o s, k m o = Some s -> em s = s }.
  Lemma plain_declare x d : plain_sym (k_declare x d).
  Proof.
    constructor; [reflexivity|reflexivity|]. intros m o s. unfold k_declare. destruct (reserved x); [discriminate|]. unfold new_symbol. destruct d; cbn [rbind].
    - intros H. injection H as <-. reflexivity.
    - destruct (orientation =? 0); [|destruct (orientation =? 1)]; cbn [rbind]; intros H; try discriminate; injection H as <-; reflexivity.
    - destruct (orientation =? 0); [|destruct (orientation =? 1)]; cbn [rbind]; intros H; try discriminate; injection H as <-; reflexivity.
    - destruct (orientation =? 0); [|destruct (orientation =? 1)]; cbn [rbind]; intros H; try discriminate; injection H as <-; reflexivity.
  Qed.
  Lemma plain_empty : plain_sym k_empty.
  Proof.
    constructor; [reflexivity| |].
    - intros m [s|]; cbn; auto. f_equal. now destruct s.
    - intros m [s|] s'; cbn; [|discriminate]. intros H. injection H as <-. now destruct s.
  Qed.
  Lemma map_dset (f : symbol -> symbol) : forall (s : scope) x v, map (fun p => (fst p, f (snd p))) (dset s x v) = dset (map (fun p => (fst p, f (snd p))) s) x (f v).
  Proof. induction s as [|[k u] s IH]; intros x v; cbn; auto. destruct (String.eqb x k); cbn; auto. now rewrite IH. Qed.
  Lemma set_units_em m d : set_units E m d = CM (m_tree m) (map (fun p => (fst p, em (snd p))) (m_scope m)) (Some d) (m_utils m).
  Proof. reflexivity. Qed.
  Lemma units_sym x k m d : valid m -> plain_sym k -> sameM (on_symbol x k (set_units E m d)) (set_units E (on_symbol x k m) d).
  Proof.
    intros V [P1 P2 P3]. pose proof (units_respects d m m V) as VU. unfold on_symbol. rewrite set_units_em. cbn [m_scope]. rewrite dget_map, (P1 _ m), P2. destruct (k m (dget (m_scope m) x)) as [s|] eqn:Q; [|exact VU].
    rewrite set_units_em. cbn [m_scope m_tree m_utils with_scope]. rewrite map_dset, (P3 m _ _ Q). split; [reflexivity|]. cbn [m_scope with_scope]. apply sameS_dset. apply VU.
  Qed.
  Lemma tree_sym x k m o : valid m -> plain_sym k -> sameM (on_symbol x k (tree_op E m o)) (tree_op E (on_symbol x k m) o).
  Proof.
    intros V [P1 P2 P3]. unfold on_symbol. cbn [tree_op m_scope]. rewrite (P1 _ m). destruct (k m (dget (m_scope m) x)) as [s|]; [|exact (tree_respects o m m V)].
    split; [reflexivity|]. cbn [m_scope with_scope tree_op]. apply sameS_dset. apply V.
  Qed.
  Lemma upd_upd {A} : forall (l : list A) i j x y, i <> j -> upd (upd l i x) j y = upd (upd l j y) i x.
  Proof. induction l as [|a l IH]; intros [|i] [|j] x y N; cbn; auto; try lia. f_equal. apply IH. lia. Qed.
  (** two calls on one model *)
  Lemma data_pair w i f g : sameW w w -> (forall m, valid m -> sameM (g (f m)) (f (g m))) ->
    sameW (let w1 := set_model E w (mw_tabs w) i (f (model E w i)) in set_model E w1 (mw_tabs w1) i (g (model E w1 i)))
          (let w1 := set_model E w (mw_tabs w) i (g (model E w i)) in set_model E w1 (mw_tabs w1) i (f (model E w1 i))).
  Proof.
    intros W H. cbv zeta. unfold set_model, model. cbn [mw_ex mw_tabs mw_models]. rewrite !upd_twice. constructor; cbn; auto. destruct (le_lt_dec (length (mw_models w)) i) as [G|G].
    - rewrite !upd_out by auto. apply W.
    - rewrite !nth_upd_eq by auto. apply forall2_upd; [apply W|]. apply H. apply (sameW_model w w i W).
  Qed.
  Lemma data_text o i f o' c w : sameW w w -> data_call o = Some (i, f) -> text_call o' = Some c -> mstep E (mstep E w o) o' = mstep E (mstep E w o') o.
  Proof. intros W DC TC. rewrite !(text_step o' c _ TC), !(data_step o i f _ DC). reflexivity. Qed.
  Lemma data_apart o i f o' j g w : data_call o = Some (i, f) -> data_call o' = Some (j, g) -> i <> j -> mstep E (mstep E w o) o' = mstep E (mstep E w o') o.
  Proof.
    intros D1 D2 N. rewrite !(data_step o i f _ D1), !(data_step o' j g _ D2). unfold set_model, model. cbn [mw_ex mw_tabs mw_models]. rewrite !nth_upd_neq by lia. f_equal. now apply upd_upd.
  Qed.
  Lemma topic_call o i t : set_up E o = Some (i, t) ->
    match t with
    | Texts => exists c, text_call o = Some c
    | Choices => exists f, data_call o = Some (i, f) /\ ((exists p, f = fun m => tree_op E m p) \/ f = fun m => m)
    | Units => exists d, data_call o = Some (i, fun m => set_units E m d)
    | Declares x => exists k, data_call o = Some (i, on_symbol x k) /\ plain_sym k /\ steady k
    | Assigns x => exists k, data_call o = Some (i, on_symbol x k) /\ steady k
    | AllSymbols => data_call o = Some (i, clear_scope E)
    end.
  Proof.
    destruct o; cbn [set_up]; try discriminate; intros H; injection H as <- <-; cbn [data_call text_call]; eauto using plain_declare, plain_empty, steady_declare, steady_assign, steady_empty.
    destruct o; eexists; split; eauto.
  Qed.
  Lemma exchange_apart w a b i j s t : sameW w w -> set_up E a = Some (i, s) -> set_up E b = Some (j, t) -> i = j -> apart s t ->
    sameW (mstep E (mstep E w a) b) (mstep E (mstep E w b) a) /\ sameW (mstep E (mstep E w b) a) (mstep E (mstep E w a) b).
  Proof.
    intros W A B <- AP. apply topic_call in A. apply topic_call in B.
    assert (VV : forall f, respects f -> forall m, valid m -> valid (f m)) by (intros f R m V; now apply R).
    assert (EQ : mstep E (mstep E w a) b = mstep E (mstep E w b) a -> sameW (mstep E (mstep E w a) b) (mstep E (mstep E w b) a) /\ sameW (mstep E (mstep E w b) a) (mstep E (mstep E w a) b)).
    { intros Q. rewrite Q. split; apply same_step, same_step, W. }
    assert (DD : forall f g, data_call a = Some (i, f) -> data_call b = Some (i, g) -> (forall m, valid m -> sameM (g (f m)) (f (g m)) /\ sameM (f (g m)) (g (f m))) ->
      sameW (mstep E (mstep E w a) b) (mstep E (mstep E w b) a) /\ sameW (mstep E (mstep E w b) a) (mstep E (mstep E w a) b)).
    { intros f g D1 D2 H. rewrite !(data_step a i f _ D1), !(data_step b i g _ D2). split; apply data_pair; auto; intros m V; apply (H m V). }
    assert (SYM : forall m m', sameM m m' -> sameM m' m).
    { intros m m' H. pose proof H as [HE [N1 N2 G]]. destruct (sameM_view _ _ H) as (T & U & C). split; [|constructor; auto]. destruct m, m'. cbn in *. unfold with_scope. cbn. congruence. }
    destruct AP.
    - destruct A as [c TC]. apply EQ. symmetry. assert (DC : exists f, data_call b = Some (i, f)).
      { destruct t; try congruence; try (destruct B as (k & B & _); eauto; fail); try (destruct B as (k & B); eauto; fail); eauto. }
      destruct DC as [f DC]. eapply data_text; eauto.
    - destruct A as (f & A & Af), B as (d & B). eapply DD; eauto. intros m V. destruct Af as [[p ->]| ->]; [|split; apply (units_respects d m m V)].
      assert (Q : set_units E (tree_op E m p) d = tree_op E (set_units E m d) p) by reflexivity. cbv beta. rewrite Q. split; exact (tree_respects p _ _ (units_respects d m m V)).
    - destruct A as (f & A & Af), B as (k & B & PK & SK). eapply DD; eauto. intros m V. destruct Af as [[p ->]| ->].
      + pose proof (tree_sym x k m p V PK). split; auto.
      + split; apply (on_symbol_respects x k SK m m V).
    - destruct A as (f & A & Af). eapply DD; eauto. intros m V. destruct Af as [[p ->]| ->]; [|split; apply (clear_respects m m V)].
      assert (Q : clear_scope E (tree_op E m p) = tree_op E (clear_scope E m) p) by reflexivity. cbv beta. rewrite Q. split; exact (tree_respects p _ _ (clear_respects m m V)).
    - destruct A as (d & A), B as (k & B & PK & SK). eapply DD; eauto. intros m V. pose proof (units_sym x k m d V PK). split; auto.
    - destruct A as (d & A). eapply DD; eauto. intros m V. assert (Q : clear_scope E (set_units E m d) = set_units E (clear_scope E m) d) by reflexivity. cbv beta. rewrite Q. split; exact (units_respects d _ _ (clear_respects m m V)).
    - destruct A as (k & A & PK & SK), B as (k' & B & PK' & SK'). eapply DD; eauto. intros m V. pose proof (sym_sym x y k k' m V SK SK' H). split; auto.
    - destruct A as (k & A & PK & SK), B as (k' & B & SK'). eapply DD; eauto. intros m V. pose proof (sym_sym x y k k' m V SK SK' H). split; auto.
    - destruct A as (k & A & SK), B as (k' & B & SK'). eapply DD; eauto. intros m V. pose proof (sym_sym x y k k' m V SK SK' H). split; auto.
  Qed.
  Lemma exchange_step w a b : sameW w w -> unrelated E a b -> sameW (mstep E (mstep E w a) b) (mstep E (mstep E w b) a).
  Proof.
    intros W U. unfold unrelated in U. destruct (set_up E a) as [[i s]|] eqn:A; [|contradiction]. destruct (set_up E b) as [[j t]|] eqn:B; [|contradiction].
    assert (REF : mstep E (mstep E w a) b = mstep E (mstep E w b) a -> sameW (mstep E (mstep E w a) b) (mstep E (mstep E w b) a)) by (intros Q; rewrite Q; apply same_step, same_step, W).
    assert (OFF : i <> j -> ~ (s = Texts /\ t = Texts) -> sameW (mstep E (mstep E w a) b) (mstep E (mstep E w b) a)).
    { intros N NT. apply REF. pose proof (topic_call _ _ _ A) as TA. pose proof (topic_call _ _ _ B) as TB.
      assert (KA : (exists c, text_call a = Some c) \/ exists f, data_call a = Some (i, f)) by (destruct s; [left|right..]; try (destruct TA as (k & TA & _); eauto; fail); try (destruct TA as (k & TA); eauto; fail); eauto).
      assert (KB : (exists c, text_call b = Some c) \/ exists f, data_call b = Some (j, f)) by (destruct t; [left|right..]; try (destruct TB as (k & TB & _); eauto; fail); try (destruct TB as (k & TB); eauto; fail); eauto).
      destruct KA as [[c KA]|[f KA]], KB as [[c' KB]|[g KB]].
      - exfalso. apply NT. destruct s; [|exfalso..]; [destruct t; [auto|exfalso..]|..]; clear - A B KA KB; destruct a; try discriminate; destruct b; discriminate.
      - symmetry. eapply data_text; eauto.
      - eapply data_text; eauto.
      - eapply data_apart; eauto. }
    destruct (Nat.eq_dec i j) as [->|N].
    - destruct U as [U|[U|[U _]]]; [|..|congruence].
      + exact (proj1 (exchange_apart w a b j j s t W A B eq_refl U)).
      + exact (proj2 (exchange_apart w b a j j t s W B A eq_refl U)).
    - apply OFF; auto. intros [-> ->]. destruct U as [U|[U|[_ U]]]; [inversion U; congruence|inversion U; congruence|auto].
  Qed.
  Lemma reordered_same ops ops' : reordered E ops ops' -> sameW (mrun E start ops) (mrun E start ops').
  Proof.
    induction 1 as [l|before a b after U|l1 l2 l3 _ IH1 _ IH2].
    - apply same_steps, sameW_start.
    - unfold mrun. rewrite !fold_left_app. cbn [fold_left]. change (fold_left (mstep E) before start) with (mrun E start before). apply (same_steps after). apply exchange_step; auto. apply same_steps, sameW_start.
    - eapply sameW_trans; eauto.
  Qed.

  (** ** C110 *)
  (** Sequences of calls that differ in the order of unrelated set-up calls: afterwards every model runs alike. *)
  Theorem C110_order_of_set_up (ops ops' : list mop) : reordered E ops ops' ->
    let w := mrun E start ops in let w' := mrun E start ops' in
    forall i, m_tree (model E w i) = m_tree (model E w' i) /\ m_du (model E w i) = m_du (model E w' i) /\ (forall x, dget (m_scope (model E w i)) x = dget (m_scope (model E w' i)) x) /\
      (forall group clear, snd (run_utilities E (mheap E w) (mcont E w i) (mw_tabs w) (model E w i) group clear) = snd (run_utilities E (mheap E w') (mcont E w' i) (mw_tabs w') (model E w' i) group clear)) /\
      (forall group clear scale check, snd (run_stochastic_all E (mheap E w) (mcont E w i) (mw_tabs w) (model E w i) group clear scale check) = snd (run_stochastic_all E (mheap E w') (mcont E w' i) (mw_tabs w') (model E w' i) group clear scale check)) /\
      (forall (G : generator F) n clear seed scale as_index squeeze out,
         (exists ts m, run_discrete E G (mheap E w) (mcont E w i) (mw_tabs w) (model E w i) n clear seed scale as_index squeeze ts m out) <->
         (exists ts m, run_discrete E G (mheap E w') (mcont E w' i) (mw_tabs w') (model E w' i) n clear seed scale as_index squeeze ts m out)).
  Proof.
    intros R w w' i. pose proof (reordered_same _ _ R) as W. fold w w' in W. pose proof (sameW_model w w' i W) as M. destruct (sameM_view _ _ M) as (T & U & C). unfold mheap, mcont. rewrite <- (sw_ex _ _ W), <- (sw_tabs _ _ W).
    split; auto. split; auto. split; [apply M|]. split; [intros g cl; apply (same_run _ _ _ _ _ g cl M)|]. split; [intros g cl sc ck; apply (same_stochastic_all _ _ _ _ _ g cl sc ck M)|].
    intros G n cl seed sc ai sq out. unfold run_discrete. pose proof (same_discrete (w_heap (mw_ex w)) (cont (mw_ex w) i) (mw_tabs w) _ _ n cl M) as (P1 & P2 & P3).
    destruct (run_discrete_utilities _ _ _ _ _ _ _) as [[ts1 m1] r1]. destruct (run_discrete_utilities _ _ _ _ (model E w' i) _ _) as [[ts2 m2] r2]. cbn [fst snd] in P1, P2, P3. subst ts2 r2.
    destruct (sameM_view _ _ P2) as (T1 & U1 & _). destruct r1 as [u|e].
    - rewrite T1. assert (CV : forall raw k, convert_result E m2 raw k ai sq = convert_result E m1 raw k ai sq) by (intros; unfold convert_result, units; now rewrite T1, U1).
      split; intros (ts & m & -> & -> & X); [exists ts1, m2|exists ts1, m1]; split; auto; split; auto; destruct (sampling_task G (m_tree m1) u (Z.to_nat n) seed sc); auto;
        destruct X as (r0 & m0 & mem & e & PF & X); exists r0, m0, mem, e; split; auto; destruct e; auto; [rewrite CV|rewrite <- CV]; exact X.
    - split; intros (ts & m & -> & -> & X); [exists ts1, m2|exists ts1, m1]; auto.
  Qed.

  (** ** C111 *)
  (** a call that gives symbol [x] of model [i] other data, or none *)
  Definition data_of (i : nat) (x : string) (o : mop) : Prop := (exists v, o = MAssign E i x v) \/ o = MEmpty E i x.
  Lemma assign_settings us ch (s s' : symbol) v : empty FR s = empty FR s' -> assign (ev_eq E) FR us ch s v = assign (ev_eq E) FR us ch s' v.
  Proof. destruct s, s'; cbn; intros H; try discriminate; try injection H as ->; try reflexivity; subst; reflexivity. Qed.
  Lemma assign_keeps us ch (s s' : symbol) v : assign (ev_eq E) FR us ch s v = Ok s' -> empty FR s' = empty FR s.
  Proof.
    destruct s; cbn; intros H; [destruct v; try discriminate; injection H as <-; reflexivity|..]; apply rbind_ok in H; destruct H as (y & _ & H); injection H as <-; reflexivity.
  Qed.
  Lemma dset_twice : forall (s : scope) x a b, dset (dset s x a) x b = dset s x b.
  Proof. induction s as [|[k v] s IH]; intros x a b; cbn; [now rewrite String.eqb_refl|]. destruct (String.eqb x k) eqn:Q; cbn; rewrite Q; auto. now rewrite IH. Qed.
  Lemma data_of_effect i x o w : data_of i x o ->
    mstep E w o = w \/ exists s s', dget (m_scope (model E w i)) x = Some s /\ empty FR s' = empty FR s /\ mstep E w o = set_model E w (mw_tabs w) i (with_scope E (model E w i) (dset (m_scope (model E w i)) x s')).
  Proof.
    assert (SELF : set_model E w (mw_tabs w) i (model E w i) = w) by (unfold set_model, model; destruct w; cbn; now rewrite upd_self).
    intros [[v ->]| ->]; cbn [mstep]; unfold assign_symbol, empty_symbol.
    - destruct (dget (m_scope (model E w i)) x) as [s|] eqn:G; [|left; exact SELF]. destruct (assign (ev_eq E) FR _ _ s v) as [s'|] eqn:A; [|left; exact SELF]. right. exists s, s'. split; auto. split; auto. eapply assign_keeps; eauto.
    - destruct (dget (m_scope (model E w i)) x) as [s|] eqn:G; [|left; exact SELF]. right. exists s, (empty FR s). split; auto. split; auto. now destruct s.
  Qed.
  (** After any assignments to a symbol, accepted or not, and emptyings of it, an assignment is accepted or rejected as it
      would have been without them; if it is accepted, the state is the one without them. *)
  Theorem C111_last_assignment_counts w i x v before : Forall (data_of i x) before ->
    snd (assign_symbol E (model E (mrun E w before) i) x v) = snd (assign_symbol E (model E w i) x v) /\
    (snd (assign_symbol E (model E w i) x v) = Ok tt -> mrun E w (before ++ [MAssign E i x v]) = mstep E w (MAssign E i x v)).
  Proof.
    intros H. revert w. induction H as [|o t Ho _ IH]; intros w; [split; reflexivity|]. cbn [mrun fold_left app]. destruct (IH (mstep E w o)) as [I1 I2]. change (fold_left (mstep E) t (mstep E w o)) with (mrun E (mstep E w o) t). rewrite I1.
    change (fold_left (mstep E) (t ++ [MAssign E i x v]) (mstep E w o)) with (mrun E (mstep E w o) (t ++ [MAssign E i x v])).
    destruct (data_of_effect i x o w Ho) as [Q|(s & s' & G & EM & Q)]; [rewrite Q in *; auto|].
    destruct (le_lt_dec (length (mw_models w)) i) as [LE|LT].
    - assert (QW : mstep E w o = w) by (rewrite Q; unfold set_model; rewrite upd_out by auto; now destruct w). rewrite QW in *. auto.
    - assert (ME : model E (mstep E w o) i = with_scope E (model E w i) (dset (m_scope (model E w i)) x s')) by (rewrite Q; unfold set_model, model; cbn [mw_models]; now rewrite nth_upd_eq).
      assert (AE : forall r, assign (ev_eq E) FR (units E (model E (mstep E w o) i)) (choice_index E (model E (mstep E w o) i)) s' r = assign (ev_eq E) FR (units E (model E w i)) (choice_index E (model E w i)) s r).
      { intros r. rewrite ME. apply assign_settings. exact EM. }
      assert (GE : dget (m_scope (model E (mstep E w o) i)) x = Some s') by (rewrite ME; cbn [m_scope with_scope]; rewrite (dget_dset String.eqb String.eqb_eq), String.eqb_refl; reflexivity).
      assert (SE : snd (assign_symbol E (model E (mstep E w o) i) x v) = snd (assign_symbol E (model E w i) x v)) by (unfold assign_symbol; rewrite GE, G, AE; destruct (assign _ _ _ _ _ _); reflexivity).
      split; auto. intros OK. rewrite I2 by congruence. cbn [mstep]. unfold assign_symbol in OK |- *. rewrite GE, G, AE. rewrite G in OK. destruct (assign (ev_eq E) FR _ _ s v) as [z|]; [|discriminate]. cbn [fst].
      rewrite ME. cbn [m_scope with_scope m_tree m_du m_utils]. rewrite dset_twice, Q. unfold set_model. cbn [mw_ex mw_tabs mw_models]. now rewrite upd_twice.
  Qed.
End Order.
Print Assumptions C110_order_of_set_up.
Print Assumptions C111_last_assignment_counts.

(** *** The hypotheses are met: the set-up of the model of two choices in another order *)
Definition o_ops : list (mop idE) :=
  [MNew idE; MDeclare idE 0 "x" (DeclVector 0); MAppend idE 0 "x * 2" None; MUnits idE 0 ["h1"; "h2"]; MTree idE 0 (@AddChoices (B64 (fun x => x) (fun x => x)) ["A"; "B"] false None);
   MAssign idE 0 "x" (fseries (fun x => x) (fun x => x) ["h1"; "h2"] [3; 5]%Z)].
Example C110_hypotheses_met : reordered idE (two_choices (fun x => x) (fun x => x) ++ [MAppend idE 0 "x * 2" None]) o_ops /\
  futilities _ _ (mrun idE (new_mworld idE) o_ops) None = Ok [[sfz 6; sfz 6]; [sfz 10; sfz 10]].
Proof.
  split; [|vm_compute; reflexivity]. unfold two_choices, o_ops. cbn [app].
  assert (U1 : forall a b, unrelated idE (MAssign idE 0 a b) (MAppend idE 0 "x * 2" None)) by (intros; unfold unrelated; cbn [set_up]; right; left; constructor; discriminate).
  assert (U2 : forall a b, unrelated idE (MDeclare idE 0 a b) (MAppend idE 0 "x * 2" None)) by (intros; unfold unrelated; cbn [set_up]; right; left; constructor; discriminate).
  eapply again; [apply (exchange idE [_; _; _; _] _ _ []); apply U1|]. cbn [app].
  eapply again; [apply (exchange idE [_; _] (MUnits idE 0 _) (MDeclare idE 0 _ _) [_; _]); unfold unrelated; cbn [set_up]; left; constructor|]. cbn [app].
  eapply again; [apply (exchange idE [_] (MTree idE 0 _) (MDeclare idE 0 _ _) [_; _; _]); unfold unrelated; cbn [set_up]; left; constructor|]. cbn [app].
  eapply again; [apply (exchange idE [_; _; _] (MUnits idE 0 _) (MAppend idE 0 _ _) [_]); unfold unrelated; cbn [set_up]; right; left; constructor; discriminate|]. cbn [app].
  eapply again; [apply (exchange idE [_; _] (MTree idE 0 _) (MAppend idE 0 _ _) [_; _]); unfold unrelated; cbn [set_up]; right; left; constructor; discriminate|]. cbn [app].
  apply (exchange idE [_; _; _] (MTree idE 0 _) (MUnits idE 0 _) [_]). unfold unrelated. cbn [set_up]. left. constructor.
Qed.
Definition l_ops : list (mop idE) := [MAssign idE 0 "x" (fseries (fun x => x) (fun x => x) ["h1"; "h2"] [7; 8]%Z); MEmpty idE 0 "x"; MAssign idE 0 "x" (fseries (fun x => x) (fun x => x) ["h2"; "h1"] [1; 1]%Z)].
Example C111_hypotheses_met : Forall (data_of idE 0 "x") l_ops /\
  snd (assign_symbol idE (model idE (fworld (fun x => x) (fun x => x) []) 0) "x" (fseries (fun x => x) (fun x => x) ["h1"; "h2"] [4; 5]%Z)) = Ok tt.
Proof. split; [|vm_compute; reflexivity]. unfold l_ops. apply Forall_cons; [left; eexists; reflexivity|]. apply Forall_cons; [right; reflexivity|]. apply Forall_cons; [left; eexists; reflexivity|]. apply Forall_nil. Qed.
(** setting the units again is not unrelated to the data: it empties them (C44), so the order matters *)
Example C110_units_after_data : is_ok (futilities _ _ (mrun idE (new_mworld idE) (o_ops ++ [MUnits idE 0 ["h1"; "h2"]])) None) = false.
Proof. vm_compute. reflexivity. Qed.
