(** C90: debugging shows the utilities of one decision unit after each expression and changes nothing else.
    C91: when it does change something. *)
From Verif Require Import Prelude Arith CoreModel TreeModel DictProofs ParModel ExprModel SpecExpr ExprProofs ExprUses ExprMeaning ExprContainer ExprWorld ScopeModel SpecScope ScopeProofs ModelModel ModelProofs SpecModel KernelProofs EvalProofs ModelExample PropState ModelWorld ModelHist ModelTabs RunProofs PropUtility PropExpr SpecTree TreeProofs TreeMore TreeHist RunOut SpecEnd EndProofs PropEnd PropExternal DebugModel.
Local Open Scope string_scope.
Local Open Scope nat_scope.
Local Open Scope list_scope.

Section Debug.
  Context {L : Type} {F : arith} {D cell : Type} (E : env L F D cell) (truthy : D -> bool).
  Notation num := (num F).
  Notation FR := (ev_frames E).
  Notation cm := (cm E).
  Notation dbg := (dbg (F:=F) (D:=D)).
  Notation expression := (@expression L).
  Notation tables := (list (list (list num))).
  Context (NL : numexpr_local E) (EQ : forall a b, ev_eq E a b = true <-> a = b).

  (** the record of a list of expressions, by prefixes *)
  Lemma debug_prefixes p scope nl cols sh k : forall xs u t rows, eval_all_debug E p scope nl cols sh k u xs = (t, Ok rows) ->
    eval_all E scope nl cols sh k u xs = (t, Ok tt) /\ map fst rows = map (@e_raw L) xs /\
    forall j x row, nth_error rows j = Some (x, row) -> exists v, eval_all E scope nl cols sh k u (firstn (S j) xs) = (v, Ok tt) /\ nth_error v p = Some row.
  Proof.
    induction xs as [|x xs IH]; intros u t rows H; cbn [eval_all_debug] in H.
    - injection H as <- <-. split; [reflexivity|]. split; [reflexivity|]. intros [|j]; discriminate.
    - destruct (eval_one E scope nl cols sh k u x) as [u'|] eqn:E1; [|discriminate]. destruct (nth_error u' p) as [row|] eqn:NP; [|discriminate].
      destruct (eval_all_debug E p scope nl cols sh k u' xs) as [v r] eqn:EV. destruct r as [rows'|]; [|discriminate]. cbn in H. injection H as <- <-.
      destruct (IH u' v rows' EV) as (A & B & C). split; [cbn; now rewrite E1|]. split; [cbn; now rewrite B|].
      intros [|j] y row' H; cbn [nth_error] in H.
      + injection H as <- <-. cbn [firstn eval_all]. rewrite E1. cbn [eval_all]. eauto.
      + destruct (C j y row' H) as (v' & Q1 & Q2). exists v'. cbn [firstn eval_all]. rewrite E1. change (match xs with [] => [] | a :: l => a :: firstn j l end) with (firstn (S j) xs). auto.
  Qed.
  Lemma debug_same p scope nl cols sh k : forall xs u, rectangle (length u) k u -> p < length u ->
    match eval_all E scope nl cols sh k u xs with
    | (t, Err e) => eval_all_debug E p scope nl cols sh k u xs = (t, Err e)
    | (t, Ok _) => exists rows, eval_all_debug E p scope nl cols sh k u xs = (t, Ok rows) /\ forall row, In row rows -> length (snd row) = k
    end.
  Proof.
    induction xs as [|x xs IH]; intros u R HP; cbn [eval_all eval_all_debug]; [exists []; split; [reflexivity|intros row []]|].
    destruct (eval_one E scope nl cols sh k u x) as [u'|e] eqn:E1; [|reflexivity].
    assert (R' : rectangle (length u) k u').
    { apply (eval_all_rect E NL scope nl cols sh k [x] u u' (Ok tt)); auto. cbn [eval_all]. now rewrite E1. }
    assert (LU : length u' = length u) by apply R'. rewrite <- LU in R', HP. specialize (IH u' R' HP).
    destruct (nth_error u' p) as [row|] eqn:NP; [|apply nth_error_None in NP; lia].
    destruct (eval_all E scope nl cols sh k u' xs) as [t [[]|e]].
    - destruct IH as (rows & -> & H). cbn. eexists. split; [reflexivity|]. intros q [<-|I]; [|auto]. cbn.
      destruct R' as [_ R']. rewrite Forall_forall in R'. apply R'. eapply nth_error_In; eauto.
    - rewrite IH. reflexivity.
  Qed.

  (** debugging can be on: the label is that of a decision unit, and cached utilities are those of the decision units and choices *)
  Definition debuggable (m : cm) (b : dbg) : Prop :=
    forall x, db_id b = Some x -> truthy x = true ->
    forall d, m_du m = Some d -> In x d /\
      forall u cols, m_utils m = Some u -> choices (m_tree m) = Ok cols -> length (u_index u) = length d /\ length (u_cols u) = length cols.

  Lemma evaluate_same ts (m : cm) b simple xs : table_ok E ts m -> debuggable m b ->
    fst (fst (fst (evaluate_debug E truthy ts m b simple xs))) = fst (fst (evaluate E ts m simple xs)) /\
    snd (fst (fst (evaluate_debug E truthy ts m b simple xs))) = snd (fst (evaluate E ts m simple xs)) /\
    snd (evaluate_debug E truthy ts m b simple xs) = snd (evaluate E ts m simple xs).
  Proof.
    intros TO DB. unfold evaluate_debug, traced. destruct (db_id b) as [x|] eqn:ID; [|destruct (evaluate E ts m simple xs) as [[a c] r]; auto].
    destruct (truthy x) eqn:TX; [|destruct (evaluate E ts m simple xs) as [[a c] r]; auto].
    unfold evaluate. destruct (m_du m) as [d|] eqn:DU; [|auto]. destruct (choices (m_tree m)) as [cols|] eqn:CH; [|auto]. destruct (depth (m_tree m)) as [nl|] eqn:DP; [|auto].
    destruct (DB x ID TX d DU) as [IX SH]. destruct (position (ev_eq E) d x) as [p|] eqn:P; [|apply (position_none _ EQ) in P; tauto].
    apply (position_lt _ EQ) in P.
    destruct (partial_utilities E ts m) as [[ts1 m1] [v|e]] eqn:PU; [|auto]. destruct (shared_locals E (m_scope m) simple (base_locals E)) as [sh|]; [|auto].
    assert (RS : rectangle (length (deref_tab ts1 (u_ref v))) (length (u_cols v)) (deref_tab ts1 (u_ref v)) /\ length (deref_tab ts1 (u_ref v)) = length d /\ length (u_cols v) = length cols).
    { unfold partial_utilities, units in PU. destruct (validate_tree (m_tree m)); [|discriminate]. rewrite DU, CH in PU. unfold deref_tab. destruct (m_utils m) as [w|] eqn:MU.
      - injection PU as <- <- <-. destruct (TO w MU) as [_ R]. destruct (SH w cols eq_refl CH) as [S1 S2]. assert (Q := proj1 R). rewrite Q. auto.
      - injection PU as <- <- <-. cbn. rewrite app_nth2, Nat.sub_diag by lia. cbn [nth]. pose proof (zeros_rect E (length d) (length cols)) as Z. assert (Q := proj1 Z). rewrite Q. auto. }
    destruct RS as (RS & LD & LC).
    assert (HP : p < length (deref_tab ts1 (u_ref v))) by lia.
    pose proof (debug_same p (m_scope m) nl cols sh (length (u_cols v)) xs _ RS HP) as S.
    destruct (eval_all E (m_scope m) nl cols sh (length (u_cols v)) (deref_tab ts1 (u_ref v)) xs) as [t [[]|e]].
    - destruct S as (rows & -> & W). assert (FA : forallb (fun row : string * list num => length (snd row) =? length cols) rows = true).
      { apply forallb_forall. intros row I. apply Nat.eqb_eq. rewrite (W row I). exact LC. }
      rewrite FA. auto.
    - rewrite S. auto.
  Qed.
  Lemma evaluate_label ts (m : cm) b simple xs : db_id (snd (fst (evaluate_debug E truthy ts m b simple xs))) = db_id b.
  Proof.
    unfold evaluate_debug. destruct (traced truthy b); [|destruct (evaluate E ts m simple xs) as [[a c] r]; auto].
    destruct (m_du m); [|auto]. destruct (choices (m_tree m)); [|auto]. destruct (depth (m_tree m)); [|auto]. destruct (position (ev_eq E) l d); [|auto].
    destruct (partial_utilities E ts m) as [[ts1 m1] [v|e]]; [|auto]. destruct (shared_locals E (m_scope m) simple (base_locals E)); [|auto].
    destruct (eval_all_debug E _ (m_scope m) _ _ _ _ (deref_tab ts1 (u_ref v)) xs) as [t [rows|e]]; [|auto]. destruct (forallb _ rows); auto.
  Qed.

  Notation shape4 x := (fst (fst (fst x)), snd (fst (fst x)), snd x).
  (** One run: the same tables, the same model, the same result or error *)
  Theorem C90_run_the_same h c ts (m : cm) b group clear : table_ok E ts m -> debuggable m b ->
    let '(ts', m', b', r) := run_utilities_debug E truthy h c ts m b group clear in
    run_utilities E h c ts m group clear = (ts', m', r) /\ db_id b' = db_id b.
  Proof.
    intros TO DB. unfold run_utilities_debug, run_utilities. destruct (validate E h c m group); [|auto]. destruct (selection h c group) as [[simple xs]|]; [|auto].
    pose proof (evaluate_same ts m b simple xs TO DB) as S. pose proof (evaluate_label ts m b simple xs) as I.
    destruct (evaluate_debug E truthy ts m b simple xs) as [[[ts1 m1] b1] r1]. destruct (evaluate E ts m simple xs) as [[ts2 m2] r2]. cbn [fst snd] in *. destruct S as (-> & -> & ->).
    destruct r2; auto.
  Qed.

  (** Histories: without the [debug_id] assignments everything is the same, as long as debugging can be on when a run or a
      [preval] is made. *)
  Definition runs_on (o : mop E) : option nat :=
    match o with MStochastic _ i _ _ _ _ => Some i | MDiscrete _ i _ _ => Some i | MPreval _ i _ _ _ => Some i | _ => None end.
  Fixpoint quiet (w : dworld E) (l : list (dop E)) : Prop :=
    match l with
    | [] => True
    | o :: t => (forall o' i, o = DOp E o' -> runs_on o' = Some i -> debuggable (model E (dw_world w) i) (record w i)) /\ quiet (dstep E truthy w o) t
    end.
  Definition plain_ops (l : list (dop E)) : list (mop E) := flat_map (fun o => match o with DDebug _ _ _ => [] | DOp _ o => [o] end) l.

  Lemma step_same w o : (forall i, table_ok E (mw_tabs (dw_world w)) (model E (dw_world w) i)) ->
    (forall i, runs_on o = Some i -> debuggable (model E (dw_world w) i) (record w i)) ->
    dw_world (dstep E truthy w (DOp E o)) = mstep E (dw_world w) o.
  Proof.
    intros TO Q. destruct o as [|i o|i d|i n d|i n v|i|i s g|i|i g|i g cl sc ck|i n cl|i g dr cl|i f|i mi mask|i en|i gr gc gt gb gd gm]; try reflexivity; cbn [dstep mstep].
    - unfold run_stochastic_debug, run_stochastic. pose proof (C90_run_the_same (mheap E (dw_world w)) (mcont E (dw_world w) i) (mw_tabs (dw_world w)) (model E (dw_world w) i) (record w i) g cl (TO i) (Q i eq_refl)) as S.
      destruct (run_utilities_debug E truthy _ _ _ _ _ g cl) as [[[ts1 m1] b1] r1]. destruct S as [-> _]. destruct r1; reflexivity.
    - unfold run_discrete_debug, run_discrete_utilities. destruct (validate E (mheap E (dw_world w)) (mcont E (dw_world w) i) (model E (dw_world w) i) None); [|reflexivity].
      destruct (n <? 1)%Z; [reflexivity|].
      pose proof (C90_run_the_same (mheap E (dw_world w)) (mcont E (dw_world w) i) (mw_tabs (dw_world w)) (model E (dw_world w) i) (record w i) None cl (TO i) (Q i eq_refl)) as S.
      destruct (run_utilities_debug E truthy _ _ _ _ _ None cl) as [[[ts1 m1] b1] r1]. destruct S as [-> _]. reflexivity.
    - unfold preval_debug, preval. destruct (validate E _ _ _ (Some g)); [|reflexivity]. destruct (get_group _ _ g) as [s|]; [|reflexivity].
      pose proof (evaluate_same (mw_tabs (dw_world w)) (model E (dw_world w) i) (record w i) (sg_simple s) (sg_exprs s) (TO i) (Q i eq_refl)) as S.
      destruct (evaluate_debug E truthy _ _ _ (sg_simple s) (sg_exprs s)) as [[[ts1 m1] b1] r1]. destruct (evaluate E (mw_tabs (dw_world w)) _ (sg_simple s) (sg_exprs s)) as [[ts2 m2] r2].
      cbn [fst snd] in S. destruct S as (-> & -> & ->). destruct r2 as [u|]; [|reflexivity]. destruct (if cl then _ else _) as [sc' [[]|]]; [|reflexivity].
      destruct dr; [|reflexivity]. destruct (drop_group _ g) as [c' r']. reflexivity.
  Qed.
  Theorem C90_debugging_changes_nothing_else (l : list (dop E)) :
    quiet (new_dworld E) l -> dw_world (drun E truthy (new_dworld E) l) = mrun E (new_mworld E) (plain_ops l).
  Proof.
    assert (G : forall l w ops, dw_world w = mrun E (new_mworld E) ops -> quiet w l -> dw_world (drun E truthy w l) = mrun E (new_mworld E) (ops ++ plain_ops l)).
    { clear l. induction l as [|o l IH]; intros w ops Q H; [cbn; now rewrite app_nil_r|]. destruct H as [H1 H2]. change (drun E truthy w (o :: l)) with (drun E truthy (dstep E truthy w o) l).
      destruct o as [i x|o].
      - cbn [plain_ops flat_map app]. apply IH; auto.
      - cbn [plain_ops flat_map app]. change (o :: flat_map _ l) with ([o] ++ plain_ops l). rewrite app_assoc. apply IH; auto.
        unfold mrun in *. rewrite fold_left_app. cbn [fold_left]. rewrite <- Q. apply step_same; [|intros i Hi; eapply H1; eauto].
        intros i. rewrite Q. apply (table_ok_reachable E NL ops i). }
    intros H. apply (G l (new_dworld E) [] eq_refl H).
  Qed.
End Debug.
Print Assumptions C90_debugging_changes_nothing_else.

Section Trace.
  Context {L : Type} {F : arith} {D N : Type} (E : env L F D (val N)) (O : ops L N) (as_num : val N -> option (num F)) (truthy : D -> bool).
  Notation num := (num F).
  Notation FR := (ev_frames E).
  Notation cm := (cm E).
  Notation dbg := (dbg (F:=F) (D:=D)).
  Notation tables := (list (list (list num))).
  Context (NC : numexpr_computes E O as_num) (FL : frame_laws E) (NUL : ev_num E (ev_nan E) = VNull).

  (** what an evaluation records, also when it raises afterwards because a utility is NaN *)
  Lemma recorded ts (m : cm) b simple xs ts' m' b' r tr x d p : table_ok E ts m ->
    evaluate_debug E truthy ts m b simple xs = (ts', m', b', r) -> db_results b = None -> db_results b' = Some tr ->
    db_id b = Some x -> m_du m = Some d -> NoDup d -> nth_error d p = Some x ->
    (forall u cols, m_utils m = Some u -> choices (m_tree m) = Ok cols -> length (u_index u) = length d /\ length (u_cols u) = length cols) ->
    exists cols nl sh t, choices (m_tree m) = Ok cols /\ depth (m_tree m) = Ok nl /\ shared_locals E (m_scope m) simple (base_locals E) = Ok sh /\
      rectangle (length d) (length cols) (start_table E ts m (length d) (length cols)) /\
      eval_all_debug E p (m_scope m) nl cols sh (length cols) (start_table E ts m (length d) (length cols)) xs = (t, Ok (tr_rows tr)) /\ tr_cols tr = cols /\
      (forall u, r = Ok u -> nth (u_ref u) ts' [] = t).
  Proof.
    intros TO H B0 B1 ID DU ND NP SH. unfold evaluate_debug, traced in H. rewrite ID, DU in H. destruct (truthy x); [|destruct (evaluate E ts m simple xs) as [[a c] r0]; injection H as <- <- <- <-; congruence].
    destruct (choices (m_tree m)) as [cols|] eqn:CH; [|injection H as <- <- <- <-; congruence]. destruct (depth (m_tree m)) as [nl|] eqn:DP; [|injection H as <- <- <- <-; congruence].
    rewrite (position_nth _ (fl_eq E FL) d x p ND NP) in H.
    destruct (partial_utilities E ts m) as [[ts1 m1] [v|e]] eqn:PU; [|injection H as <- <- <- <-; congruence].
    destruct (shared_locals E (m_scope m) simple (base_locals E)) as [sh|] eqn:SL; [|injection H as <- <- <- <-; congruence].
    assert (ST : u_ref v < length ts1 /\ deref_tab ts1 (u_ref v) = start_table E ts m (length d) (length cols) /\ length (u_cols v) = length cols /\ rectangle (length d) (length cols) (start_table E ts m (length d) (length cols))).
    { unfold partial_utilities, units in PU. destruct (validate_tree (m_tree m)); [|discriminate]. rewrite DU, CH in PU. unfold deref_tab, start_table. destruct (m_utils m) as [w|] eqn:MU.
      - injection PU as <- <- <-. destruct (TO w MU) as [LT R]. destruct (SH w cols eq_refl eq_refl) as [S1 S2]. rewrite S1, S2 in R. auto.
      - injection PU as <- <- <-. cbn [u_ref u_cols]. rewrite app_length, app_nth2, Nat.sub_diag by lia. cbn [nth length]. split; [lia|]. split; [reflexivity|]. split; [reflexivity|]. apply (zeros_rect E). }
    destruct ST as (LT & ST & LC & RS). rewrite ST, LC in H.
    destruct (eval_all_debug E p (m_scope m) nl cols sh (length cols) (start_table E ts m (length d) (length cols)) xs) as [t [rows|e]] eqn:EV; [|injection H as <- <- <- <-; congruence].
    destruct (forallb (fun row : string * list num => length (snd row) =? length cols) rows); [|injection H as <- <- <- <-; congruence].
    injection H as <- <- <- <-. cbn in B1. injection B1 as <-. exists cols, nl, sh, t. do 4 (split; [now auto|]). split; [exact EV|]. split; [reflexivity|].
    intros u HU. destruct (existsb (existsb is_nan) t); [discriminate|]. apply rbind_ok in HU. destruct HU as ([] & _ & HU). injection HU as <-. cbn. apply nth_upd_eq. exact LT.
  Qed.

  (** The record: one row for each expression that was run, labelled by its text, over the choices; row j shows, for the
      decision unit with the label, what was there before plus the texts 0..j that apply to the choice.  (The history [ops] may
      contain runs; the record was empty before this run.) *)
  Theorem C90_rows_show_each_text (ops : list (mop E)) i b group clear ts' m' b' r tr simple xs x d cols nl p :
    let w := mrun E (new_mworld E) ops in let m := model E w i in
    orderly_history E (new_mworld E) ops ->
    run_utilities_debug E truthy (mheap E w) (mcont E w i) (mw_tabs w) m b group clear = (ts', m', b', r) ->
    db_results b = None -> db_results b' = Some tr ->
    selection (mheap E w) (mcont E w i) group = Ok (simple, xs) -> (forall x, In x xs -> meant E simple x) ->
    db_id b = Some x -> m_du m = Some d -> NoDup d -> nth_error d p = Some x -> choices (m_tree m) = Ok cols -> depth (m_tree m) = Ok nl ->
    (forall u, m_utils m = Some u -> length (u_index u) = length d /\ length (u_cols u) = length cols) ->
    tr_cols tr = cols /\ map fst (tr_rows tr) = map (@e_raw L) xs /\
    (forall j text row, nth_error (tr_rows tr) j = Some (text, row) -> length row = length cols /\
       forall c l v, nth_error cols c = Some l ->
         texts_total E O as_num (m_scope m) nl cols p c l (map (@e_raw L) (firstn (S j) xs)) (tcell (start_table E (mw_tabs w) m (length d) (length cols)) p c) = Some v ->
         nth_error row c = Some v) /\
    (forall t, r = Ok t -> xs <> [] -> exists text, last (tr_rows tr) ("", []) = (text, nth p t [])).
  Proof.
    intros w m OH R B0 B1 SEL MT ID DU ND NP CH DP SHP. pose proof (computes_local E O as_num NC) as NL.
    assert (PN : forall x, In x xs -> plain_names simple x) by (intros y I; apply MT, I).
    pose proof (tidy_reachable E FL ops i group simple xs OH SEL PN) as [TL TA TN]. fold w m in TL, TA, TN. pose proof (table_ok_reachable E NL ops i) as TO. fold w m in TO.
    unfold run_utilities_debug in R. destruct (validate E (mheap E w) (mcont E w i) m group) as [[]|] eqn:V; [|injection R as <- <- <- <-; congruence]. rewrite SEL in R.
    destruct (evaluate_debug E truthy (mw_tabs w) m b simple xs) as [[[ts1 m1] b1] r1] eqn:EV.
    assert (b1 = b' /\ forall t, r = Ok t -> exists u, r1 = Ok u /\ t = nth (u_ref u) ts1 []).
    { destruct r1; injection R as <- <- <- <-; split; auto; [|intros t Q; discriminate Q]. intros t Q. injection Q as <-. eexists; split; reflexivity. }
    destruct H as [-> RT]. clear R.
    destruct (recorded _ _ _ _ _ _ _ _ _ tr x d p TO EV B0 B1 ID DU ND NP) as (cols' & nl' & sh & t & Q1 & Q2 & SH & RS & ED & TC & TU).
    { intros u cs U C. assert (cs = cols) by congruence. subst. auto. }
    rewrite CH in Q1. rewrite DP in Q2. injection Q1 as <-. injection Q2 as <-.
    destruct (debug_prefixes E p _ _ _ _ _ xs _ _ _ ED) as (EA & NM & PRE). split; auto. split; auto.
    assert (HP : p < length d) by (apply nth_error_Some; congruence).
    assert (SI : forall y, In y simple -> reserved y = false -> exists s d0, dget String.eqb (m_scope m) y = Some s /\ filled FR s = true /\ get_simple FR s = Ok d0).
    { intros y I RY. destruct (run_filled E NL _ _ _ _ _ _ V SEL y I RY) as (s & G & FS). pose proof (shared_get E _ _ _ _ SH y) as SG. rewrite base_get in SG.
      assert (Q : y <> "NAN" /\ y <> "OUT" /\ y <> "NEG_INF") by (rewrite <- not_true_iff_false, reserved_cases in RY; tauto).
      destruct Q as (K1 & K2 & K3). apply String.eqb_neq in K1, K2, K3. rewrite K1, K2, K3 in SG. assert (I' := I). apply mem_in in I'. rewrite I' in SG.
      destruct SG as (s' & d0 & T1 & T2 & _). assert (s' = s) by congruence. subst. eauto. }
    assert (FI : forall y s, In y simple -> reserved y = false -> dget String.eqb (m_scope m) y = Some s -> filled FR s = true).
    { intros y s I RY G. destruct (SI y I RY) as (s' & d0 & G' & FS & _). congruence. }
    assert (RG : reg (ev_fn E) (ev_parse E) (mw_ex w)) by (apply mreg_run, reg_new).
    destruct (symbols_simple E _ _ _ _ _ SEL) as (names & SY & _). destruct (selected_registered E w i group simple xs names RG SEL SY) as [_ S2].
    pose proof (TA d cols DU CH) as AL. assert (LS : length (start_table E (mw_tabs w) m (length d) (length cols)) = length d) by apply RS.
    split.
    - intros j text row HJ. destruct (PRE j text row HJ) as (v & EV' & NV).
      assert (SUB : forall y, In y (firstn (S j) xs) -> In y xs) by (intros y I; rewrite <- (firstn_skipn (S j) xs); apply in_or_app; auto).
      assert (AL' := AL). assert (RS' := RS). rewrite <- LS in AL', RS' at 1.
      destruct (eval_all_total E NL (m_scope m) nl cols simple (TL cols CH) FI sh (firstn (S j) xs) _ _ AL' SH EV' (fun y I => TN y (SUB y I)) RS') as [RV T].
      pose proof (eval_all_ready E NL (m_scope m) nl cols simple (TL cols CH) FI sh (firstn (S j) xs) _ _ SH (fun y I => TN y (SUB y I)) RS' EV') as RD.
      assert (LR : length row = length cols). { destruct RV as [_ RV]. rewrite Forall_forall in RV. apply RV. eapply nth_error_In; eauto. }
      split; auto. intros c l z Hc TT. rewrite LS in T.
      set (rho := fun y acc => cell_meaning E (m_scope m) nl cols y acc p c).
      assert (M : forall y acc, In y (firstn (S j) xs) -> meaning E (m_scope m) nl cols simple y acc p c (rho y acc)) by (intros y acc I; apply meaning_exists; auto).
      pose proof (T p c l HP Hc rho M) as T'.
      assert (TZ : total (applies nl l) (fun y a => ev_ne E (e_trans y) (rho y a)) (firstn (S j) xs) (tcell (start_table E (mw_tabs w) m (length d) (length cols)) p c) = Some z).
      { assert (Hc' : c < length cols) by (apply nth_error_Some; congruence).
        refine (texts_total_computed E O as_num (m_scope m) nl cols simple (length d) p c AL HP Hc' SI NUL NC l _ _ rho z _ M TT). intros y I. destruct (S2 y (SUB y I)) as (P & INC & _). split; [exact P|]. split; [now apply RD|]. split; [exact INC|now apply MT, SUB]. }
      assert (tcell v p c = z) by congruence. subst z. unfold tcell. rewrite (nth_error_nth v p [] NV). apply nth_error_nth'. rewrite LR. apply nth_error_Some. congruence.
    - intros t0 HR NE. destruct (RT t0 HR) as (u & HU & ->). rewrite (TU u HU).
      destruct (tr_rows tr) as [|row0 rows0] eqn:TR; [destruct xs; [congruence|discriminate NM]|].
      assert (LL : length (row0 :: rows0) = length xs) by (rewrite <- (map_length fst), NM; apply map_length).
      destruct (last (row0 :: rows0) ("", [])) as [text row] eqn:LA. exists text.
      assert (NL' : nth_error (row0 :: rows0) (length rows0) = Some (text, row)).
      { rewrite <- LA. clear. revert row0. induction rows0 as [|a l IH]; intros q; [reflexivity|]. cbn [length]. change (last (q :: a :: l) ("", [])) with (last (a :: l) ("", [])). apply IH. }
      destruct (PRE _ _ _ NL') as (v & EV' & NV). rewrite firstn_all2 in EV' by (cbn in LL; lia). assert (v = t) by congruence. subst v. f_equal. symmetry. now apply nth_error_nth.
  Qed.

  (** A record is made by every run that gives a result *)
  Theorem C90_every_run_recorded h c ts (m : cm) b group clear ts' m' b' t x :
    run_utilities_debug E truthy h c ts m b group clear = (ts', m', b', Ok t) -> db_id b = Some x -> truthy x = true -> exists tr, db_results b' = Some tr.
  Proof.
    unfold run_utilities_debug. destruct (validate E h c m group); [|discriminate]. destruct (selection h c group) as [[simple xs]|]; [|discriminate].
    destruct (evaluate_debug E truthy ts m b simple xs) as [[[ts1 m1] b1] [u|]] eqn:EV; [|discriminate]. intros H ID TX. injection H as <- <- <- <-.
    unfold evaluate_debug, traced in EV. rewrite ID, TX in EV. destruct (m_du m); [|discriminate]. destruct (choices (m_tree m)); [|discriminate]. destruct (depth (m_tree m)); [|discriminate].
    destruct (position (ev_eq E) l x); [|discriminate]. destruct (partial_utilities E ts m) as [[ts2 m2] [v|e]]; [|discriminate]. destruct (shared_locals E (m_scope m) simple (base_locals E)); [|discriminate].
    destruct (eval_all_debug E n (m_scope m) _ _ _ _ (deref_tab ts2 (u_ref v)) xs) as [t [rows|e]]; [|discriminate]. destruct (forallb _ rows); [|discriminate].
    injection EV as <- <- <- _. cbn. eauto.
  Qed.

  (** C91: a label that is not a decision unit makes every run raise, before anything is changed *)
  Theorem C91_unknown_label_raises h c ts (m : cm) b group clear x d simple xs :
    validate E h c m group = Ok tt -> selection h c group = Ok (simple, xs) -> is_ok (choices (m_tree m)) = true -> is_ok (depth (m_tree m)) = true ->
    db_id b = Some x -> truthy x = true -> m_du m = Some d -> ~ In x d ->
    run_utilities_debug E truthy h c ts m b group clear = (ts, m, b, Err KeyError).
  Proof.
    intros V S CH DP ID TX DU NI. unfold run_utilities_debug. rewrite V, S. unfold evaluate_debug, traced. rewrite ID, TX, DU.
    destruct (choices (m_tree m)); [|discriminate]. destruct (depth (m_tree m)); [|discriminate]. apply (position_none _ (fl_eq E FL)) in NI. now rewrite NI.
  Qed.
  (** A label that is false for Python (0, "") is taken for no label *)
  Theorem C91_false_label_records_nothing h c ts (m : cm) b group clear x :
    db_id b = Some x -> truthy x = false ->
    run_utilities_debug E truthy h c ts m b group clear = (let '(ts', m', r) := run_utilities E h c ts m group clear in (ts', m', b, r)).
  Proof.
    intros ID TX. unfold run_utilities_debug, run_utilities. destruct (validate E h c m group); [|auto]. destruct (selection h c group) as [[simple xs]|]; [|auto].
    unfold evaluate_debug, traced. rewrite ID, TX. destruct (evaluate E ts m simple xs) as [[ts1 m1] [u|]]; auto.
  Qed.
End Trace.
Print Assumptions C90_rows_show_each_text.
Print Assumptions C90_every_run_recorded.
Print Assumptions C91_unknown_label_raises.

(** ** Examples *)
From Coq Require Import ZArith.
From Flocq Require Import Core.Core IEEE754.BinarySingleNaN.
From Verif Require Import EndExample PropRunExternal.
(** a text is true when it is not empty *)
Definition truthy2 (s : string) : bool := negb (String.eqb s "").
Definition debug2 : dbg (F:=F1) (D:=string) := Dbg (Some "u2") None.
Definition debug_run2 := run_utilities_debug env2 truthy2 (mheap env2 world2) (mcont env2 world2 0) (mw_tabs world2) model2 debug2 None true.
Definition trace2 : trace (F:=F1) := match db_results (snd (fst debug_run2)) with Some t => t | None => Trace [] [] end.
Definition same_rows (a b : list (string * list float64)) : Prop := map fst a = map fst b /\ map (fun r => map B2SF (snd r)) a = map (fun r => map B2SF (snd r)) b.
(** the rows of u2: x = 4, k = 10 *)
Example C90_trace : tr_cols trace2 = cols2 /\ same_rows (tr_rows trace2)
  [("x * 2 + k", row2 [18; 18; 18; 18]%Z); ("x > 2 and not t.kind == 'old'", row2 [19; 19; 19; 19]%Z); ("{'A': 2, 'N.B': 3}", row2 [21; 19; 22; 19]%Z);
   ("1 < t.home.age < 4 @ N.C", row2 [21; 19; 22; 19]%Z); ("c", row2 [26; 19; 28; 26]%Z); ("-k @ A", row2 [16; 19; 28; 26]%Z)].
Proof. split; [vm_compute; reflexivity|]. split; vm_compute; reflexivity. Qed.
(** the hypotheses of C90_rows_show_each_text *)
Example C90_hypotheses :
  db_results debug2 = None /\ db_results (snd (fst debug_run2)) = Some trace2 /\ is_ok (snd debug_run2) = true /\ nth_error ["u1"; "u2"] 1 = Some "u2" /\
  m_du model2 = Some ["u1"; "u2"] /\ m_utils model2 = None.
Proof.
  split; [reflexivity|]. split.
  - assert (Q : match db_results (snd (fst debug_run2)) with Some _ => true | None => false end = true) by (vm_compute; reflexivity).
    unfold trace2. destruct (db_results (snd (fst debug_run2))); [reflexivity|discriminate Q].
  - destruct model2_parts as (A & _ & _ & B & _). repeat split; auto; vm_compute; reflexivity.
Qed.
(** the hypothesis of C90_debugging_changes_nothing_else: debugging u2 in two runs *)
Definition debug_history2 : list (dop env2) := map (DOp env2) history2 ++ [DDebug env2 0 (Some "u2"); DOp env2 (MStochastic env2 0 None false true true); DDebug env2 0 (Some "u1"); DOp env2 (MDiscrete env2 0 1 false)].
Lemma quiet_app (l1 : list (dop env2)) : forall w l2, (forall o, In o l1 -> match o with DOp _ o => runs_on env2 o = None | DDebug _ _ _ => True end) -> quiet env2 truthy2 (drun env2 truthy2 w l1) l2 -> quiet env2 truthy2 w (l1 ++ l2).
Proof.
  induction l1 as [|o l1 IH]; intros w l2 H Q; [exact Q|]. cbn [app quiet]. split; [|apply IH; [intros; apply H; simpl; auto|exact Q]].
  intros o' i -> R. specialize (H _ (or_introl eq_refl)). cbn in H. congruence.
Qed.
Lemma quiet_debug (w : dworld env2) i (x : option string) l : quiet env2 truthy2 (dstep env2 truthy2 w (DDebug env2 i x)) l -> quiet env2 truthy2 w (DDebug env2 i x :: l).
Proof. intros H. split; [intros o' j Q; discriminate Q|exact H]. Qed.
Lemma quiet_run (w : dworld env2) o l : (forall i, runs_on env2 o = Some i -> debuggable env2 truthy2 (model env2 (dw_world w) i) (record w i)) -> quiet env2 truthy2 (dstep env2 truthy2 w (DOp env2 o)) l -> quiet env2 truthy2 w (DOp env2 o :: l).
Proof. intros H Q. split; [|exact Q]. intros o' i R. injection R as <-. apply H. Qed.
Definition debuggable_b (m : cm env2) (b : dbg (F:=F1) (D:=string)) : bool :=
  match db_id b, m_du m with
  | Some x, Some d => andb (existsb (String.eqb x) d)
      (match m_utils m, choices (m_tree m) with Some u, Ok cols => andb (length (u_index u) =? length d) (length (u_cols u) =? length cols) | _, _ => true end)
  | _, _ => true
  end.
Lemma debuggable_b_spec m b : debuggable_b m b = true -> debuggable env2 truthy2 m b.
Proof.
  unfold debuggable_b, debuggable. intros H x ID _ d DU. rewrite ID, DU in H. apply andb_true_iff in H. destruct H as [H1 H2]. apply existsb_exists in H1. destruct H1 as (y & I & Q). apply String.eqb_eq in Q. subst y.
  split; auto. intros u cols MU CH. rewrite MU, CH in H2. apply andb_true_iff in H2. destruct H2 as [A B]. apply Nat.eqb_eq in A, B. auto.
Qed.
Example C90_quiet_history : quiet env2 truthy2 (new_dworld env2) debug_history2.
Proof.
  unfold debug_history2. apply quiet_app.
  - intros o I. apply in_map_iff in I. destruct I as (o' & <- & I). assert (A : forallb (fun o => match runs_on env2 o with None => true | Some _ => false end) history2 = true) by (vm_compute; reflexivity).
    rewrite forallb_forall in A. specialize (A o' I). destruct (runs_on env2 o'); [discriminate A|reflexivity].
  - apply quiet_debug, quiet_run; [intros i R; injection R as <-; apply debuggable_b_spec; vm_compute; reflexivity|].
    apply quiet_debug, quiet_run; [intros i R; injection R as <-; apply debuggable_b_spec; vm_compute; reflexivity|]. exact I.
Qed.
Definition error_of {A B C T} (x : A * B * C * res T) : option exn := match snd x with Err e => Some e | Ok _ => None end.

(** C91 does not hold: with the label of a decision unit, a copy of the other units cannot be run any more; without debugging it can *)
Definition subset_history2 : list (dop env2) := map (DOp env2) history2 ++ [DDebug env2 0 (Some "u1"); DOp env2 (MSubset env2 0 ["u1"; "u2"] [false; true])].
Theorem C91_subset_copy_raises_refuted : exists l : list (dop env2),
  let w := drun env2 truthy2 (new_dworld env2) l in let mw := dw_world w in
  m_du (model env2 mw 0) = Some ["u1"; "u2"] /\ db_id (record w 0) = Some "u1" /\ m_du (model env2 mw 1) = Some ["u2"] /\ length (mw_models mw) = 2 /\
  is_ok (snd (run_utilities env2 (mheap env2 mw) (mcont env2 mw 1) (mw_tabs mw) (model env2 mw 1) None true)) = true /\
  error_of (run_utilities_debug env2 truthy2 (mheap env2 mw) (mcont env2 mw 1) (mw_tabs mw) (model env2 mw 1) (record w 1) None true) = Some KeyError.
Proof. exists subset_history2. cbv zeta. repeat split; vm_compute; reflexivity. Qed.
(** and the label "" of a decision unit records nothing, although the run gives a result *)
Definition blank_history2 : list (dop env2) :=
  map (DOp env2) (firstn 5 history2 ++ [MUnits env2 0 [""; "u2"]; MDeclare env2 0 "c" (DeclVector 1); MAssign env2 0 "c" (VArray1 (map (fun z => VNum (flz z)) [5; 0; 6; 7]%Z)); MAppend env2 0 "c" None]) ++ [DDebug env2 0 (Some "")].
Theorem C91_false_label_refuted : exists l : list (dop env2),
  let w := drun env2 truthy2 (new_dworld env2) l in let mw := dw_world w in
  let r := run_utilities_debug env2 truthy2 (mheap env2 mw) (mcont env2 mw 0) (mw_tabs mw) (model env2 mw 0) (record w 0) None true in
  m_du (model env2 mw 0) = Some [""; "u2"] /\ db_id (record w 0) = Some "" /\ is_ok (snd r) = true /\ db_results (snd (fst r)) = None.
Proof. exists blank_history2. cbv zeta. repeat split; vm_compute; reflexivity. Qed.
Print Assumptions C91_subset_copy_raises_refuted.
(** a utility that is NaN makes the run raise; the record of the run is there *)
Definition nan_history2 : list (mop env2) :=
  firstn 5 history2 ++ [MUnits env2 0 ["u1"; "u2"]; MDeclare env2 0 "c" (DeclVector 1); MAssign env2 0 "c" (VArray1 [VNum (flz 5); VNull; VNum (flz 6); VNum (flz 7)]); MAppend env2 0 "c" None].
Example C90_recorded_although_nan :
  let w := mrun env2 (new_mworld env2) nan_history2 in
  let r := run_utilities_debug env2 truthy2 (mheap env2 w) (mcont env2 w 0) (mw_tabs w) (model env2 w 0) debug2 None true in
  error_of r = Some UtilityBounds /\ exists tr, db_results (snd (fst r)) = Some tr /\ map (fun q => map B2SF (snd q)) (tr_rows tr) = [[B2SF (flz 5); SpecFloat.S754_nan; B2SF (flz 6); B2SF (flz 7)]].
Proof.
  cbv zeta. set (r := run_utilities_debug _ _ _ _ _ _ _ _ _).
  assert (A : error_of r = Some UtilityBounds) by (vm_compute; reflexivity).
  assert (Q : option_map (fun tr : trace (F:=F1) => map (fun q => map B2SF (snd q)) (tr_rows tr)) (db_results (snd (fst r))) = Some [[B2SF (flz 5); SpecFloat.S754_nan; B2SF (flz 6); B2SF (flz 7)]]) by (vm_compute; reflexivity).
  split; [exact A|]. destruct (db_results (snd (fst r))) as [tr|]; [|discriminate Q]. exists tr. split; [reflexivity|]. cbn [option_map] in Q. now injection Q.
Qed.
