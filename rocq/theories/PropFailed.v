(** C106, C107: what a run that raises leaves behind. *)
From Verif Require Import Prelude Arith CoreModel TreeModel DictProofs ParModel ExprModel SpecExpr ExprWorld ScopeModel SpecScope ScopeProofs ModelModel ModelProofs SpecModel KernelProofs EvalProofs ModelExample PropState ModelWorld ModelHist ModelTabs RunProofs PropUtility PropRerun PropStale.
Local Open Scope string_scope.
Local Open Scope nat_scope.
Local Open Scope list_scope.

Lemma upd_same {A} (l : list A) i d : upd l i (nth i l d) = l.
Proof. revert i. induction l as [|x l IH]; intros [|i]; cbn; auto. now rewrite IH. Qed.

Section Failed.
  Context {L : Type} {F : arith} {D cell : Type} (E : env L F D cell).
  Notation num := (num F).
  Notation cm := (cm E).
  Notation mworld := (mworld E).
  Notation mop := (mop E).
  Notation start := (new_mworld E).
  Notation tables := (list (list (list num))).

  (** A run that the model refuses - validation fails (choices, decision units, symbols), the group does not exist, no
      draws - changes nothing at all. *)
  Theorem C106_refused_runs_change_nothing (w : mworld) i :
    (forall g x, validate E (mheap E w) (mcont E w i) (model E w i) g = Err x ->
       (forall clear scale check, mstep E w (MStochastic E i g clear scale check) = w) /\
       (forall g' drop cleanup, g = Some g' -> mstep E w (MPreval E i g' drop cleanup) = w) /\
       (forall n clear, g = None -> mstep E w (MDiscrete E i n clear) = w)) /\
    (forall n clear, (n < 1)%Z -> mstep E w (MDiscrete E i n clear) = w).
  Proof.
    assert (S : forall (ts : tables) m, ts = mw_tabs w -> m = model E w i -> set_model E w ts i m = w).
    { intros ts m -> ->. unfold set_model, model. rewrite upd_same. now destruct w. }
    split.
    - intros g x V. split; [|split].
      + intros clear scale check. cbn [mstep]. unfold run_stochastic, run_utilities. rewrite V. now apply S.
      + intros g' drop cleanup ->. cbn [mstep]. unfold preval. rewrite V. unfold model. rewrite upd_same. unfold mheap, mcont, cont. rewrite upd_same. now destruct w as [[h c] ts ms].
      + intros n clear ->. cbn [mstep]. unfold run_discrete_utilities. rewrite V. now apply S.
    - intros n clear N. cbn [mstep]. unfold run_discrete_utilities. destruct (validate E (mheap E w) (mcont E w i) (model E w i) None) as [[]|x]; [|now apply S].
      apply Z.ltb_lt in N. rewrite N. now apply S.
  Qed.

  (** the cells of a table with a NaN *)
  Lemma has_nan_cell (t : list (list num)) n k : rectangle n k t -> (has_nan t = true <-> exists r c, r < n /\ c < k /\ is_nan (tcell t r c) = true).
  Proof.
    intros [R1 R2]. unfold has_nan. rewrite existsb_exists. split.
    - intros (row & I & X). apply existsb_exists in X. destruct X as (y & J & N). apply (In_nth _ _ []) in I. destruct I as (r & Hr & <-).
      apply (In_nth _ _ (nzero F)) in J. destruct J as (c & Hc & <-). exists r, c. split; [lia|]. split; auto.
      rewrite Forall_forall in R2. rewrite <- (R2 (nth r t [])); auto. now apply nth_In.
    - intros (r & c & Hr & Hc & N). exists (nth r t []). split; [apply nth_In; lia|]. apply existsb_exists. exists (tcell t r c). split; auto.
      unfold tcell. apply nth_In. rewrite Forall_forall in R2. rewrite (R2 (nth r t [])); auto. apply nth_In. lia.
  Qed.

  Lemma eval_all_stops scope nl cols sh k : forall xs u t r, eval_all E scope nl cols sh k u xs = (t, r) ->
    exists pre post, xs = pre ++ post /\ eval_all E scope nl cols sh k u pre = (t, Ok tt) /\
      match r with Ok _ => post = [] | Err x => exists y rest, post = y :: rest /\ eval_one E scope nl cols sh k t y = Err x end.
  Proof.
    induction xs as [|x xs IH]; intros u t r H; cbn in H.
    - injection H as <- <-. exists [], []. auto.
    - destruct (eval_one E scope nl cols sh k u x) as [u'|e] eqn:E1.
      + apply IH in H. destruct H as (pre & post & -> & A & B). exists (x :: pre), post. split; auto. split; auto. cbn. now rewrite E1.
      + injection H as <- <-. exists [], (x :: xs). split; auto. split; auto. eauto.
  Qed.

  (** A run that is not refused and raises - an expression cannot be evaluated, or utilities are NaN - keeps in the model
      the utilities with what the expressions before the one that failed have added.  Nothing else changes. *)
  Theorem C106_failed_run_keeps_a_prefix (NL : numexpr_local E) (FL : frame_laws E) (ops : list mop) i group clear ts' m' x simple xs d cols nl :
    let w := mrun E start ops in let m := model E w i in
    orderly_history E start ops ->
    validate E (mheap E w) (mcont E w i) m group = Ok tt ->
    run_utilities E (mheap E w) (mcont E w i) (mw_tabs w) m group clear = (ts', m', Err x) ->
    selection (mheap E w) (mcont E w i) group = Ok (simple, xs) -> (forall x, In x xs -> plain_names simple x) ->
    m_du m = Some d -> choices (m_tree m) = Ok cols -> depth (m_tree m) = Ok nl ->
    (forall u, m_utils m = Some u -> length (u_cols u) = length cols /\ length (nth (u_ref u) (mw_tabs w) []) = length d) ->
    exists v pre post, xs = pre ++ post /\
      m_utils m' = Some v /\ m_scope m' = m_scope m /\ m_tree m' = m_tree m /\ m_du m' = m_du m /\
      rectangle (length d) (length cols) (nth (u_ref v) ts' []) /\
      (post = [] -> xs = [] \/ exists r c, r < length d /\ c < length cols /\ is_nan (tcell (nth (u_ref v) ts' []) r c) = true) /\
      forall r c l, r < length d -> nth_error cols c = Some l ->
        forall rho, (forall x acc, In x pre -> meaning E (m_scope m) nl cols simple x acc r c (rho x acc)) ->
          total (applies nl l) (fun x acc => ev_ne E (e_trans x) (rho x acc)) pre
                (match m_utils m with Some u => tcell (nth (u_ref u) (mw_tabs w) []) r c | None => nzero F end) = Some (tcell (nth (u_ref v) ts' []) r c).
  Proof.
    intros w m OH V R S PN DU CH DP US. pose proof (tidy_reachable E FL ops i group simple xs OH S PN) as [TL TA TN]. fold w m in TL, TA, TN.
    pose proof (table_ok_reachable E NL ops i) as TO. fold w m in TO.
    assert (FI : forall y s, In y simple -> reserved y = false -> dget String.eqb (m_scope m) y = Some s -> filled (ev_frames E) s = true).
    { intros y s I RY G. destruct (run_filled E NL (mheap E w) (mcont E w i) m group simple xs V S y I RY) as (s' & G' & FS). congruence. }
    unfold run_utilities in R. rewrite V, S in R. destruct (evaluate E (mw_tabs w) m simple xs) as [[ts1 m1] r1] eqn:EV. destruct r1 as [u|x0]; [discriminate|]. injection R as <- <- <-.
    unfold evaluate in EV. rewrite DU, CH, DP in EV. destruct (partial_utilities E (mw_tabs w) m) as [[ts2 m2] r2] eqn:P. pose proof P as PT. apply partial_touch in PT. destruct PT as (P1 & P2 & P3 & _ & PT).
    destruct r2 as [v|x2].
    2:{ exfalso. unfold partial_utilities in P. apply validate_ok in V. destruct V as (V & _). rewrite V in P. unfold units in P. rewrite DU in P. destruct (m_utils m); [discriminate|]. rewrite CH in P. discriminate. }
    destruct PT as [MU PT]. set (st := start_table E (mw_tabs w) m (length d) (length cols)).
    assert (ST : u_ref v < length ts2 /\ nth (u_ref v) ts2 [] = st /\ length (u_cols v) = length cols).
    { unfold st, start_table. destruct PT as [[Q ->]|(Q & d0 & c0 & Q1 & Q2 & -> & ->)]; rewrite Q.
      - destruct (TO v Q) as [LT _]. split; auto. split; auto. now apply US.
      - assert (d0 = d) by congruence. assert (c0 = cols) by congruence. subst d0 c0. cbn. rewrite app_length, app_nth2, Nat.sub_diag by lia. cbn. split; [lia|auto]. }
    destruct ST as (LT & ST & UC).
    assert (LEN : length st = length d).
    { unfold st, start_table. destruct (m_utils m) as [u|] eqn:Q; [now apply US|]. unfold zeros. apply repeat_length. }
    assert (R0 : rectangle (length st) (length cols) st).
    { apply (start_rect E NL); auto. intros u Q. now apply US. }
    assert (CELL : forall r c, match m_utils m with Some u => tcell (nth (u_ref u) (mw_tabs w) []) r c | None => nzero F end = tcell st r c).
    { intros r c. unfold st, start_table. destruct (m_utils m); auto. symmetry. apply (zeros_cell E). }
    destruct (shared_locals E (m_scope m) simple (base_locals E)) as [sh|x3] eqn:SH.
    - destruct (eval_all E (m_scope m) nl cols sh (length (u_cols v)) (deref_tab ts2 (u_ref v)) xs) as [t r] eqn:EA. injection EV as <- <- EV.
      unfold deref_tab in EA. rewrite ST, UC in EA. pose proof EA as EA0. apply eval_all_stops in EA. destruct EA as (pre & post & -> & EA & RR).
      exists v, pre, post. split; auto. split; auto. split; auto. split; auto. split; auto. rewrite nth_upd_eq by auto.
      pose proof (eval_all_total E NL (m_scope m) nl cols simple (TL cols CH) FI sh pre st t) as T. rewrite LEN in T, R0.
      specialize (T (TA d cols DU CH) SH EA (fun x I => TN x (in_or_app _ _ _ (or_introl I))) R0). destruct T as [RT T].
      split; auto. split.
      + intros ->. destruct r as [[]|e]; [|destruct RR as (y & rest & Q & _); discriminate]. cbn in EV.
        right. apply (has_nan_cell t _ _ RT). unfold has_nan. destruct (existsb (existsb is_nan) t); auto. destruct RT as [RT _]. rewrite RT, UC, !Nat.eqb_refl in EV. discriminate.
      + intros r0 c l Hr Hc rho M. rewrite CELL. apply (T r0 c l Hr Hc rho M).
    - injection EV as <- <- <-. exists v, [], xs. split; auto. split; auto. split; auto. split; auto. split; auto. rewrite ST. rewrite LEN in R0. split; auto. split; [auto|].
      intros r c l Hr Hc rho _. cbn. now rewrite CELL.
  Qed.

  Lemma orderly_pre : forall (ops ops' : list mop) w, orderly_history E w (ops ++ ops') -> orderly_history E w ops.
  Proof. induction ops as [|o ops IH]; intros ops' w H; [exact I|]. cbn in H |- *. destruct H as [A B]. split; eauto. Qed.

  (** calls that declare, assign, clear symbols and change the expressions *)
  Definition corrects (o : mop) : Prop :=
    match o with MDeclare _ _ _ _ | MAssign _ _ _ _ | MClearScope _ _ | MAppend _ _ _ _ | MClearExprs _ _ | MDropGroup _ _ _ => True | _ => False end.
  Lemma corrects_keeps i : forall mid (w0 : mworld), Forall corrects mid -> i < length (mw_models w0) ->
    mw_tabs (mrun E w0 mid) = mw_tabs w0 /\ m_utils (model E (mrun E w0 mid) i) = m_utils (model E w0 i) /\
    m_du (model E (mrun E w0 mid) i) = m_du (model E w0 i) /\ m_tree (model E (mrun E w0 mid) i) = m_tree (model E w0 i).
  Proof.
    induction mid as [|o mid IH]; intros w0 HM LT; [auto|]. inversion_clear HM as [|? ? Ho HM']. cbn [mrun fold_left].
    assert (NT : forall (w1 : mworld) j m', i < length (mw_models w1) ->
                m_utils m' = m_utils (model E w1 j) -> m_du m' = m_du (model E w1 j) -> m_tree m' = m_tree (model E w1 j) ->
                m_utils (model E (set_model E w1 (mw_tabs w1) j m') i) = m_utils (model E w1 i) /\ m_du (model E (set_model E w1 (mw_tabs w1) j m') i) = m_du (model E w1 i) /\
                m_tree (model E (set_model E w1 (mw_tabs w1) j m') i) = m_tree (model E w1 i) /\
                i < length (mw_models (set_model E w1 (mw_tabs w1) j m'))).
    { intros w1 j m' Li Q1 Q2 Q3. unfold set_model, model. cbn [mw_models]. rewrite upd_length. destruct (Nat.eq_dec j i) as [->|Ne].
      - rewrite nth_upd_eq by auto. auto.
      - rewrite nth_upd_neq by auto. auto. }
    assert (GO : forall w1 : mworld, mw_tabs w1 = mw_tabs w0 -> m_utils (model E w1 i) = m_utils (model E w0 i) /\ m_du (model E w1 i) = m_du (model E w0 i) /\ m_tree (model E w1 i) = m_tree (model E w0 i) /\ i < length (mw_models w1) ->
      mw_tabs (mrun E w1 mid) = mw_tabs w0 /\ m_utils (model E (mrun E w1 mid) i) = m_utils (model E w0 i) /\
      m_du (model E (mrun E w1 mid) i) = m_du (model E w0 i) /\ m_tree (model E (mrun E w1 mid) i) = m_tree (model E w0 i)).
    { intros w1 Q1 (Q2 & Q3 & Q4 & Q5). destruct (IH w1 HM' Q5) as (A & B & C & T). rewrite A, B, C, T. auto. }
    destruct o; try contradiction; cbn [mstep]; apply GO; auto; apply NT; auto; unfold declare, assign_symbol;
      repeat (match goal with |- context [match ?x with _ => _ end] => destruct x end); reflexivity.
  Qed.

  (** The next run that succeeds on the corrected model - same choices, same units; symbols and expressions may have been
      replaced - starts from that prefix: its utilities are those of its own expressions on top of what the failed run had
      added. *)
  Theorem C106_next_run_adds_to_the_prefix (NL : numexpr_local E) (FL : frame_laws E) (ops : list mop) i group clear scale check ts1 m1 x simple xs d cols nl mid group' clear' ts2 m2 t2 simple' xs' :
    let w := mrun E start ops in let m := model E w i in
    let w' := mrun E w (MStochastic E i group clear scale check :: mid) in
    i < length (mw_models w) -> orderly_history E start (ops ++ MStochastic E i group clear scale check :: mid) -> Forall corrects mid ->
    validate E (mheap E w) (mcont E w i) m group = Ok tt ->
    run_utilities E (mheap E w) (mcont E w i) (mw_tabs w) m group clear = (ts1, m1, Err x) ->
    selection (mheap E w) (mcont E w i) group = Ok (simple, xs) -> (forall x, In x xs -> plain_names simple x) ->
    m_utils m = None -> m_du m = Some d -> choices (m_tree m) = Ok cols -> depth (m_tree m) = Ok nl ->
    run_utilities E (mheap E w') (mcont E w' i) (mw_tabs w') (model E w' i) group' clear' = (ts2, m2, Ok t2) ->
    selection (mheap E w') (mcont E w' i) group' = Ok (simple', xs') -> (forall x, In x xs' -> plain_names simple' x) ->
    exists pre post, xs = pre ++ post /\
      forall r c l, r < length d -> nth_error cols c = Some l ->
        forall rho rho', (forall x acc, In x pre -> meaning E (m_scope m) nl cols simple x acc r c (rho x acc)) ->
          (forall x acc, In x xs' -> meaning E (m_scope (model E w' i)) nl cols simple' x acc r c (rho' x acc)) ->
          exists a, total (applies nl l) (fun x acc => ev_ne E (e_trans x) (rho x acc)) pre (nzero F) = Some a /\
                    total (applies nl l) (fun x acc => ev_ne E (e_trans x) (rho' x acc)) xs' a = Some (tcell t2 r c).
  Proof.
    intros w m w' LT OH HM V R S PN MU DU CH DP R2 S2 PN2.
    assert (OH0 : orderly_history E start ops) by (eapply orderly_pre; eauto).
    destruct (C106_failed_run_keeps_a_prefix NL FL ops i group clear ts1 m1 x simple xs d cols nl OH0 V R S PN DU CH DP) as (v & pre & post & XS & MV & _ & MT & MD & _ & _ & T).
    { intros u Q. fold w m in Q. congruence. }
    exists pre, post. split; auto. intros r c l Hr Hc rho rho' M1 M2. specialize (T r c l Hr Hc rho M1). fold w m in T. rewrite MU in T. exists (tcell (nth (u_ref v) ts1 []) r c). split; auto.
    set (w1 := mstep E w (MStochastic E i group clear scale check)). assert (W1 : w' = mrun E w1 mid) by reflexivity.
    assert (Q1 : mw_tabs w1 = ts1 /\ model E w1 i = m1 /\ i < length (mw_models w1)).
    { unfold w1. cbn [mstep]. unfold run_stochastic. fold m. rewrite R. unfold set_model, model. cbn [mw_tabs mw_models]. rewrite nth_upd_eq, upd_length by auto. auto. }
    destruct Q1 as (A1 & A2 & A3). destruct (corrects_keeps i mid w1 HM A3) as (K1 & K2 & K3 & K4). rewrite <- W1 in K1, K2, K3, K4. rewrite A2 in K2, K3, K4. rewrite A1 in K1.
    pose proof (C50_starts_from_cached E NL FL (ops ++ MStochastic E i group clear scale check :: mid) i group' clear' ts2 m2 t2 simple' xs' d cols nl v) as C. cbv zeta in C.
    rewrite mrun_app in C. fold w in C. fold w' in C. rewrite K1 in C, R2. apply C; auto; rewrite ?K2, ?K3, ?K4, ?MT, ?MD; auto.
  Qed.
End Failed.

(** "A run that raises leaves no trace: when its cause is corrected the next run returns the utilities of its own
    expressions." *)
Theorem C106_a_failed_run_leaves_no_trace_refuted :
  let U := fun w => futilities (fun x => x) (fun x => x) w None in
  let pre := two_choices (fun x => x) (fun x => x) in
  let w := mrun idE (new_mworld idE) (pre ++ [MAppend idE 0 "x" None; MAppend idE 0 "1 @ Z" None]) in
  let again := [MClearExprs idE 0; MAppend idE 0 "x" None] in
  (* the run raises, without it the corrected model gives x, after it twice x *)
  validate idE (mheap idE w) (mcont idE w 0) (model idE w 0) None = Ok tt /\
  is_err (U w) = true /\
  U (mrun idE w again) = Ok [[sfz 3; sfz 3]; [sfz 5; sfz 5]] /\
  U (mrun idE w (MStochastic idE 0 None true false true :: again)) = Ok [[sfz 6; sfz 6]; [sfz 10; sfz 10]].
Proof. vm_compute. exact (conj eq_refl (conj eq_refl (conj eq_refl eq_refl))). Qed.

(** the hypotheses of the theorem on the next run hold there *)
Example C106_hypotheses_met :
  let w := mrun idE (new_mworld idE) (two_choices (fun x => x) (fun x => x) ++ [MAppend idE 0 "x" None; MAppend idE 0 "1 @ Z" None]) in
  length (mw_models w) = 1 /\ (match m_utils (model idE w 0) with None => true | Some _ => false end) = true /\ m_du (model idE w 0) = Some ["h1"; "h2"] /\ choices (m_tree (model idE w 0)) = Ok [Flat "A"; Flat "B"] /\ depth (m_tree (model idE w 0)) = Ok 1 /\ rmap (fun p => (fst p, length (snd p))) (selection (mheap idE w) (mcont idE w 0) None) = Ok (["x"], 2).
Proof. vm_compute. exact (conj eq_refl (conj eq_refl (conj eq_refl (conj eq_refl (conj eq_refl eq_refl))))). Qed.
Print Assumptions C106_refused_runs_change_nothing.
Print Assumptions C106_failed_run_keeps_a_prefix.
Print Assumptions C106_next_run_adds_to_the_prefix.
Print Assumptions C106_a_failed_run_leaves_no_trace_refuted.
