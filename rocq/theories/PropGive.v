(** C58 and C89 for calls of [add_partial_utilities] inside histories. *)
From Verif Require Import Prelude Arith CoreModel TreeModel DictProofs ParModel ExprModel SpecExpr ExprProofs ExprUses ExprMeaning ExprContainer ExprWorld ScopeModel SpecScope ScopeProofs ModelModel ModelProofs SpecModel KernelProofs EvalProofs ModelExample PropState ModelWorld ModelHist ModelTabs RunProofs PropUtility PropExpr PropIsolation SpecTree TreeProofs TreeMore TreeHist RunOut SpecEnd EndProofs PropEnd PropExternal SpecExternal PropRunExternal PropCopy.
Local Open Scope string_scope.
Local Open Scope nat_scope.
Local Open Scope list_scope.

Section Give.
  Context {L : Type} {F : arith} {D cell : Type} (E : env L F D cell).
  Notation num := (num F).
  Notation cm := (cm E).
  Notation mworld := (mworld E).
  Notation mop := (mop E).
  Notation start := (new_mworld E).
  Context (NL : numexpr_local E) (EQ : forall a b, ev_eq E a b = true <-> a = b) (G : generator F).

  Lemma mstep_give (w : mworld) i rows cols cells rr rc out : i < length (mw_models w) ->
    mw_tabs (mstep E w (MGive E i rows cols cells rr rc out)) = fst (give E (mw_tabs w) (model E w i) rows cols cells rr rc out) /\
    model E (mstep E w (MGive E i rows cols cells rr rc out)) i = snd (give E (mw_tabs w) (model E w i) rows cols cells rr rc out).
  Proof.
    intros LT. cbn [mstep]. destruct (give E (mw_tabs w) (model E w i) rows cols cells rr rc out) as [ts m]. cbn [fst snd]. split; [reflexivity|].
    unfold set_model, model. cbn [mw_models]. now apply nth_upd_eq.
  Qed.
  (** the utilities of model [k] in a world *)
  Definition kept_table (w : mworld) (k : nat) : option (list D * list label * list (list num)) :=
    option_map (fun u => (u_index u, u_cols u, nth (u_ref u) (mw_tabs w) [])) (m_utils (model E w k)).

  (** After every history: a call of [add_partial_utilities] on model [i] that does not raise, whatever its threads do,
      adds every cell of the table to the cell with its decision unit and its choice and changes nothing else:
      no other cell, nothing else of the model, no other model, no expressions. *)
  Theorem C58_in_histories (ops : list mop) i d ch rows cols cells rr rc out :
    let w := mrun E start ops in let call := MGive E i rows cols cells rr rc out in let w' := mstep E w call in
    let after := give E (mw_tabs w) (model E w i) rows cols cells rr rc out in
    i < length (mw_models w) -> m_du (model E w i) = Some d -> choices (m_tree (model E w i)) = Ok ch ->
    NoDup rows -> NoDup cols -> rectangle (length rows) (length cols) cells ->
    add_partial E G (mw_tabs w) (model E w i) rows cols cells rr rc (fst after) (snd after) (Ok tt) ->
    incl rows d /\ incl cols (map (ev_label E) ch) /\
    m_tree (model E w' i) = m_tree (model E w i) /\ m_scope (model E w' i) = m_scope (model E w i) /\ m_du (model E w' i) = m_du (model E w i) /\
    mw_ex w' = mw_ex w /\ length (mw_models w') = length (mw_models w) /\
    (forall k, k <> i -> k < length (mw_models w) -> model E w' k = model E w k /\ kept_table w' k = kept_table w k) /\
    exists index labels t, kept_table w' i = Some (index, labels, t) /\
      let t0 := match kept_table w i with Some (_, _, t0) => t0 | None => zeros (length d) (length ch) end in
      match kept_table w i with Some (index0, labels0, _) => index = index0 /\ labels = labels0 | None => index = d /\ labels = ch end /\
      rectangle (length index) (length labels) t /\
      (forall a b r c p q, nth_error rows a = Some r -> nth_error cols b = Some c -> nth_error d p = Some r -> nth_error (map (ev_label E) ch) q = Some c ->
         tcell t p q = nadd F (tcell t0 p q) (tcell cells a b)) /\
      (forall p q, p < length index -> q < length labels ->
         ~ (exists r c, nth_error d p = Some r /\ In r rows /\ nth_error (map (ev_label E) ch) q = Some c /\ In c cols) ->
         tcell t p q = tcell t0 p q).
  Proof.
    intros w call w' after LT DU CH N1 N2 RC AP. subst call.
    assert (SP : separate E w) by (apply (run_separate E NL ops start); apply separate_new; auto). clearbody w.
    pose proof SP as [TOK SEP]. pose proof (TOK i) as TO.
    destruct (mstep_give w i rows cols cells rr rc out LT) as [TB MD]. fold w' in TB, MD. fold after in TB, MD. rewrite <- TB, <- MD in AP.
    destruct (C58_added_by_label E EQ G _ _ d ch rows cols cells rr rc _ _ TO DU CH N1 N2 RC AP) as (I1 & I2 & T1 & T2 & T3 & u & U1 & U2 & R & A1 & A2 & A3). cbv zeta in *.
    do 5 (split; [assumption|]). split. { unfold w'. cbn [mstep]. destruct (give _ _ _ _ _ _ _ _ _). reflexivity. }
    split. { unfold w'. cbn [mstep]. destruct (give _ _ _ _ _ _ _ _ _). unfold set_model. cbn [mw_models]. apply upd_length. }
    split.
    { intros k NE LK. assert (MK : model E w' k = model E w k).
      { unfold w'. rewrite step_model by auto. unfold target_of. cbn [opt_target]. now rewrite (proj2 (Nat.eqb_neq i k)) by auto. }
      split; auto. unfold kept_table. rewrite MK. destruct (m_utils (model E w k)) as [v|] eqn:MV; auto. cbn [option_map]. do 2 f_equal.
      destruct (TOK k v MV) as [LV _]. apply (ef_keep E _ _ _ _ (step_effect E NL w (MGive E i rows cols cells rr rc out) i eq_refl)); auto. intros WK. apply (SEP k i (u_ref v)); auto. exists v; auto. }
    exists (u_index u), (u_cols u), (nth (u_ref u) (mw_tabs w') []). unfold kept_table at 1. rewrite U1. split; [reflexivity|]. cbv zeta.
    assert (PA : partials E (mw_tabs w) (model E w i) d ch = match kept_table w i with Some (_, _, t0) => t0 | None => zeros (length d) (length ch) end).
    { unfold partials, kept_table. destruct (m_utils (model E w i)); reflexivity. }
    assert (IX : match kept_table w i with Some (index0, labels0, _) => u_index u = index0 /\ u_cols u = labels0 | None => u_index u = d /\ u_cols u = ch end).
    { unfold kept_table. destruct U2 as [U2|[U2 ->]]; rewrite U2; cbn; auto. }
    assert (LB : length (partials E (mw_tabs w) (model E w i) d ch) = length (u_index u)).
    { unfold partials. destruct U2 as [U2|[U2 ->]]; rewrite U2; [apply (TO u U2)|exact (proj1 (zeros_rect E _ _))]. }
    rewrite <- PA. rewrite LB in *. split; auto. split; auto. split.
    - intros a b r c p q X1 X2 X3 X4. apply (A1 a b r c p q); auto.
    - intros p q X1 X2 X3. apply A2; auto.
  Qed.
  (** A call that raises leaves the utilities of all models as they were; it may start the table of model [i] with zeros. *)
  Theorem C58_raising_in_histories (ops : list mop) i rows cols cells rr rc out x :
    let w := mrun E start ops in let w' := mstep E w (MGive E i rows cols cells rr rc out) in
    let after := give E (mw_tabs w) (model E w i) rows cols cells rr rc out in
    i < length (mw_models w) ->
    add_partial E G (mw_tabs w) (model E w i) rows cols cells rr rc (fst after) (snd after) (Err x) ->
    mw_ex w' = mw_ex w /\
    m_tree (model E w' i) = m_tree (model E w i) /\ m_scope (model E w' i) = m_scope (model E w i) /\ m_du (model E w' i) = m_du (model E w i) /\
    (kept_table w' i = kept_table w i \/
     kept_table w i = None /\ exists d ch, m_du (model E w i) = Some d /\ choices (m_tree (model E w i)) = Ok ch /\ kept_table w' i = Some (d, ch, zeros (length d) (length ch))) /\
    forall k, k <> i -> k < length (mw_models w) -> model E w' k = model E w k /\ kept_table w' k = kept_table w k.
  Proof.
    intros w w' after LT AP. assert (SP : separate E w) by (apply (run_separate E NL ops start); apply separate_new; auto). clearbody w.
    pose proof SP as [TOK SEP]. destruct (mstep_give w i rows cols cells rr rc out LT) as [TB MD]. fold w' in TB, MD. fold after in TB, MD. rewrite <- TB, <- MD in AP.
    destruct (C58_raising_changes_nothing E EQ G _ _ rows cols cells rr rc _ _ x AP) as (T1 & T2 & T3 & U).
    split. { unfold w'. cbn [mstep]. destruct (give _ _ _ _ _ _ _ _ _). reflexivity. }
    do 3 (split; [assumption|]). split.
    - unfold kept_table. destruct U as [[U1 U2]|(U1 & d & ch & U2 & U3 & U4 & U5)]; [left; now rewrite U1, U2|right]. rewrite U1. split; [reflexivity|]. exists d, ch. split; auto. split; auto.
      rewrite U5, U4. cbn [option_map u_index u_cols u_ref]. rewrite app_nth2, Nat.sub_diag by lia. reflexivity.
    - intros k NE LK. assert (MK : model E w' k = model E w k).
      { unfold w'. rewrite step_model by auto. unfold target_of. cbn [opt_target]. now rewrite (proj2 (Nat.eqb_neq i k)) by auto. }
      split; auto. unfold kept_table. rewrite MK. destruct (m_utils (model E w k)) as [v|] eqn:MV; auto. cbn [option_map]. do 2 f_equal.
      destruct (TOK k v MV) as [LV _]. apply (ef_keep E _ _ _ _ (step_effect E NL w (MGive E i rows cols cells rr rc out) i eq_refl)); auto. intros WK. apply (SEP k i (u_ref v)); auto. exists v; auto.
  Qed.

  (** ** Several calls, with other calls between them *)
  (** calls that are not about the utilities, the choices or the decision units of model [i] *)
  Definition elsewhere (i : nat) (o : mop) : Prop :=
    match o with
    | MTree _ k _ | MUnits _ k _ | MStochastic _ k _ _ _ _ | MDiscrete _ k _ _ | MPreval _ k _ _ _ | MGive _ k _ _ _ _ _ _ => k <> i
    | _ => True
    end.
  (** the tables given to model [i] in a history, by calls that do not raise *)
  Inductive gave (i : nat) : mworld -> list mop -> list (given (F:=F) (D:=D)) -> Prop :=
  | gave_nil w : gave i w [] []
  | gave_table w g gs rr rc out l : well_given g ->
      (let after := give E (mw_tabs w) (model E w i) (gv_rows g) (gv_cols g) (gv_cells g) rr rc out in
       add_partial E G (mw_tabs w) (model E w i) (gv_rows g) (gv_cols g) (gv_cells g) rr rc (fst after) (snd after) (Ok tt)) ->
      gave i (mstep E w (MGive E i (gv_rows g) (gv_cols g) (gv_cells g) rr rc out)) l gs ->
      gave i w (MGive E i (gv_rows g) (gv_cols g) (gv_cells g) rr rc out :: l) (g :: gs)
  | gave_other w o l gs : elsewhere i o -> gave i (mstep E w o) l gs -> gave i w (o :: l) gs.

  Lemma elsewhere_keeps (w : mworld) o i : separate E w -> i < length (mw_models w) -> elsewhere i o ->
    let w' := mstep E w o in
    m_tree (model E w' i) = m_tree (model E w i) /\ m_du (model E w' i) = m_du (model E w i) /\ m_utils (model E w' i) = m_utils (model E w i) /\
    forall u, m_utils (model E w i) = Some u -> nth (u_ref u) (mw_tabs w') [] = nth (u_ref u) (mw_tabs w) [].
  Proof.
    intros [TOK SEP] LT EW w'. unfold w'. rewrite step_model by auto. unfold target_of. destruct (opt_target E o) as [k|] eqn:TG.
    - destruct (Nat.eqb_spec k i) as [->|NE].
      + destruct o as [|k o|k d|k nm d|k nm v|k|k text g|k|k g|k g cl sc ck|k n cl|k g dr cl|k f|k mi mask|k en|k gr gc gt gb gd gm]; cbn in TG; try discriminate; injection TG as ->; cbn in EW; try congruence; cbn [mstep step_result set_model mw_tabs].
        * unfold declare. destruct (reserved nm); auto. destruct (new_symbol E d); auto.
        * unfold assign_symbol. destruct (dget _ _ nm); auto. destruct (assign _ _ _ _ _ v); auto.
        * auto.
        * unfold empty_symbol. destruct (dget _ _ en); auto.
      + do 3 (split; [reflexivity|]). intros u MU. destruct (TOK i u MU) as [LR _].
        apply (ef_keep E _ _ _ _ (step_effect E NL w o k TG)); auto. intros WK. apply (SEP i k (u_ref u)); auto. exists u; auto.
    - do 3 (split; [reflexivity|]). intros u MU. destruct (TOK i u MU) as [LR _].
      destruct o as [|k o|k d|k nm d|k nm v|k|k text g|k|k g|k g cl sc ck|k n cl|k g dr cl|k f|k mi mask|k en|k gr gc gt gb gd gm]; cbn in TG; try discriminate; cbn [mstep]; try reflexivity.
      + destruct (copy_model E (mw_tabs w) (model E w k) f) as [ts m] eqn:R. apply (copy_effect E) in R; auto. destruct R as ((add & ->) & _). cbn [mw_tabs]. now apply app_nth1.
      + destruct (copy_subset E (mw_tabs w) (model E w k) mi mask) as [ts [m|x]] eqn:R.
        * apply (subset_effect E) in R; auto. destruct R as ((add & ->) & _). cbn [mw_tabs]. now apply app_nth1.
        * cbn [mw_tabs]. unfold copy_subset in R. destruct (units E (model E w k)); [|injection R as <- _; auto]. destruct (index_equals _ mi a); [|injection R as <- _; auto].
          destruct (m_utils (model E w k)); [destruct (index_equals _ mi (u_index u0)); [discriminate|injection R as <- _; auto]|discriminate].
  Qed.
End Give.

Section Whole.
  Context {L : Type} {F : arith} {D N : Type} (E : env L F D (val N)) (O : ops L N) (as_num : val N -> option (num F)).
  Notation cm := (cm E).
  Notation mworld := (mworld E).
  Notation mop := (mop E).
  Notation start := (new_mworld E).
  Context (NC : numexpr_computes E O as_num) (FL : frame_laws E) (NUL : ev_num E (ev_nan E) = VNull) (G : generator F).

  Lemma gave_total d ch i : NoDup d -> NoDup (map (ev_label E) ch) -> forall w l gs, gave E G i w l gs -> separate E w -> i < length (mw_models w) ->
    m_du (model E w i) = Some d -> choices (m_tree (model E w i)) = Ok ch ->
    (forall u, m_utils (model E w i) = Some u -> length (u_index u) = length d /\ length (u_cols u) = length ch) ->
    let w' := mrun E w l in
    m_tree (model E w' i) = m_tree (model E w i) /\ m_du (model E w' i) = Some d /\
    forall p q r c z, nth_error d p = Some r -> nth_error (map (ev_label E) ch) q = Some c ->
      given_total r c gs (tcell (start_table E (mw_tabs w) (model E w i) (length d) (length ch)) p q) z ->
      tcell (start_table E (mw_tabs w') (model E w' i) (length d) (length ch)) p q = z.
  Proof.
    intros ND NDL. pose proof (computes_local E O as_num NC) as NL.
    induction 1 as [w|w g gs rr rc out l W AP H IH|w o l gs EW H IH]; intros SP LT DU CH SH w'.
    - unfold w'. cbn [mrun fold_left]. do 2 (split; [now auto|]). intros p q r c z _ _ T. now inversion T.
    - cbv zeta in AP. destruct (mstep_give E w i (gv_rows g) (gv_cols g) (gv_cells g) rr rc out LT) as [TB MD].
      set (w1 := mstep E w (MGive E i (gv_rows g) (gv_cols g) (gv_cells g) rr rc out)) in *. rewrite <- TB, <- MD in AP.
      destruct (one_given E FL G _ _ g rr rc _ _ d ch (sp_ok E w SP i) DU CH ND NDL SH W AP) as (B1 & B2 & B3 & B4 & (u & U1 & U2) & B5).
      destruct IH as (C1 & C2 & C3).
      + now apply (step_separate E NL).
      + pose proof (step_models_grow E w (MGive E i (gv_rows g) (gv_cols g) (gv_cells g) rr rc out)). unfold w1. lia.
      + congruence.
      + congruence.
      + intros v V. rewrite U1 in V. injection V as <-. exact U2.
      + split; [exact (eq_trans C1 B2)|]. split; [exact C2|]. intros p q r c z P Q T. inversion T as [|g0 gs0 v acc z0 SV TT]; subst.
        apply (C3 p q r c z P Q). rewrite (B5 p q r c v P Q SV). exact TT.
    - destruct (elsewhere_keeps E NL w o i SP LT EW) as (K1 & K2 & K3 & K4).
      assert (ST : start_table E (mw_tabs (mstep E w o)) (model E (mstep E w o) i) (length d) (length ch) = start_table E (mw_tabs w) (model E w i) (length d) (length ch)).
      { unfold start_table. rewrite K3. destruct (m_utils (model E w i)) as [u|] eqn:MU; auto. }
      destruct IH as (C1 & C2 & C3).
      + now apply (step_separate E NL).
      + pose proof (step_models_grow E w o). lia.
      + congruence.
      + congruence.
      + intros v V. rewrite K3 in V. auto.
      + split; [exact (eq_trans C1 K1)|]. split; [exact C2|]. intros p q r c z P Q T. apply (C3 p q r c z P Q). now rewrite ST.
  Qed.

  (** After an orderly history in which model [i] has no utilities yet at some point and is given tables from there on --
      between these calls anything may happen that is not about its choices, its decision units or its utilities -- a run
      yields what the tables say about the decision unit and the choice, in the order of the calls, plus the texts that apply. *)
  Theorem C89_in_histories (ops l : list mop) i gs group clear ts' m' t simple xs d cols nl :
    let w0 := mrun E start ops in let w := mrun E start (ops ++ l) in let m := model E w i in
    orderly_history E start (ops ++ l) -> i < length (mw_models w0) -> m_utils (model E w0 i) = None ->
    m_du (model E w0 i) = Some d -> choices (m_tree (model E w0 i)) = Ok cols -> depth (m_tree (model E w0 i)) = Ok nl -> NoDup d -> NoDup (map (ev_label E) cols) ->
    gave E G i w0 l gs ->
    run_utilities E (mheap E w) (mcont E w i) (mw_tabs w) m group clear = (ts', m', Ok t) ->
    selection (mheap E w) (mcont E w i) group = Ok (simple, xs) -> (forall x, In x xs -> meant E simple x) ->
    rectangle (length d) (length cols) t /\
    forall r c lb z v du, nth_error d r = Some du -> nth_error cols c = Some lb ->
      given_total du (ev_label E lb) gs (nzero F) z ->
      texts_total E O as_num (m_scope m) nl cols r c lb (map (@e_raw L) xs) z = Some v -> tcell t r c = v.
  Proof.
    intros w0 w m OH LT MU DU CH DP ND NDL GV R S MT. pose proof (computes_local E O as_num NC) as NL.
    assert (PN : forall x, In x xs -> plain_names simple x) by (intros x I; apply MT, I).
    pose proof (tidy_reachable E FL (ops ++ l) i group simple xs OH S PN) as TD. fold w m in TD. pose proof (table_ok_reachable E NL (ops ++ l) i) as TO. fold w m in TO.
    assert (SP : separate E w0) by (apply (run_separate E NL ops start); apply separate_new; auto).
    assert (W : w = mrun E w0 l) by (unfold w, w0; unfold mrun; apply fold_left_app).
    destruct (gave_total d cols i ND NDL w0 l gs GV SP LT DU CH) as (C1 & C2 & C3); [intros u U; congruence|]. rewrite <- W in C1, C2, C3. fold m in C1, C2, C3.
    destruct (run_from E O as_num NC NUL (ops ++ l) i group clear (mw_tabs w) m ts' m' t simple xs d cols nl TO TD R S MT) as [RC T]; try congruence. split; auto.
    intros r c lb z v du Hd Hc TZ TV. apply (T r c lb v); auto; [apply nth_error_Some; congruence|].
    assert (Hq : nth_error (map (ev_label E) cols) c = Some (ev_label E lb)) by (rewrite nth_error_map, Hc; reflexivity).
    assert (Z0 : tcell (start_table E (mw_tabs w0) (model E w0 i) (length d) (length cols)) r c = nzero F) by (unfold start_table; rewrite MU; apply (zeros_cell E)).
    rewrite (C3 r c du (ev_label E lb) z Hd Hq); auto. now rewrite Z0.
  Qed.
End Whole.
Print Assumptions C58_in_histories.
Print Assumptions C58_raising_in_histories.
Print Assumptions C89_in_histories.

(** ** The hypotheses: the history of EndExample.v, then a table for one of the units and two of the choices, then a new model *)
From Coq Require Import ZArith.
From Flocq Require Import Core.Core IEEE754.BinarySingleNaN.
From Verif Require Import EndExample.
Example C89_in_histories_met (G : generator F1) : exists out,
  let call := MGive env2 0 (gv_rows given2) (gv_cols given2) (gv_cells given2) true true out in let l := [call; MNew env2] in
  let w := mrun env2 (new_mworld env2) (history2 ++ l) in
  0 < length (mw_models world2) /\ gave env2 G 0 world2 l [given2] /\ orderly_history env2 (new_mworld env2) (history2 ++ l) /\
  mw_tabs w = [after2] /\ model env2 w 0 = given_model2 /\
  run_utilities env2 (mheap env2 w) (mcont env2 w 0) (mw_tabs w) (model env2 w 0) None true = given_run2.
Proof.
  destruct model2_parts as (DU & CH & DP & MU & TB & VT).
  destruct (C58_known_labels_accepted env2 (fun a b => String.eqb_eq a b) G [] model2 ["u1"; "u2"] cols2 (gv_rows given2) (gv_cols given2) (gv_cells given2) true true VT DU CH) as [(ts1 & m1 & AP) _]; auto.
  { intros u U. congruence. } { exact units2_distinct. } { exact labels2_distinct. } { intros x [<-|[]]. right. now left. } { rewrite labels2. intros x [<-|[<-|[]]]; [right; right; now left|now left]. } { discriminate. } { discriminate. }
  destruct (give_outcomes env2 G _ _ _ _ _ _ _ _ _ _ AP) as [out GO].
  pose proof (given2_leaves G ts1 m1 AP) as [-> ->]. exists out.
  assert (LM : length (mw_models world2) = 1) by (vm_compute; reflexivity).
  assert (LC : length (w_conts (mw_ex world2)) = 1) by (vm_compute; reflexivity).
  assert (M2 : model env2 world2 0 = model2) by reflexivity.
  intros call l w.
  assert (ST : mstep env2 world2 call = set_model env2 world2 [after2] 0 given_model2) by (unfold call; cbn [mstep]; rewrite TB, M2, GO; reflexivity).
  assert (W : w = mstep env2 (mstep env2 world2 call) (MNew env2)) by (unfold w, l, mrun; rewrite fold_left_app; reflexivity).
  split; [lia|]. split; [|split; [|split; [|split]]].
  - unfold l. apply gave_table; [apply well_given2| |].
    + cbv zeta. rewrite TB, M2, GO. exact AP.
    + apply gave_other; [exact I|constructor].
  - pose proof history2_orderly as OH. revert OH. generalize (new_mworld env2). generalize history2. induction l0 as [|o l0 IH]; intros w0 OH; [split; [exact I|split; [exact I|exact I]]|].
    destruct OH as [O1 O2]. split; [exact O1|apply IH, O2].
  - rewrite W, ST. reflexivity.
  - rewrite W, ST. unfold model, set_model. cbn [mstep mw_models]. destruct (mw_models world2) as [|a [|]]; try discriminate LM. reflexivity.
  - assert (MC : mcont env2 w 0 = mcont env2 world2 0). { rewrite W, ST. unfold mcont, set_model, cont. cbn [mstep mw_ex cstep w_conts]. rewrite app_nth1 by lia. reflexivity. }
    assert (MH : mheap env2 w = mheap env2 world2) by (rewrite W, ST; reflexivity).
    rewrite MC, MH. unfold given_run2. rewrite W, ST. unfold model, set_model. cbn [mstep mw_models mw_tabs]. destruct (mw_models world2) as [|a [|]]; try discriminate LM. reflexivity.
Qed.
Print Assumptions C89_in_histories_met.
