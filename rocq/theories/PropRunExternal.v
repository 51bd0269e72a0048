(** C89: a run adds the expressions to the utilities that are there already, in particular to the tables given by
    [add_partial_utilities]. *)
From Verif Require Import Prelude Arith CoreModel TreeModel DictProofs ParModel ExprModel SpecExpr ExprProofs ExprUses ExprMeaning ExprContainer ExprWorld ScopeModel SpecScope ScopeProofs ModelModel ModelProofs SpecModel KernelProofs EvalProofs ModelExample PropState ModelWorld ModelHist ModelTabs RunProofs PropUtility PropExpr SpecTree TreeProofs TreeMore TreeHist RunOut SpecEnd EndProofs PropEnd PropExternal SpecExternal.
Local Open Scope string_scope.
Local Open Scope nat_scope.
Local Open Scope list_scope.

Section Whole.
  Context {L : Type} {F : arith} {D N : Type} (E : env L F D (val N)) (O : ops L N) (as_num : val N -> option (num F)).
  Notation num := (num F).
  Notation FR := (ev_frames E).
  Notation cm := (cm E).
  Notation mop := (mop E).
  Notation start := (new_mworld E).
  Notation tables := (list (list (list num))).
  Context (NC : numexpr_computes E O as_num) (FL : frame_laws E) (NUL : ev_num E (ev_nan E) = VNull).

  (** the general form: the state of the model may have been changed in ways that are not in the history *)
  Lemma run_from (ops : list mop) i group clear ts (m : cm) ts' m' t simple xs d cols nl :
    let w := mrun E start ops in
    table_ok E ts m -> tidy E m simple xs ->
    run_utilities E (mheap E w) (mcont E w i) ts m group clear = (ts', m', Ok t) ->
    selection (mheap E w) (mcont E w i) group = Ok (simple, xs) -> (forall x, In x xs -> meant E simple x) ->
    m_du m = Some d -> choices (m_tree m) = Ok cols -> depth (m_tree m) = Ok nl ->
    rectangle (length d) (length cols) t /\
    forall r c l v, r < length d -> nth_error cols c = Some l ->
      texts_total E O as_num (m_scope m) nl cols r c l (map (@e_raw L) xs) (tcell (start_table E ts m (length d) (length cols)) r c) = Some v -> tcell t r c = v.
  Proof.
    intros w TO TD R S MT DU CH DP. pose proof (computes_local E O as_num NC) as NL.
    destruct (run_total E NL _ _ _ _ _ _ _ _ _ TO R simple xs S TD) as (d' & cols' & nl' & Q1 & Q2 & Q3 & R0 & RC & RD & T).
    rewrite Q1 in DU. rewrite Q2 in CH. rewrite Q3 in DP. injection DU as ->. injection CH as ->. injection DP as ->.
    split; auto. intros r c l v Hr Hc TT.
    pose proof (run_ok E _ _ _ _ _ _ _ _ _ R) as (si & xs' & m1 & u & V & S' & EV & _). rewrite S in S'. injection S' as <- <-.
    destruct (evaluate_ok E _ _ _ _ _ _ _ TO EV) as (d' & cols' & nl' & sh & _ & _ & _ & _ & SH & _).
    assert (SI : forall y, In y simple -> reserved y = false -> exists s d0, dget String.eqb (m_scope m) y = Some s /\ filled FR s = true /\ get_simple FR s = Ok d0).
    { intros y I RY. destruct (run_filled E NL _ _ _ _ _ _ V S y I RY) as (s & G & FS). pose proof (shared_get E _ _ _ _ SH y) as SG. rewrite base_get in SG.
      assert (Q : y <> "NAN" /\ y <> "OUT" /\ y <> "NEG_INF") by (rewrite <- not_true_iff_false, reserved_cases in RY; tauto).
      destruct Q as (K1 & K2 & K3). apply String.eqb_neq in K1, K2, K3. rewrite K1, K2, K3 in SG. assert (I' := I). apply mem_in in I'. rewrite I' in SG.
      destruct SG as (s' & d0 & T1 & T2 & _). assert (s' = s) by congruence. subst. eauto. }
    assert (RG : reg (ev_fn E) (ev_parse E) (mw_ex w)) by (apply mreg_run, reg_new).
    destruct (symbols_simple E _ _ _ _ _ S) as (names & SY & _). destruct (selected_registered E w i group simple xs names RG S SY) as [_ S2].
    assert (AL : aligned E (length d) (length cols) (m_scope m)) by (eapply td_aligned; eauto).
    set (rho := fun x acc => cell_meaning E (m_scope m) nl cols x acc r c).
    assert (M : forall x acc, In x xs -> meaning E (m_scope m) nl cols simple x acc r c (rho x acc)).
    { intros x acc I. apply meaning_exists. eapply td_apart; eauto. }
    assert (Hc' : c < length cols) by (apply nth_error_Some; congruence).
    pose proof (T r c l Hr Hc rho M) as TT'.
    assert (TC : total (applies nl l) (fun x a => ev_ne E (e_trans x) (rho x a)) xs (tcell (start_table E ts m (length d) (length cols)) r c) = Some v).
    { eapply texts_total_computed; eauto. intros x I. destruct (S2 x I) as (P & INC & _). split; [exact P|]. split; [now apply RD|]. split; [exact INC|now apply MT]. }
    congruence.
  Qed.

  (** After every orderly history: with cached utilities, the run starts from them *)
  Theorem C89_run_adds_to_the_cached (ops : list mop) i group clear ts' m' t simple xs d cols nl u0 :
    let w := mrun E start ops in let m := model E w i in
    orderly_history E start ops -> m_utils m = Some u0 ->
    run_utilities E (mheap E w) (mcont E w i) (mw_tabs w) m group clear = (ts', m', Ok t) ->
    selection (mheap E w) (mcont E w i) group = Ok (simple, xs) -> (forall x, In x xs -> meant E simple x) ->
    m_du m = Some d -> choices (m_tree m) = Ok cols -> depth (m_tree m) = Ok nl ->
    rectangle (length d) (length cols) t /\
    forall r c l v, r < length d -> nth_error cols c = Some l ->
      texts_total E O as_num (m_scope m) nl cols r c l (map (@e_raw L) xs) (tcell (nth (u_ref u0) (mw_tabs w) []) r c) = Some v -> tcell t r c = v.
  Proof.
    intros w m OH MU R S MT DU CH DP. pose proof (computes_local E O as_num NC) as NL.
    assert (PN : forall x, In x xs -> plain_names simple x) by (intros x I; apply MT, I).
    pose proof (tidy_reachable E FL ops i group simple xs OH S PN) as TD. fold w m in TD. pose proof (table_ok_reachable E NL ops i) as TO. fold w m in TO.
    destruct (run_from ops i group clear _ m ts' m' t simple xs d cols nl TO TD R S MT DU CH DP) as [RC T]. split; auto. intros r c l v Hr Hc H. apply (T r c l v Hr Hc).
    unfold start_table. now rewrite MU.
  Qed.

  (** ** Tables given by [add_partial_utilities] *)
  Context (G : generator F).
  (** successful calls, one after the other; in each the threads are scheduled in any way *)
  Inductive given_to (m : cm) : tables -> list (given (F:=F) (D:=D)) -> tables -> cm -> Prop :=
  | given_none ts : given_to m ts [] ts m
  | given_more ts g gs rr rc ts1 m1 ts2 m2 : well_given g -> add_partial E G ts m (gv_rows g) (gv_cols g) (gv_cells g) rr rc ts1 m1 (Ok tt) ->
      given_to m1 ts1 gs ts2 m2 -> given_to m ts (g :: gs) ts2 m2.

  Lemma one_given ts (m : cm) g rr rc ts1 m1 d ch : table_ok E ts m -> m_du m = Some d -> choices (m_tree m) = Ok ch -> NoDup d -> NoDup (map (ev_label E) ch) ->
    (forall u, m_utils m = Some u -> length (u_index u) = length d /\ length (u_cols u) = length ch) ->
    well_given g -> add_partial E G ts m (gv_rows g) (gv_cols g) (gv_cells g) rr rc ts1 m1 (Ok tt) ->
    table_ok E ts1 m1 /\ m_tree m1 = m_tree m /\ m_scope m1 = m_scope m /\ m_du m1 = m_du m /\
    (exists u, m_utils m1 = Some u /\ length (u_index u) = length d /\ length (u_cols u) = length ch) /\
    forall p q r c v, nth_error d p = Some r -> nth_error (map (ev_label E) ch) q = Some c -> says g r c v ->
      tcell (start_table E ts1 m1 (length d) (length ch)) p q =
      match v with Some x => nadd F (tcell (start_table E ts m (length d) (length ch)) p q) x | None => tcell (start_table E ts m (length d) (length ch)) p q end.
  Proof.
    intros TO DU CH ND NC' SH (W1 & W2 & W3) AP. pose proof (fl_eq E FL) as EQ.
    destruct (C58_added_by_label E EQ G ts m d ch _ _ _ rr rc ts1 m1 TO DU CH W1 W2 W3 AP) as (I1 & I2 & T1 & T2 & T3 & u & U1 & U2 & R1 & A1 & A2 & A3). cbv zeta in *.
    assert (LB : length (partials E ts m d ch) = length d /\ length (u_cols u) = length ch /\ length (u_index u) = length d).
    { unfold partials. destruct U2 as [U2|[U2 ->]]; rewrite U2.
      - destruct (SH u U2) as [S1 S2]. destruct (TO u U2) as [_ [R2 _]]. rewrite R2. auto.
      - cbn. split; [exact (proj1 (zeros_rect E _ _))|auto]. }
    destruct LB as (LB & LC & LI). rewrite LB, LC in *.
    split. { intros u' U'. rewrite U1 in U'. injection U' as <-. rewrite LI, LC. split; [|exact R1].
      inversion AP as [|ts0 m0 u0 ix n task r0 mem' e PR PF]; subst. apply (prepare_parts E EQ G) in PR. destruct PR as (d0 & ch0 & V1 & V2 & _ & _ & PU & _). rewrite upd_length.
      assert (d0 = d) by (unfold units in V1; rewrite DU in V1; now injection V1). assert (ch0 = ch) by congruence. subst.
      destruct (partial_parts E EQ G ts m ts0 m1 u0 d ch PU V1 CH TO) as (P1 & _ & _ & P4 & _). rewrite U1 in P1. injection P1 as ->. exact P4. }
    split; auto. split; auto. split; auto. split; [exists u; auto|].
    intros p q r c v P Q SV.
    assert (LP : p < length d) by (apply nth_error_Some; congruence). assert (LQ : q < length ch) by (rewrite <- (map_length (ev_label E)); apply nth_error_Some; congruence).
    assert (ST : forall ts m, start_table E ts m (length d) (length ch) = partials E ts m d ch) by reflexivity. rewrite !ST.
    assert (ST1 : partials E ts1 m1 d ch = nth (u_ref u) ts1 []) by (unfold partials; now rewrite U1). rewrite ST1.
    destruct SV as [(i & j & J1 & J2 & ->)|[NO ->]].
    - destruct (A1 i j r c p q J1 J2 P Q) as (_ & _ & A). exact A.
    - apply A2; auto. intros (r' & c' & X1 & X2 & X3 & X4). rewrite P in X1. rewrite Q in X3. injection X1 as <-. injection X3 as <-. tauto.
  Qed.
  Lemma several_given d ch : NoDup d -> NoDup (map (ev_label E) ch) -> forall gs ts (m : cm) ts1 m1, given_to m ts gs ts1 m1 -> table_ok E ts m -> m_du m = Some d -> choices (m_tree m) = Ok ch ->
    (forall u, m_utils m = Some u -> length (u_index u) = length d /\ length (u_cols u) = length ch) ->
    table_ok E ts1 m1 /\ m_tree m1 = m_tree m /\ m_scope m1 = m_scope m /\ m_du m1 = m_du m /\
    forall p q r c z, nth_error d p = Some r -> nth_error (map (ev_label E) ch) q = Some c ->
      given_total r c gs (tcell (start_table E ts m (length d) (length ch)) p q) z -> tcell (start_table E ts1 m1 (length d) (length ch)) p q = z.
  Proof.
    intros ND NC'. induction gs as [|g gs IH]; intros ts m ts1 m1 H TO DU CH SH.
    - inversion H; subst. do 4 (split; [now auto|]). intros p q r c z _ _ T. now inversion T.
    - inversion H as [|ts0 g0 gs0 rr rc ts2 m2 ts3 m3 W AP H1]; subst.
      destruct (one_given ts m g rr rc ts2 m2 d ch TO DU CH ND NC' SH W AP) as (B1 & B2 & B3 & B4 & (u & U1 & U2) & B5).
      destruct (IH ts2 m2 ts1 m1 H1 B1) as (C1 & C2 & C3 & C4 & C5); [congruence|congruence| |].
      { intros u' U'. rewrite U1 in U'. injection U' as <-. exact U2. }
      split; auto. split; [congruence|]. split; [congruence|]. split; [congruence|]. intros p q r c z P Q T. inversion T as [|g0 gs0 v acc z0 SV TT]; subst.
      apply (C5 p q r c z P Q). rewrite (B5 p q r c v P Q SV). exact TT.
  Qed.

  (** Tables given to a model without cached utilities, then a run: every utility is what the tables say about the
      decision unit and the choice, in the order of the calls, plus the texts that apply. *)
  Theorem C89_given_tables_then_run (ops : list mop) i group clear gs ts1 m1 ts' m' t simple xs d cols nl :
    let w := mrun E start ops in let m := model E w i in
    orderly_history E start ops -> m_utils m = None ->
    m_du m = Some d -> choices (m_tree m) = Ok cols -> depth (m_tree m) = Ok nl -> NoDup d -> NoDup (map (ev_label E) cols) ->
    given_to m (mw_tabs w) gs ts1 m1 ->
    run_utilities E (mheap E w) (mcont E w i) ts1 m1 group clear = (ts', m', Ok t) ->
    selection (mheap E w) (mcont E w i) group = Ok (simple, xs) -> (forall x, In x xs -> meant E simple x) ->
    rectangle (length d) (length cols) t /\
    forall r c l z v du, nth_error d r = Some du -> nth_error cols c = Some l ->
      given_total du (ev_label E l) gs (nzero F) z ->
      texts_total E O as_num (m_scope m) nl cols r c l (map (@e_raw L) xs) z = Some v -> tcell t r c = v.
  Proof.
    intros w m OH MU DU CH DP ND NDL GT R S MT. pose proof (computes_local E O as_num NC) as NL.
    assert (PN : forall x, In x xs -> plain_names simple x) by (intros x I; apply MT, I).
    pose proof (tidy_reachable E FL ops i group simple xs OH S PN) as TD. fold w m in TD. pose proof (table_ok_reachable E NL ops i) as TO. fold w m in TO.
    destruct (several_given d cols ND NDL gs (mw_tabs w) m ts1 m1 GT TO DU CH) as (C1 & C2 & C3 & C4 & C5); [intros u U; congruence|].
    assert (TD1 : tidy E m1 simple xs) by (destruct TD as [A B C]; constructor; rewrite ?C2, ?C3, ?C4; auto).
    destruct (run_from ops i group clear ts1 m1 ts' m' t simple xs d cols nl C1 TD1 R S MT) as [RC T]; try congruence. split; auto.
    intros r c l z v du Hd Hc TZ TV. apply (T r c l v); auto; [apply nth_error_Some; congruence|]. rewrite C3.
    assert (Hq : nth_error (map (ev_label E) cols) c = Some (ev_label E l)) by (rewrite nth_error_map, Hc; reflexivity).
    assert (Z0 : tcell (start_table E (mw_tabs w) m (length d) (length cols)) r c = nzero F) by (unfold start_table; rewrite MU; apply (zeros_cell E)).
    rewrite (C5 r c du (ev_label E l) z Hd Hq); auto. now rewrite Z0.
  Qed.
End Whole.
Print Assumptions C89_run_adds_to_the_cached.
Print Assumptions C89_given_tables_then_run.

(** ** The hypotheses: the history of EndExample.v and one table, for one of the units and two of the choices *)
From Coq Require Import ZArith.
From Flocq Require Import Core.Core IEEE754.BinarySingleNaN.
From Verif Require Import EndExample.
Definition given2 : given (F:=F1) (D:=string) := @Given F1 string ["u2"] ["N.B"; "A.."] [[flz 7; flz 3]].
Definition after2 : list (list float64) := [[flz 0; flz 0; flz 0; flz 0]; [nadd F1 (flz 0) (flz 3); flz 0; nadd F1 (flz 0) (flz 7); flz 0]].
Lemma well_given2 : well_given given2.
Proof. split; [repeat constructor; cbn; intuition|]. split; [repeat constructor; cbn; intuition discriminate|]. split; [reflexivity|]. repeat constructor. Qed.
Lemma model2_parts : m_du model2 = Some ["u1"; "u2"] /\ choices (m_tree model2) = Ok cols2 /\ depth (m_tree model2) = Ok 2 /\ m_utils model2 = None /\ mw_tabs world2 = [] /\ validate_tree (m_tree model2) = Ok tt.
Proof. repeat split; vm_compute; reflexivity. Qed.
Lemma labels2 : map (ev_label env2) cols2 = ["A.."; "N.."; "N.B"; "N.C"].
Proof. reflexivity. Qed.
Lemma labels2_distinct : NoDup (map (ev_label env2) cols2).
Proof. rewrite labels2. repeat constructor; cbn; intuition discriminate. Qed.
Lemma units2_distinct : NoDup ["u1"; "u2"].
Proof. repeat constructor; cbn; intuition discriminate. Qed.
Definition given_model2 : cm env2 := snd (fst (partial_utilities env2 [] model2)).
(** what the call leaves, however its threads are scheduled *)
Lemma given2_leaves (G : generator F1) ts1 m1 : add_partial env2 G [] model2 (gv_rows given2) (gv_cols given2) (gv_cells given2) true true ts1 m1 (Ok tt) ->
  ts1 = [after2] /\ m1 = given_model2.
Proof.
  intros AP. destruct model2_parts as (DU & CH & DP & MU & TB & VT). destruct well_given2 as (W1 & W2 & W3).
  assert (TO : table_ok env2 [] model2) by (intros u; rewrite MU; discriminate).
  pose proof (C58_added_by_label env2 (fun a b => String.eqb_eq a b) G [] model2 _ _ _ _ _ true true ts1 m1 TO DU CH W1 W2 W3 AP) as (_ & _ & _ & _ & _ & u & U1 & U2 & R & A1 & A2 & _).
  destruct U2 as [U2|[_ U2]]; [congruence|]. subst u. cbv zeta in *. unfold partials in *. rewrite MU in *. cbn [u_cols u_ref length] in *. rewrite labels2 in *.
  inversion AP as [|ts0 m0 u0 ix n task r0 mem' e PR PF]; subst. apply (prepare_parts env2 (fun a b => String.eqb_eq a b) G) in PR. destruct PR as (d0 & ch0 & V1 & V2 & _ & _ & PU & _).
  unfold given_model2. rewrite PU. split; [|reflexivity].
  assert (Q0 : u0 = UTab 0 ["u1"; "u2"] cols2 /\ length ts0 = 1).
  { unfold partial_utilities in PU. unfold units in PU. rewrite VT, DU, CH, MU in PU. injection PU as <- _ <-. auto. }
  destruct Q0 as [-> L0]. cbn [u_ref u_cols] in *. destruct ts0 as [|T0 [|]]; try discriminate L0. cbn [upd] in *. f_equal.
  set (T := table_of _ _ _) in *. clearbody T. cbn [nth] in *. change (length (zeros 2 4)) with 2 in *. change (length cols2) with 4 in *.
  destruct R as [R1 R2]. destruct T as [|ra [|rb [|]]]; try discriminate R1. inversion R2 as [|? ? X1 R3]; subst. inversion R3 as [|? ? X2 _]; subst.
  destruct ra as [|a0 [|a1 [|a2 [|a3 [|]]]]]; try discriminate X1. destruct rb as [|b0 [|b1 [|b2 [|b3 [|]]]]]; try discriminate X2.
  destruct (A1 0 1 "u2" "A.." 1 0 eq_refl eq_refl eq_refl eq_refl) as (_ & _ & Y0). destruct (A1 0 0 "u2" "N.B" 1 2 eq_refl eq_refl eq_refl eq_refl) as (_ & _ & Y2).
  assert (Z : forall p q, p < 2 -> q < 4 -> (p = 0 \/ q = 1 \/ q = 3) -> tcell [[a0; a1; a2; a3]; [b0; b1; b2; b3]] p q = tcell (zeros (F:=F1) 2 4) p q).
  { intros p q Hp Hq C. apply A2; auto. intros (r & c & P1 & P2 & P3 & P4). cbn in P2. destruct P2 as [<-|[]].
    destruct p as [|[|]]; [discriminate P1| |lia]. destruct C as [C|[->| ->]]; [lia| |]; cbn in P3; injection P3 as <-; cbn in P4; intuition discriminate. }
  unfold after2. pose proof (Z 0 0) as Z00. pose proof (Z 0 1) as Z01. pose proof (Z 0 2) as Z02. pose proof (Z 0 3) as Z03. pose proof (Z 1 1) as Z11. pose proof (Z 1 3) as Z13. unfold tcell in *. cbn [nth] in *.
  rewrite Z00, Z01, Z02, Z03, Z11, Z13, Y0, Y2 by lia. reflexivity.
Qed.
Definition given_run2 := run_utilities env2 (mheap env2 world2) (mcont env2 world2 0) [after2] given_model2 None true.
Lemma given_run2_ok : match snd given_run2 with Ok _ => true | Err _ => false end = true.
Proof. vm_compute. reflexivity. Qed.
Lemma says2 : says given2 "u2" "A.." (Some (flz 3)) /\ says given2 "u2" "N.." None /\ says given2 "u1" "A.." None.
Proof.
  split; [left; exists 0, 1; auto|]. split; right; (split; [|reflexivity]); intros [I1 I2]; cbn in *; intuition discriminate.
Qed.
(** the theorem applies: unit u2, choice A: 3 from the table and 16 from the texts *)
Example C89_hypotheses (G : generator F1) : exists ts1 m1 ts' m' t,
  given_to env2 G model2 (mw_tabs world2) [given2] ts1 m1 /\ run_utilities env2 (mheap env2 world2) (mcont env2 world2 0) ts1 m1 None true = (ts', m', Ok t) /\
  B2SF (tcell t 1 0) = B2SF (flz 19) /\ B2SF (tcell t 1 1) = B2SF (flz 19) /\ B2SF (tcell t 0 0) = B2SF (flz 9).
Proof.
  destruct model2_parts as (DU & CH & DP & MU & TB & VT).
  destruct (C58_known_labels_accepted env2 (fun a b => String.eqb_eq a b) G [] model2 ["u1"; "u2"] cols2 (gv_rows given2) (gv_cols given2) (gv_cells given2) true true VT DU CH) as [(ts1 & m1 & AP) _]; auto.
  { intros u U. congruence. } { exact units2_distinct. } { exact labels2_distinct. } { intros x [<-|[]]. right. now left. } { rewrite labels2. intros x [<-|[<-|[]]]; [right; right; now left|now left]. } { discriminate. } { discriminate. }
  pose proof (given2_leaves G ts1 m1 AP) as [-> ->].
  assert (GT : given_to env2 G model2 (mw_tabs world2) [given2] [after2] given_model2) by (rewrite TB; econstructor; [apply well_given2|exact AP|constructor]).
  pose proof given_run2_ok as OK. unfold given_run2 in OK. destruct (run_utilities env2 (mheap env2 world2) (mcont env2 world2 0) [after2] given_model2 None true) as [[ts' m'] [t|]] eqn:R; [|discriminate OK].
  exists [after2], given_model2, ts', m', t. split; [exact GT|]. split; [exact R|].
  destruct selection2_ok as [S1 S2].
  pose proof (C89_given_tables_then_run env2 O1 back1 env2_computes env2_laws env2_null G history2 0 None true [given2] [after2] given_model2 ts' m' t simple2 xs2 ["u1"; "u2"] cols2 2) as C. named C.
  destruct (C history2_orderly MU DU CH DP units2_distinct labels2_distinct GT R S1 all_meant) as [_ V].
  destruct says2 as (Y1 & Y2 & Y3).
  assert (T : forall r c l (z v : float64), option_map B2SF (texts_total env2 O1 back1 (m_scope model2) 2 cols2 r c l texts2 z) = Some (B2SF v) ->
                texts_total env2 O1 back1 (m_scope model2) 2 cols2 r c l (map (@e_raw nat) xs2) z = Some v).
  { intros r c l z v H. pose proof (same1 _ _ H) as H1. exact (eq_ind_r (fun xs => texts_total env2 O1 back1 (m_scope model2) 2 cols2 r c l xs z = Some v) H1 S2). }
  split; [|split]; apply (f_equal (B2SF (prec:=53) (emax:=1024))).
  - eapply (V 1 0 (Tup ["A"; "."])); [reflexivity|reflexivity|econstructor; [exact Y1|constructor]|]. apply T. vm_compute. reflexivity.
  - eapply (V 1 1 (Tup ["N"; "."])); [reflexivity|reflexivity|econstructor; [exact Y2|constructor]|]. apply T. vm_compute. reflexivity.
  - eapply (V 0 0 (Tup ["A"; "."])); [reflexivity|reflexivity|econstructor; [exact Y3|constructor]|]. apply T. vm_compute. reflexivity.
Qed.
Print Assumptions C89_hypotheses.
