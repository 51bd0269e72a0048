(** When does the evaluation of a list of expressions succeed, and with what table: a characterisation
    without the local dictionaries.  Then the same for whole runs. *)
From Verif Require Import Prelude Arith CoreModel TreeModel DictProofs ParModel ExprModel SpecExpr ExprWorld ScopeModel SpecScope ScopeProofs ModelModel ModelProofs SpecModel KernelProofs EvalProofs PropState ModelWorld ModelHist ModelTabs.
Local Open Scope string_scope.
Local Open Scope nat_scope.
Local Open Scope list_scope.

Section Ready.
  Context {L : Type} {F : arith} {D cell : Type} (E : env L F D cell).
  Notation num := (num F).
  Notation FR := (ev_frames E).
  Notation symbol := (symbol (num:=num) FR).
  Notation data := (data (cell:=cell) (num:=num)).
  Notation table := (list (list num)).
  Notation locals := (dict string data).
  Notation expression := (@expression L).
  Notation dget := (dget String.eqb).

  (** what an expression needs before any number is computed *)
  Record ready (scope : dict string symbol) (nl : nat) (cols : list label) (simple : list string) (x : expression) : Prop := Ready {
    rd_column : exists col, column_mask nl cols (e_filter x) = Ok col;
    rd_literals : forall sub lit, In (sub, lit) (e_dl x) -> exists arr, expand_literal (nzero F) (ev_f32 E) nl (map label_parts cols) lit = Ok arr;
    rd_chains : forall name us, In (name, us) (e_chains x) -> exists s, dget scope name = Some s /\ forall sub ct, In (sub, ct) us -> exists d, get_chain FR s ct = Ok d;
    rd_names : forall y, In y (free_names (e_trans x)) -> reserved y = true \/ In y simple \/ In y (substitutions x)
  }.

  Lemma shared_total scope : forall names acc,
    (forall y, In y names -> reserved y = false -> exists s d, dget scope y = Some s /\ get_simple FR s = Ok d) ->
    (forall y, reserved y = true -> dmem String.eqb acc y = true) ->
    exists sh, shared_locals E scope names acc = Ok sh.
  Proof.
    induction names as [|y names IH]; intros acc H R; cbn; [eauto|]. destruct (dmem String.eqb acc y) eqn:M; [apply IH; auto; intros; apply H; simpl; auto|].
    destruct (reserved y) eqn:RY; [rewrite (R y RY) in M; discriminate|]. destruct (H y (or_introl eq_refl) RY) as (s & d & -> & ->). cbn. apply IH; [intros; apply H; simpl; auto|].
    intros z RZ. unfold dmem. rewrite dget_dset_s. destruct (String.eqb z y); auto. apply R, RZ.
  Qed.
  Lemma base_reserved y : reserved y = true -> dmem String.eqb (base_locals E) y = true.
  Proof. rewrite reserved_cases. intros [->|[->| ->]]; reflexivity. Qed.

  Lemma literal_total nl cols : forall dls acc, (forall sub lit, In (sub, lit) dls -> exists arr, expand_literal (nzero F) (ev_f32 E) nl (map label_parts cols) lit = Ok arr) ->
    exists l, literal_locals E nl cols dls acc = Ok l.
  Proof. induction dls as [|[s lit] t IH]; intros acc H; cbn; [eauto|]. destruct (H s lit (or_introl eq_refl)) as [arr ->]. cbn. apply IH. intros; eapply H; right; eauto. Qed.
  Lemma usage_total s : forall us acc, (forall sub ct, In (sub, ct) us -> exists d, get_chain FR s ct = Ok d) -> exists l, usage_locals E s us acc = Ok l.
  Proof. induction us as [|[sub ct] t IH]; intros acc H; cbn; [eauto|]. destruct (H sub ct (or_introl eq_refl)) as [d ->]. cbn. apply IH. intros; eapply H; right; eauto. Qed.
  Lemma chain_total scope : forall chains acc, (forall name us, In (name, us) chains -> exists s, dget scope name = Some s /\ forall sub ct, In (sub, ct) us -> exists d, get_chain FR s ct = Ok d) ->
    exists l, chain_locals E scope chains acc = Ok l.
  Proof.
    induction chains as [|[name us] t IH]; intros acc H; cbn; [eauto|]. destruct (H name us (or_introl eq_refl)) as (s & -> & U).
    destruct (usage_total s us acc U) as [l ->]. cbn. apply IH. intros; eapply H; right; eauto.
  Qed.
  Lemma locals_total scope nl cols simple sh u k x : ready scope nl cols simple x -> exists l, locals_for E scope nl cols sh u k x = Ok l.
  Proof.
    intros [_ RL RC _]. unfold locals_for. destruct (literal_total nl cols (e_dl x) (dset String.eqb sh "OUT" (DArr (length u) k (map (map (ev_num E)) u))) RL) as [l ->].
    cbn. now apply chain_total.
  Qed.

  Context (NL : numexpr_local E).
  Context (scope : dict string symbol) (nl : nat) (cols : list label) (simple : list string).
  Context (ND : NoDup (map label_parts cols)).
  Context (FI : forall name s, In name simple -> reserved name = false -> dget scope name = Some s -> filled FR s = true).
  Notation k := (length cols).
  Set Default Proof Using "Type*".

  (** the names of an expression that is ready are in its local dictionary *)
  Lemma names_known sh u x l y : shared_locals E scope simple (base_locals E) = Ok sh -> locals_for E scope nl cols sh u k x = Ok l -> names_apart simple x ->
    reserved y = true \/ In y simple \/ In y (substitutions x) <-> exists d, dget l y = Some d.
  Proof.
    intros SH LF NA. pose proof (locals_get E scope nl cols simple sh u x l SH LF NA) as LG.
    assert (RES : forall z, reserved z = true -> exists d, dget l z = Some d).
    { intros z R. apply reserved_cases in R. destruct R as [->|[->| ->]]; eexists; apply LG; constructor. }
    split.
    - intros [R|[I|I]]; [now apply RES| |].
      + destruct (reserved y) eqn:R; [now apply RES|]. pose proof (shared_get E scope simple (base_locals E) sh SH y) as SG. rewrite base_get in SG.
        rewrite <- not_true_iff_false, reserved_cases in R. destruct (String.eqb_spec y "NAN"); [tauto|]. destruct (String.eqb_spec y "OUT"); [tauto|]. destruct (String.eqb_spec y "NEG_INF"); [tauto|].
        apply mem_in in I as M. rewrite M in SG. destruct SG as (s & d & A & B & _). exists d. apply LG. eapply lo_simple; eauto. apply not_true_iff_false. rewrite reserved_cases. tauto.
      + pose proof LF as LF'. unfold locals_for in LF'. apply rbind_ok in LF'. destruct LF' as (l1 & LL & CL). destruct NA as [N1 N2 N3]. unfold substitutions in *.
        fold (chain_subs (e_chains x)) in *. pose proof (nodup_app_inv _ _ N1) as (A1 & A2 & A3). apply in_app_or in I. destruct I as [I|I].
        * apply chain_get in CL; auto. destruct CL as [CL _]. apply in_chain_subs in I. destruct I as (name & us & ct & I & J). destruct (CL name us I) as (s & G & U). destruct (U y ct J) as (d & _ & GD). eauto.
        * apply literal_get in LL; auto. destruct LL as [LL _]. apply in_keys_ex in I. destruct I as [lit I]. destruct (LL y lit I) as (arr & EX & _).
          exists (DArr 1 (length arr) [map (ev_num E) arr]). apply LG. eapply lo_literal; eauto.
    - intros [d G]. apply LG in G. destruct G as [| | |name s d I R G GS|sub lit arr I EX|name us sub ct s d I J G GC]; try (left; reflexivity).
      + auto.
      + right. right. unfold substitutions. apply in_or_app. right. eapply in_keys; eauto.
      + right. right. unfold substitutions. apply in_or_app. left. apply in_concat. exists (dkeys us). split; [apply in_map_iff; exists (name, us); auto|eapply in_keys; eauto].
  Qed.

  Lemma eval_one_ready sh u x u' : shared_locals E scope simple (base_locals E) = Ok sh -> names_apart simple x -> rectangle (length u) k u ->
    eval_one E scope nl cols sh k u x = Ok u' -> ready scope nl cols simple x.
  Proof.
    intros SH NA RU EV. unfold eval_one in EV. apply rbind_ok in EV. destruct EV as (col & CM & EV). apply rbind_ok in EV. destruct EV as (lc & LF & EV).
    destruct (kernel_cell E NL _ _ _ _ _ _ EV RU) as (_ & KN & _). pose proof NA as [N1 N2 N3]. unfold substitutions in N1. fold (chain_subs (e_chains x)) in N1.
    pose proof (nodup_app_inv _ _ N1) as (A1 & A2 & A3). pose proof LF as LF'. unfold locals_for in LF'. apply rbind_ok in LF'. destruct LF' as (l1 & LL & CL). constructor.
    - eauto.
    - apply literal_get in LL; auto. destruct LL as [LL _]. intros sub lit I. destruct (LL sub lit I) as (arr & EX & _). eauto.
    - apply chain_get in CL; auto. destruct CL as [CL _]. intros name us I. destruct (CL name us I) as (s & G & U). exists s. split; auto. intros sub ct J. destruct (U sub ct J) as (d & GC & _). eauto.
    - intros y I. apply (names_known sh u x lc y SH LF NA). apply KN. right. exact I.
  Qed.

  Lemma eval_one_total sh u x : aligned E (length u) k scope -> shared_locals E scope simple (base_locals E) = Ok sh -> names_apart simple x -> rectangle (length u) k u ->
    ready scope nl cols simple x ->
    (forall r c l, r < length u -> nth_error cols c = Some l -> applies nl l x = true ->
       exists rho v, meaning E scope nl cols simple x (tcell u r c) r c rho /\ ev_ne E (e_trans x) rho = Some v) ->
    exists u', eval_one E scope nl cols sh k u x = Ok u'.
  Proof.
    intros AL SH NA RU RD V. destruct (locals_total scope nl cols simple sh u k x RD) as [lc LF]. pose proof RD as [(col & CM) _ _ RN].
    destruct (column_mask_spec nl cols x col ND CM) as [CB CA]. unfold eval_one. rewrite CM. cbn [rbind]. rewrite LF. cbn [rbind].
    pose proof (locals_get E scope nl cols simple sh u x lc SH LF NA) as LG. apply kernel_total; auto.
    - intros y [<-|I]; apply (names_known sh u x lc _ SH LF NA); [left; reflexivity|now apply RN].
    - intros y d I. eapply local_fits; eauto. apply (LG y d). apply (in_dget String.eqb String.eqb_eq); auto. eapply locals_keys; eauto. eapply shared_keys; eauto.
      repeat constructor; cbn; intuition discriminate.
    - intros r c Hr Hc IC. destruct (nth_error cols c) as [l|] eqn:NC; [|apply nth_error_None in NC; lia]. rewrite (CA c l NC) in IC.
      destruct (V r c l Hr NC IC) as (rho & v & M & EV). exists v. rewrite <- EV. apply NL. intros y I.
      destruct (proj1 (names_known sh u x lc y SH LF NA) (RN y I)) as [d G]. unfold cell_env. rewrite G. eapply local_meaning; eauto. now apply LG.
  Qed.

  (** Evaluation succeeds exactly when every expression is ready and every sum is defined. *)
  Lemma eval_all_ready sh : forall xs u t, shared_locals E scope simple (base_locals E) = Ok sh -> (forall x, In x xs -> names_apart simple x) -> rectangle (length u) k u ->
    eval_all E scope nl cols sh k u xs = (t, Ok tt) -> forall x, In x xs -> ready scope nl cols simple x.
  Proof.
    induction xs as [|x0 xs IH]; intros u t SH NA RU EV x I; [destruct I|]. cbn [eval_all] in EV.
    destruct (eval_one E scope nl cols sh k u x0) as [u'|e] eqn:E1; [|discriminate]. destruct I as [<-|I].
    - eapply eval_one_ready; eauto. apply NA; simpl; auto.
    - pose proof E1 as E2. unfold eval_one in E2. apply rbind_ok in E2. destruct E2 as (col & _ & E2). apply rbind_ok in E2. destruct E2 as (lc & _ & E2).
      destruct (kernel_cell E NL _ _ _ _ _ _ E2 RU) as (R' & _). assert (LU : length u' = length u) by apply R'. rewrite <- LU in R'. apply (IH u' t SH); auto. intros; apply NA; simpl; auto.
  Qed.
  Lemma eval_all_exists sh : forall xs u, aligned E (length u) k scope -> shared_locals E scope simple (base_locals E) = Ok sh -> (forall x, In x xs -> names_apart simple x) ->
    rectangle (length u) k u -> (forall x, In x xs -> ready scope nl cols simple x) ->
    (forall r c l, r < length u -> nth_error cols c = Some l -> exists rho,
       (forall x acc, In x xs -> meaning E scope nl cols simple x acc r c (rho x acc)) /\
       total (applies nl l) (fun x acc => ev_ne E (e_trans x) (rho x acc)) xs (tcell u r c) <> None) ->
    exists t, eval_all E scope nl cols sh k u xs = (t, Ok tt).
  Proof.
    induction xs as [|x xs IH]; intros u AL SH NA RU RD TT; cbn [eval_all]; [eauto|].
    destruct (eval_one_total sh u x AL SH (NA x (or_introl eq_refl)) RU (RD x (or_introl eq_refl))) as [u' E1].
    { intros r c l Hr Hc AP. destruct (TT r c l Hr Hc) as (rho & M & T). exists (rho x (tcell u r c)). cbn [total] in T. rewrite AP in T.
      destruct (ev_ne E (e_trans x) (rho x (tcell u r c))) as [v|] eqn:EV; [|congruence]. exists v. split; auto. apply M; simpl; auto. }
    rewrite E1. destruct (eval_one_cell E NL scope nl cols simple ND FI sh u x u' AL SH E1 (NA x (or_introl eq_refl)) RU) as [R1 C1].
    assert (LU : length u' = length u) by apply R1. rewrite <- LU in R1. apply IH; auto; try (intros; first [apply NA|apply RD]; simpl; auto; fail).
    - now rewrite LU.
    - rewrite LU. intros r c l Hr Hc. destruct (TT r c l Hr Hc) as (rho & M & T). exists rho. split; [intros; apply M; simpl; auto|]. cbn [total] in T.
      specialize (C1 r c l Hr Hc). destruct (applies nl l x).
      + destruct (C1 (rho x (tcell u r c))) as (v & V & T'); [apply M; simpl; auto|]. rewrite V in T. now rewrite T'.
      + now rewrite C1.
  Qed.
End Ready.

(** ** Runs *)
Section Runs.
  Context {L : Type} {F : arith} {D cell : Type} (E : env L F D cell).
  Notation num := (num F).
  Notation FR := (ev_frames E).
  Notation symbol := (symbol (num:=num) FR).
  Notation table := (list (list num)).
  Notation tables := (list (list (list num))).
  Notation expression := (@expression L).
  Notation container := (@container L).
  Notation exprs := (list (@subgroup L)).
  Notation cm := (cm E).

  (** the table a run starts from: the cached one, or zeros *)
  Definition start_table (ts : tables) (m : cm) (n k : nat) : table := match m_utils m with Some u => nth (u_ref u) ts [] | None => zeros n k end.
  Definition has_nan (t : table) : bool := existsb (existsb is_nan) t.

  Lemma nth_repeat_lt {A} (x d : A) : forall n i, i < n -> nth i (repeat x n) d = x.
  Proof. induction n as [|n IH]; intros [|i] H; cbn; auto; try lia. apply IH. lia. Qed.
  Lemma zeros_rect n k : rectangle n k (zeros (F:=F) n k). Proof. apply rect_repeat. Qed.
  Lemma zeros_cell n k r c : tcell (zeros (F:=F) n k) r c = nzero F.
  Proof.
    unfold tcell, zeros. destruct (lt_dec r n); [rewrite nth_repeat_lt by auto|rewrite (nth_overflow (repeat _ n)) by (rewrite repeat_length; lia); destruct c; reflexivity].
    destruct (lt_dec c k); [now rewrite nth_repeat_lt|rewrite nth_overflow; auto; rewrite repeat_length; lia].
  Qed.

  Lemma symbols_simple (h : exprs) (c : container) group simple xs : selection h c group = Ok (simple, xs) -> exists names, symbols_to_check h c group = Ok names /\ incl simple names.
  Proof.
    unfold selection, symbols_to_check. destruct group as [g|]; [destruct (get_group h c g) as [s|]; [|discriminate]; cbn|]; intros H; injection H as <- <-; eexists; split; try reflexivity; apply incl_appl, incl_refl.
  Qed.
  Lemma validate_ok h c (m : cm) group : validate E h c m group = Ok tt -> validate_tree (m_tree m) = Ok tt /\ (exists d, m_du m = Some d) /\
    exists names, symbols_to_check h c group = Ok names /\ forall y, In y names -> reserved y = false -> exists s, dget String.eqb (m_scope m) y = Some s /\ filled FR s = true.
  Proof.
    unfold validate, validate_gen. intros V. apply rbind_ok in V. destruct V as ([] & V1 & V). apply rbind_ok in V. destruct V as (u0 & V2 & V). cbn [andb negb] in V.
    apply rbind_ok in V. destruct V as (names & SY & V). split; auto. split.
    - unfold units in V2. destruct (m_du m); [eauto|discriminate].
    - exists names. split; auto. intros y I R. pose proof (proj1 (check_symbols_ok E _ _ _) V y I) as CK. unfold check_symbol in CK. rewrite R in CK.
      destruct (dget String.eqb (m_scope m) y) as [s|]; [|discriminate]. exists s. split; auto. destruct (filled FR s); auto; discriminate.
  Qed.
  Lemma validate_iff h c (m : cm) group names : symbols_to_check h c group = Ok names -> validate_tree (m_tree m) = Ok tt -> (exists d, m_du m = Some d) ->
    (forall y, In y names -> reserved y = false -> exists s, dget String.eqb (m_scope m) y = Some s /\ filled FR s = true) -> validate E h c m group = Ok tt.
  Proof.
    intros SY V (d & DU) H. unfold validate, validate_gen. rewrite V. cbn [rbind]. unfold units. rewrite DU. cbn [rmap rbind andb negb]. rewrite SY. cbn [rbind].
    apply (proj2 (check_symbols_ok E _ _ _)). intros y I. unfold check_symbol. destruct (reserved y) eqn:R; auto. destruct (H y I R) as (s & -> & ->). reflexivity.
  Qed.

  (** what the evaluation of utilities gives, when it succeeds *)
  Lemma evaluate_ok ts (m : cm) simple xs ts' m' u : table_ok E ts m -> evaluate E ts m simple xs = (ts', m', Ok u) ->
    exists d cols nl sh, m_du m = Some d /\ choices (m_tree m) = Ok cols /\ depth (m_tree m) = Ok nl /\
      (forall v, m_utils m = Some v -> length (u_cols v) = length cols) /\
      shared_locals E (m_scope m) simple (base_locals E) = Ok sh /\
      eval_all E (m_scope m) nl cols sh (length cols) (start_table ts m (length d) (length cols)) xs = (nth (u_ref u) ts' [], Ok tt) /\
      has_nan (nth (u_ref u) ts' []) = false /\ length (nth (u_ref u) ts' []) = length d /\ u_index u = d /\ u_cols u = cols /\
      exists v, m_utils m' = Some v /\ u_ref v = u_ref u /\ (m_utils m = Some v \/ m_utils m = None /\ v = UTab (length ts) d cols).
  Proof.
    intros TO. unfold evaluate. destruct (m_du m) as [d|] eqn:DU; [|discriminate]. destruct (choices (m_tree m)) as [cols|] eqn:CH; [|discriminate].
    destruct (depth (m_tree m)) as [nl|] eqn:DP; [|discriminate].
    destruct (partial_utilities E ts m) as [[ts1 m1] [v|e]] eqn:PU; [|discriminate]. apply partial_touch in PU. destruct PU as (_ & _ & _ & _ & MU & PU).
    destruct (shared_locals E (m_scope m) simple (base_locals E)) as [sh|] eqn:SH; [|discriminate].
    destruct (eval_all E (m_scope m) nl cols sh (length (u_cols v)) (deref_tab ts1 (u_ref v)) xs) as [t r] eqn:EV.
    intros H. injection H as <- <- H. apply rbind_ok in H. destruct H as ([] & -> & H). destruct (existsb (existsb is_nan) t) eqn:NN; [discriminate|].
    apply rbind_ok in H. destruct H as ([] & G & H). injection H as <-. apply guard_ok in G. apply andb_true_iff in G. destruct G as [G1 G2]. apply Nat.eqb_eq in G1, G2.
    cbn [u_ref u_index u_cols].
    assert (ST : u_ref v < length ts1 /\ deref_tab ts1 (u_ref v) = start_table ts m (length d) (length cols) /\ (m_utils m = Some v \/ m_utils m = None /\ v = UTab (length ts) d cols)).
    { unfold start_table, deref_tab. destruct PU as [[P ->]|(P & d0 & c0 & Q1 & Q2 & -> & ->)]; rewrite P.
      - destruct (TO v P) as [LT _]. auto.
      - assert (d0 = d) by congruence. assert (c0 = cols) by congruence. subst d0 c0. cbn. rewrite app_length, app_nth2, Nat.sub_diag by lia. cbn. split; [lia|auto]. }
    destruct ST as (LT & ST & OW). rewrite nth_upd_eq by auto. exists d, cols, nl, sh. rewrite <- ST. rewrite G2 in EV.
    repeat split; auto.
    - intros v' Q. destruct OW as [OW|[OW _]]; congruence.
    - exists v. auto.
  Qed.
  (** and when it succeeds *)
  Lemma evaluate_exists ts (m : cm) simple xs d cols nl sh t : table_ok E ts m ->
    validate_tree (m_tree m) = Ok tt -> m_du m = Some d -> choices (m_tree m) = Ok cols -> depth (m_tree m) = Ok nl ->
    (forall v, m_utils m = Some v -> length (u_cols v) = length cols) ->
    shared_locals E (m_scope m) simple (base_locals E) = Ok sh ->
    eval_all E (m_scope m) nl cols sh (length cols) (start_table ts m (length d) (length cols)) xs = (t, Ok tt) ->
    has_nan t = false -> length t = length d ->
    exists ts' m' u, evaluate E ts m simple xs = (ts', m', Ok u) /\ nth (u_ref u) ts' [] = t.
  Proof.
    intros TO V DU CH DP UC SH EV NN LT. unfold evaluate. rewrite DU, CH, DP. unfold partial_utilities. rewrite V. unfold units. rewrite DU, CH.
    unfold start_table in EV. destruct (m_utils m) as [v|] eqn:MU.
    - rewrite SH. pose proof (UC v eq_refl) as UL. unfold deref_tab. rewrite UL, EV. cbn [rbind]. unfold has_nan in NN. rewrite NN. rewrite LT, !Nat.eqb_refl. cbn [andb guard rbind].
      do 3 eexists. split; [reflexivity|]. cbn. apply nth_upd_eq. destruct (TO v MU) as [X _]. exact X.
    - rewrite SH. cbn [u_ref u_cols]. unfold deref_tab. rewrite app_nth2, Nat.sub_diag by lia. cbn [nth]. rewrite EV. cbn [rbind]. unfold has_nan in NN. rewrite NN. rewrite LT, !Nat.eqb_refl. cbn [andb guard rbind].
      do 3 eexists. split; [reflexivity|]. cbn. apply nth_upd_eq. rewrite app_length. cbn. lia.
  Qed.

  Lemma run_ok h c ts (m : cm) group clear ts' m' t : run_utilities E h c ts m group clear = (ts', m', Ok t) ->
    exists simple xs m1 u, validate E h c m group = Ok tt /\ selection h c group = Ok (simple, xs) /\ evaluate E ts m simple xs = (ts', m1, Ok u) /\
      m' = (if clear then clear_scope E m1 else m1) /\ t = nth (u_ref u) ts' [].
  Proof.
    unfold run_utilities. destruct (validate E h c m group) as [[]|]; [|discriminate]. destruct (selection h c group) as [[simple xs]|]; [|discriminate].
    destruct (evaluate E ts m simple xs) as [[ts1 m1] [u|e]] eqn:EV; [|discriminate]. intros H. injection H as <- <- <-. exists simple, xs, m1, u. auto.
  Qed.
  Lemma run_exists h c ts (m : cm) group clear simple xs ts1 m1 u : validate E h c m group = Ok tt -> selection h c group = Ok (simple, xs) -> evaluate E ts m simple xs = (ts1, m1, Ok u) ->
    run_utilities E h c ts m group clear = (ts1, if clear then clear_scope E m1 else m1, Ok (nth (u_ref u) ts1 [])).
  Proof. intros V S EV. unfold run_utilities. now rewrite V, S, EV. Qed.

  Context (NL : numexpr_local E).
  Set Default Proof Using "Type*".

  (** the conditions of the theorems on a model and the expressions of a run *)
  Record tidy (m : cm) (simple : list string) (xs : list expression) : Prop := Tidy {
    td_labels : forall cols, choices (m_tree m) = Ok cols -> NoDup (map label_parts cols);
    td_aligned : forall d cols, m_du m = Some d -> choices (m_tree m) = Ok cols -> aligned E (length d) (length cols) (m_scope m);
    td_apart : forall x, In x xs -> names_apart simple x
  }.

  Lemma start_rect ts (m : cm) d (cols : list label) : table_ok E ts m -> m_du m = Some d -> (forall v, m_utils m = Some v -> length (u_cols v) = length cols) ->
    rectangle (length (start_table ts m (length d) (length cols))) (length cols) (start_table ts m (length d) (length cols)).
  Proof.
    intros TO DU UC. unfold start_table. destruct (m_utils m) as [v|] eqn:MU.
    - destruct (TO v MU) as [_ R]. pose proof R as [R1 R2]. rewrite (UC v eq_refl) in R2. split; auto.
    - pose proof (zeros_rect (length d) (length cols)) as [Z1 Z2]. split; auto.
  Qed.

  Lemma evaluate_total ts (m : cm) simple xs ts' m' u : table_ok E ts m -> tidy m simple xs ->
    (forall y s, In y simple -> reserved y = false -> dget String.eqb (m_scope m) y = Some s -> filled FR s = true) ->
    evaluate E ts m simple xs = (ts', m', Ok u) ->
    exists d cols nl, m_du m = Some d /\ choices (m_tree m) = Ok cols /\ depth (m_tree m) = Ok nl /\
      let t0 := start_table ts m (length d) (length cols) in let t := nth (u_ref u) ts' [] in
      rectangle (length d) (length cols) t0 /\ rectangle (length d) (length cols) t /\
      (forall x, In x xs -> ready E (m_scope m) nl cols simple x) /\
      forall r c l, r < length d -> nth_error cols c = Some l -> forall rho,
        (forall x acc, In x xs -> meaning E (m_scope m) nl cols simple x acc r c (rho x acc)) ->
        total (applies nl l) (fun x acc => ev_ne E (e_trans x) (rho x acc)) xs (tcell t0 r c) = Some (tcell t r c).
  Proof.
    intros TO [TL TA TN] FI EV. apply evaluate_ok in EV; auto. destruct EV as (d & cols & nl & sh & DU & CH & DP & UC & SH & EV & NN & LT & _).
    exists d, cols, nl. split; auto. split; auto. split; auto. cbv zeta.
    pose proof (start_rect ts m d cols TO DU UC) as R0. pose proof R0 as RS.
    assert (LEN : length (start_table ts m (length d) (length cols)) = length d).
    { apply eval_all_rect in EV; auto. destruct EV as [EV _]. congruence. }
    pose proof (eval_all_total E NL (m_scope m) nl cols simple (TL cols CH) FI sh xs (start_table ts m (length d) (length cols)) (nth (u_ref u) ts' [])) as T. rewrite LEN in T. rewrite LEN in R0.
    specialize (T (TA d cols DU CH) SH EV TN R0). destruct T as [R1 T].
    split; auto. split; auto. split; auto.
    exact (eval_all_ready E NL (m_scope m) nl cols simple (TL cols CH) FI sh xs _ _ SH TN RS EV).
  Qed.
  Lemma run_filled h c (m : cm) group simple xs : validate E h c m group = Ok tt -> selection h c group = Ok (simple, xs) ->
    forall y, In y simple -> reserved y = false -> exists s, dget String.eqb (m_scope m) y = Some s /\ filled FR s = true.
  Proof.
    intros V S y I R. apply validate_ok in V. destruct V as (_ & _ & names & SY & V). apply symbols_simple in S. destruct S as (names' & SY' & INC).
    assert (names' = names) by congruence. subst. apply V; auto.
  Qed.

  Lemma run_total h c ts (m : cm) group clear ts' m' t : table_ok E ts m -> run_utilities E h c ts m group clear = (ts', m', Ok t) ->
    forall simple xs, selection h c group = Ok (simple, xs) -> tidy m simple xs ->
    exists d cols nl, m_du m = Some d /\ choices (m_tree m) = Ok cols /\ depth (m_tree m) = Ok nl /\
      let t0 := start_table ts m (length d) (length cols) in
      rectangle (length d) (length cols) t0 /\ rectangle (length d) (length cols) t /\
      (forall x, In x xs -> ready E (m_scope m) nl cols simple x) /\
      forall r c l, r < length d -> nth_error cols c = Some l -> forall rho,
        (forall x acc, In x xs -> meaning E (m_scope m) nl cols simple x acc r c (rho x acc)) ->
        total (applies nl l) (fun x acc => ev_ne E (e_trans x) (rho x acc)) xs (tcell t0 r c) = Some (tcell t r c).
  Proof.
    intros TO R simple xs S TD. apply run_ok in R. destruct R as (si & xs' & m1 & u & V & S' & EV & _ & ->). rewrite S in S'. injection S' as <- <-.
    apply evaluate_total in EV; auto. intros y s I RY G. destruct (run_filled h c m group simple xs V S y I RY) as (s' & G' & FS). congruence.
  Qed.
End Runs.
