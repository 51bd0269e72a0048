(** Properties C40, C43, C44, C51, C59 of ChoiceModel. *)
From Coq Require Import Ascii.
From Flocq Require Import IEEE754.BinarySingleNaN.
From Verif Require Import Prelude Arith CoreModel TreeModel DictProofs ParModel ExprModel SpecExpr ScopeModel SpecScope ScopeProofs ModelModel ModelProofs SpecModel KernelProofs EvalProofs ModelExample.
Local Open Scope string_scope.
Local Open Scope nat_scope.
Local Open Scope list_scope.

Section State.
  Context {L : Type} {F : arith} {D cell : Type} (E : env L F D cell).
  Notation num := (num F).
  Notation FR := (ev_frames E).
  Notation symbol := (symbol (num:=num) FR).
  Notation expression := (@expression L).
  Notation cm := (cm E).
  Notation mworld := (mworld E).
  Notation mop := (mop E).

  (** * C43 *)

  (** In every state reached by any history of calls on any number of models, no symbol has a reserved name. *)
  Theorem C43_no_reserved_symbol (ops : list mop) i name :
    In name (dkeys (m_scope (model E (mrun E (new_mworld E) ops) i))) -> name <> "NAN" /\ name <> "OUT" /\ name <> "NEG_INF".
  Proof.
    intros I. assert (C : clean E (model E (mrun E (new_mworld E) ops) i)) by (apply clean_model, run_clean; constructor).
    apply C in I. rewrite <- not_true_iff_false, reserved_cases in I. tauto.
  Qed.
  (** Declaring one raises and changes nothing; any other name is accepted. *)
  Theorem C43_declare (m : cm) name d s : new_symbol E d = Ok s ->
    if mem name ["NAN"; "OUT"; "NEG_INF"] then declare E m name d = (m, Err SyntaxErr)
    else exists m', declare E m name d = (m', Ok tt) /\ dget String.eqb (m_scope m') name = Some s /\
           (forall other, other <> name -> dget String.eqb (m_scope m') other = dget String.eqb (m_scope m) other) /\
           m_tree m' = m_tree m /\ m_du m' = m_du m /\ m_utils m' = m_utils m.
  Proof.
    intros NS. unfold declare. fold (reserved name). destruct (reserved name); auto. rewrite NS. eexists. split; [reflexivity|]. cbn.
    split; [rewrite dget_dset_s; now rewrite String.eqb_refl|]. split; auto. intros o N. rewrite dget_dset_s.
    destruct (String.eqb_spec o name); congruence.
  Qed.

  (** * C44 *)

  (** a symbol of the scope after new decision units: the same symbol, emptied unless it is a number *)
  Theorem C44_units_empty_symbols (m : cm) d name :
    match dget String.eqb (m_scope m) name, dget String.eqb (m_scope (set_units E m d)) name with
    | None, None => True
    | Some (SNumber v), Some s => s = SNumber v
    | Some _, Some s => filled FR s = false
    | _, _ => False
    end /\ units E (set_units E m d) = Ok d.
  Proof.
    split; [|reflexivity]. cbn [set_units m_scope]. generalize (m_scope m) as sc. induction sc as [|[n s] sc IH]; cbn; auto.
    destruct (String.eqb name n); auto. destruct s; reflexivity.
  Qed.

  (** ... and stays empty, whatever is called on this and on other models, until it is assigned (or
      declared anew and then assigned).  A run whose expressions use it does not start. *)
  Definition assigns (i : nat) (name : string) (o : mop) : Prop := exists v, o = MAssign E i name v.
  Definition number (s : symbol) : Prop := exists v, s = SNumber v.
  Definition unassigned (name : string) (m : cm) : Prop :=
    forall s, In (name, s) (m_scope m) -> number s \/ filled FR s = false.

  Lemma new_symbol_unfilled d s : new_symbol E d = Ok s -> filled FR s = false.
  Proof.
    unfold new_symbol. destruct d as [|o|o ma al|o rc rr f]; [intros H; injection H as <-; reflexivity|..];
      intros H; apply rbind_ok in H; destruct H as (b & _ & H); injection H as <-; reflexivity.
  Qed.
  Lemma unassigned_step w o i name : i < length (mw_models w) -> ~ assigns i name o ->
    unassigned name (model E w i) -> unassigned name (model E (mstep E w o) i).
  Proof.
    intros LT NA UN. rewrite step_model by auto. unfold target_of. destruct (opt_target E o) as [j|] eqn:TG; [|exact UN].
    destruct (Nat.eqb_spec j i) as [->|NE]; [|exact UN]. intros s I.
    destruct o as [|k o|k d|k nm d|k nm v|k|k text g|k|k g|k g cl sc ck|k n cl|k g dr cl|k f|k mi mask|k en|k gr gc gt gb gd gm]; cbn in TG; try discriminate; injection TG as ->; cbn [step_result] in I.
    - destruct o; apply UN, I.
    - cbn [set_units m_scope] in I. apply in_map_iff in I. destruct I as ((n0 & s0) & Q & I). injection Q as -> <-. cbn.
      destruct s0; cbn; auto. left. eexists; reflexivity.
    - unfold declare in I. destruct (reserved nm); [now apply UN|]. destruct (new_symbol E d) as [s0|] eqn:NS; [|now apply UN]. cbn in I.
      apply in_dset_s in I. destruct I as [[-> ->]|I]; [right; eapply new_symbol_unfilled; eauto|now apply UN].
    - unfold assign_symbol in I. destruct (dget String.eqb _ nm); [|now apply UN]. destruct (assign _ _ _ _ _ _); [|now apply UN]. cbn in I.
      apply in_dset_s in I. destruct I as [[-> ->]|I]; [exfalso; apply NA; eexists; reflexivity|now apply UN].
    - destruct I.
    - destruct (run_stochastic E (mheap E w) (mcont E w i) (mw_tabs w) (model E w i) g cl sc ck) as [[ts m] r] eqn:R.
      apply stochastic_touch in R. destruct R as (_ & _ & [R|R]); cbn in I; rewrite R in I; [now apply UN|destruct I].
    - destruct (run_discrete_utilities E (mheap E w) (mcont E w i) (mw_tabs w) (model E w i) n cl) as [[ts m] r] eqn:R.
      apply discrete_touch in R. destruct R as (_ & _ & [R|R]); cbn in I; rewrite R in I; [now apply UN|destruct I].
    - destruct (preval E (mheap E w) (mcont E w i) (mw_tabs w) (model E w i) g dr cl) as [[[ts c] m] r] eqn:R.
      apply preval_in in R. cbn in I. apply UN, R, I.
    - unfold empty_symbol in I. destruct (dget String.eqb _ en) as [s0|] eqn:GS; [|now apply UN]. cbn in I. apply in_dset_s in I. destruct I as [[-> ->]|I]; [right; now destruct s0|now apply UN].
    - destruct (give E (mw_tabs w) (model E w i) gr gc gt gb gd gm) as [ts m] eqn:R. apply give_touch in R. destruct R as (_ & R & _). cbn in I. rewrite R in I. now apply UN.
  Qed.
  Theorem C44_stays_unassigned (ops after : list mop) i d name :
    let w := mrun E (new_mworld E) ops in
    i < length (mw_models w) -> (forall o, In o after -> ~ assigns i name o) ->
    let w' := mrun E (mstep E w (MUnits E i d)) after in
    unassigned name (model E w' i) /\
    forall group names, symbols_to_check (mheap E w') (mcont E w' i) group = Ok names -> In name names -> reserved name = false ->
       validate E (mheap E w') (mcont E w' i) (model E w' i) group = Ok tt ->
       exists x, dget String.eqb (m_scope (model E w' i)) name = Some (SNumber (Some x)).
  Proof.
    intros w LT NA w'.
    assert (UN : unassigned name (model E w' i)).
    { assert (G : forall after (w0 : mworld), (forall o, In o after -> ~ assigns i name o) -> i < length (mw_models w0) -> unassigned name (model E w0 i) -> unassigned name (model E (mrun E w0 after) i)).
      { clear. induction after as [|o t IH]; intros w0 NA LT UN; [exact UN|]. cbn. apply IH; [intros; apply NA; simpl; auto| |].
        - eapply Nat.lt_le_trans; [exact LT|]. apply step_models_grow.
        - apply unassigned_step; auto. apply NA; simpl; auto. }
      apply G; auto.
      - eapply Nat.lt_le_trans; [exact LT|]. apply step_models_grow.
      - rewrite step_model by auto. unfold target_of. cbn. rewrite Nat.eqb_refl.
        intros s I. cbn in I. apply in_map_iff in I. destruct I as ((n0 & s0) & Q & I). injection Q as -> <-.
        destruct s0; cbn; auto. left. eexists; reflexivity. }
    split; [exact UN|]. intros group names SY IN RE V. unfold validate, validate_gen in V.
    apply rbind_ok in V. destruct V as (_ & _ & V). apply rbind_ok in V. destruct V as (_ & _ & V). cbn [andb negb] in V.
    rewrite SY in V. cbn [rbind] in V. pose proof (proj1 (check_symbols_ok E _ _ _) V name IN) as CK. unfold check_symbol in CK. rewrite RE in CK.
    destruct (dget String.eqb (m_scope (model E w' i)) name) as [s|] eqn:G; [|discriminate].
    destruct (filled FR s) eqn:FS; [|discriminate]. apply (dget_in String.eqb String.eqb_eq) in G.
    destruct (UN s G) as [[v ->]|Q]; [|congruence]. destruct v as [x|]; [|discriminate]. exists x. reflexivity.
  Qed.
  (** * C40 *)

  Definition unfiltered (x : expression) : expression := Expression (e_raw x) (e_trans x) (e_chains x) (e_dl x) None (e_symbols x).

  (** Evaluating an expression with a filter changes one column, that of the choice spelled by the filter;
      there it does what the expression without the filter does. *)
  Theorem C40_only_the_column (NL : numexpr_local E) scope nl cols shared k u x f uf :
    NoDup (map label_parts cols) -> rectangle (length u) k u -> e_filter x = Some f ->
    eval_one E scope nl cols shared k u x = Ok uf ->
    rectangle (length u) k uf /\
    exists col l, nth_error cols col = Some l /\ col < k /\
      label_parts l = (if nl =? 1 then split_dot f else pad nl (split_dot f)) /\
      (forall r c, r < length u -> c < k -> c <> col -> tcell uf r c = tcell u r c) /\
      (forall uu, eval_one E scope nl cols shared k u (unfiltered x) = Ok uu ->
         forall r, r < length u -> tcell uf r col = tcell uu r col).
  Proof.
    intros ND RU EF EV. unfold eval_one in EV. apply rbind_ok in EV. destruct EV as (mask & CM & EV).
    apply rbind_ok in EV. destruct EV as (lc & LF & EV).
    destruct (column_mask_spec nl cols x mask ND CM) as [CB CA]. rewrite EF in CM. unfold column_mask in CM.
    apply rbind_ok in CM. destruct CM as (key & HK & CM). destruct (loc _ key) as [col|] eqn:LO; [|discriminate]. injection CM as <-.
    destruct (kernel_cell E NL _ _ _ _ _ _ EV RU) as (R' & KN & KB & KC). split; auto.
    assert (HL : col < length cols) by (apply CB; reflexivity). destruct (nth_error cols col) as [l|] eqn:NE; [|apply nth_error_None in NE; lia].
    exists col, l. split; auto. split; [apply KB; reflexivity|]. split; [|split].
    - specialize (CA col l NE). cbn [in_column] in CA. rewrite Nat.eqb_refl in CA. symmetry in CA. unfold applies in CA. rewrite EF in CA. now apply eq_strs_spec.
    - intros r c Hr Hc N. specialize (KC r c Hr Hc). cbn [in_column] in KC. apply Nat.eqb_neq in N. now rewrite N in KC.
    - intros uu EU r Hr. unfold eval_one, unfiltered in EU. cbn [e_filter e_trans column_mask rbind] in EU.
      change (locals_for E scope nl cols shared u k _) with (locals_for E scope nl cols shared u k x) in EU. rewrite LF in EU. cbn [rbind] in EU.
      destruct (kernel_cell E NL _ _ _ _ _ _ EU RU) as (_ & _ & _ & KU). specialize (KU r col Hr (KB _ eq_refl)). cbn [in_column] in KU.
      specialize (KC r col Hr (KB _ eq_refl)). cbn [in_column] in KC. rewrite Nat.eqb_refl in KC.
      destruct KC as (v & V1 & V2), KU as (v' & V1' & V2'). congruence.
  Qed.

  (** ... and it succeeds whenever the expression without the filter does and the filter spells a choice
      (the symbols being assigned and aligned with the table). *)
  Lemma shared_keys scope : forall names acc sh, shared_locals E scope names acc = Ok sh -> NoDup (dkeys acc) -> NoDup (dkeys sh).
  Proof.
    induction names as [|x names IH]; intros acc sh H N; cbn in H; [injection H as <-; auto|]. destruct (dmem String.eqb acc x); [eauto|].
    destruct (dget String.eqb scope x) as [s|]; [|discriminate]. apply rbind_ok in H. destruct H as (d & _ & H). apply IH in H; auto. now apply dset_keys_nodup; [apply String.eqb_eq|].
  Qed.
  Lemma locals_keys scope nl cols sh u k x l : NoDup (dkeys sh) -> locals_for E scope nl cols sh u k x = Ok l -> NoDup (dkeys l).
  Proof.
    intros N H. unfold locals_for in H. apply rbind_ok in H. destruct H as (l1 & LL & CL).
    assert (N0 : forall k v, NoDup (dkeys (dset String.eqb sh k v))) by (intros; now apply dset_keys_nodup; [apply String.eqb_eq|]).
    specialize (N0 "OUT" (DArr (length u) k (map (map (ev_num E)) u))). revert LL N0. generalize (dset String.eqb sh "OUT" (DArr (length u) k (map (map (ev_num E)) u))) as a0.
    intros a0 LL N0. assert (N1 : NoDup (dkeys l1)).
    { revert a0 l1 LL N0 CL. induction (e_dl x) as [|[s lit] t IH]; intros a0 l1 LL N0 CL; cbn in LL; [injection LL as <-; auto|].
      apply rbind_ok in LL. destruct LL as (arr & _ & LL). eapply IH; eauto. now apply dset_keys_nodup; [apply String.eqb_eq|]. }
    clear LL N0 a0 N. revert l1 l CL N1. induction (e_chains x) as [|[name us] t IH]; intros l1 l CL N1; cbn in CL; [injection CL as <-; auto|].
    destruct (dget String.eqb scope name) as [s|]; [|discriminate]. apply rbind_ok in CL. destruct CL as (l2 & UL & CL). eapply IH; eauto.
    clear CL IH. revert l1 l2 UL N1. induction us as [|[sub ct] us IH]; intros l1 l2 UL N1; cbn in UL; [injection UL as <-; auto|].
    apply rbind_ok in UL. destruct UL as (d & _ & UL). eapply IH; eauto. now apply dset_keys_nodup; [apply String.eqb_eq|].
  Qed.
  Lemma local_fits scope nl cols simple u x y d :
    aligned E (length u) (length cols) scope ->
    (forall name s, In name simple -> reserved name = false -> dget String.eqb scope name = Some s -> filled FR s = true) ->
    local_of E scope nl cols simple u x y d -> fits (length u) (length cols) d = Ok tt.
  Proof.
    intros AL FI H.
    assert (FV : forall o (v : list cell), length v = (if o : bool then length cols else length u) -> fits (length u) (length cols) (as_array (num:=num) o v) = Ok tt).
    { intros o v Q. unfold as_array, fits, guard. destruct o; rewrite Q, !Nat.eqb_refl, ?orb_true_r; reflexivity. }
    destruct H as [| | |name s d I R G GS|sub lit arr I EX|name us sub ct s d I J G GC]; try reflexivity.
    - unfold fits. rewrite !Nat.eqb_refl. reflexivity.
    - pose proof (in_aligned E _ _ _ _ _ AL G) as AS. specialize (FI name s I R G).
      destruct s as [[v|]|o [v|]|o ma al [t|]|o rc rr fi [[j m]|]]; cbn in GS, FI, AS; try discriminate; injection GS as <-; auto.
      + apply FV. destruct o; auto.
      + destruct AS as [-> [R1 _]]. unfold fits. rewrite R1, !Nat.eqb_refl. reflexivity.
    - apply expand_length in EX. rewrite map_length in EX. unfold fits. rewrite EX, !Nat.eqb_refl, orb_true_r. reflexivity.
    - pose proof (in_aligned E _ _ _ _ _ AL G) as AS. unfold get_chain in GC. destruct s as [v|o v|o ma al t|o rc rr fi m]; try discriminate.
      apply rbind_ok in GC. destruct GC as (v & GC & Q). injection Q as <-. apply FV.
      destruct t as [t|]; [|destruct (ch_chain ct) as [|a [|b p]]; discriminate]. destruct AS as [AS1 [AS2 AS3]].
      destruct (ch_chain ct) as [|a [|b p]]; [discriminate|rewrite (AS2 a v GC); auto|].
      apply rbind_ok in GC. destruct GC as (_ & _ & GC). rewrite (AS3 _ _ v GC). auto.
  Qed.
  Theorem C40_filter_succeeds (NL : numexpr_local E) scope nl cols simple shared u x f uu :
    aligned E (length u) (length cols) scope -> NoDup (map label_parts cols) -> rectangle (length u) (length cols) u ->
    (forall name s, In name simple -> reserved name = false -> dget String.eqb scope name = Some s -> filled FR s = true) ->
    shared_locals E scope simple (base_locals E) = Ok shared -> names_apart simple x -> e_filter x = Some f ->
    eval_one E scope nl cols shared (length cols) u (unfiltered x) = Ok uu ->
    length (split_dot f) <= nl -> (exists l, In l cols /\ applies nl l x = true) ->
    exists uf, eval_one E scope nl cols shared (length cols) u x = Ok uf.
  Proof.
    intros AL ND RU FI SH NA EF EU LE (l & IL & AP). unfold eval_one, unfiltered in EU. cbn [e_filter e_trans column_mask rbind] in EU.
    change (locals_for E scope nl cols shared u (length cols) _) with (locals_for E scope nl cols shared u (length cols) x) in EU.
    apply rbind_ok in EU. destruct EU as (lc & LF & EU). destruct (kernel_cell E NL _ _ _ _ _ _ EU RU) as (_ & KN & _ & KC).
    assert (MASK : exists col, column_mask nl cols (Some f) = Ok (Some col)).
    { unfold applies in AP. rewrite EF in AP. apply eq_strs_spec in AP. unfold column_mask.
      assert (LOC : forall key, label_parts l = key -> exists col, loc (map label_parts cols) key = Some col).
      { intros key Q. subst key. clear -IL. induction cols as [|a cols IH]; [destruct IL|]. cbn. destruct (eq_strs (label_parts a) (label_parts l)) eqn:Q; [eauto|].
        destruct IL as [->|IL]; [apply not_true_iff_false in Q; exfalso; apply Q, eq_strs_spec; reflexivity|]. destruct (IH IL) as [c ->]. eauto. }
      destruct (LOC _ AP) as [col LC]. exists col. destruct (nl =? 1) eqn:N1.
      - apply Nat.eqb_eq in N1. subst nl. assert (G : length (split_dot f) = 1).
        { assert (length (split_dot f) <> 0); [|lia]. clear. destruct f as [|c t]; [discriminate|]. cbn. destruct (Ascii.eqb c "."%char); [discriminate|]. destruct (split_dot t); discriminate. }
        rewrite G. cbn. now rewrite LC.
      - apply Nat.leb_le in LE. rewrite LE. cbn. now rewrite LC. }
    destruct MASK as [col MASK]. unfold eval_one. rewrite EF, MASK. cbn [rbind]. rewrite LF. cbn [rbind].
    assert (CB : col < length cols) by (eapply (column_mask_spec nl cols x); [exact ND|rewrite EF; exact MASK|reflexivity]).
    apply kernel_total; auto.
    - intros y d I. eapply local_fits; eauto. apply (locals_get E scope nl cols simple shared u x lc SH LF NA y d).
      apply (in_dget String.eqb String.eqb_eq); auto. eapply locals_keys; eauto. eapply shared_keys; eauto. repeat constructor; cbn; intuition discriminate.
    - intros c0 Q. injection Q as <-. auto.
    - intros r c Hr Hc _. specialize (KC r c Hr Hc). cbn [in_column] in KC. destruct KC as (v & V & _). eauto.
  Qed.

  (** * C51 *)

  (** After a run, if the utility table of the model has a NaN, the run has raised. *)
  Definition nan (x : num) : Prop := neqb F x x = false.
  Theorem C51_nan_raises h c ts m group clear ts' m' r u row x :
    run_utilities E h c ts m group clear = (ts', m', r) -> is_ok r = true ->
    m_utils m' = Some u -> In row (nth (u_ref u) ts' []) -> In x row -> ~ nan x.
  Proof.
    unfold run_utilities. destruct (validate E h c m group); [|intros H OK; injection H as <- <- <-; discriminate].
    destruct (selection h c group) as [[simple xs]|]; [|intros H OK; injection H as <- <- <-; discriminate].
    destruct (evaluate E ts m simple xs) as [[ts1 m1] [u1|e]] eqn:EV; [|intros H OK; injection H as <- <- <-; discriminate].
    intros H _ MU I1 I2 NX. injection H as <- <- <-.
    assert (MU' : m_utils m1 = Some u) by (destruct clear; exact MU). clear MU.
    unfold evaluate in EV. destruct (m_du m) as [d|]; [|discriminate]. destruct (choices (m_tree m)) as [cols|]; [|discriminate].
    destruct (depth (m_tree m)) as [nl|]; [|discriminate].
    destruct (partial_utilities E ts m) as [[ts2 m2] [u2|e]] eqn:PU; [|discriminate]. apply partial_touch in PU. destruct PU as (_ & _ & _ & _ & MU & _).
    destruct (shared_locals E (m_scope m) simple (base_locals E)) as [sh|]; [|discriminate].
    destruct (eval_all E (m_scope m) nl cols sh (length (u_cols u2)) (deref_tab ts2 (u_ref u2)) xs) as [t r].
    injection EV as <- <- EV. rewrite MU in MU'. injection MU' as <-. apply rbind_ok in EV. destruct EV as (_ & _ & EV).
    destruct (existsb (existsb (is_nan)) t) eqn:EX; [discriminate|].
    destruct (lt_dec (u_ref u2) (length ts2)) as [LT|GE]; [|rewrite nth_overflow in I1 by (rewrite upd_length; lia); destruct I1].
    rewrite nth_upd_eq in I1 by auto. apply not_true_iff_false in EX. apply EX. apply existsb_exists. exists row. split; auto.
    apply existsb_exists. exists x. split; auto. unfold is_nan. now rewrite NX.
  Qed.
  (** The table the probabilities are computed from has none. *)
  Theorem C51_probabilities_from_numbers h c ts m group clear scale check ts' m' p :
    run_stochastic E h c ts m group clear scale check = (ts', m', Ok p) ->
    exists t, run_utilities E h c ts m group clear = (ts', m', Ok t) /\
      (forall row x, In row t -> In x row -> ~ nan x) /\
      map_res (fun row => stochastic_row F (m_tree m') row scale check) t = Ok p.
  Proof.
    unfold run_stochastic. destruct (run_utilities E h c ts m group clear) as [[ts1 m1] [t|e]] eqn:R; [|discriminate].
    intros H. injection H as <- <- H. exists t. split; auto. split; auto. intros row x I1 I2.
    pose proof R as R0. unfold run_utilities in R. destruct (validate E h c m group); [|discriminate].
    destruct (selection h c group) as [[simple xs]|]; [|discriminate].
    destruct (evaluate E ts m simple xs) as [[ts2 m2] [u1|e]] eqn:EV; [|discriminate]. injection R as <- <- <-.
    assert (MU : exists u, m_utils m2 = Some u /\ u_ref u = u_ref u1).
    { unfold evaluate in EV. destruct (m_du m) as [d|]; [|discriminate]. destruct (choices (m_tree m)) as [cols|]; [|discriminate].
      destruct (depth (m_tree m)) as [nl|]; [|discriminate].
      destruct (partial_utilities E ts m) as [[ts3 m3] [u2|e]] eqn:PU; [|discriminate]. apply partial_touch in PU. destruct PU as (_ & _ & _ & _ & MU & _).
      destruct (shared_locals E (m_scope m) simple (base_locals E)) as [sh|]; [|discriminate].
      destruct (eval_all E (m_scope m) nl cols sh (length (u_cols u2)) (deref_tab ts3 (u_ref u2)) xs) as [t r].
      injection EV as <- <- EV. apply rbind_ok in EV. destruct EV as (_ & _ & EV). destruct (existsb _ t); [discriminate|].
      apply rbind_ok in EV. destruct EV as (_ & _ & EV). injection EV as <-. exists u2. auto. }
    destruct MU as (u & MU & RF). eapply (C51_nan_raises h c ts m group clear _ _ _ u row x R0); auto; [destruct clear; exact MU|].
    rewrite RF. exact I1.
  Qed.

  (** * C59 *)

  (** what an entry of the result stands for *)
  Definition stands_for (cols : list label) (as_index : bool) (z : Z) (e : entry) : Prop :=
    if as_index then e = Pos z else exists l, nth_error cols (Z.to_nat z) = Some l /\ e = Lab l.
  Theorem C59_positions_to_labels (m : cm) d cols raw n_draws as_index squeeze :
    units E m = Ok d -> choices (m_tree m) = Ok cols -> 1 <= n_draws -> rectangle (length d) n_draws raw ->
    (forall row z, In row raw -> In z row -> (0 <= z < Z.of_nat (length cols))%Z) ->
    if andb (n_draws =? 1) squeeze
    then exists values, convert_result E m raw n_draws as_index squeeze = Ok (RSeries d values) /\ length values = length d /\
           forall r z, at2 raw r 0 = Some z -> exists e, nth_error values r = Some e /\ stands_for cols as_index z e
    else exists columns, convert_result E m raw n_draws as_index squeeze = Ok (RFrame d n_draws columns) /\ rectangle n_draws (length d) columns /\
           forall r j z, at2 raw r j = Some z -> exists e, at2 columns j r = Some e /\ stands_for cols as_index z e.
  Proof.
    intros DU CH ND [RL RW] RG. rewrite Forall_forall in RW. unfold convert_result. rewrite DU. cbn [rbind].
    assert (COL : forall r j z, at2 raw r j = Some z -> nth_error (raw_column raw j) r = Some z).
    { intros r j z H. unfold at2 in H. destruct (nth_error raw r) as [row|] eqn:NR; [|discriminate]. unfold raw_column.
      rewrite nth_error_map, NR. cbn. f_equal. eapply nth_error_nth; eauto. }
    assert (CL : forall j, length (raw_column raw j) = length d) by (intros; unfold raw_column; rewrite map_length; auto).
    assert (JN : forall r j z, at2 raw r j = Some z -> j < n_draws).
    { intros r j z H. unfold at2 in H. destruct (nth_error raw r) as [row|] eqn:NR; [|discriminate].
      apply nth_error_In in NR. apply RW in NR. rewrite <- NR. apply nth_error_Some. congruence. }
    destruct as_index.
    - rewrite (andb_comm (n_draws =? 1)). destruct (andb squeeze (n_draws =? 1)).
      + eexists. split; [reflexivity|]. split; [now rewrite map_length|]. intros r z H. exists (Pos z). split; [|reflexivity]. rewrite nth_error_map, (COL _ _ _ H). reflexivity.
      + eexists. split; [reflexivity|]. split.
        * split; [now rewrite map_length, seq_length|]. apply Forall_forall. intros x I. apply in_map_iff in I. destruct I as (j & <- & _). now rewrite map_length.
        * intros r j z H. exists (Pos z). split; [|reflexivity]. unfold at2. rewrite nth_error_map, nth_error_seq0 by (eapply JN; eauto). cbn.
          rewrite nth_error_map, (COL _ _ _ H). reflexivity.
    - rewrite CH. cbn [rbind].
      assert (TK : forall z, (0 <= z < Z.of_nat (length cols))%Z -> exists l, nth_error cols (Z.to_nat z) = Some l /\ take_label cols z = Ok (Lab l)).
      { intros z Hz. unfold take_label. destruct (Z.ltb_spec z 0); [lia|]. destruct (Z.ltb_spec z 0); [lia|].
        destruct (nth_error cols (Z.to_nat z)) as [l|] eqn:Q; [eauto|]. apply nth_error_None in Q. lia. }
      assert (IN : forall j z, j < n_draws -> In z (raw_column raw j) -> (0 <= z < Z.of_nat (length cols))%Z).
      { intros j z Hj I. unfold raw_column in I. apply in_map_iff in I. destruct I as (row & <- & I). apply (RG row); auto. apply nth_In. now rewrite (RW row I). }
      destruct (map_res_total (fun j => map_res (take_label cols) (raw_column raw j)) (seq 0 n_draws)) as [l ML].
      { intros j Ij. apply in_seq in Ij. apply map_res_total. intros z I. destruct (TK z) as (lb & _ & Q); [apply (IN j); [lia|auto]|]. eauto. }
      rewrite ML. cbn [rbind]. apply map_res_ok in ML. destruct ML as [LL ML]. rewrite seq_length in LL.
      assert (ENT : forall r j z, at2 raw r j = Some z -> exists e, at2 l j r = Some e /\ stands_for cols false z e).
      { intros r j z H. pose proof (JN _ _ _ H) as Hj. destruct (ML j j) as (cl & MC & NC); [now apply nth_error_seq0|].
        apply map_res_ok in MC. destruct MC as [_ MC]. destruct (MC r z (COL _ _ _ H)) as (e & TE & NE). exists e. split; [unfold at2; now rewrite NC|].
        destruct (TK z) as (lb & NB & Q); [eapply IN; eauto; eapply nth_error_In; eauto|]. exists lb. split; auto. congruence. }
      assert (LJ : forall j cl, nth_error l j = Some cl -> length cl = length d).
      { intros j cl H. assert (Hj : j < n_draws) by (rewrite <- LL; apply nth_error_Some; congruence).
        destruct (ML j j) as (cl' & MC & NC); [now apply nth_error_seq0|]. rewrite NC in H. injection H as <-. apply map_res_ok in MC. destruct MC as [MC _]. now rewrite MC. }
      destruct l as [|c0 l]; [cbn in LL; lia|]. destruct (andb (n_draws =? 1) squeeze).
      + exists c0. split; auto. split; [now apply (LJ 0)|]. intros r z H. destruct (ENT r 0 z H) as (e & A & B). exists e. auto.
      + exists (c0 :: l). split; auto. split; auto. split; auto. apply Forall_forall. intros cl I. apply In_nth_error in I. destruct I as [j I]. eauto.
  Qed.
End State.
Print Assumptions C43_no_reserved_symbol.
Print Assumptions C43_declare.
Print Assumptions C44_units_empty_symbols.
Print Assumptions C44_stays_unassigned.
Print Assumptions C40_only_the_column.
Print Assumptions C40_filter_succeeds.
Print Assumptions C51_nan_raises.
Print Assumptions C51_probabilities_from_numbers.
Print Assumptions C59_positions_to_labels.

(** Concrete cases *)
Notation idE := (fenv (fun x => x) (fun x => x)).
Notation idW := (fworld (fun x => x) (fun x => x)).
Example C43_hypotheses_met : exists ops, dkeys (m_scope (model idE (mrun idE (new_mworld idE) ops) 0)) = ["x"] /\
  snd (declare idE (model idE (mrun idE (new_mworld idE) ops) 0) "OUT" DeclNumber) = Err SyntaxErr.
Proof. exists (two_choices (fun x => x) (fun x => x)). vm_compute. auto. Qed.
Example C44_hypotheses_met :
  option_map (filled _) (dget String.eqb (m_scope (model idE (idW []) 0)) "x") = Some true /\
  option_map (filled _) (dget String.eqb (m_scope (set_units idE (model idE (idW []) 0) ["h3"])) "x") = Some false /\
  let w := mrun idE (mstep idE (idW [MAppend idE 0 "x" None]) (MUnits idE 0 ["h3"])) [MAppend idE 0 "1" None] in
  symbols_to_check (mheap idE w) (mcont idE w 0) None = Ok ["x"] /\
  validate idE (mheap idE w) (mcont idE w 0) (model idE w 0) None = Err ModelNotReady.
Proof. vm_compute. auto. Qed.
Definition s_x : @expression nat := Expression "x @ B" (EName "x") [] [] (Some "B") ["x"].
Example C40_hypotheses_met :
  let sc := m_scope (model idE (idW []) 0) in let u := [[flz 1; flz 2]; [flz 0; flz 0]] in
  let run x := rmap exact_table (do sh <- shared_locals idE sc ["x"] (base_locals idE); eval_one idE sc 1 [Flat "A"; Flat "B"] sh 2 u x) in
  run s_x = Ok [[sfz 1; sfz 5]; [sfz 0; sfz 5]] /\ run (unfiltered s_x) = Ok [[sfz 4; sfz 5]; [sfz 5; sfz 5]].
Proof. vm_compute. auto. Qed.
Example C51_hypotheses_met :
  futilities _ _ (idW [MAppend idE 0 "x @ A" None]) None = Ok [[sfz 3; sfz 0]; [sfz 5; sfz 0]] /\
  futilities _ _ (idW [MAppend idE 0 "NAN" None]) None = Err UtilityBounds.
Proof. vm_compute. auto. Qed.
Example C59_hypotheses_met :
  let m := model idE (idW []) 0 in
  units idE m = Ok ["h1"; "h2"] /\ choices (m_tree m) = Ok [Flat "A"; Flat "B"] /\
  convert_result idE m [[1; 0]; [1; 1]]%Z 2 false true = Ok (RFrame ["h1"; "h2"] 2 [[Lab (Flat "B"); Lab (Flat "B")]; [Lab (Flat "A"); Lab (Flat "B")]]).
Proof. vm_compute. auto. Qed.
