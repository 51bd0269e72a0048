(** Properties C54 and C55: preval(). *)
From Coq Require Import Permutation Reals Lra.
From Verif Require Import Prelude Arith CoreModel TreeModel DictProofs ParModel ExprModel SpecExpr ExprWorld ScopeModel SpecScope ScopeProofs SpecTree ModelModel ModelProofs SpecModel KernelProofs EvalProofs ModelExample PropState ModelWorld ModelHist ModelTabs ExprSets ModelInv RunProofs EvalTransfer PropUtility PropRerun.
Local Open Scope string_scope.
Local Open Scope nat_scope.
Local Open Scope list_scope.

(** arithmetic in which the order of additions does not matter, and a sum with NaN is NaN *)
Record exact_sums (F : arith) : Prop := ExactSums {
  xs_assoc : forall a b c : num F, nadd F a (nadd F b c) = nadd F (nadd F a b) c;
  xs_comm : forall a b : num F, nadd F a b = nadd F b a;
  xs_nan : forall a b : num F, is_nan a = true -> is_nan (nadd F a b) = true
}.
(** extended real numbers are such *)
Lemma xr_exact_sums : exact_sums XR.
Proof.
  constructor.
  - intros [a| | |] [b| | |] [c| | |]; cbn; auto. now rewrite Rplus_assoc.
  - intros [a| | |] [b| | |]; cbn; auto. now rewrite Rplus_comm.
  - intros [a| | |] b; cbn; try discriminate; auto. unfold is_nan. cbn. now rewrite Reqb_refl.
Qed.

Lemma in_sdiff y a b : In y (sdiff a b) <-> In y a /\ ~ In y b.
Proof. unfold sdiff. rewrite filter_In. rewrite negb_true_iff, <- not_true_iff_false, mem_in. reflexivity. Qed.

Section Preval.
  Context {L : Type} {F : arith} {D cell : Type} (E : env L F D cell).
  Notation num := (num F).
  Notation FR := (ev_frames E).
  Notation symbol := (symbol (num:=num) FR).
  Notation expression := (@expression L).
  Notation container := (@container L).
  Notation exprs := (list (@subgroup L)).
  Notation cm := (cm E).
  Notation mop := (mop E).
  Notation start := (new_mworld E).
  Notation dget := (dget String.eqb).

  (** ** A group and the rest *)
  Lemma ddel_split : forall (d : dict string nat) g r, dget d g = Some r -> exists a b, d = a ++ (g, r) :: b /\ ddel String.eqb d g = a ++ b.
  Proof.
    induction d as [|[n q] d IH]; intros g r H; cbn in H; [discriminate|]. cbn. destruct (String.eqb_spec g n) as [->|NE].
    - injection H as ->. exists [], d. auto.
    - destruct (IH g r H) as (a & b & -> & ->). exists ((n, q) :: a), b. auto.
  Qed.
  Lemma group_split (h : exprs) (c : container) g s : get_group h c g = Ok s ->
    let c' := fst (drop_group c g) in
    Permutation (iter h c true) (sg_exprs s ++ iter h c' true) /\ incl (itersimple h c' true) (itersimple h c true) /\ incl (iterchained h c' true) (iterchained h c true) /\
    incl (sg_simple s) (itersimple h c true) /\ incl (sg_chained s) (iterchained h c true) /\ snd (drop_group c g) = Ok tt /\
    (forall y, In y (itersimple h c true) -> In y (sg_simple s) \/ In y (itersimple h c' true)).
  Proof.
    unfold get_group, drop_group, dmem. destruct (dget (c_subs c) g) as [r|] eqn:G; [|discriminate]. intros H. injection H as <-. cbn [fst snd].
    destruct (ddel_split _ _ _ G) as (a & b & SD & DD).
    assert (SO : subs_of h c = map (deref h) (dvals a) ++ deref h r :: map (deref h) (dvals b)) by (unfold subs_of, dvals; rewrite SD, !map_app; reflexivity).
    assert (SO' : subs_of h (Container (c_ungrouped c) (c_simple c) (c_chained c) (ddel String.eqb (c_subs c) g)) = map (deref h) (dvals a) ++ map (deref h) (dvals b))
      by (unfold subs_of, dvals; cbn [c_subs]; rewrite DD, !map_app; reflexivity).
    unfold iter, itersimple, iterchained. rewrite SO, SO'. cbn [c_ungrouped c_simple c_chained]. rewrite !map_app, !concat_app. cbn [map concat].
    split; [|split; [|split; [|split; [|split; [|split; [reflexivity|]]]]]].
    - set (U := c_ungrouped c). set (A := concat (map sg_exprs (map (deref h) (dvals a)))). set (B := concat (map sg_exprs (map (deref h) (dvals b)))). set (G0 := sg_exprs (deref h r)).
      replace (U ++ A ++ G0 ++ B) with ((U ++ A) ++ G0 ++ B) by (now rewrite <- app_assoc). replace (U ++ A ++ B) with ((U ++ A) ++ B) by (now rewrite <- app_assoc).
      apply Permutation_app_swap_app.
    - intros y. rewrite !in_app_iff. tauto.
    - intros y. rewrite !in_app_iff. tauto.
    - intros y. rewrite !in_app_iff. tauto.
    - intros y. rewrite !in_app_iff. tauto.
    - intros y. rewrite !in_app_iff. tauto.
  Qed.

  (** a successful preval *)
  Lemma preval_ok h c ts (m : cm) g dr cl ts1 c1 m1 : keyed E m -> preval E h c ts m g dr cl = (ts1, c1, m1, Ok tt) ->
    exists s m0 u, validate E h c m (Some g) = Ok tt /\ get_group h c g = Ok s /\ evaluate E ts m (sg_simple s) (sg_exprs s) = (ts1, m0, Ok u) /\
      m_utils m1 = Some u /\ m_tree m1 = m_tree m /\ m_du m1 = m_du m /\ c1 = (if dr then fst (drop_group c g) else c) /\
      subscope E (m_scope m1) (m_scope m) /\
      (if cl then forall y, dget (m_scope m1) y = if in_dec string_dec y (symbols_to_clear h c s) then None else dget (m_scope m) y else m_scope m1 = m_scope m).
  Proof.
    intros KY. unfold preval. destruct (validate E h c m (Some g)) as [[]|]; [|discriminate]. destruct (get_group h c g) as [s|] eqn:GG; [|discriminate].
    destruct (evaluate E ts m (sg_simple s) (sg_exprs s)) as [[ts' m0] [u|x]] eqn:EV; [|discriminate]. pose proof (evaluate_touch E _ _ _ _ _ _ _ EV) as (A & B & C).
    cbn [m_scope with_utils]. destruct (if cl then del_symbols E (m_scope m0) (symbols_to_clear h c s) else (m_scope m0, Ok tt)) as [sc r] eqn:DS.
    destruct r as [[]|]; [|discriminate]. intros H. exists s, m0, u.
    assert (X : ts' = ts1 /\ m1 = with_scope E (with_utils E m0 (Some u)) sc /\ c1 = (if dr then fst (drop_group c g) else c)).
    { destruct dr; [|injection H as -> <- <-; auto]. destruct (drop_group c g) as [c' r'] eqn:DG. injection H as -> <- <- ->. auto. }
    destruct X as (-> & -> & ->). cbn. repeat split; auto.
    - destruct cl; [|injection DS as <-; rewrite B; intros n q; auto]. rewrite B in DS. apply del_symbols_get in DS; [|exact KY]. destruct DS as (D1 & _). exact D1.
    - destruct cl; [|injection DS as <-; auto]. rewrite B in DS. apply del_symbols_get in DS; [|exact KY]. destruct DS as (_ & D2 & D3). intros y.
      destruct (in_dec string_dec y (symbols_to_clear h c s)); auto.
  Qed.

  (** the names in an expression are registered as its symbols (always, unless a name is hidden below a unary
      minus or in a keyword argument: C33) *)
  Definition own_names (x : expression) : Prop :=
    forall y, In y (free_names (e_trans x)) -> reserved y = true \/ In y (e_symbols x) \/ In y (substitutions x).

  Context (NL : numexpr_local E) (FL : frame_laws E) (XS : exact_sums F).
  Set Default Proof Using "Type*".

  Lemma total_nan (app : expression -> bool) (f : expression -> num -> option num) : forall xs acc v, total app f xs acc = Some v -> is_nan v = false -> is_nan acc = false.
  Proof.
    induction xs as [|x xs IH]; intros acc v H N; cbn in H; [injection H as <-; auto|]. destruct (app x); [|eauto]. destruct (f x acc) as [b|]; [|discriminate].
    apply IH in H; auto. destruct (is_nan acc) eqn:Q; auto. apply (xs_nan F XS) with (b := b) in Q. congruence.
  Qed.

  (** ** C54 *)

  (** What is common to the two theorems: the sum over all the expressions, split at a group. *)
  Lemma total_split scope nl cols r c l h cc g s acc : get_group h cc g = Ok s ->
    (forall x, In x (iter h cc true) -> ~ In "OUT" (free_names (e_trans x))) ->
    total (applies nl l) (xvalue E scope nl cols r c) (iter h cc true) acc =
    match total (applies nl l) (xvalue E scope nl cols r c) (sg_exprs s) acc with
    | Some a => total (applies nl l) (xvalue E scope nl cols r c) (iter h (fst (drop_group cc g)) true) a
    | None => None end.
  Proof.
    intros G NO. destruct (group_split h cc g s G) as (P & _). rewrite <- total_app.
    set (f := fun x => xvalue E scope nl cols r c x (nzero F)).
    rewrite (total_ext _ _ (fun x _ => f x)) by (intros x a I; apply xvalue_acc; auto).
    rewrite (total_ext _ _ (fun x _ => f x) (sg_exprs s ++ _)).
    - apply total_perm; [apply XS|apply XS|exact P].
    - intros x a I. apply xvalue_acc; auto. apply NO. eapply Permutation_in; [apply Permutation_sym; exact P|exact I].
  Qed.

  Lemma tidy_group (m : cm) (h : exprs) (c : container) g s : get_group h c g = Ok s -> tidy E m (itersimple h c true) (iter h c true) ->
    tidy E m (sg_simple s) (sg_exprs s) /\ tidy E m (itersimple h (fst (drop_group c g)) true) (iter h (fst (drop_group c g)) true).
  Proof.
    intros G [A B C]. destruct (group_split h c g s G) as (P & I1 & _ & I2 & _ & _ & _).
    split; constructor; auto; intros x I; (destruct (C x) as [N1 N2 N3]; [eapply Permutation_in; [apply Permutation_sym; exact P|apply in_or_app; auto]|]); constructor; auto;
      intros z Z J; apply (N3 z Z); auto.
  Qed.
  Lemma tidy_state (m m' : cm) simple xs : m_tree m' = m_tree m -> m_du m' = m_du m -> incl (m_scope m') (m_scope m) -> tidy E m simple xs -> tidy E m' simple xs.
  Proof. intros T U I [A B C]. constructor; rewrite ?T, ?U; auto. intros d cols X Y name s J. apply (B d cols X Y name s). now apply I. Qed.

  (** If the single run over all expressions, preval() of a group and the run after it succeed, the
      utilities of both ways are the same. *)
  Theorem C54_same_utilities (ops : list mop) i g cleanup clear clear' tsA mA tA ts1 c1 m1 ts2 m2 t2 simple xs :
    let w := mrun E start ops in let m := model E w i in
    orderly_history E start ops ->
    selection (mheap E w) (mcont E w i) None = Ok (simple, xs) -> (forall x, In x xs -> plain_names simple x) ->
    (forall x, In x xs -> ~ In "OUT" (free_names (e_trans x))) ->
    run_utilities E (mheap E w) (mcont E w i) (mw_tabs w) m None clear = (tsA, mA, Ok tA) ->
    preval E (mheap E w) (mcont E w i) (mw_tabs w) m g true cleanup = (ts1, c1, m1, Ok tt) ->
    run_utilities E (mheap E w) c1 ts1 m1 None clear' = (ts2, m2, Ok t2) ->
    t2 = tA.
  Proof.
    intros w m OH S PN NO RA PV RB. pose proof (tidy_reachable E FL ops i None simple xs OH S PN) as TD. fold w m in TD.
    pose proof (table_ok_reachable E NL ops i) as TO. fold w m in TO. pose proof (reach_keyed E ops i) as KY. fold w m in KY.
    pose proof (preval_effect E NL _ _ _ _ _ _ _ _ _ _ _ PV) as PE. pose proof (preval_in E _ _ _ _ _ _ _ _ _ _ _ PV) as PI.
    assert (TO1 : table_ok E ts1 m1) by (apply PE; exact TO).
    cbn in S. injection S as <- <-. set (h := mheap E w) in *. set (c := mcont E w i) in *.
    apply run_ok in RA. destruct RA as (si & xs & mA1 & uA & VA & SA & EA & _ & ->). cbn in SA. injection SA as <- <-.
    apply preval_ok in PV; auto. destruct PV as (s & m0 & u & V1 & GG & E1 & MU1 & TR1 & DU1 & CC & SB & _). subst c1.
    apply run_ok in RB. destruct RB as (si & xs & mB1 & uB & VB & SBB & EB & _ & ->). cbn in SBB. injection SBB as <- <-.
    destruct (tidy_group m h c g s GG TD) as [TG TR].
    assert (TR' : tidy E m1 (itersimple h (fst (drop_group c g)) true) (iter h (fst (drop_group c g)) true)) by (eapply tidy_state; eauto).
    assert (FI : forall gr (mm : cm) cc simple xs, validate E h cc mm gr = Ok tt -> selection h cc gr = Ok (simple, xs) -> forall y q, In y simple -> reserved y = false -> dget (m_scope mm) y = Some q -> filled FR q = true).
    { intros gr mm cc si xs V SL y q I R G. destruct (run_filled E NL h cc mm gr si xs V SL y I R) as (q' & G' & FQ). congruence. }
    apply evaluate_evaluated in EA; auto; [|eapply (FI None); [exact VA|reflexivity]]. destruct EA as (d & cols & nl & EA).
    apply evaluate_evaluated in E1; auto; [|eapply (FI (Some g)); [exact V1|cbn; rewrite GG; reflexivity]]. destruct E1 as (d' & cols' & nl' & E1).
    apply evaluate_evaluated in EB; auto; [|eapply (FI None); [exact VB|reflexivity]]. destruct EB as (d'' & cols'' & nl'' & EB).
    destruct EA as [A1 A2 A3 A4 A5 A6 A7 A8 A9 A10]. destruct E1 as [P1 P2 P3 P4 P5 P6 P7 P8 P9 P10]. destruct EB as [B1 B2 B3 B4 B5 B6 B7 B8 B9 B10].
    rewrite TR1, DU1 in *.
    assert (d' = d) by congruence. assert (d'' = d) by congruence. assert (cols' = cols) by congruence. assert (cols'' = cols) by congruence. assert (nl' = nl) by congruence. assert (nl'' = nl) by congruence. subst d' d'' cols' cols'' nl' nl''.
    apply (tables_equal E NL (length d) (length cols)); auto. intros r k Hr Hk. destruct (nth_error cols k) as [l|] eqn:NC; [|apply nth_error_None in NC; lia].
    specialize (A9 r k l Hr NC). specialize (P9 r k l Hr NC). specialize (B9 r k l Hr NC).
    rewrite (total_split _ _ _ _ _ _ h c g s _ GG NO), P9 in A9.
    unfold start_table in B9. rewrite MU1 in B9.
    rewrite (total_ext _ _ (xvalue E (m_scope m) nl cols r k)) in B9; [congruence|].
    intros x a I. eapply xvalue_sub; eauto.
  Qed.

  Lemma sdiff_nil a b : incl a b -> sdiff a b = [].
  Proof.
    unfold sdiff. induction a as [|x a IH]; intros I; cbn; auto. assert (M : mem x b = true) by (apply mem_in, I; simpl; auto). rewrite M. cbn. apply IH. intros y Y. apply I. simpl. auto.
  Qed.
  Lemma cleared_iff (h : exprs) (c : container) s y : In y (symbols_to_clear h c s) <-> (In y (sg_simple s) \/ In y (sg_chained s)) /\ ~ In y (c_simple c) /\ ~ In y (c_chained c).
  Proof.
    unfold symbols_to_clear. rewrite !in_sdiff. unfold itersimple, iterchained. rewrite !app_nil_r, in_sunion, !in_app_iff. cbn [In]. tauto.
  Qed.
  Lemma nothing_cleared ops i g s : Forall (no_copying E) ops -> let w := mrun E start ops in
    get_group (mheap E w) (mcont E w i) g = Ok s -> symbols_to_clear (mheap E w) (mcont E w i) s = [].
  Proof.
    intros NC w GG. destruct (symbols_to_clear (mheap E w) (mcont E w i) s) as [|y l] eqn:Q; auto. exfalso.
    assert (I : In y (symbols_to_clear (mheap E w) (mcont E w i) s)) by (rewrite Q; simpl; auto). apply cleared_iff in I.
    pose proof (reach_consistent E ops NC) as [_ C2 C3 _]. fold w in C2, C3. unfold get_group in GG. destruct (dget (c_subs (mcont E w i)) g) as [r|] eqn:G; [|discriminate]. injection GG as <-.
    apply (dget_in String.eqb String.eqb_eq) in G. pose proof (C2 i g r y G) as X2. pose proof (C3 i g r y G) as X3. unfold mcont, mheap in *. tauto.
  Qed.

  (** If the single run succeeds and the expressions register their own names, so do preval() - without clean-up, or
      for a model none of whose histories copied expressions - and the run after it. *)
  Theorem C54_preval_succeeds_partial (ops : list mop) i g cleanup clear clear' tsA mA tA s simple xs :
    let w := mrun E start ops in let m := model E w i in
    orderly_history E start ops -> cleanup = false \/ Forall (no_copying E) ops ->
    selection (mheap E w) (mcont E w i) None = Ok (simple, xs) -> (forall x, In x xs -> plain_names simple x) ->
    (forall x, In x xs -> ~ In "OUT" (free_names (e_trans x)) /\ own_names x) ->
    get_group (mheap E w) (mcont E w i) g = Ok s ->
    run_utilities E (mheap E w) (mcont E w i) (mw_tabs w) m None clear = (tsA, mA, Ok tA) ->
    exists ts1 c1 m1 ts2 m2, preval E (mheap E w) (mcont E w i) (mw_tabs w) m g true cleanup = (ts1, c1, m1, Ok tt) /\
      run_utilities E (mheap E w) c1 ts1 m1 None clear' = (ts2, m2, Ok tA).
  Proof.
    intros w m OH CL S PN NO GG RA. pose proof (tidy_reachable E FL ops i None simple xs OH S PN) as TD. fold w m in TD.
    pose proof (table_ok_reachable E NL ops i) as TO. fold w m in TO. pose proof (reach_keyed E ops i) as KY. fold w m in KY.
    assert (RG : reg (ev_fn E) (ev_parse E) (mw_ex w)) by (apply mreg_run, reg_new).
    assert (NOO : forall x, In x xs -> ~ In "OUT" (free_names (e_trans x))) by (intros x I; apply NO; auto).
    pose proof RA as RA'. pose proof S as S'. cbn in S. injection S as <- <-. set (h := mheap E w) in *. set (c := mcont E w i) in *.
    apply run_ok in RA. destruct RA as (si & xs & mA1 & uA & VA & SA & EA & _ & ->). cbn in SA. injection SA as <- <-.
    destruct (tidy_group m h c g s GG TD) as [TG TR]. destruct (group_split h c g s GG) as (PM & I1 & I2 & I3 & I4 & DR & _).
    apply evaluate_evaluated in EA; auto.
    2:{ intros y q I R G. destruct (run_filled E NL h c m None _ _ VA eq_refl y I R) as (q' & G' & FQ). congruence. }
    destruct EA as (d & cols & nl & [A1 A2 A3 A4 A5 A6 A7 A8 A9 A10]).
    pose proof (proj2 (has_nan_false E NL _ _ _ A8) A10) as NN.
    pose proof (validate_ok E _ _ _ _ VA) as (VT & _ & names & SY & VN). cbn in SY. injection SY as <-.
    (* the group *)
    assert (V1 : validate E h c m (Some g) = Ok tt).
    { eapply validate_iff; [cbn; rewrite GG; reflexivity|exact VT|eauto|]. intros y I. apply in_app_or in I. apply VN. apply in_or_app. destruct I; auto. }
    assert (RDY : forall xs' simple', (forall x, In x xs' -> In x (iter h c true)) -> incl simple' (itersimple h c true) ->
              (forall x, In x xs' -> incl (e_symbols x) simple') -> forall x, In x xs' -> ready E (m_scope m) nl cols simple' x).
    { intros xs' si IX IS IE x I. destruct (A7 x (IX x I)) as [R1 R2 R3 R4]. constructor; auto. intros y Y. destruct (proj2 (NO x (IX x I)) y Y) as [|[J|]]; auto. right. left. apply (IE x I), J. }
    assert (SOK : forall si, incl si (itersimple h c true) -> simple_ok E (m_scope m) si) by (intros si IS y I R; apply A6; auto).
    assert (IG : forall x, In x (sg_exprs s) -> In x (iter h c true)) by (intros x I; eapply Permutation_in; [apply Permutation_sym; exact PM|apply in_or_app; auto]).
    assert (IR : forall x, In x (iter h (fst (drop_group c g)) true) -> In x (iter h c true)) by (intros x I; eapply Permutation_in; [apply Permutation_sym; exact PM|apply in_or_app; auto]).
    assert (SR : reg_group (ev_fn E) (ev_parse E) s).
    { unfold get_group in GG. destruct (dget (c_subs c) g) as [r|]; [|discriminate]. injection GG as <-. now apply reg_deref. }
    destruct (evaluate_from_totals E NL (mw_tabs w) m (sg_simple s) (sg_exprs s) d cols nl) as (ts1 & m0 & u & E1); auto.
    { apply RDY; auto. intros x I. apply (SR x I). }
    { intros r k l Hr NC. specialize (A9 r k l Hr NC). rewrite (total_split _ _ _ _ _ _ h c g s _ GG NOO) in A9.
      destruct (total (applies nl l) (xvalue E (m_scope m) nl cols r k) (sg_exprs s) _) as [a|]; [|discriminate]. exists a. split; auto.
      eapply total_nan; [exact A9|]. apply NN; auto. apply nth_error_Some. congruence. }
    assert (PV : exists m1, preval E h c (mw_tabs w) m g true cleanup = (ts1, fst (drop_group c g), m1, Ok tt)).
    { unfold preval. rewrite V1, GG, E1. cbn [m_scope with_utils].
      replace (if cleanup then del_symbols E (m_scope m0) (symbols_to_clear h c s) else (m_scope m0, Ok tt)) with (m_scope m0, @Ok unit tt).
      - destruct (drop_group c g) as [c' r']. cbn in DR. subst r'. eauto.
      - destruct CL as [->|NC]; auto. destruct cleanup; auto. unfold h, c, w. rewrite (nothing_cleared ops i g s NC GG). reflexivity. }
    destruct PV as [m1 PV]. pose proof (preval_effect E NL _ _ _ _ _ _ _ _ _ _ _ PV) as PE. pose proof (preval_in E _ _ _ _ _ _ _ _ _ _ _ PV) as PI.
    assert (TO1 : table_ok E ts1 m1) by (apply PE; exact TO).
    pose proof PV as PV'. apply preval_ok in PV'; auto. destruct PV' as (s' & m0' & u' & _ & GG' & E1' & MU1 & TR1 & DU1 & _ & SB & SC).
    assert (s' = s) by congruence. subst s'. assert (u' = u) by congruence. subst u'. clear GG'.
    assert (SC1 : forall y, dget (m_scope m1) y = dget (m_scope m) y).
    { destruct cleanup; [|now rewrite SC]. intros y. rewrite SC. destruct CL as [CL|NC]; [discriminate|]. unfold h, c, w. rewrite (nothing_cleared ops i g s NC GG). destruct (in_dec string_dec y []) as [[]|]; auto. }
    assert (SB' : subscope E (m_scope m) (m_scope m1)) by (intros y q G; now rewrite SC1).
    assert (TR' : tidy E m1 (itersimple h (fst (drop_group c g)) true) (iter h (fst (drop_group c g)) true)) by (eapply tidy_state; eauto).
    apply evaluate_evaluated in E1; auto.
    2:{ intros y q I R G. destruct (run_filled E NL h c m (Some g) (sg_simple s) (sg_exprs s) V1) with (y := y) as (q' & G' & FQ); auto; [cbn; now rewrite GG|congruence]. }
    destruct E1 as (d' & cols' & nl' & [P1 P2 P3 P4 P5 P6 P7 P8 P9 P10]).
    assert (d' = d) by congruence. assert (cols' = cols) by congruence. assert (nl' = nl) by congruence. subst d' cols' nl'.
    assert (UC1 : u_cols u = cols /\ u_index u = d).
    { apply evaluate_ok in E1'; auto. destruct E1' as (d0 & c0 & n0 & sh & Q1 & Q2 & Q3 & _ & _ & _ & _ & _ & Q4 & Q5 & _). split; congruence. }
    assert (V2 : validate E h (fst (drop_group c g)) m1 None = Ok tt).
    { eapply validate_iff; [reflexivity|now rewrite TR1|rewrite DU1; eauto|]. intros y I R. rewrite SC1. apply VN; auto. apply in_app_or in I. apply in_or_app. destruct I as [I|I]; auto. }
    destruct (evaluate_from_totals E NL ts1 m1 (itersimple h (fst (drop_group c g)) true) (iter h (fst (drop_group c g)) true) d cols nl) as (ts2 & m2 & u2 & E2); auto.
    - now rewrite TR1.
    - now rewrite DU1.
    - now rewrite TR1.
    - now rewrite TR1.
    - intros v Q. rewrite MU1 in Q. injection Q as <-. destruct UC1 as [-> _]. reflexivity.
    - unfold start_table. rewrite MU1. apply P8.
    - intros y I R. destruct (A6 y (I1 y I) R) as (q & dd & G & X). exists q, dd. rewrite SC1. auto.
    - intros x I. apply (ready_incl E NL (m_scope m1) (m_scope m) nl cols (itersimple h (fst (drop_group c g)) true) (itersimple h (fst (drop_group c g)) true)); auto using incl_refl.
      apply RDY with (xs' := iter h (fst (drop_group c g)) true); auto. intros z Z. unfold itersimple. apply in_iter in Z.
      assert (UD : c_ungrouped (fst (drop_group c g)) = c_ungrouped c /\ c_simple (fst (drop_group c g)) = c_simple c) by (unfold drop_group; destruct (dmem _ _ _); auto).
      destruct Z as [Z|(n & r & Z & J)]; intros q Q; apply in_or_app.
      + left. destruct UD as [UD ->]. rewrite UD in Z. destruct (reg_cont _ _ (mw_ex w) i RG z Z) as (_ & X & _). now apply X.
      + right. apply in_concat. exists (sg_simple (deref h r)). destruct (reg_deref _ _ (mw_ex w) r RG z J) as (_ & X & _). split; [|now apply X].
        unfold subs_of. apply in_map, in_map. eapply in_vals; eauto.
    - intros r k l Hr NC. specialize (A9 r k l Hr NC). specialize (P9 r k l Hr NC). rewrite (total_split _ _ _ _ _ _ h c g s _ GG NOO), P9 in A9.
      unfold start_table. rewrite MU1. eexists. split; [|apply NN; [exact Hr|apply nth_error_Some; rewrite NC; discriminate]].
      rewrite <- A9. apply total_ext. intros x a I. apply NL. intros y Y. unfold cell_meaning. destruct (find_chain (e_chains x) y) as [[n ct]|]; rewrite SC1; reflexivity.
    - pose proof (run_exists E h (fst (drop_group c g)) ts1 m1 None clear' _ _ ts2 m2 u2 V2 eq_refl E2) as RB.
      pose proof (C54_same_utilities ops i g cleanup clear clear' _ _ _ _ _ _ _ _ _ _ _ OH S' PN NOO RA' PV RB) as Q.
      exists ts1, (fst (drop_group c g)), m1. rewrite RB. rewrite Q. eauto.
  Qed.
End Preval.
Print Assumptions C54_same_utilities.
Print Assumptions C54_preval_succeeds_partial.

(** * C55 *)
Unset Default Proof Using.
Section Cleanup.
  Context {L : Type} {F : arith} {D cell : Type} (E : env L F D cell).
  Notation cm := (cm E).
  Notation mop := (mop E).
  Notation start := (new_mworld E).
  Notation dget := (dget String.eqb).

  Lemma reach_tight (ops : list mop) : Forall tight (mheap E (mrun E start ops)).
  Proof.
    assert (G : forall ops w, Forall tight (mheap E w) -> Forall tight (mheap E (mrun E w ops))); [|apply G; constructor].
    induction ops0 as [|o l IH]; intros w T; [exact T|]. cbn. apply IH. unfold mheap in *. destruct (ex_step E w o) as [->|(co & _ & _ & ->)]; auto. now apply tight_step.
  Qed.

  (** What preval() with clean-up does to the scope: it removes the symbols used by the expressions of the
      group and not in the container's own sets; all other symbols stay as they are. *)
  Theorem C55_what_is_cleared (ops : list mop) i g drop ts1 c1 m1 s :
    let w := mrun E start ops in let m := model E w i in let c := mcont E w i in
    get_group (mheap E w) c g = Ok s ->
    preval E (mheap E w) c (mw_tabs w) m g drop true = (ts1, c1, m1, Ok tt) ->
    (forall y, used_in (sg_exprs s) y -> ~ In y (c_simple c) -> ~ In y (c_chained c) -> dget (m_scope m1) y = None) /\
    (forall y, ~ used_in (sg_exprs s) y \/ In y (c_simple c) \/ In y (c_chained c) -> dget (m_scope m1) y = dget (m_scope m) y).
  Proof.
    intros w m c GG PV. apply preval_ok in PV; [|apply reach_keyed]. destruct PV as (s' & m0 & u & _ & GG' & _ & _ & _ & _ & _ & _ & SC). rewrite GG in GG'. injection GG' as <-.
    assert (T : tight s). { unfold get_group in GG. destruct (dget (c_subs c) g); [|discriminate]. injection GG as <-. apply tight_deref, reach_tight. }
    assert (CI : forall y, In y (symbols_to_clear (mheap E w) c s) <-> used_in (sg_exprs s) y /\ ~ In y (c_simple c) /\ ~ In y (c_chained c)).
    { intros y. unfold symbols_to_clear. rewrite !in_sdiff. unfold itersimple, iterchained. rewrite !app_nil_r, in_sunion, !in_app_iff. cbn [In]. rewrite <- (tight_used s T y). tauto. }
    split; intros y H; [intros H1 H2|]; rewrite SC; destruct (in_dec string_dec y (symbols_to_clear (mheap E w) c s)) as [I|I]; auto; rewrite CI in I; tauto.
  Qed.
  (** A symbol used by an expression outside the groups is never removed. *)
  Theorem C55_ungrouped_symbols_stay (ops : list mop) i g drop ts1 c1 m1 y :
    let w := mrun E start ops in let m := model E w i in
    preval E (mheap E w) (mcont E w i) (mw_tabs w) m g drop true = (ts1, c1, m1, Ok tt) ->
    used_in (c_ungrouped (mcont E w i)) y -> dget (m_scope m1) y = dget (m_scope m) y.
  Proof.
    intros w m PV (x & I & U). assert (GG : exists s, get_group (mheap E w) (mcont E w i) g = Ok s).
    { pose proof PV as PV'. apply preval_ok in PV'; [|apply reach_keyed]. destruct PV' as (s & _ & _ & _ & GG & _). eauto. }
    destruct GG as [s GG]. destruct (C55_what_is_cleared ops i g drop ts1 c1 m1 s GG PV) as [_ C]. apply C. right.
    assert (RG : reg (ev_fn E) (ev_parse E) (mw_ex w)) by (apply mreg_run, reg_new). destruct (reg_cont _ _ (mw_ex w) i RG x I) as (_ & A & B).
    destruct U as [U|U]; [left; now apply A|right; now apply B].
  Qed.
  (** A model whose expressions were appended (not copied): nothing is removed. *)
  Theorem C55_nothing_cleared (ops : list mop) i g drop ts1 c1 m1 :
    let w := mrun E start ops in let m := model E w i in
    Forall (no_copying E) ops ->
    preval E (mheap E w) (mcont E w i) (mw_tabs w) m g drop true = (ts1, c1, m1, Ok tt) ->
    forall y, dget (m_scope m1) y = dget (m_scope m) y.
  Proof.
    intros w m NC PV y. apply preval_ok in PV; [|apply reach_keyed]. destruct PV as (s & m0 & u & _ & GG & _ & _ & _ & _ & _ & _ & SC). rewrite SC.
    destruct (in_dec string_dec y (symbols_to_clear (mheap E w) (mcont E w i) s)) as [I|]; auto. exfalso.
    unfold symbols_to_clear in I. rewrite !in_sdiff in I. unfold itersimple, iterchained in I. rewrite !app_nil_r, in_sunion, !in_app_iff in I. cbn [In] in I.
    pose proof (reach_consistent E ops NC) as [_ C2 C3 _]. fold w in C2, C3. unfold get_group in GG. destruct (dget (c_subs (mcont E w i)) g) as [r|] eqn:G; [|discriminate]. injection GG as <-.
    apply (dget_in String.eqb String.eqb_eq) in G. pose proof (C2 i g r y G) as X2. pose proof (C3 i g r y G) as X3. unfold mcont, mheap in *. tauto.
  Qed.
  Lemma lengths_agree (ops : list mop) : length (w_conts (mw_ex (mrun E start ops))) = length (mw_models (mrun E start ops)).
  Proof.
    assert (G : forall ops w, length (w_conts (mw_ex w)) = length (mw_models w) -> length (w_conts (mw_ex (mrun E w ops))) = length (mw_models (mrun E w ops))); [|now apply G].
    induction ops0 as [|o l IH]; intros w H; [exact H|]. cbn. apply IH. clear IH.
    destruct o as [|j o|j d|j name d|j name v|j|j text g|j|j g|j g cl sc ck|j n cl|j g dr cl|j f|j mi mask|j en|j gr gc gt gb gd gm]; cbn [mstep]; try (cbn; rewrite ?app_length, ?upd_length; cbn; lia).
    - destruct o; cbn; rewrite ?upd_length; auto.
    - unfold set_exprs. cbn [mw_ex mw_models cstep]. destruct (append _ _ _ _ _ _) as [[h c] r]. cbn. now rewrite upd_length.
    - destruct (run_stochastic _ _ _ _ _ _ _ _ _) as [[ts m] r]. cbn. now rewrite upd_length.
    - destruct (run_discrete_utilities _ _ _ _ _ _ _) as [[ts m] r]. cbn. now rewrite upd_length.
    - destruct (preval _ _ _ _ _ _ _ _) as [[[ts c] m] r]. cbn. now rewrite !upd_length.
    - destruct (copy_model _ _ _ _) as [ts m]. cbn [mw_ex mw_models]. destruct (cf_exprs f); cbn [cstep]; [destruct (copy _ _) as [h c]|]; cbn; rewrite !app_length; cbn; lia.
    - destruct (copy_subset _ _ _ _ _) as [ts [m|x]]; cbn [mw_ex mw_models]; auto. cbn [cstep]. destruct (copy _ _) as [h c]. cbn. rewrite !app_length. cbn. lia.
    - destruct (give _ _ _ _ _ _ _ _ _) as [ts m]. cbn. now rewrite upd_length.
  Qed.
  (** Right after copy(): the symbols of the group that no expression outside the groups uses are removed - also
      those another group uses (refuted below); exactly what was promised when no other group shares them. *)
  Theorem C55_after_copy_partial (ops : list mop) i f g drop ts1 c1 m1 s :
    let w := mrun E start (ops ++ [MCopy E i f]) in let j := length (mw_models (mrun E start ops)) in
    let m := model E w j in let c := mcont E w j in
    cf_exprs f = true ->
    get_group (mheap E w) c g = Ok s ->
    preval E (mheap E w) c (mw_tabs w) m g drop true = (ts1, c1, m1, Ok tt) ->
    (forall y, used_in (sg_exprs s) y -> ~ used_in (c_ungrouped c) y -> dget (m_scope m1) y = None) /\
    (forall y, ~ used_in (sg_exprs s) y \/ used_in (c_ungrouped c) y -> dget (m_scope m1) y = dget (m_scope m) y) /\
    ((forall y x, used_in (sg_exprs s) y -> In x (iter (mheap E w) (fst (drop_group c g)) true) -> used_in [x] y -> used_in (c_ungrouped c) y) ->
     forall y, used_in (sg_exprs s) y -> ~ used_in (iter (mheap E w) (fst (drop_group c g)) true) y <-> ~ used_in (c_ungrouped c) y).
  Proof.
    intros w j m c CF GG PV. destruct (C55_what_is_cleared _ _ _ _ _ _ _ _ GG PV) as [C1 C2]. fold w m c in C1, C2.
    assert (CT : forall y, In y (c_simple c) \/ In y (c_chained c) <-> used_in (c_ungrouped c) y).
    { assert (Q : c = snd (copy (mheap E (mrun E start ops)) (mcont E (mrun E start ops) i))).
      { unfold c, mcont, w. rewrite mrun_app. cbn [mrun fold_left mstep]. destruct (copy_model _ _ _ _) as [ts m']. cbn [mw_ex]. rewrite CF. cbn [cstep].
        unfold mheap. destruct (copy (w_heap (mw_ex (mrun E start ops))) (cont (mw_ex (mrun E start ops)) i)) as [h' c'] eqn:CP. rewrite cont_new. unfold j. rewrite <- lengths_agree, Nat.eqb_refl. reflexivity. }
      intros y. rewrite Q. unfold copy. destruct (copy_subs _ _ _) as [h' subs]. cbn. rewrite (fold_sets (fun x => e_symbols x)), (fold_sets (fun x => dkeys (e_chains x))). cbn [In].
      unfold used_in. split; [intros [[[]|(x & I & H)]|[[]|(x & I & H)]]; eauto|]. intros (x & I & [H|H]); [left|right]; right; eauto. }
    split; [|split].
    - intros y U N. rewrite <- CT in N. apply C1; tauto.
    - intros y U. apply C2. rewrite <- CT in U. tauto.
    - intros SH y U. split; intros N X; apply N.
      + destruct X as (x & I & X). exists x. split; auto. apply in_iter. left. unfold drop_group. destruct (dmem _ _ _); exact I.
      + destruct X as (x & I & X). eapply SH; eauto. exists x. simpl. auto.
  Qed.
End Cleanup.
Print Assumptions C55_what_is_cleared.
Print Assumptions C55_ungrouped_symbols_stay.
Print Assumptions C55_nothing_cleared.
Print Assumptions C55_after_copy_partial.

