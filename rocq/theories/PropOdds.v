(** C120: independence of irrelevant alternatives in whole runs of models without nests, in exact arithmetic. *)
From Coq Require Import Reals Lra.
From Verif Require Import Prelude Arith CoreModel TreeModel DictProofs ParModel ExprModel SpecExpr ExprProofs ExprUses ExprMeaning ExprContainer ExprWorld ScopeModel SpecScope ScopeProofs ModelModel ModelProofs SpecModel KernelProofs EvalProofs ModelExample PropState ModelWorld ModelHist ModelTabs RunProofs PropUtility PropExpr SpecSampling SamplingProofs SpecNested SpecTree TreeProofs TreeMore TreeHist RunOut SpecEnd EndProofs ParProofs OutProofs RunResult EndExample PropEnd SpecLogit MnlProofs PropMultinomial PropConst.
Local Open Scope string_scope.
Local Open Scope nat_scope.
Local Open Scope list_scope.

Section Whole.
  Context {L D N : Type} (E : env L XR D (val N)) (O : ops L N) (as_num : val N -> option xr).
  Notation mop := (mop E).
  Notation start := (new_mworld E).
  Context (NC : numexpr_computes E O as_num) (FL : frame_laws E) (NUL : ev_num E (ev_nan E) = VNull).

  (** Two runs, of any two models without nests, for one decision unit of each; the choices [la] and [lb] are in both models, and the expression
      texts give each of them the same utility in both. Then the odds of [la] against [lb] are the same. *)
  Theorem C120_same_odds (ops ops' : list mop) i j group group' clear clear' scale scale' check check' ts1 m1 out ts2 m2 out' simple xs simple' xs' d d' cols cols' r r' (uu uu' : list (option R)) (la lb : label) a b a' b' :
    let w := mrun E start ops in let m := model E w i in let w' := mrun E start ops' in let m' := model E w' j in
    orderly_history E start ops -> orderly_history E start ops' -> m_utils m = None -> m_utils m' = None ->
    run_stochastic_all E (mheap E w) (mcont E w i) (mw_tabs w) m group clear scale check = (ts1, m1, Ok out) ->
    run_stochastic_all E (mheap E w') (mcont E w' j) (mw_tabs w') m' group' clear' scale' check' = (ts2, m2, Ok out') ->
    selection (mheap E w) (mcont E w i) group = Ok (simple, xs) -> (forall y, In y xs -> meant E simple y) ->
    selection (mheap E w') (mcont E w' j) group' = Ok (simple', xs') -> (forall y, In y xs' -> meant E simple' y) ->
    m_du m = Some d -> choices (m_tree m) = Ok cols -> depth (m_tree m) = Ok 1 -> r < length d ->
    m_du m' = Some d' -> choices (m_tree m') = Ok cols' -> depth (m_tree m') = Ok 1 -> r' < length d' ->
    texts_row E O as_num (m_scope m) 1 cols r (map (@e_raw L) xs) (map as_x uu) -> some_feasible uu ->
    texts_row E O as_num (m_scope m') 1 cols' r' (map (@e_raw L) xs') (map as_x uu') -> some_feasible uu' ->
    nth_error cols a = Some la -> nth_error cols b = Some lb -> nth_error cols' a' = Some la -> nth_error cols' b' = Some lb ->
    nth_error uu a = nth_error uu' a' -> nth_error uu b = nth_error uu' b' ->
    exists P P' T T' terms terms',
      nth_error out r = Some (combine cols (map Fin P), Fin T, terms) /\ nth_error out' r' = Some (combine cols' (map Fin P'), Fin T', terms') /\
      length P = length cols /\ length P' = length cols' /\
      (prob P a * prob P' b' = prob P' a' * prob P b)%R.
  Proof.
    intros w m w' m' OH OH' MU MU' RR RR' S MT S' MT' DU CH DP Hr DU' CH' DP' Hr' TR SF TR' SF' A B A' B' EA EB.
    assert (LU : length uu = length cols) by (destruct TR as [Q _]; now rewrite map_length in Q).
    assert (LU' : length uu' = length cols') by (destruct TR' as [Q _]; now rewrite map_length in Q).
    pose proof (flat_row E O as_num NC FL NUL ops i group clear scale check ts1 m1 out simple xs uu d cols r OH MU RR S MT DU CH DP Hr TR SF) as Q1.
    pose proof (flat_row E O as_num NC FL NUL ops' j group' clear' scale' check' ts2 m2 out' simple' xs' uu' d' cols' r' OH' MU' RR' S' MT' DU' CH' DP' Hr' TR' SF') as Q2.
    exists (map (mnl uu) uu), (map (mnl uu') uu'), (SpecLogit.total uu), (SpecLogit.total uu'). do 2 eexists. rewrite !map_map, !map_length.
    split; [exact Q1|]. split; [exact Q2|]. split; auto. split; auto.
    pose proof (MnlProofs.total_pos uu SF) as TP. pose proof (MnlProofs.total_pos uu' SF') as TP'.
    assert (PE : forall vs c v, nth_error vs c = Some v -> prob (map (mnl vs) vs) c = (expu v / SpecLogit.total vs)%R).
    { intros vs c v H. unfold prob. apply nth_error_nth. now rewrite nth_error_map, H. }
    assert (G : forall c l, nth_error cols c = Some l -> exists v, nth_error uu c = Some v).
    { intros c l H. destruct (nth_error uu c) eqn:Q; eauto. apply nth_error_None in Q. assert (nth_error cols c <> None) by congruence. apply nth_error_Some in H0. lia. }
    destruct (G a la A) as [va Va]. destruct (G b lb B) as [vb Vb].
    rewrite (PE uu a va Va), (PE uu b vb Vb), (PE uu' a' va), (PE uu' b' vb) by congruence. field. lra.
  Qed.

  (** The second model has the choice [lz] more, and the texts give all the other choices the utilities that they have in the first. With z the
      probability of [lz], every other probability is multiplied by 1 - z; and the second output grows by e^u of [lz].
      So a choice whose utility is minus infinity changes nothing. *)
  Theorem C120_one_choice_more (ops ops' : list mop) i j group group' clear clear' scale scale' check check' ts1 m1 out ts2 m2 out' simple xs simple' xs' d d' ca lz cb r r' (ua ub : list (option R)) (uz : option R) :
    let w := mrun E start ops in let m := model E w i in let w' := mrun E start ops' in let m' := model E w' j in
    orderly_history E start ops -> orderly_history E start ops' -> m_utils m = None -> m_utils m' = None ->
    run_stochastic_all E (mheap E w) (mcont E w i) (mw_tabs w) m group clear scale check = (ts1, m1, Ok out) ->
    run_stochastic_all E (mheap E w') (mcont E w' j) (mw_tabs w') m' group' clear' scale' check' = (ts2, m2, Ok out') ->
    selection (mheap E w) (mcont E w i) group = Ok (simple, xs) -> (forall y, In y xs -> meant E simple y) ->
    selection (mheap E w') (mcont E w' j) group' = Ok (simple', xs') -> (forall y, In y xs' -> meant E simple' y) ->
    m_du m = Some d -> choices (m_tree m) = Ok (ca ++ cb) -> depth (m_tree m) = Ok 1 -> r < length d ->
    m_du m' = Some d' -> choices (m_tree m') = Ok (ca ++ lz :: cb) -> depth (m_tree m') = Ok 1 -> r' < length d' -> length ua = length ca ->
    texts_row E O as_num (m_scope m) 1 (ca ++ cb) r (map (@e_raw L) xs) (map as_x (ua ++ ub)) -> some_feasible (ua ++ ub) ->
    texts_row E O as_num (m_scope m') 1 (ca ++ lz :: cb) r' (map (@e_raw L) xs') (map as_x (ua ++ uz :: ub)) ->
    exists p q z T terms terms', let less := map (fun x => (x * (1 - z))%R) in
      nth_error out r = Some (combine (ca ++ cb) (map Fin (p ++ q)), Fin T, terms) /\ length p = length ca /\ length q = length cb /\
      nth_error out' r' = Some (combine (ca ++ lz :: cb) (map Fin (less p ++ z :: less q)), Fin (T + expu uz), terms') /\
      (0 <= z < 1)%R /\ (0 < z <-> uz <> None)%R.
  Proof.
    intros w m w' m' OH OH' MU MU' RR RR' S MT S' MT' DU CH DP Hr DU' CH' DP' Hr' LA TR SF TR'.
    assert (SF' : some_feasible (ua ++ uz :: ub)).
    { destruct SF as [v I]. exists v. apply in_app_or in I. apply in_or_app. destruct I; cbn; auto. }
    assert (LB : length ub = length cb) by (destruct TR as [Q _]; rewrite map_length, !app_length in Q; lia).
    pose proof (flat_row E O as_num NC FL NUL ops i group clear scale check ts1 m1 out simple xs _ d _ r OH MU RR S MT DU CH DP Hr TR SF) as Q1.
    pose proof (flat_row E O as_num NC FL NUL ops' j group' clear' scale' check' ts2 m2 out' simple' xs' _ d' _ r' OH' MU' RR' S' MT' DU' CH' DP' Hr' TR' SF') as Q2.
    set (uu := ua ++ ub) in *. set (uu' := ua ++ uz :: ub) in *.
    assert (TE : SpecLogit.total uu' = (SpecLogit.total uu + expu uz)%R).
    { unfold uu', uu. rewrite !total_app. change (uz :: ub) with ([uz] ++ ub). rewrite total_app. assert (SpecLogit.total [uz] = expu uz) by (unfold SpecLogit.total; cbn; ring). lra. }
    pose proof (MnlProofs.total_pos uu SF) as TP. pose proof (MnlProofs.total_pos uu' SF') as TP'. pose proof (expu_nonneg uz) as EN.
    assert (ME : forall u, mnl uu' u = (mnl uu u * (1 - mnl uu' uz))%R).
    { intros u. unfold mnl. rewrite TE in *. field. lra. }
    exists (map (mnl uu) ua), (map (mnl uu) ub), (mnl uu' uz), (SpecLogit.total uu). do 2 eexists. cbv zeta.
    split; [rewrite Q1; unfold uu at 2; rewrite <- map_app, map_map; reflexivity|]. split; [now rewrite map_length|]. split; [now rewrite map_length|].
    split; [|split].
    - rewrite Q2, <- TE. assert (LM : forall l, map (fun u => Fin (mnl uu' u)) l = map Fin (map (fun x => (x * (1 - mnl uu' uz))%R) (map (mnl uu) l))).
      { intros l. rewrite !map_map. apply map_ext. intros u. now rewrite ME. }
      unfold uu' at 2. rewrite (map_app _ ua). cbn [map]. rewrite !LM, (map_app Fin). reflexivity.
    - unfold mnl. split; [apply Rmult_le_pos; auto; left; now apply Rinv_0_lt_compat|]. apply Rmult_lt_reg_r with (SpecLogit.total uu'); auto. unfold Rdiv. rewrite Rmult_assoc, Rinv_l by lra. lra.
    - rewrite <- expu_pos_iff. unfold mnl. split; intros H.
      + destruct EN as [EN|EN]; auto. rewrite <- EN in H. unfold Rdiv in H. lra.
      + apply Rmult_lt_0_compat; auto. now apply Rinv_0_lt_compat.
  Qed.
End Whole.
Print Assumptions C120_same_odds.
Print Assumptions C120_one_choice_more.

(** ** Example: the choices A and B with the expression [x @ A]; and a model that has C with [1 @ C] as well. *)
Definition treeO : tree XR := @Tree XR [@Node XR "A" None (Fin 1) 1 []; @Node XR "B" None (Fin 1) 1 []; @Node XR "C" None (Fin 1) 1 []] [("A", 0); ("B", 1); ("C", 2)] [0; 1; 2] None.
Definition world1O : mworld envX := set_model envX world1X (mw_tabs world1X) 0 (CM (E:=envX) treeO (m_scope (model envX world1X 0)) None None).
Lemma world1O_is : mstep envX world1X (MTree envX 0 (@AddChoices XR ["C"] false None)) = world1O.
Proof.
  change (mstep envX world1X (MTree envX 0 (@AddChoices XR ["C"] false None))) with (set_model envX world1X (mw_tabs world1X) 0 (tree_op envX (model envX world1X 0) (@AddChoices XR ["C"] false None))).
  unfold world1O. f_equal. unfold tree_op.
  assert (Q : run_op XR (set_cached (m_tree (model envX world1X 0)) (option_map u_cols (m_utils (model envX world1X 0)))) (@AddChoices XR ["C"] false None) = treeO); [|now rewrite Q].
  cbn [run_op]. change (set_cached (m_tree (model envX world1X 0)) (option_map u_cols (m_utils (model envX world1X 0)))) with treeX.
  unfold add_choices. cbn [map combine add_pairs].
  assert (N2 : create_node XR (drop_cache XR treeX) "C" (none_ XR) None = (@Tree XR (t_heap treeO) (t_all treeO) [0; 1] None, Ok 2)).
  { change (create_node XR (drop_cache XR treeX) "C" (none_ XR) None) with (@new_node XR treeX "C" "C" (Fin 1) None 1). unfold new_node. rewrite scale_one. reflexivity. }
  rewrite N2. reflexivity.
Qed.
Definition textsO (three : bool) := if three then ["x @ A"; "1 @ C"] else ["x @ A"].
Definition restO (texts : list string) : list (mop envX) :=
  [MUnits envX 0 ["u1"]; MDeclare envX 0 "x" (DeclVector 0); MAssign envX 0 "x" (VSeries (num:=xr) (FR:=framesX) ["u1"] [VNum (Fin 5)])] ++ map (fun x => MAppend envX 0 x None) texts.
Definition histO (three : bool) : list (mop envX) :=
  [MNew envX; MTree envX 0 (@AddChoices XR ["A"; "B"] false None)] ++ (if three then [MTree envX 0 (@AddChoices XR ["C"] false None)] else []) ++ restO (textsO three).
Definition worldO (three : bool) := mrun envX (if three then world1O else world1X) (restO (textsO three)).
Lemma worldO_is three : mrun envX (new_mworld envX) (histO three) = worldO three.
Proof. unfold worldO. destruct three; [rewrite <- world1O_is|]; rewrite <- world1X_is; reflexivity. Qed.
Definition modelO three := model envX (worldO three) 0.
Lemma histO_orderly three : orderly_history envX (new_mworld envX) (histO three).
Proof.
  unfold histO, restO, textsO. destruct three; cbn [app map orderly_history].
  all: set (w0 := mstep envX (new_mworld envX) (MNew envX)).
  all: assert (W1 : mstep envX w0 (MTree envX 0 (@AddChoices XR ["A"; "B"] false None)) = world1X) by (rewrite <- world1X_is; reflexivity).
  all: rewrite W1, ?world1O_is; unfold w0; clear W1 w0.
  all: repeat match goal with |- _ /\ _ => split end; try exact I; try (intros n s []; fail).
  all: try (unfold orderly; try exact I; try reflexivity).
  all: split; try (intros n s []; fail).
  all: try (split; [repeat constructor; cbn; intuition discriminate|cbn; intuition discriminate]).
  split; [repeat constructor; cbn; tauto|]. intros name [<-|[]] K. vm_compute in K. intuition discriminate.
Qed.
Definition selO three := selection (mheap envX (worldO three)) (mcont envX (worldO three) 0) None.
Definition simpleO three : list string := match selO three with Ok (s, _) => s | Err _ => [] end.
Definition xsO three : list (@expression nat) := match selO three with Ok (_, xs) => xs | Err _ => [] end.
Definition runO three := run_utilities envX (mheap envX (worldO three)) (mcont envX (worldO three) 0) (mw_tabs (worldO three)) (modelO three) None true.
Definition colsO (three : bool) : list label := if three then [Flat "A"; Flat "B"] ++ [Flat "C"] else [Flat "A"; Flat "B"] ++ [].
Lemma selO_ok three : selO three = Ok (simpleO three, xsO three) /\ map (@e_raw nat) (xsO three) = textsO three /\ simpleO three = ["x"].
Proof. destruct three; vm_compute; auto. Qed.
Lemma meantO three : forall y, In y (xsO three) -> meant envX (simpleO three) y.
Proof.
  intros y Iy. rewrite (proj2 (proj2 (selO_ok three))).
  destruct three; match type of Iy with In _ ?l => let v := eval vm_compute in l in change (In y v) in Iy end; repeat (destruct Iy as [<-|Iy]; [|]); try destruct Iy.
  all: split; [split; intros z Z; cbn in Z; intuition subst; reflexivity|]; split; [intros name us sub ct I1 I2 NF; cbn in I1; intuition|].
  all: intros body flt tree SF PP; vm_compute in SF; injection SF as <- <-; vm_compute in PP; injection PP as <-; split; try (intros z Z; cbn in Z; intuition subst; cbn; auto; fail).
  all: cbn; intuition; now constructor.
Qed.
Lemma partsO three : m_utils (modelO three) = None /\ m_du (modelO three) = Some ["u1"] /\ m_tree (modelO three) = (if three then treeO else treeX) /\ m_scope (modelO three) = [("x", SVector false (Some [VNum (Fin 5)]))].
Proof. destruct three; unfold modelO, worldO, restO; repeat split; vm_compute; reflexivity. Qed.
(** A has the utility 5, B has 0, and C has 1 *)
Definition uuO (three : bool) : list (option R) := let a := [Some (0 + 5); Some 0]%R in if three then a ++ [Some (0 + INR 1)%R] else a ++ [].
Lemma rowO three : texts_row envX opsX backX (m_scope (modelO three)) 1 (colsO three) 0 (map (@e_raw nat) (xsO three)) (map as_x (uuO three)).
Proof.
  rewrite (proj1 (proj2 (selO_ok three))), (proj2 (proj2 (proj2 (partsO three)))).
  destruct three; (split; [reflexivity|]); intros [|[|[|c]]] l H; try (destruct c; discriminate); try discriminate; cbn in H; injection H as <-; reflexivity.
Qed.
Lemma runO_returns three scale : exists ts m out,
  run_stochastic_all envX (mheap envX (worldO three)) (mcont envX (worldO three) 0) (mw_tabs (worldO three)) (modelO three) None true scale false = (ts, m, Ok out).
Proof.
  unfold run_stochastic_all. fold (runO three).
  assert (Q : exists row, snd (runO three) = Ok [row]) by (destruct three; eexists; vm_compute; no_nan; reflexivity).
  destruct Q as [row Q]. destruct (runO three) as [[ts m] o] eqn:RU. cbn [snd] in Q. subst o.
  destruct (partsO three) as (A1 & A2 & A3 & A4).
  pose proof (rows_are_texts envX opsX backX envX_computes envX_laws envX_null (histO three) 0 None true ts m [row] (simpleO three) (xsO three) ["u1"] (colsO three) 1) as T.
  cbv zeta in T. rewrite !worldO_is in T. fold (modelO three) in T.
  destruct T as (T1 & _ & _ & _ & _ & _ & TX); try assumption; try (apply histO_orderly); try apply selO_ok; try (apply meantO); try (rewrite A3; destruct three; reflexivity).
  specialize (TX 0 _ (le_n 1) (rowO three)). injection TX as ->. rewrite A3 in T1. cbn [map_res rbind].
  assert (DP : depth (m_tree m) = Ok 1 /\ choices (m_tree m) = Ok (colsO three)) by (rewrite T1; destruct three; split; reflexivity). destruct DP as [DP CH].
  unfold stochastic_outputs, row_outputs. rewrite DP, CH. cbn [rbind Nat.ltb Nat.leb].
  rewrite C06_logit_formula; [cbn [rbind]; eauto|]. exists (0 + 5)%R. destruct three; cbn; auto.
Qed.
Example C120_met : exists out out' P P' T T' terms terms',
  snd (run_stochastic_all envX (mheap envX (worldO false)) (mcont envX (worldO false) 0) (mw_tabs (worldO false)) (modelO false) None true true false) = Ok out /\
  snd (run_stochastic_all envX (mheap envX (worldO true)) (mcont envX (worldO true) 0) (mw_tabs (worldO true)) (modelO true) None true true false) = Ok out' /\
  nth_error out 0 = Some (combine (colsO false) (map Fin P), Fin T, terms) /\ nth_error out' 0 = Some (combine (colsO true) (map Fin P'), Fin T', terms') /\
  (prob P 0 * prob P' 1 = prob P' 0 * prob P 1)%R.
Proof.
  destruct (runO_returns false true) as (ts1 & m1 & out & R1). destruct (runO_returns true true) as (ts2 & m2 & out' & R2).
  destruct (partsO false) as (A1 & A2 & A3 & A4). destruct (partsO true) as (B1 & B2 & B3 & B4).
  pose proof (C120_same_odds envX opsX backX envX_computes envX_laws envX_null (histO false) (histO true) 0 0 None None true true true true false false
    ts1 m1 out ts2 m2 out' (simpleO false) (xsO false) (simpleO true) (xsO true) ["u1"] ["u1"] (colsO false) (colsO true) 0 0 (uuO false) (uuO true) (Flat "A") (Flat "B") 0 1 0 1) as T.
  cbv zeta in T. rewrite !worldO_is in T. fold (modelO false) (modelO true) in T. rewrite A3, B3 in T.
  destruct T as (P & P' & T0 & T1 & t0 & t1 & Q1 & Q2 & _ & _ & Q3); try assumption; try reflexivity; try (apply histO_orderly); try apply selO_ok; try (apply meantO); try (cbn; lia); try (apply rowO).
  - exists (0 + 5)%R. cbn. auto.
  - exists (0 + 5)%R. cbn. auto.
  - exists out, out', P, P', T0, T1, t0, t1. rewrite R1, R2. repeat (split; [assumption || reflexivity|]). exact Q3.
Qed.
(** and with C the probabilities of A and B are those without C, multiplied by 1 - z *)
Example C120_met_more : exists out out' p q z T terms terms', let less := map (fun x => (x * (1 - z))%R) in
  snd (run_stochastic_all envX (mheap envX (worldO false)) (mcont envX (worldO false) 0) (mw_tabs (worldO false)) (modelO false) None true true false) = Ok out /\
  snd (run_stochastic_all envX (mheap envX (worldO true)) (mcont envX (worldO true) 0) (mw_tabs (worldO true)) (modelO true) None true true false) = Ok out' /\
  nth_error out 0 = Some (combine (colsO false) (map Fin (p ++ q)), Fin T, terms) /\ length p = 2 /\ q = [] /\
  nth_error out' 0 = Some (combine (colsO true) (map Fin (less p ++ z :: less q)), Fin (T + expu (Some (0 + INR 1)%R)), terms') /\ (0 < z < 1)%R.
Proof.
  destruct (runO_returns false true) as (ts1 & m1 & out & R1). destruct (runO_returns true true) as (ts2 & m2 & out' & R2).
  destruct (partsO false) as (A1 & A2 & A3 & A4). destruct (partsO true) as (B1 & B2 & B3 & B4).
  pose proof (C120_one_choice_more envX opsX backX envX_computes envX_laws envX_null (histO false) (histO true) 0 0 None None true true true true false false
    ts1 m1 out ts2 m2 out' (simpleO false) (xsO false) (simpleO true) (xsO true) ["u1"] ["u1"] [Flat "A"; Flat "B"] (Flat "C") [] 0 0 [Some (0 + 5); Some 0]%R [] (Some (0 + INR 1)%R)) as T.
  cbv zeta in T. rewrite !worldO_is in T. fold (modelO false) (modelO true) in T. rewrite A3, B3 in T.
  destruct T as (p & q & z & T & t0 & t1 & Q1 & Q2 & Q3 & Q4 & Q5 & Q6); try assumption; try reflexivity; try (apply histO_orderly); try apply selO_ok; try (apply meantO); try (cbn; lia); try (apply (rowO false)); try (apply (rowO true)).
  - exists (0 + 5)%R. cbn. auto.
  - exists out, out', p, q, z, T, t0, t1. cbv zeta. rewrite R1, R2. destruct q; [|discriminate Q3]. split; [reflexivity|]. split; [reflexivity|]. split; [exact Q1|]. split; [exact Q2|]. split; [reflexivity|]. split; [exact Q4|]. split; [apply Q6; discriminate|apply Q5].
Qed.
