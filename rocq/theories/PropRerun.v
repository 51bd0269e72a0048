(** Properties C52 and C53: cached utilities. *)
From Coq Require Import Reals Lra.
From Verif Require Import Prelude Arith CoreModel SpecLogit PropMultinomial TreeModel DictProofs ParModel ExprModel SpecExpr ExprWorld ScopeModel SpecScope ScopeProofs ModelModel ModelProofs SpecModel KernelProofs EvalProofs ModelExample PropState ModelWorld ModelHist ModelTabs RunProofs PropUtility.
Local Open Scope string_scope.
Local Open Scope nat_scope.
Local Open Scope list_scope.

Section Rerun.
  Context {L : Type} {F : arith} {D cell : Type} (E : env L F D cell).
  Notation num := (num F).
  Notation mop := (mop E).
  Notation start := (new_mworld E).

  Lemma orderly_app : forall (ops ops' : list mop) w, orderly_history E w ops -> orderly_history E (mrun E w ops) ops' -> orderly_history E w (ops ++ ops').
  Proof. induction ops as [|o ops IH]; intros ops' w H H'; [exact H'|]. destruct H as [H1 H2]. split; auto. Qed.
  Lemma mrun_app (ops ops' : list mop) w : mrun E w (ops ++ ops') = mrun E (mrun E w ops) ops'.
  Proof. unfold mrun. apply fold_left_app. Qed.

  (** the state after a run *)
  Lemma after_run h c ts (m : cm E) group ts' m' t : table_ok E ts m -> run_utilities E h c ts m group false = (ts', m', Ok t) ->
    m_tree m' = m_tree m /\ m_scope m' = m_scope m /\ m_du m' = m_du m /\ exists v, m_utils m' = Some v /\ nth (u_ref v) ts' [] = t.
  Proof.
    intros TO R. apply run_ok in R. destruct R as (simple & xs & m1 & u & _ & _ & EV & -> & ->). pose proof (evaluate_touch E _ _ _ _ _ _ _ EV) as (A & B & C).
    apply evaluate_ok in EV; auto. destruct EV as (d & cols & nl & sh & _ & _ & _ & _ & _ & _ & _ & _ & _ & _ & v & MU & RF & _).
    split; auto. split; auto. split; auto. exists v. split; auto. now rewrite RF.
  Qed.

  (** What the second of two consecutive runs returns: every cell is the cell of the first, plus the values of
      the expressions once more. *)
  Theorem C52_second_run_adds (NL : numexpr_local E) (FL : frame_laws E) (ops : list mop) i group scale check ts1 m1 t1 ts2 m2 t2 simple xs d cols nl :
    let w := mrun E start ops in let m := model E w i in
    let w' := mstep E w (MStochastic E i group false scale check) in
    i < length (mw_models w) -> orderly_history E start ops ->
    run_utilities E (mheap E w) (mcont E w i) (mw_tabs w) m group false = (ts1, m1, Ok t1) ->
    run_utilities E (mheap E w') (mcont E w' i) (mw_tabs w') (model E w' i) group false = (ts2, m2, Ok t2) ->
    selection (mheap E w) (mcont E w i) group = Ok (simple, xs) -> (forall x, In x xs -> plain_names simple x) ->
    m_du m = Some d -> choices (m_tree m) = Ok cols -> depth (m_tree m) = Ok nl ->
    forall r c l, r < length d -> nth_error cols c = Some l ->
      forall rho, (forall x acc, In x xs -> meaning E (m_scope m) nl cols simple x acc r c (rho x acc)) ->
        total (applies nl l) (fun x acc => ev_ne E (e_trans x) (rho x acc)) xs (tcell t1 r c) = Some (tcell t2 r c).
  Proof.
    intros w m w' LT OH R1 R2 S PN DU CH DP. pose proof (table_ok_reachable E NL ops i) as TO. fold w m in TO.
    destruct (after_run _ _ _ _ _ _ _ _ TO R1) as (A1 & A2 & A3 & v & MU & TV).
    set (ops' := ops ++ [MStochastic E i group false scale check]).
    assert (W' : mrun E start ops' = w') by (unfold ops'; rewrite mrun_app; reflexivity).
    assert (WS : mw_tabs w' = ts1 /\ model E w' i = m1 /\ mw_ex w' = mw_ex w).
    { unfold w'. cbn [mstep]. unfold run_stochastic. fold m. rewrite R1. cbn. split; auto. split; auto. unfold model, set_model. cbn. now apply nth_upd_eq. }
    destruct WS as (WS1 & WS2 & WS3).
    assert (OH' : orderly_history E start ops') by (apply orderly_app; auto; cbn; auto).
    assert (S' : selection (mheap E w') (mcont E w' i) group = Ok (simple, xs)) by (unfold mheap, mcont; rewrite WS3; exact S).
    pose proof (C50_starts_from_cached E NL FL ops' i group false ts2 m2 t2 simple xs d cols nl v) as T. rewrite W' in T. cbv zeta in T. rewrite WS2 in T. rewrite A1, A2, A3 in T.
    rewrite WS1 in T. rewrite TV in T. rewrite WS1, WS2 in R2. apply T; auto.
  Qed.
End Rerun.
Print Assumptions C52_second_run_adds.

(** ** Running twice, in exact arithmetic: one decision unit, choices A and B, the expression "1 @ A".  The first run
    gives A the probability e/(e+1), the second e^2/(e^2+1). *)
Definition xenv : env nat XR string xr := eenv XR (fun n => Fin (INR n)) NaN NInf.
Definition x_ops : list (mop xenv) :=
  [MNew xenv; MTree xenv 0 (@AddChoice XR "A" (Fin 1)); MTree xenv 0 (@AddChoice XR "B" (Fin 1)); MUnits xenv 0 ["h"]; MAppend xenv 0 "1 @ A" None].
Definition x_probabilities (w : mworld xenv) : res (list (list (label * xr))) :=
  snd (run_stochastic xenv (mheap xenv w) (mcont xenv w 0) (mw_tabs w) (model xenv w 0) None false false true).

Lemma Reqb_refl x : Reqb x x = true. Proof. unfold Reqb. destruct (Req_EM_T x x); congruence. Qed.
Lemma Rltb_01 : Rltb 0 1 = true. Proof. unfold Rltb. destruct (Rlt_dec 0 1); auto; lra. Qed.
Lemma Rleb_11 : Rleb 1 1 = true. Proof. unfold Rleb. destruct (Rle_dec 1 1); auto; lra. Qed.
Ltac xcbv := cbv -[Reqb Rltb Rleb exp Rplus Rdiv Rinv Rmult INR IZR R0 R1 R stochastic_row].
Ltac xcomp := xcbv; repeat (rewrite ?Rltb_01, ?Rleb_11, ?Reqb_refl; xcbv).

Definition x_tree : tree XR := Tree [Node (F:=XR) "A" None (Fin 1) 1 []; Node (F:=XR) "B" None (Fin 1) 1 []] [("A", 0); ("B", 1)] [0; 1] None.
Definition x_world (x : @expression nat) : mworld xenv :=
  MWorld (E:=xenv) (World [] [Container [x] [] [] []]) [] [CM (E:=xenv) x_tree [] (Some ["h"]) None].
Definition x_expr : @expression nat := Expression "1 @ A" (ENum 1) [] [] (Some "A") [].
Definition x_treed (t : tree XR) : mworld xenv := MWorld (E:=xenv) (World [] [Container [] [] [] []]) [] [CM (E:=xenv) t [] None None].
Lemma x_step1 : mstep xenv (x_treed new_tree) (MTree xenv 0 (@AddChoice XR "A" (Fin 1))) = x_treed (Tree [Node (F:=XR) "A" None (Fin 1) 1 []] [("A", 0)] [0] None).
Proof. xcomp. reflexivity. Qed.
Lemma x_step2 : mstep xenv (x_treed (Tree [Node (F:=XR) "A" None (Fin 1) 1 []] [("A", 0)] [0] None)) (MTree xenv 0 (@AddChoice XR "B" (Fin 1))) = x_treed x_tree.
Proof. xcomp. reflexivity. Qed.
Lemma x_state : mrun xenv (new_mworld xenv) x_ops = x_world x_expr.
Proof.
  unfold x_ops, mrun. cbn [fold_left]. change (mstep xenv (new_mworld xenv) (MNew xenv)) with (x_treed new_tree). rewrite x_step1, x_step2. xcbv. reflexivity.
Qed.
Definition x_after (r : R) : mworld xenv := MWorld (E:=xenv) (World [] [Container [x_expr] [] [] []]) [[[Fin r; Fin 0]]]
  [CM (E:=xenv) x_tree [] (Some ["h"]) (Some (UTab 0 ["h"] [Flat "A"; Flat "B"]))].
Lemma x_run1 : let w := x_world x_expr in
  run_utilities xenv (mheap xenv w) (mcont xenv w 0) (mw_tabs w) (model xenv w 0) None false = (mw_tabs (x_after (0 + INR 1)), model xenv (x_after (0 + INR 1)) 0, Ok [[Fin (0 + INR 1); Fin 0]]).
Proof. xcomp. reflexivity. Qed.
Lemma x_run2 r : let w := x_after r in
  snd (run_utilities xenv (mheap xenv w) (mcont xenv w 0) (mw_tabs w) (model xenv w 0) None false) = Ok [[Fin (r + INR 1); Fin 0]].
Proof. xcomp. reflexivity. Qed.
Lemma x_row r : stochastic_row XR x_tree [Fin r; Fin 0] false true = Ok [(Flat "A", Fin (exp r / (exp r + 1))); (Flat "B", Fin (1 / (exp r + 1)))].
Proof.
  unfold stochastic_row. replace (depth x_tree) with (@Ok nat 1) by (vm_compute; reflexivity). cbn [rbind Nat.ltb Nat.leb].
  change [Fin r; Fin 0] with (map as_x [Some r; Some 0%R]). rewrite C06_logit_formula by (exists r; simpl; auto). cbn [rbind].
  replace (choices x_tree) with (@Ok (list label) [Flat "A"; Flat "B"]) by (vm_compute; reflexivity). cbn [rbind map combine]. unfold SpecLogit.total. cbn [map SpecSampling.Rsum expu].
  rewrite exp_0. rewrite Rplus_0_r. reflexivity.
Qed.

Theorem C52_same_probabilities_refuted : exists (ops : list (mop xenv)) p1 p2,
  let w := mrun xenv (new_mworld xenv) ops in
  x_probabilities w = Ok p1 /\ x_probabilities (mstep xenv w (MStochastic xenv 0 None false false true)) = Ok p2 /\ p1 <> p2.
Proof.
  exists x_ops. do 2 eexists. cbv zeta. rewrite x_state. split; [|split].
  - unfold x_probabilities, run_stochastic. rewrite x_run1. cbn [snd]. change (m_tree (model xenv (x_after (0 + INR 1)) 0)) with x_tree. cbn [map_res]. rewrite x_row. reflexivity.
  - cbn [mstep]. unfold run_stochastic. rewrite x_run1. cbn [snd].
    change (set_model xenv (x_world x_expr) (mw_tabs (x_after (0 + INR 1))) 0 (model xenv (x_after (0 + INR 1)) 0)) with (x_after (0 + INR 1)).
    unfold x_probabilities, run_stochastic. pose proof (x_run2 (0 + INR 1)) as R. cbv zeta in R.
    destruct (run_utilities xenv _ _ _ _ None false) as [[ts m] r] eqn:RU. cbn [snd] in R. subst r.
    apply run_touch in RU. destruct RU as (-> & _). change (m_tree (model xenv (x_after (0 + INR 1)) 0)) with x_tree. cbn [map_res snd]. rewrite x_row. reflexivity.
  - cbn [INR]. intros Q. injection Q as Q _. rewrite !Rplus_0_l in Q.
    assert (H1 : (0 < exp 1)%R) by apply exp_pos. assert (H2 : (0 < exp (1 + 1))%R) by apply exp_pos. assert (H3 : (exp 1 < exp (1 + 1))%R) by (apply exp_increasing; lra).
    assert (K : (exp 1 / (exp 1 + 1) * ((exp 1 + 1) * (exp (1 + 1) + 1)) = exp (1 + 1) / (exp (1 + 1) + 1) * ((exp 1 + 1) * (exp (1 + 1) + 1)))%R) by now rewrite Q.
    field_simplify in K; try lra.
Qed.
Print Assumptions C52_same_probabilities_refuted.

(** ** New decision units.  The utilities of the old ones remain when their number is the same (here the second run
    gives 2 instead of 1), and the run raises when it is not. *)
Theorem C53_new_units_refuted : exists ops : list (mop idE),
  let w := mrun idE (new_mworld idE) ops in let w' := mstep idE w (MUnits idE 0 ["h3"; "h4"]) in
  futilities _ _ (mstep idE (mstep idE (mstep idE (mstep idE (new_mworld idE) (MNew idE)) (MTree idE 0 (@AddChoices (B64 _ _) ["A"; "B"] false None))) (MUnits idE 0 ["h3"; "h4"])) (MAppend idE 0 "1" None)) None
    = Ok [[sfz 1; sfz 1]; [sfz 1; sfz 1]] /\
  futilities _ _ w' None = Ok [[sfz 2; sfz 2]; [sfz 2; sfz 2]] /\
  futilities _ _ (mstep idE w (MUnits idE 0 ["h3"])) None = Err ValueError.
Proof.
  exists [MNew idE; MTree idE 0 (@AddChoices (B64 _ _) ["A"; "B"] false None); MUnits idE 0 ["h1"; "h2"]; MAppend idE 0 "1" None; MStochastic idE 0 None false false true].
  vm_compute. auto.
Qed.
Print Assumptions C53_new_units_refuted.
