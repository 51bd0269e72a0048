(** Properties C54 and C55: counterexamples, and cases that meet the hypotheses. *)
From Coq Require Import Permutation Reals Lra.
From Verif Require Import Prelude Arith CoreModel TreeModel DictProofs ParModel ExprModel SpecExpr ExprWorld ScopeModel SpecScope ScopeProofs SpecTree ModelModel ModelProofs SpecModel KernelProofs EvalProofs ModelExample PropState ModelWorld ModelHist ModelTabs ExprSets ModelInv RunProofs EvalTransfer PropUtility PropRerun PropPreval.
Local Open Scope string_scope.
Local Open Scope nat_scope.
Local Open Scope list_scope.

(** ** Where the promise of C55 fails *)
(** Expressions appended to a model, one group, nothing else: [x] is used by the group only and stays. *)
Theorem C55_symbol_left_refuted : exists ops : list (mop idE),
  let w := mrun idE (new_mworld idE) ops in
  exists ts1 c1 m1, preval idE (mheap idE w) (mcont idE w 0) (mw_tabs w) (model idE w 0) "g" true true = (ts1, c1, m1, Ok tt) /\
    iter (mheap idE w) c1 true = [] /\ dkeys (m_scope m1) = ["x"].
Proof.
  exists (two_choices (fun x => x) (fun x => x) ++ [MAppend idE 0 "x * 2" (Some "g")]). cbv zeta.
  destruct (preval idE _ _ _ _ "g" true true) as [[[ts1 c1] m1] r] eqn:P.
  assert (Q : (let '(ts, c, m, r) := preval idE (mheap idE (idW [MAppend idE 0 "x * 2" (Some "g")])) (mcont idE (idW [MAppend idE 0 "x * 2" (Some "g")]) 0) (mw_tabs (idW [MAppend idE 0 "x * 2" (Some "g")])) (model idE (idW [MAppend idE 0 "x * 2" (Some "g")]) 0) "g" true true
    in (iter (mheap idE (idW [MAppend idE 0 "x * 2" (Some "g")])) c true, dkeys (m_scope m), r)) = ([], ["x"], Ok tt)) by (vm_compute; reflexivity).
  unfold fworld in Q. rewrite P in Q. injection Q as Q1 Q2 ->. exists ts1, c1, m1. auto.
Qed.
(** A copied model with two groups that both use [x]: preval of one removes [x], and the run of the other
    raises ModelNotReadyError - without the clean-up it succeeds. *)
Theorem C55_shared_symbol_removed_refuted : exists (ops : list (mop idE)) (w' w'' : mworld idE),
  let w := mrun idE (new_mworld idE) ops in
  w' = mstep idE w (MPreval idE 1 "g" true true) /\ w'' = mstep idE w (MPreval idE 1 "g" true false) /\
  dkeys (m_scope (model idE w 1)) = ["x"] /\ dkeys (m_scope (model idE w' 1)) = [] /\
  (exists x, In x (iter (mheap idE w') (mcont idE w' 1) true) /\ In "x" (e_symbols x)) /\
  snd (run_utilities idE (mheap idE w') (mcont idE w' 1) (mw_tabs w') (model idE w' 1) (Some "k") false) = Err ModelNotReady /\
  rmap exact_table (snd (run_utilities idE (mheap idE w'') (mcont idE w'' 1) (mw_tabs w'') (model idE w'' 1) (Some "k") false)) = Ok [[sfz 6; sfz 6]; [sfz 10; sfz 10]].
Proof.
  exists (two_choices (fun x => x) (fun x => x) ++ [MAppend idE 0 "x" (Some "g"); MAppend idE 0 "x" (Some "k"); MCopy idE 0 default_flags]). do 2 eexists. cbv zeta.
  split; [reflexivity|]. split; [reflexivity|]. split; [vm_compute; reflexivity|]. split; [vm_compute; reflexivity|]. split.
  - exists (Expression "x" (EName "x") [] [] None ["x"]). split; vm_compute; auto.
  - split; vm_compute; reflexivity.
Qed.
(** A copied model and a group that reads OUT: the clean-up raises KeyError, after the utilities were cached. *)
Theorem C55_reserved_word_refuted : exists (ops : list (mop idE)),
  let w := mrun idE (new_mworld idE) ops in let r := preval idE (mheap idE w) (mcont idE w 1) (mw_tabs w) (model idE w 1) "g" true true in
  m_utils (model idE w 1) = None /\ snd r = Err KeyError /\ option_map u_index (m_utils (snd (fst r))) = Some ["h1"; "h2"].
Proof.
  exists (two_choices (fun x => x) (fun x => x) ++ [MAppend idE 0 "OUT" (Some "g"); MCopy idE 0 default_flags]). vm_compute. auto.
Qed.
Print Assumptions C55_symbol_left_refuted.
Print Assumptions C55_shared_symbol_removed_refuted.
Print Assumptions C55_reserved_word_refuted.

(** ** The hypotheses are met: groups g (the expression "2") and no group ("1 @ A"), one decision unit, exact arithmetic *)
Definition x_expr2 : @expression nat := Expression "2" (ENum 2) [] [] None [].
Definition x_ops2 : list (mop xenv) := x_ops ++ [MAppend xenv 0 "2" (Some "g")].
Definition x_world2 : mworld xenv :=
  MWorld (E:=xenv) (World [SubGroup "g" [] [] [x_expr2]] [Container [x_expr] [] [] [("g", 0)]]) [] [CM (E:=xenv) x_tree [] (Some ["h"]) None].
Lemma x_state2 : mrun xenv (new_mworld xenv) x_ops2 = x_world2.
Proof. unfold x_ops2. rewrite mrun_app, x_state. xcomp. reflexivity. Qed.
Lemma x_runA : rmap (fun t => t) (snd (run_utilities xenv (mheap xenv x_world2) (mcont xenv x_world2 0) (mw_tabs x_world2) (model xenv x_world2 0) None false)) = Ok [[Fin (0 + INR 1 + INR 2); Fin (0 + INR 2)]].
Proof. xcomp. reflexivity. Qed.
(** the order of the additions is different, as the hypothesis [exact_sums] suggests *)
Definition x_prev : cm xenv := CM (E:=xenv) x_tree [] (Some ["h"]) (Some (UTab 0 ["h"] [Flat "A"; Flat "B"])).
Lemma x_preval : preval xenv (mheap xenv x_world2) (mcont xenv x_world2 0) (mw_tabs x_world2) (model xenv x_world2 0) "g" true true =
  ([[[Fin (0 + INR 2); Fin (0 + INR 2)]]], Container [x_expr] [] [] [], x_prev, Ok tt).
Proof. xcomp. reflexivity. Qed.
Example C54_orders_differ : exists ts1 c1 m1, preval xenv (mheap xenv x_world2) (mcont xenv x_world2 0) (mw_tabs x_world2) (model xenv x_world2 0) "g" true true = (ts1, c1, m1, Ok tt) /\
  snd (run_utilities xenv (mheap xenv x_world2) c1 ts1 m1 None false) = Ok [[Fin (0 + INR 2 + INR 1); Fin (0 + INR 2)]].
Proof. do 3 eexists. split; [exact x_preval|]. xcomp. reflexivity. Qed.
Example C54_hypotheses_met :
  let w := mrun xenv (new_mworld xenv) x_ops2 in
  numexpr_local xenv /\ frame_laws xenv /\ exact_sums XR /\ orderly_history xenv (new_mworld xenv) x_ops2 /\ Forall (no_copying xenv) x_ops2 /\
  (exists simple xs, selection (mheap xenv w) (mcont xenv w 0) None = Ok (simple, xs) /\ length xs = 2 /\
     forall x, In x xs -> plain_names simple x /\ ~ In "OUT" (free_names (e_trans x)) /\ own_names x) /\
  (exists s, get_group (mheap xenv w) (mcont xenv w 0) "g" = Ok s /\ length (sg_exprs s) = 1) /\
  snd (run_utilities xenv (mheap xenv w) (mcont xenv w 0) (mw_tabs w) (model xenv w 0) None false) = Ok [[Fin (0 + INR 1 + INR 2); Fin (0 + INR 2)]].
Proof.
  cbv zeta. rewrite x_state2. split; [apply e_local|]. split; [apply e_frame_laws|]. split; [apply xr_exact_sums|]. split; [|split; [|split; [|split]]].
  - unfold x_ops2, x_ops. cbn [app orderly_history].
    change (mstep xenv (new_mworld xenv) (MNew xenv)) with (x_treed new_tree). rewrite x_step1, x_step2. cbn [orderly].
    repeat split; try exact I; try (intros n s []); try discriminate; match goal with H : SpecTree.is_key _ _ |- _ => exfalso; cbn in H; intuition discriminate | _ => idtac end.
  - repeat constructor.
  - do 2 eexists. split; [reflexivity|]. split; [reflexivity|]. intros x [<-|[<-|[]]]; (split; [split; intros y Y; cbn in Y; intuition subst; reflexivity|split; [intros []|intros y []]]).
  - eexists. split; reflexivity.
  - pose proof x_runA as X. destruct (snd (run_utilities _ _ _ _ _ _ _)); [exact X|discriminate].
Qed.
Example C55_hypotheses_met :
  let w := idW [MAppend idE 0 "x" (Some "g"); MCopy idE 0 default_flags] in
  let r := preval idE (mheap idE w) (mcont idE w 1) (mw_tabs w) (model idE w 1) "g" true true in
  snd r = Ok tt /\ dkeys (m_scope (model idE w 1)) = ["x"] /\ dkeys (m_scope (snd (fst r))) = [].
Proof. vm_compute. auto. Qed.
