(** C113: the order of the expressions. *)
From Coq Require Import Reals Permutation Floats.SpecFloat.
From Flocq Require Import IEEE754.BinarySingleNaN.
From Verif Require Import Prelude Arith CoreModel TreeModel DictProofs ParModel ParProofs ExprModel SpecExpr ExprProofs ExprWorld ExprSame ScopeModel SpecScope ScopeProofs ModelModel ModelProofs SpecModel KernelProofs EvalProofs ModelExample PropState ModelWorld ModelHist ModelTabs RunProofs EvalTransfer PropPreval PropUtility SpecTree RunOut EndProofs CopyExamples PropRerun PrevalExamples SpecUnits PropUnits UnitsExample.
Local Open Scope string_scope.
Local Open Scope nat_scope.
Local Open Scope list_scope.

Section Shuffle.
  Context {L : Type} {F : arith} {D cell : Type} (E : env L F D cell).
  Notation num := (num F).
  Notation FR := (ev_frames E).
  Notation expression := (@expression L).
  Notation mop := (mop E).
  Notation start := (new_mworld E).
  Notation dget := (dget String.eqb).
  Context (NL : numexpr_local E) (FL : frame_laws E) (XS : exact_sums F).

  (** ** C113: in exact arithmetic, for expressions that do not read OUT, the order does not matter: two models with the same
      choices whose runs are of the same texts in any two orders give the same utilities to units with the same data. *)
  Theorem C113_order_of_expressions (ops ops' : list mop) i j group group' clear clear' ts1 m1 t ts2 m2 t' simple xs simple' xs' d d' cols nl r r' :
    let w := mrun E start ops in let m := model E w i in let w' := mrun E start ops' in let m' := model E w' j in
    orderly_history E start ops -> orderly_history E start ops' -> m_utils m = None -> m_utils m' = None ->
    run_utilities E (mheap E w) (mcont E w i) (mw_tabs w) m group clear = (ts1, m1, Ok t) ->
    run_utilities E (mheap E w') (mcont E w' j) (mw_tabs w') m' group' clear' = (ts2, m2, Ok t') ->
    selection (mheap E w) (mcont E w i) group = Ok (simple, xs) -> (forall x, In x xs -> plain_names simple x) ->
    selection (mheap E w') (mcont E w' j) group' = Ok (simple', xs') -> (forall x, In x xs' -> plain_names simple' x) ->
    Permutation (map (@e_raw L) xs) (map (@e_raw L) xs') -> (forall x, In x xs -> ~ In "OUT" (free_names (e_trans x))) ->
    choices (m_tree m) = Ok cols -> choices (m_tree m') = Ok cols -> depth (m_tree m) = Ok nl -> depth (m_tree m') = Ok nl ->
    m_du m = Some d -> m_du m' = Some d' -> r < length d -> r' < length d' ->
    same_data E (evaluated_names simple xs) (length cols) (m_scope m) r (m_scope m') r' ->
    nth_error t r = nth_error t' r' /\ length t = length d /\ length t' = length d'.
  Proof.
    intros w m w' m' OH OH' MU MU' R R' S PN S' PN' RW NO CH CH' DP DP' DU DU' Hr Hr' SD.
    assert (PX : Permutation xs' xs).
    { apply Permutation_sym in RW. apply Permutation_map_inv in RW. destruct RW as (zs & RW & PZ). apply Permutation_sym in PZ.
      assert (RG : reg (ev_fn E) (ev_parse E) (mw_ex w)) by (apply mreg_run, reg_new). assert (RG' : reg (ev_fn E) (ev_parse E) (mw_ex w')) by (apply mreg_run, reg_new).
      destruct (symbols_simple E _ _ _ _ _ S) as (names & SY & _). destruct (selected_registered E w i group simple xs names RG S SY) as [_ S2].
      destruct (symbols_simple E _ _ _ _ _ S') as (names' & SY' & _). destruct (selected_registered E w' j group' simple' xs' names' RG' S' SY') as [_ S2'].
      rewrite (parsed_all_same (ev_fn E) (ev_parse E) xs' zs); auto.
      - intros x I. apply (S2' x I).
      - intros x I. apply (S2 x). eapply Permutation_in; eauto. }
    pose proof (tidy_reachable E FL ops i group simple xs OH S PN) as TD. fold w m in TD. pose proof (tidy_reachable E FL ops' j group' simple' xs' OH' S' PN') as TD'. fold w' m' in TD'.
    pose proof (table_ok_reachable E NL ops i) as TO. fold w m in TO. pose proof (table_ok_reachable E NL ops' j) as TO'. fold w' m' in TO'.
    apply run_ok in R. destruct R as (si & x0 & m0 & u & VA & SA & EA & _ & ->). rewrite S in SA. injection SA as <- <-.
    apply run_ok in R'. destruct R' as (si & x0 & m3 & u' & VB & SB & EB & _ & ->). rewrite S' in SB. injection SB as <- <-.
    apply (evaluate_evaluated E NL) in EA; auto.
    2:{ intros y q I R G. destruct (run_filled E NL _ _ m group simple xs VA S y I R) as (q' & G' & FQ). congruence. }
    apply (evaluate_evaluated E NL) in EB; auto.
    2:{ intros y q I R G. destruct (run_filled E NL _ _ m' group' simple' xs' VB S' y I R) as (q' & G' & FQ). congruence. }
    destruct EA as (d0 & c0 & n0 & [A1 A2 A3 A4 A5 A6 A7 A8 A9 A10]). destruct EB as (d1 & c1 & n1 & [B1 B2 B3 B4 B5 B6 B7 B8 B9 B10]).
    assert (d0 = d) by congruence. assert (c0 = cols) by congruence. assert (n0 = nl) by congruence. assert (d1 = d') by congruence. assert (c1 = cols) by congruence. assert (n1 = nl) by congruence. subst d0 c0 n0 d1 c1 n1.
    set (t := nth (u_ref u) ts1 []) in *. set (t' := nth (u_ref u') ts2 []) in *. clearbody t t'.
    split; [|split; [apply A8|apply B8]]. destruct A8 as [L1 W1]. destruct B8 as [L2 W2]. rewrite Forall_forall in W1, W2.
    destruct (nth_error t r) as [row|] eqn:NR; [|apply nth_error_None in NR; lia]. destruct (nth_error t' r') as [row'|] eqn:NR'; [|apply nth_error_None in NR'; lia]. f_equal.
    pose proof (W1 row (nth_error_In _ _ NR)) as LR. pose proof (W2 row' (nth_error_In _ _ NR')) as LR'.
    apply (nth_ext row row' (nzero F) (nzero F)); [congruence|]. intros c Hc. destruct (nth_error cols c) as [l|] eqn:QC; [|apply nth_error_None in QC; lia].
    specialize (A9 r c l Hr QC). specialize (B9 r' c l Hr' QC). unfold tcell in A9, B9. rewrite (nth_error_nth _ _ _ NR) in A9. rewrite (nth_error_nth _ _ _ NR') in B9.
    assert (Z : nth c (nth r (start_table E (mw_tabs w) m (length d) (length cols)) []) (nzero F) = nth c (nth r' (start_table E (mw_tabs w') m' (length d') (length cols)) []) (nzero F)).
    { unfold start_table. rewrite MU, MU'. pose proof (zeros_cell E (length d) (length cols) r c) as Z1. pose proof (zeros_cell E (length d') (length cols) r' c) as Z2. unfold tcell in Z1, Z2. now rewrite Z1, Z2. }
    rewrite Z in A9.
    rewrite (total_ext _ _ (fun x _ => xvalue E (m_scope m) nl cols r c x (nzero F))) in A9 by (intros x a I; apply (xvalue_acc E NL); auto).
    rewrite (total_ext _ _ (fun x _ => xvalue E (m_scope m) nl cols r c x (nzero F))) in B9.
    2:{ intros x a I. apply (Permutation_in x PX) in I. rewrite (xvalue_acc E NL _ _ _ _ _ _ (nzero F) a) by auto. symmetry. apply (same_xvalue E NL simple xs (length cols)); auto. lia. }
    rewrite (total_perm (xs_assoc F XS) (xs_comm F XS) _ _ _ _ PX) in B9. congruence.
  Qed.
End Shuffle.
Print Assumptions C113_order_of_expressions.

(** ** The hypotheses are met: "1 @ A" and "2" in both orders *)
Definition sh_ops : list (mop xenv) := x_ops ++ [MAppend xenv 0 "2" None].
Definition sh_ops' : list (mop xenv) := x_ops ++ [MClearExprs xenv 0; MAppend xenv 0 "2" None; MAppend xenv 0 "1 @ A" None].
Definition sh_world (xs : list (@expression nat)) : mworld xenv :=
  MWorld (E:=xenv) (World [] [Container xs [] [] []]) [] [CM (E:=xenv) x_tree [] (Some ["h"]) None].
Lemma sh_state : mrun xenv (new_mworld xenv) sh_ops = sh_world [x_expr; x_expr2].
Proof. unfold sh_ops. rewrite mrun_app, x_state. xcomp. reflexivity. Qed.
Lemma sh_state' : mrun xenv (new_mworld xenv) sh_ops' = sh_world [x_expr2; x_expr].
Proof. unfold sh_ops'. rewrite mrun_app, x_state. xcomp. reflexivity. Qed.
Lemma sh_orderly rest : (forall w, orderly_history xenv w rest) -> orderly_history xenv (new_mworld xenv) (x_ops ++ rest).
Proof.
  intros H. unfold x_ops. cbn [app orderly_history].
  change (mstep xenv (new_mworld xenv) (MNew xenv)) with (x_treed new_tree). rewrite x_step1, x_step2. cbn [orderly].
  repeat split; try exact I; try (intros n s []); try discriminate; try apply H; match goal with H : SpecTree.is_key _ _ |- _ => exfalso; cbn in H; intuition discriminate | _ => idtac end.
Qed.
Example C113_hypotheses_met :
  let w := mrun xenv (new_mworld xenv) sh_ops in let w' := mrun xenv (new_mworld xenv) sh_ops' in
  numexpr_local xenv /\ frame_laws xenv /\ exact_sums XR /\ orderly_history xenv (new_mworld xenv) sh_ops /\ orderly_history xenv (new_mworld xenv) sh_ops' /\
  selection (mheap xenv w) (mcont xenv w 0) None = Ok ([], [x_expr; x_expr2]) /\ selection (mheap xenv w') (mcont xenv w' 0) None = Ok ([], [x_expr2; x_expr]) /\
  (forall x, In x [x_expr; x_expr2] -> plain_names [] x /\ ~ In "OUT" (free_names (e_trans x))) /\
  same_data xenv (evaluated_names [] [x_expr; x_expr2]) 2 (m_scope (model xenv w 0)) 0 (m_scope (model xenv w' 0)) 0 /\
  snd (run_utilities xenv (mheap xenv w) (mcont xenv w 0) (mw_tabs w) (model xenv w 0) None false) = Ok [[Fin (0 + INR 1 + INR 2)%R; Fin (0 + INR 2)%R]] /\
  snd (run_utilities xenv (mheap xenv w') (mcont xenv w' 0) (mw_tabs w') (model xenv w' 0) None false) = Ok [[Fin (0 + INR 2 + INR 1)%R; Fin (0 + INR 2)%R]].
Proof.
  cbv zeta. rewrite sh_state, sh_state'. split; [apply e_local|]. split; [apply e_frame_laws|]. split; [apply xr_exact_sums|].
  split; [apply sh_orderly; intros w; cbn; repeat split|]. split; [apply sh_orderly; intros w; cbn; repeat split|].
  split; [reflexivity|]. split; [reflexivity|].
  split. { intros x [<-|[<-|[]]]; (split; [split; intros y Y; cbn in Y; intuition subst; reflexivity|intros []]). }
  split. { intros name _. reflexivity. }
  split; xcomp; reflexivity.
Qed.

(** ** The property itself, "the order of the expressions does not matter", is false of the code.
    With floats: 10^16 - 10^16 + 1 is 1, 1 + 10^16 - 10^16 is 0. *)
Definition big : Z := 10000000000000000%Z.
Definition fl_ops (texts : list string) : list (mop idE) :=
  [MNew idE; MTree idE 0 (@AddChoices (B64 (fun x => x) (fun x => x)) ["A"; "B"] false None); MUnits idE 0 ["h"];
   MDeclare idE 0 "x" (DeclVector 0); MAssign idE 0 "x" (fseries (fun x => x) (fun x => x) ["h"] [big]);
   MDeclare idE 0 "y" (DeclVector 0); MAssign idE 0 "y" (fseries (fun x => x) (fun x => x) ["h"] [(- big)%Z])] ++ map (fun s => MAppend idE 0 s None) texts.
Theorem C113_order_matters_refuted :
  futilities _ _ (mrun idE (new_mworld idE) (fl_ops ["x"; "y"; "1"])) None = Ok [[sfz 1; sfz 1]] /\
  futilities _ _ (mrun idE (new_mworld idE) (fl_ops ["1"; "x"; "y"])) None = Ok [[sfz 0; sfz 0]] /\ sfz 1 <> sfz 0.
Proof. split; [vm_compute; reflexivity|]. split; [vm_compute; reflexivity|]. vm_compute. discriminate. Qed.
(** With OUT, whatever the arithmetic: x after nothing, OUT after x. *)
Theorem C113_order_of_out_refuted :
  futilities _ _ (fworld _ _ [MAppend idE 0 "x" None; MAppend idE 0 "OUT" None]) None = Ok [[sfz 6; sfz 6]; [sfz 10; sfz 10]] /\
  futilities _ _ (fworld _ _ [MAppend idE 0 "OUT" None; MAppend idE 0 "x" None]) None = Ok [[sfz 3; sfz 3]; [sfz 5; sfz 5]].
Proof. split; vm_compute; reflexivity. Qed.
Print Assumptions C113_order_matters_refuted.
Print Assumptions C113_order_of_out_refuted.
