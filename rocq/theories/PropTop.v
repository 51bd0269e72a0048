(** C30 for whole models: choices added at the top. *)
From Verif Require Import Prelude Arith TreeModel ExprModel ScopeModel ModelModel ModelExample ModelProofs PropTree CopyExamples PropReads ModelHist PropState PropState.
Local Open Scope nat_scope.
Local Open Scope list_scope.

(** [add_choice] or [add_choices] of the model *)
Definition adds_at_top {F : arith} (o : op F) : Prop :=
  match o with AddChoice _ _ | AddChoices _ _ _ => True | _ => False end.

Section Top.
  Context {L : Type} {F : arith} {D cell : Type} (E : env L F D cell).
  Notation mworld := (mworld E).

  (** the world in which model [i] has not been run: it has no utilities *)
  Definition never_run (w : mworld) (i : nat) : mworld :=
    set_model E w (mw_tabs w) i (CM (E:=E) (m_tree (model E w i)) (m_scope (model E w i)) (m_du (model E w i)) None).

  Lemma never_run_model w i : model E (never_run w i) i = CM (E:=E) (m_tree (model E w i)) (m_scope (model E w i)) (m_du (model E w i)) None.
  Proof.
    unfold never_run, set_model. unfold model at 1. cbn [mw_models]. destruct (Nat.lt_ge_cases i (length (mw_models w))) as [LT|GE].
    - now rewrite nth_upd_eq.
    - rewrite upd_out by auto. rewrite nth_overflow by auto. unfold model. rewrite nth_overflow by auto. reflexivity.
  Qed.
  Lemma cache_irrelevant (m : cm E) o : adds_at_top o -> tree_op E m o = tree_op E (CM (E:=E) (m_tree m) (m_scope m) (m_du m) None) o.
  Proof.
    intros H. unfold tree_op. cbn [m_tree m_scope m_du m_utils option_map].
    destruct o as [name scale|names once scales| | |]; try contradiction; cbn [run_op].
    - change (add_choice F (set_cached (m_tree m) (option_map u_cols (m_utils m))) name scale) with (add_choice F (set_cached (m_tree m) None) name scale).
      destruct (C30_top_level_add_partial F (set_cached (m_tree m) None) name scale [] false None) as [C _]. now rewrite C.
    - change (add_choices F (set_cached (m_tree m) (option_map u_cols (m_utils m))) names once scales) with (add_choices F (set_cached (m_tree m) None) names once scales).
      destruct (C30_top_level_add_partial F (set_cached (m_tree m) None) ""%string (none_ F) names once scales) as [_ C]. now rewrite C.
  Qed.

  (** After choices are added at the top, successfully or not, the model has no utilities from earlier runs, and the whole
      state, so every later run of it, is what it would be had the model never been run. *)
  Theorem C30_top_level_addition_forgets_runs w i o : adds_at_top o ->
    mstep E w (MTree E i o) = mstep E (never_run w i) (MTree E i o) /\ m_utils (model E (mstep E w (MTree E i o)) i) = None.
  Proof.
    intros H.
    assert (S : forall w, mstep E w (MTree E i o) = set_model E w (mw_tabs w) i (tree_op E (model E w i) o)) by (intros w0; destruct o; try contradiction; reflexivity).
    split.
    - rewrite !S, never_run_model, <- (cache_irrelevant (model E w i) o H). unfold never_run, set_model. cbn [mw_ex mw_tabs mw_models]. now rewrite upd_twice.
    - rewrite S. unfold set_model. unfold model at 1. cbn [mw_models]. destruct (Nat.lt_ge_cases i (length (mw_models w))) as [LT|GE].
      + rewrite nth_upd_eq by auto. rewrite (cache_irrelevant _ _ H). unfold tree_op. cbn [m_utils]. now destruct (t_cached _).
      + rewrite upd_out by auto. rewrite nth_overflow by auto. reflexivity.
  Qed.
End Top.
Print Assumptions C30_top_level_addition_forgets_runs.

(** A model that has been run (its utilities are kept), and choices added. *)
Example C30_top_level_met :
  let w := fworld (fun x => x) (fun x => x) [MAppend idE 0 "x"%string None; MStochastic idE 0 None false true true] in
  m_utils (model idE w 0) <> None /\ m_utils (model idE (mstep idE w (MTree idE 0 (@AddChoices (B64 (fun x => x) (fun x => x)) ["C"; "D"]%string false None))) 0) = None /\
  futilities _ _ (mstep idE w (MTree idE 0 (@AddChoices (B64 (fun x => x) (fun x => x)) ["C"]%string false None))) None = Ok [[sfz 3; sfz 3; sfz 3]; [sfz 5; sfz 5; sfz 5]].
Proof. split; [|split; [reflexivity|vm_compute; reflexivity]]. intros H. vm_compute in H. discriminate H. Qed.
