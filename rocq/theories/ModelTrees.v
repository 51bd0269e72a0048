(** The trees of the models of any history whose tree operations replace no nest. *)
From Verif Require Import Prelude Arith CoreModel TreeModel DictProofs TreeProofs SpecTree TreeMore TreeHist ParModel
  ExprModel SpecExpr ScopeModel SpecScope ModelModel ModelProofs SpecModel ModelWorld.
Local Open Scope nat_scope.
Local Open Scope list_scope.

Section Trees.
  Context {L : Type} {F : arith} {D cell : Type} (E : env L F D cell).
  Notation cm := (cm E).
  Notation mworld := (mworld E).
  Notation mop := (mop E).

  (** Each operation on a tree names an existing choice only to replace one without children (C26). *)
  Definition tree_orderly (w : mworld) (o : mop) : Prop :=
    match o with MTree _ i o => replacing_op (m_tree (model E w i)) o | _ => True end.
  Fixpoint tree_history (w : mworld) (l : list mop) : Prop :=
    match l with [] => True | o :: t => tree_orderly w o /\ tree_history (mstep E w o) t end.

  Definition sound (m : cm) : Prop := inv F (m_tree m).
  Lemma sound_all w i : Forall sound (mw_models w) -> sound (model E w i).
  Proof.
    intros G. unfold model. destruct (lt_dec i (length (mw_models w))); [|rewrite nth_overflow by lia; apply inv_new].
    rewrite Forall_forall in G. apply G, nth_In; auto.
  Qed.
  Lemma result_sound w o : (forall i, sound (model E w i)) -> tree_orderly w o -> opt_target E o <> None -> sound (step_result E w o).
  Proof.
    intros G O T. unfold sound in *. destruct o as [|k o|k d|k nm d|k nm v|k|k text g|k|k g|k g cl sc ck|k n cl|k g dr cl|k f|k mi mask|k en|k gr gc gt gb gd gm]; cbn in T; try congruence; cbn [step_result].
    - assert (X : sound (tree_op E (model E w k) o)).
      { unfold sound, tree_op. cbn [m_tree]. apply run_op_inv; [|destruct o; exact O]. destruct (G k) as [C W]. split; [now apply consistent_cache|exact W]. }
      destruct o; auto.
    - exact (G k).
    - unfold declare. destruct (reserved nm); [apply G|]. destruct (new_symbol E d) as [s|]; apply G.
    - unfold assign_symbol. destruct (dget _ _ nm) as [s|]; [|apply G]. destruct (assign _ _ _ _ s v) as [s'|]; apply G.
    - exact (G k).
    - destruct (run_stochastic E (mheap E w) (mcont E w k) (mw_tabs w) (model E w k) g cl sc ck) as [[ts m] r] eqn:R. apply stochastic_touch in R. destruct R as (R & _). cbn [fst snd]. rewrite R. apply G.
    - destruct (run_discrete_utilities E (mheap E w) (mcont E w k) (mw_tabs w) (model E w k) n cl) as [[ts m] r] eqn:R. apply discrete_touch in R. destruct R as (R & _). cbn [fst snd]. rewrite R. apply G.
    - destruct (preval E (mheap E w) (mcont E w k) (mw_tabs w) (model E w k) g dr cl) as [[[ts c] m] r] eqn:R. apply preval_touch in R. destruct R as (R & _). cbn [fst snd]. rewrite R. apply G.
    - unfold empty_symbol. destruct (dget _ _ en); apply G.
    - destruct (give E (mw_tabs w) (model E w k) gr gc gt gb gd gm) as [ts m] eqn:R. apply give_touch in R. destruct R as (R & _). cbn [snd]. rewrite R. apply G.
  Qed.
  Lemma sound_upd l i m : Forall sound l -> sound m -> Forall sound (upd l i m).
  Proof. intros G M. apply Forall_forall. intros y I. apply in_upd in I. destruct I as [->|I]; auto. rewrite Forall_forall in G; auto. Qed.
  Lemma step_sound w o : Forall sound (mw_models w) -> tree_orderly w o -> Forall sound (mw_models (mstep E w o)).
  Proof.
    intros G O. pose proof (fun i => sound_all w i G) as GM. pose proof (result_sound w o GM O) as RG.
    destruct o as [|k o|k d|k nm d|k nm v|k|k text g|k|k g|k g cl sc ck|k n cl|k g dr cl|k f|k mi mask|k en|k gr gc gt gb gd gm]; cbn [mstep opt_target step_result] in *;
      try (apply sound_upd; [exact G|apply RG; congruence]); try exact G.
    - apply Forall_app. split; auto. constructor; auto. apply inv_new.
    - destruct o; try (apply sound_upd; [exact G|apply RG; congruence]). exact G.
    - destruct (run_stochastic _ _ _ _ _ _ _ _ _) as [[ts m] r]. apply sound_upd; [exact G|apply RG; congruence].
    - destruct (run_discrete_utilities _ _ _ _ _ _ _) as [[ts m] r]. apply sound_upd; [exact G|apply RG; congruence].
    - destruct (preval _ _ _ _ _ _ _ _) as [[[ts c] m] r]. apply sound_upd; [exact G|apply RG; congruence].
    - destruct (copy_model E (mw_tabs w) (model E w k) f) as [ts m] eqn:R. apply Forall_app. split; auto. constructor; auto.
      assert (Q : m_tree m = m_tree (model E w k)) by (unfold copy_model in R; destruct (m_utils (model E w k)); [destruct (cf_utils f)|]; injection R as <- <-; reflexivity).
      unfold sound. rewrite Q. apply GM.
    - destruct (copy_subset E (mw_tabs w) (model E w k) mi mask) as [ts [m|x]] eqn:R; [|exact G]. apply Forall_app. split; auto. constructor; auto.
      assert (Q : m_tree m = m_tree (model E w k)).
      { unfold copy_subset in R. apply (f_equal snd) in R. cbn [snd] in R. destruct (units E (model E w k)) as [d|]; [|discriminate]. destruct (index_equals (ev_eq E) mi d); [|discriminate].
        destruct (m_utils (model E w k)) as [u|]; [destruct (index_equals (ev_eq E) mi (u_index u)); [|discriminate]|]; injection R as <-; reflexivity. }
      unfold sound. rewrite Q. apply GM.
    - destruct (give _ _ _ _ _ _ _ _ _) as [ts m]. apply sound_upd; [exact G|apply RG; congruence].
  Qed.
  Lemma history_sound : forall ops w, Forall sound (mw_models w) -> tree_history w ops -> Forall sound (mw_models (mrun E w ops)).
  Proof. induction ops as [|o ops IH]; intros w G H; [exact G|]. destruct H as [H1 H2]. cbn. apply IH; auto. now apply step_sound. Qed.
  Lemma reachable_sound ops i : tree_history (new_mworld E) ops -> inv F (m_tree (model E (mrun E (new_mworld E) ops) i)).
  Proof. intros H. apply sound_all, history_sound; auto. constructor. Qed.
End Trees.
