(** The symbol sets of a group of expressions are exactly the symbols its expressions use. *)
From Verif Require Import Prelude Arith TreeModel DictProofs ExprModel SpecExpr ExprWorld ModelWorld.
Local Open Scope string_scope.
Local Open Scope nat_scope.
Local Open Scope list_scope.

(** [xs] use the symbol, by itself or with attributes *)
Definition used_in {L} (xs : list (@expression L)) (y : string) : Prop := exists x, In x xs /\ (In y (e_symbols x) \/ In y (dkeys (e_chains x))).

Section Tight.
  Context {L : Type}.
  Notation subgroup := (@subgroup L).
  Notation world := (@world L).
  Record tight (s : subgroup) : Prop := Tight {
    tt_simple : forall y, In y (sg_simple s) <-> exists x, In x (sg_exprs s) /\ In y (e_symbols x);
    tt_chained : forall y, In y (sg_chained s) <-> exists x, In x (sg_exprs s) /\ In y (dkeys (e_chains x))
  }.
  Lemma tight_used s : tight s -> forall y, In y (sg_simple s) \/ In y (sg_chained s) <-> used_in (sg_exprs s) y.
  Proof.
    intros [A B] y. rewrite A, B. unfold used_in. split; [intros [(x & I & H)|(x & I & H)]; eauto|]. intros (x & I & [H|H]); eauto.
  Qed.
  Lemma tight_new n : tight (new_subgroup n).
  Proof. constructor; intros y; cbn; (split; [intros []|intros (x & [] & _)]). Qed.
  Lemma tight_append s x : tight s -> tight (sg_append s x).
  Proof.
    intros [A B]. constructor; intros y; cbn; rewrite in_sunion, ?A, ?B; (split; [intros [(z & I & U)|H]; [exists z|exists x]; (split; [apply in_or_app; simpl; auto|auto])|]);
      intros (z & I & U); apply in_app_or in I; destruct I as [I|[->|[]]]; eauto.
  Qed.
  Lemma tight_fold : forall xs s, tight s -> tight (fold_left sg_append xs s).
  Proof. induction xs as [|x xs IH]; intros s T; cbn; auto. apply IH. now apply tight_append. Qed.
  Lemma tight_deref h r : Forall tight h -> tight (deref h r).
  Proof.
    intros R. unfold deref. destruct (lt_dec r (length h)); [|rewrite nth_overflow by lia; apply tight_new]. rewrite Forall_forall in R. apply R, nth_In; auto.
  Qed.
  Lemma tight_step nfn pyparse (w : world) o : Forall tight (w_heap w) -> Forall tight (w_heap (cstep nfn pyparse w o)).
  Proof.
    intros T. destruct o as [|i e g|i|i g|i|i j keys]; cbn [cstep]; auto.
    - destruct (append nfn pyparse (w_heap w) (cont w i) e g) as [[h c] r] eqn:A. unfold append in A. cbn [w_heap].
      destruct (parse nfn pyparse e (c_simple (cont w i)) (c_chained (cont w i))) as [[s ch] [ex|x]]; [|injection A as <- <- <-; auto].
      destruct g as [g|]; [destruct (dget String.eqb (c_subs (cont w i)) g) as [r0|]|]; injection A as <- <- <-; auto.
      + apply Forall_forall. intros z I. apply in_upd in I. destruct I as [->|I]; [apply tight_append, tight_deref, T|]. rewrite Forall_forall in T; auto.
      + apply Forall_app. split; auto. constructor; auto. apply tight_append, tight_new.
    - unfold copy. destruct (copy_subs (w_heap w) (c_subs (cont w i)) []) as [h' subs] eqn:CS. cbn.
      revert CS. generalize (c_subs (cont w i)) as l. generalize (@nil (string * nat)) as acc. revert T. generalize (w_heap w) as h.
      intros h T acc l. revert h T acc. induction l as [|[n r] l IH]; intros h R acc H; cbn in H; [injection H as <- _; auto|].
      eapply IH; [|exact H]. apply Forall_app. split; auto. constructor; auto. apply tight_fold, tight_new.
    - destruct (add (w_heap w) (cont w i) (cont w j) keys) as [h c] eqn:A. unfold add in A.
      destruct (add_subs (w_heap w) (cont w i) (cont w j) keys []) as [h' subs] eqn:CS. injection A as <- <-. cbn.
      revert CS. generalize (@nil (string * nat)) as acc. revert T. generalize (w_heap w) as h.
      induction keys as [|k ks IH]; intros h R acc H; cbn in H; [injection H as <- _; auto|].
      destruct (dget String.eqb (c_subs (cont w i)) k) as [ra|], (dget String.eqb (c_subs (cont w j)) k) as [rb|]; eauto.
      eapply IH; [|exact H]. apply Forall_app. split; auto. constructor; auto. unfold sg_add. apply tight_fold, tight_fold, tight_new.
  Qed.
  Lemma fold_sets (f : @expression L -> list string) y : forall xs acc, In y (fold_left (fun s x => sunion s (f x)) xs acc) <-> In y acc \/ exists x, In x xs /\ In y (f x).
  Proof.
    induction xs as [|x xs IH]; intros acc; cbn; [split; [auto|intros [|(x & [] & _)]; auto]|]. rewrite IH, in_sunion. split.
    - intros [[H|H]|(z & I & H)]; eauto.
    - intros [H|(z & [->|I] & H)]; eauto.
  Qed.
End Tight.

