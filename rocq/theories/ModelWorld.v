(** Invariants of histories of calls on several models: the expressions of a container or group were
    parsed, and their symbols are registered there. *)
From Coq Require Import Ascii.
From Verif Require Import Prelude Arith CoreModel TreeModel DictProofs ParModel ExprModel SpecExpr ExprProofs ExprUses ExprNames ExprContainer ExprWorld ScopeModel SpecScope ModelModel ModelProofs SpecModel KernelProofs.
Local Open Scope string_scope.
Local Open Scope nat_scope.
Local Open Scope list_scope.

Lemma in_sunion x : forall m l, In x (sunion l m) <-> In x l \/ In x m.
Proof.
  induction m as [|y m IH]; intros l; cbn; [tauto|]. change (fold_left _ m (sadd y l)) with (sunion (sadd y l) m). rewrite IH, in_sadd. intuition auto.
Qed.
Lemma in_upd {A} : forall (l : list A) i x y, In y (upd l i x) -> y = x \/ In y l.
Proof.
  induction l as [|a l IH]; intros [|i] x y H; cbn in *; auto; destruct H as [->|H]; auto.
  destruct (IH _ _ _ H); auto.
Qed.

Section Registered.
  Context {L : Type} (nfn : string -> bool) (pyparse : string -> res (expr L)).
  Notation expression := (@expression L).
  Notation subgroup := (@subgroup L).
  Notation container := (@container L).
  Notation world := (@world L).

  (** [x] is the result of parsing its text *)
  Definition parsed (x : expression) : Prop := exists simple chained sets, parse nfn pyparse (e_raw x) simple chained = (sets, Ok x).
  Definition registered (simple chained : list string) (xs : list expression) : Prop :=
    forall x, In x xs -> parsed x /\ incl (e_symbols x) simple /\ incl (dkeys (e_chains x)) chained.
  Definition reg_group (s : subgroup) : Prop := registered (sg_simple s) (sg_chained s) (sg_exprs s).
  Definition reg_container (c : container) : Prop := registered (c_simple c) (c_chained c) (c_ungrouped c).
  Record reg (w : world) : Prop := Reg { rg_heap : Forall reg_group (w_heap w); rg_conts : Forall reg_container (w_conts w) }.

  Lemma reg_new : reg new_world. Proof. constructor; constructor. Qed.
  Lemma reg_append s x : reg_group s -> parsed x -> reg_group (sg_append s x).
  Proof.
    intros R P y I. cbn in *. apply in_app_or in I. destruct I as [I|[->|[]]].
    - destruct (R y I) as (A & B & C). split; auto. split; intros z Z; apply in_sunion; auto.
    - split; auto. split; intros z Z; apply in_sunion; auto.
  Qed.
  Lemma reg_empty_group n : reg_group (new_subgroup n). Proof. intros x []. Qed.
  Lemma reg_fold : forall xs s, reg_group s -> (forall x, In x xs -> parsed x) -> reg_group (fold_left sg_append xs s).
  Proof. induction xs as [|x xs IH]; intros s R P; cbn; auto. apply IH; [apply reg_append; auto; apply P; simpl; auto|intros; apply P; simpl; auto]. Qed.
  Lemma reg_deref (w : world) r : reg w -> reg_group (deref (w_heap w) r).
  Proof.
    intros [R _]. unfold deref. destruct (lt_dec r (length (w_heap w))); [|rewrite nth_overflow by lia; apply reg_empty_group].
    rewrite Forall_forall in R. apply R, nth_In; auto.
  Qed.
  Lemma reg_deref_heap h r : Forall reg_group h -> reg_group (deref h r).
  Proof. intros R. apply (reg_deref (World h [])). constructor; [exact R|constructor]. Qed.
  Lemma reg_cont (w : world) i : reg w -> reg_container (cont w i).
  Proof.
    intros [_ R]. unfold cont. destruct (lt_dec i (length (w_conts w))); [|rewrite nth_overflow by lia; intros x []].
    rewrite Forall_forall in R. apply R, nth_In; auto.
  Qed.
  Lemma reg_exprs_parsed s x : reg_group s -> In x (sg_exprs s) -> parsed x.
  Proof. intros R I. apply (R x I). Qed.
  Lemma reg_upd_heap h r s : Forall reg_group h -> reg_group s -> Forall reg_group (upd h r s).
  Proof. intros R S. apply Forall_forall. intros y I. apply in_upd in I. destruct I as [->|I]; auto. rewrite Forall_forall in R; auto. Qed.
  Lemma reg_upd_conts cs i c : Forall reg_container cs -> reg_container c -> Forall reg_container (upd cs i c).
  Proof. intros R S. apply Forall_forall. intros y I. apply in_upd in I. destruct I as [->|I]; auto. rewrite Forall_forall in R; auto. Qed.

  Lemma reg_step (w : world) o : reg w -> reg (cstep nfn pyparse w o).
  Proof.
    intros RW. pose proof (fun i => reg_cont w i RW) as RC. pose proof (fun r => reg_deref w r RW) as RD. destruct RW as [RH RCS].
    destruct o as [|i e g|i|i g|i|i j keys]; cbn [cstep].
    - constructor; cbn; auto. apply Forall_app. split; auto. constructor; auto. intros x [].
    - destruct (append nfn pyparse (w_heap w) (cont w i) e g) as [[h c] r] eqn:A. unfold append in A.
      destruct (parse nfn pyparse e (c_simple (cont w i)) (c_chained (cont w i))) as [[s ch] r'] eqn:P.
      pose proof (parse_sets _ _ _ _ _ _ _ _ P) as (I1 & I2 & _).
      assert (KEEP : forall subs, reg_container (Container (c_ungrouped (cont w i)) s ch subs)).
      { intros subs x I. destruct (RC i x I) as (X & Y & Z). split; auto. split; eapply incl_tran; eauto. }
      destruct r' as [ex|x].
      + assert (PX : parsed ex).
        { pose proof (parse_ok _ _ _ _ _ _ _ _ P) as (e0 & st & _ & _ & _ & _ & _ & _ & _ & RAW). red. rewrite RAW. eauto. }
        destruct g as [g|]; [destruct (dget String.eqb (c_subs (cont w i)) g) as [r0|]|]; injection A as <- <- <-; constructor; cbn.
        * apply reg_upd_heap; auto. apply reg_append; auto.
        * apply reg_upd_conts; auto.
        * apply Forall_app. split; auto. constructor; auto. apply reg_append; auto. apply reg_empty_group.
        * apply reg_upd_conts; auto.
        * auto.
        * apply reg_upd_conts; auto. intros y I. cbn in *. apply in_app_or in I. destruct I as [I|[->|[]]].
          -- destruct (RC i y I) as (X & Y & Z). split; auto. split; intros z IZ; apply in_sunion; auto.
          -- split; auto. split; intros z IZ; apply in_sunion; auto.
      + injection A as <- <- <-. constructor; cbn; auto. apply reg_upd_conts; auto.
    - constructor; cbn; auto. apply reg_upd_conts; auto. intros x [].
    - constructor; cbn; auto. apply reg_upd_conts; auto. unfold drop_group. destruct (dmem _ _ _); cbn; apply RC.
    - destruct (copy (w_heap w) (cont w i)) as [h c] eqn:A. unfold copy in A.
      destruct (copy_subs (w_heap w) (c_subs (cont w i)) []) as [h' subs] eqn:CS. injection A as <- <-. constructor; cbn.
      + revert CS. generalize (c_subs (cont w i)) as l. generalize (@nil (string * nat)) as acc. generalize RH. generalize (w_heap w) as h.
        intros h R acc l. revert h R acc. induction l as [|[n r] l IH]; intros h R acc H; cbn in H; [injection H as <- _; auto|].
        eapply IH; [|exact H]. apply Forall_app. split; auto. constructor; auto. apply reg_fold; [apply reg_empty_group|].
        intros x. apply reg_exprs_parsed. now apply reg_deref_heap.
      + apply Forall_app. split; auto. constructor; auto. intros x I. cbn in *. destruct (RC i x I) as (X & _ & _). split; auto.
        assert (G : forall (f : expression -> list string) xs acc, (In x xs \/ incl (f x) acc) -> incl (f x) (fold_left (fun s y => sunion s (f y)) xs acc)).
        { intros f. induction xs as [|y xs IH]; intros acc H; cbn; [destruct H as [[]|H]; auto|]. apply IH.
          destruct H as [[->|H]|H]; auto; right; intros z Z; apply in_sunion; auto. }
        split; [apply (G (fun y => e_symbols y))|apply (G (fun y => dkeys (e_chains y)))]; auto.
    - destruct (add (w_heap w) (cont w i) (cont w j) keys) as [h c] eqn:A. unfold add in A.
      destruct (add_subs (w_heap w) (cont w i) (cont w j) keys []) as [h' subs] eqn:CS. injection A as <- <-. constructor; cbn.
      + revert CS. generalize (@nil (string * nat)) as acc. generalize RH. generalize (w_heap w) as h.
        induction keys as [|k ks IH]; intros h R acc H; cbn in H; [injection H as <- _; auto|].
        destruct (dget String.eqb (c_subs (cont w i)) k) as [ra|], (dget String.eqb (c_subs (cont w j)) k) as [rb|]; eauto.
        eapply IH; [|exact H]. apply Forall_app. split; auto. constructor; auto. unfold sg_add. apply reg_fold; [apply reg_fold; [apply reg_empty_group|]|];
          intros x; apply reg_exprs_parsed; now apply reg_deref_heap.
      + apply Forall_app. split; auto. constructor; auto. intros x I. cbn in *. apply in_app_or in I.
        destruct I as [I|I]; [destruct (RC i x I) as (X & Y & Z)|destruct (RC j x I) as (X & Y & Z)]; split; auto; split; intros z IZ; apply in_sunion; auto.
  Qed.
End Registered.

Section World.
  Context {L : Type} {F : arith} {D cell : Type} (E : env L F D cell).
  Notation cm := (cm E).
  Notation mworld := (mworld E).
  Notation mreg w := (reg (ev_fn E) (ev_parse E) (mw_ex w)).

  Lemma preval_container h c ts m g dr cl ts' c' m' r : preval E h c ts m g dr cl = (ts', c', m', r) -> c' = c \/ c' = fst (drop_group c g).
  Proof.
    unfold preval. destruct (validate E h c m (Some g)); [|intros H; injection H as <- <- <- <-; auto].
    destruct (get_group h c g) as [s|]; [|intros H; injection H as <- <- <- <-; auto].
    destruct (evaluate E ts m (sg_simple s) (sg_exprs s)) as [[ts1 m1] [u|x]]; [|intros H; injection H as <- <- <- <-; auto].
    destruct (if cl then _ else _) as [sc r2]. destruct r2; [|intros H; injection H as <- <- <- <-; auto].
    destruct dr; [destruct (drop_group c g)|]; intros H; injection H as <- <- <- <-; cbn; auto.
  Qed.
  Lemma mreg_step (w : mworld) o : mreg w -> mreg (mstep E w o).
  Proof.
    intros R. pose proof (fun o => reg_step (ev_fn E) (ev_parse E) (mw_ex w) o R) as ST.
    destruct o as [|j o|j d|j name d|j name v|j|j text g|j|j g|j g cl sc ck|j n cl|j g dr cl|j f|j mi mask|j en|j gr gc gt gb gd gm]; cbn [mstep]; try (exact R); try (apply ST).
    - destruct o; exact R.
    - destruct (run_stochastic _ _ _ _ _ _ _ _ _) as [[ts m] r]. exact R.
    - destruct (run_discrete_utilities _ _ _ _ _ _ _) as [[ts m] r]. exact R.
    - destruct (preval E (mheap E w) (mcont E w j) (mw_tabs w) (model E w j) g dr cl) as [[[ts c] m] r] eqn:P. apply preval_container in P.
      pose proof (ST (ODrop j g)) as SD. destruct R as [RH RC]. cbn. destruct P as [->| ->].
      + constructor; cbn; auto. apply reg_upd_conts; auto. apply reg_cont. constructor; auto.
      + exact SD.
    - destruct (copy_model _ _ _ _) as [ts m]. cbn. apply ST.
    - destruct (copy_subset _ _ _ _ _) as [ts [m|x]]; [apply ST|exact R].
    - destruct (give _ _ _ _ _ _ _ _ _) as [ts m]. exact R.
  Qed.
  Lemma mreg_run : forall ops w, mreg w -> mreg (mrun E w ops).
  Proof. induction ops as [|o ops IH]; intros w R; [exact R|]. cbn. apply IH. now apply mreg_step. Qed.

  (** the expressions selected for a run, and their symbols *)
  Lemma selected_registered (w : mworld) i group simple xs names : mreg w ->
    selection (mheap E w) (mcont E w i) group = Ok (simple, xs) -> symbols_to_check (mheap E w) (mcont E w i) group = Ok names ->
    (forall y, In y simple -> In y names) /\
    forall x, In x xs -> parsed (ev_fn E) (ev_parse E) x /\ incl (e_symbols x) simple /\ incl (dkeys (e_chains x)) names.
  Proof.
    intros R S C. unfold selection in S. unfold symbols_to_check in C. destruct group as [g|].
    - destruct (get_group (mheap E w) (mcont E w i) g) as [s|] eqn:G; [|discriminate]. cbn in S, C. injection S as <- <-. injection C as <-.
      split; [intros y I; apply in_or_app; auto|]. assert (RS : reg_group (ev_fn E) (ev_parse E) s).
      { unfold get_group in G. destruct (dget _ _ _) as [r|]; [|discriminate]. injection G as <-. now apply reg_deref. }
      intros x I. destruct (RS x I) as (A & B & Cc). split; auto. split; auto. intros z Z. apply in_or_app. auto.
    - injection S as <- <-. injection C as <-. split; [intros y I; apply in_or_app; auto|]. intros x I. apply in_iter in I.
      destruct I as [I|(n & r & I & J)].
      + destruct (reg_cont _ _ (mw_ex w) i R x I) as (A & B & Cc). split; auto. unfold itersimple, iterchained. split; intros z Z.
        * apply in_or_app. left. now apply B.
        * apply in_or_app. right. apply in_or_app. left. now apply Cc.
      + destruct (reg_deref _ _ (mw_ex w) r R x J) as (A & B & Cc). split; auto.
        assert (G : forall (f : @subgroup L -> list string) z, In z (f (deref (mheap E w) r)) -> In z (concat (map f (subs_of (mheap E w) (mcont E w i))))).
        { intros f z Z. apply in_concat. exists (f (deref (mheap E w) r)). split; auto. apply in_map. unfold subs_of. apply in_map. unfold dvals.
          apply in_map_iff. exists (n, r). auto. }
        split; intros z Z.
        * unfold itersimple. apply in_or_app. right. apply G. now apply B.
        * apply in_or_app. right. unfold iterchained. apply in_or_app. right. apply G. now apply Cc.
  Qed.
End World.
