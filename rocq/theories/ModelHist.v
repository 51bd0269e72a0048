(** Invariants of orderly histories: data assigned to the symbols stay aligned with the decision units and
    choices, the labels of the choices are distinct, substituted names do not collide. *)
From Coq Require Import Ascii.
From Verif Require Import Prelude Arith CoreModel TreeModel DictProofs TreeProofs SpecTree TreeMore TreeHist ParModel
  ExprModel SpecExpr ExprProofs ExprUses ExprNames ExprContainer ExprWorld ScopeModel SpecScope ScopeProofs ModelModel ModelProofs SpecModel KernelProofs EvalProofs ModelExample ModelWorld.
Local Open Scope string_scope.
Local Open Scope nat_scope.
Local Open Scope list_scope.

(** ** Names *)
Section Names.
  Context {L : Type} (nfn : string -> bool) (pyparse : string -> res (expr L)).
  (** A parsed expression is free of collisions when no chained symbol ends in a digit (C36) and no symbol
      used by itself starts with two underscores. *)
  Definition plain_names (simple : list string) (x : @expression L) : Prop :=
    (forall y, In y (dkeys (e_chains x)) -> ends_in_digit y = false) /\
    (forall y, In y simple -> String.prefix "__" y = false).
  Lemma sub_underscore (x : @expression L) s : parsed nfn pyparse x -> In s (substitutions x) -> String.prefix "__" s = true.
  Proof.
    intros (si & ch & [s' c'] & P) I. apply parse_ok in P. destruct P as (e & st & T & V & _ & _ & E1 & E2 & _ & _).
    destruct (visit_inv _ _ _ _ _ V (wf_init si ch)) as (W & _ & _). destruct W as (_ & W2 & W3).
    unfold substitutions in I. rewrite E1, E2 in I. apply in_app_or in I. destruct I as [I|I].
    - apply in_concat in I. destruct I as (l & I1 & I2). apply in_map_iff in I1. destruct I1 as ((n & us) & <- & I1). cbn [snd] in I2. rewrite (W2 n us I1) in I2.
      apply in_map_iff in I2. destruct I2 as (k & <- & _). reflexivity.
    - rewrite W3 in I. apply in_map_iff in I. destruct I as (k & <- & _). reflexivity.
  Qed.
  Lemma parsed_apart simple (x : @expression L) : parsed nfn pyparse x -> plain_names simple x -> names_apart simple x.
  Proof.
    intros P [N1 N2]. pose proof (fun s => sub_underscore x s P) as U. constructor.
    - destruct P as (si & ch & [s' c'] & P). apply parse_ok in P. destruct P as (e & st & T & V & _ & _ & E1 & E2 & _ & _).
      destruct (visit_inv _ _ _ _ _ V (wf_init si ch)) as (W & _ & _). unfold substitutions. rewrite E1, E2. apply wf_all_subs; auto. now rewrite <- E1.
    - intros s I. apply U in I. apply not_true_iff_false. rewrite reserved_cases. intros [->|[->| ->]]; discriminate.
    - intros s I J. apply U in I. apply N2 in J. congruence.
  Qed.
End Names.

(** ** Shapes *)
Section Shapes.
  Context {A : Type}.
  Lemma rect_upd n k (m : list (list A)) r d : rectangle n k m -> length d = k -> rectangle n k (upd m r d).
  Proof.
    intros [H1 H2] L. split; [now rewrite upd_length|]. rewrite Forall_forall in *. intros x I. apply in_upd in I. destruct I as [->|I]; auto.
  Qed.
  Lemma rect_put_rows n k : forall rows dat (m : list (list A)), rectangle n k m -> Forall (fun d => length d = k) dat -> rectangle n k (put_rows m rows dat).
  Proof.
    induction rows as [|r rows IH]; intros [|d dat] m R FD; cbn; auto. inversion FD; subst. apply IH; auto. now apply rect_upd.
  Qed.
  Lemma put_cells_length : forall cols (d row : list A), length (put_cells row cols d) = length row.
  Proof. induction cols as [|c cols IH]; intros [|x d] row; cbn; auto. rewrite IH. apply upd_length. Qed.
  Lemma rect_put_cols k cols : forall (m dat : list (list A)) n, rectangle n k m -> rectangle n k (put_cols m cols dat).
  Proof.
    induction m as [|row m IH]; intros [|d dat] n [H1 H2]; cbn; try (split; auto; fail). inversion H2; subst.
    destruct (IH dat (length m)) as [G1 G2]; [split; auto|]. split; cbn in *; [congruence|]. constructor; auto. apply put_cells_length.
  Qed.
  Lemma upd_out {B} : forall (l : list B) i x, length l <= i -> upd l i x = l.
  Proof. induction l as [|a l IH]; intros [|i] x H; cbn in *; auto; try lia. f_equal. apply IH. lia. Qed.
  Lemma rect_row n k (m : list (list A)) r : rectangle n k m -> r < n -> length (nth r m []) = k.
  Proof. intros [H1 H2] H. rewrite Forall_forall in H2. apply H2, nth_In. lia. Qed.
  Lemma rect_put_paired n k rows cols (dat m m' : list (list A)) : rectangle n k m -> put_paired m rows cols dat = Ok m' -> rectangle n k m'.
  Proof.
    intros R. unfold put_paired. destruct (broadcast2 _ _) as [kk|]; [|discriminate]. destruct dat as [|d [|d2 ds]]; try discriminate.
    destruct (_ || _)%bool; [|discriminate]. intros H. injection H as <-. revert m R. generalize (seq 0 kk) as l.
    induction l as [|i l IH]; intros m R; cbn [fold_left]; auto. apply IH. destruct (if length d =? 1 then _ else _); auto.
    destruct (lt_dec (pick rows i) n) as [LT|GE].
    - apply rect_upd; auto. rewrite upd_length. now apply (rect_row n).
    - rewrite upd_out; auto. destruct R as [R1 _]. lia.
  Qed.
  Lemma rect_repeat n k (x : A) : rectangle n k (repeat (repeat x k) n).
  Proof. split; [apply repeat_length|]. apply Forall_forall. intros r I. apply repeat_spec in I. subst. apply repeat_length. Qed.
  Lemma rect_transpose n k (m : list (list A)) : rectangle n k m -> rectangle k n (transpose k m).
  Proof.
    intros [H1 H2]. unfold transpose. split; [now rewrite map_length, seq_length|]. apply Forall_forall. intros r I. apply in_map_iff in I.
    destruct I as (j & <- & J). apply in_seq in J. unfold column. rewrite <- H1. clear H1. induction H2 as [|row m HR H2 IH]; cbn; auto.
    rewrite app_length, IH. destruct (nth_error row j) eqn:Q; auto. apply nth_error_None in Q. lia.
  Qed.
  Lemma keep_length : forall (mask : list bool) (C B : Type) (l : list C) (l' : list B), length l = length l' -> length (keep mask l) = length (keep mask l').
  Proof. induction mask as [|b mask IH]; intros C B [|x l] [|y l'] H; cbn in *; auto; try discriminate. injection H as H. destruct b; cbn; auto. Qed.
  Lemma rect_keep (mask : list bool) k : forall (m : list (list A)) n, rectangle n k m -> rectangle (length (keep mask (repeat tt n))) k (keep mask m).
  Proof.
    intros m n [H1 H2]. split; [apply keep_length; now rewrite repeat_length|]. clear H1. revert mask. induction H2 as [|row m HR H2 IH]; intros [|b mask]; cbn; auto.
    destruct b; auto.
  Qed.
End Shapes.

Section Hist.
  Context {L : Type} {F : arith} {D cell : Type} (E : env L F D cell).
  Notation num := (num F).
  Notation FR := (ev_frames E).
  Notation symbol := (symbol (num:=num) FR).
  Notation value := (value (num:=num) FR).
  Notation cm := (cm E).
  Notation mworld := (mworld E).
  Notation mop := (mop E).

  (** What holds of every pandas frame and index: the shape of the cells, the length of a column and of
      what is read through links, the rows kept by [loc]; equality of labels. *)
  Record frame_laws : Prop := FrameLaws {
    fl_eq : forall a b, ev_eq E a b = true <-> a = b;
    fl_cells : forall t : fr FR, rectangle (length (fr_index FR t)) (length (fr_columns FR t)) (fr_cells FR t);
    fl_columns : forall t : fr FR, frame_columns E t;
    fl_loc : forall mask (t : fr FR), fr_index FR (fr_loc FR mask t) = keep mask (fr_index FR t)
  }.
  (** a Series has as many values as labels *)
  Definition series_ok (v : value) : Prop := match v with VSeries index cells => length index = length cells | _ => True end.

  (** no data has been assigned, except numbers *)
  Definition no_data (m : cm) : Prop := forall name s, In (name, s) (m_scope m) -> (exists v, s = SNumber v) \/ filled FR s = false.

  (** In an orderly history the choices are built before data are assigned. *)
  Definition orderly (w : mworld) (o : mop) : Prop :=
    match o with
    | MTree _ i o => replacing_op (m_tree (model E w i)) o /\ no_data (model E w i)
    | MAssign _ _ _ v => series_ok v
    | MSubset _ _ index mask => length index = length mask
    | _ => True
    end.
  Fixpoint orderly_history (w : mworld) (l : list mop) : Prop :=
    match l with [] => True | o :: t => orderly w o /\ orderly_history (mstep E w o) t end.

  Context (FL : frame_laws).
  Set Default Proof Using "Type*".

  Definition fit (m : cm) : Prop := forall d cols, m_du m = Some d -> choices (m_tree m) = Ok cols -> aligned E (length d) (length cols) (m_scope m).
  Definition good (m : cm) : Prop := inv F (m_tree m) /\ fit m.

  Lemma unfilled_aligned n k s : filled FR s = false -> aligned_symbol E n k s.
  Proof. destruct s as [[v|]|o [v|]|o ma al [t|]|o rc rr fi [[j m]|]]; cbn; try discriminate; auto; destruct o; auto. Qed.
  Lemma no_data_aligned n k m : no_data m -> aligned E n k (m_scope m).
  Proof. intros N name s I. destruct (N name s I) as [[v ->]|H]; [exact Logic.I|now apply unfilled_aligned]. Qed.

  Lemma assign_aligned (m : cm) d cols s v s' : m_du m = Some d -> choices (m_tree m) = Ok cols -> series_ok v ->
    assign (ev_eq E) FR (units E m) (choice_index E m) s v = Ok s' -> aligned_symbol E (length d) (length cols) s'.
  Proof.
    intros DU CH SO. unfold units, choice_index. rewrite DU, CH. cbn [rmap]. unfold assign.
    assert (LL : length (map (ev_label E) cols) = length cols) by apply map_length.
    destruct s as [x|o x|o ma al x|o rc rr fi x].
    - destruct v; try discriminate. intros H. injection H as <-. exact I.
    - intros H. apply rbind_ok in H. destruct H as (c & H & Q). injection Q as <-. unfold vector_assign in H.
      assert (G : forall idx, (if o then @Ok (list D) (map (ev_label E) cols) else Ok d) = Ok idx -> length c = length idx -> aligned_symbol E (length d) (length cols) (SVector (num:=num) (FR:=FR) o (Some c))).
      { intros idx Q K. destruct o; injection Q as <-; cbn; congruence. }
      apply rbind_ok in H. destruct H as (idx & HI & H). apply (G idx HI). destruct v as [y|ix c'|c'| |t|]; try discriminate.
      + apply rbind_ok in H. destruct H as (u0 & HG & H). apply guard_ok in HG. injection H as <-. apply (index_equals_spec (ev_eq E) (fl_eq FL)) in HG. cbn in SO. congruence.
      + apply rbind_ok in H. destruct H as (u0 & HG & H). apply guard_ok in HG. injection H as <-. now apply Nat.eqb_eq.
    - intros H. apply rbind_ok in H. destruct H as (t & H & Q). injection Q as <-. unfold table_assign in H. destruct v as [y|ix c'|c'| |t'|]; try discriminate.
      apply rbind_ok in H. destruct H as (idx & HI & H). apply rbind_ok in H. destruct H as (u0 & HG & H). apply guard_ok in HG.
      apply (index_equals_spec (ev_eq E) (fl_eq FL)) in HG. apply rbind_ok in H. destruct H as (_ & _ & H). apply rbind_ok in H. destruct H as (_ & _ & H).
      injection H as <-. cbn. split; [|apply (fl_columns FL)]. rewrite HG. destruct o; injection HI as <-; auto.
    - intros H. apply rbind_ok in H. destruct H as ([j mm] & H & Q). injection Q as <-. unfold matrix_assign in H. cbn [rbind] in H.
      destruct v as [y|ix c'|c'| |t|]; try discriminate; try (destruct o; discriminate).
      pose proof (fl_cells FL t) as RC.
      assert (G : forall ri ci dat, rectangle (length ri) (length ci) dat ->
        (if (index_equals (ev_eq E) d ri && index_equals (ev_eq E) (map (ev_label E) cols) ci)%bool then Ok (length (map (ev_label E) cols), dat)
         else do cx <- axis (ev_eq E) rc (map (ev_label E) cols) ci; do rx <- axis (ev_eq E) rr d ri;
              do m0 <- match rx, cx with
                       | None, None => Ok dat
                       | Some r, None => Ok (put_rows (repeat (repeat fi (length (map (ev_label E) cols))) (length d)) r dat)
                       | None, Some c => Ok (put_cols (repeat (repeat fi (length (map (ev_label E) cols))) (length d)) c dat)
                       | Some r, Some c => put_paired (repeat (repeat fi (length (map (ev_label E) cols))) (length d)) r c dat
                       end; Ok (length (map (ev_label E) cols), m0)) = Ok (j, mm) -> j = length cols /\ rectangle (length d) (length cols) mm).
      { intros ri ci dat RD. rewrite LL. destruct (_ && _)%bool eqn:Q.
        { apply andb_true_iff in Q. destruct Q as [Q1 Q2]. apply (index_equals_spec (ev_eq E) (fl_eq FL)) in Q1. apply (index_equals_spec (ev_eq E) (fl_eq FL)) in Q2.
          intros K. injection K as <- <-. split; auto. rewrite <- LL, Q2, Q1. exact RD. }
        intros K. apply rbind_ok in K. destruct K as (cx & C1 & K). apply rbind_ok in K. destruct K as (rx & R1 & K).
        apply rbind_ok in K. destruct K as (m0 & M0 & K). injection K as <- <-. split; auto.
        assert (AX : forall al index labels, axis (ev_eq E) al index labels = Ok None -> index = labels).
        { intros al index labels. unfold axis. destruct (index_equals (ev_eq E) index labels) eqn:IE; [intros _; now apply (index_equals_spec (ev_eq E) (fl_eq FL))|].
          intros K. apply rbind_ok in K. destruct K as (_ & _ & K). apply rbind_ok in K. destruct K as (zs & _ & K). apply rbind_ok in K. destruct K as (_ & _ & K). discriminate. }
        destruct rx as [r|], cx as [c|].
        - eapply rect_put_paired; [apply rect_repeat|exact M0].
        - injection M0 as <-. apply rect_put_rows; [apply rect_repeat|]. apply AX in C1. destruct RD as [_ RD]. rewrite <- C1, LL in RD. exact RD.
        - injection M0 as <-. apply rect_put_cols, rect_repeat.
        - injection M0 as <-. apply AX in C1. apply AX in R1. subst. now rewrite LL in RD. }
      destruct o.
      + apply (G (fr_columns FR t) (fr_index FR t) (transpose (length (fr_columns FR t)) (fr_cells FR t))); [now apply rect_transpose|exact H].
      + apply (G (fr_index FR t) (fr_columns FR t) (fr_cells FR t)); [exact RC|exact H].
  Qed.

  Lemma good_new : good (new_cm E).
  Proof. split; [apply inv_new|]. intros d cols H. discriminate. Qed.
  Lemma fit_incl (m m' : cm) : fit m -> m_tree m' = m_tree m -> m_du m' = m_du m -> incl (m_scope m') (m_scope m) -> fit m'.
  Proof. intros G T U I d cols H1 H2 name s J. rewrite U in H1. rewrite T in H2. apply (G d cols H1 H2 name s). now apply I. Qed.
  Lemma good_incl (m m' : cm) : good m -> m_tree m' = m_tree m -> m_du m' = m_du m -> incl (m_scope m') (m_scope m) -> good m'.
  Proof. intros [A B] T U I. split; [now rewrite T|eapply fit_incl; eauto]. Qed.

  Lemma run_good (m m' : cm) : good m -> m_tree m' = m_tree m /\ m_du m' = m_du m /\ (m_scope m' = m_scope m \/ m_scope m' = []) -> good m'.
  Proof. intros G (T & U & S). eapply good_incl; eauto. destruct S as [->| ->]; [apply incl_refl|intros x []]. Qed.

  Lemma result_good w o : (forall i, good (model E w i)) -> orderly w o -> opt_target E o <> None -> good (step_result E w o).
  Proof.
    intros G O T. destruct o as [|k o|k d|k nm d|k nm v|k|k text g|k|k g|k g cl sc ck|k n cl|k g dr cl|k f|k mi mask|k en|k gr gc gt gb gd gm]; cbn in T; try congruence; cbn [step_result].
    - destruct O as [O ND]. specialize (G k). destruct G as [GI GF].
      assert (X : good (tree_op E (model E w k) o)).
      { split; [|intros d cols _ _; apply no_data_aligned; exact ND]. unfold tree_op. cbn [m_tree]. apply run_op_inv.
        - destruct GI as [C W]. split; [now apply consistent_cache|exact W].
        - destruct o; exact O. }
      destruct o; auto. split; auto.
    - split; [apply G|]. intros d' cols H1 H2. apply no_data_aligned. intros name s I. cbn in I. apply in_map_iff in I. destruct I as ((n0 & s0) & Q & I). injection Q as -> <-.
      destruct s0; cbn; auto. left. eexists; reflexivity.
    - unfold declare. destruct (reserved nm); [apply G|]. destruct (new_symbol E d) as [s|] eqn:NS; [|apply G]. cbn. split; [apply G|].
      intros d' cols H1 H2 name s' I. cbn in *. apply in_dset_s in I. destruct I as [[-> ->]|I]; [|apply (proj2 (G k) d' cols H1 H2 name s' I)].
      unfold new_symbol in NS. destruct d as [|o|o ma al|o rc rr f]; [injection NS as <-; exact Logic.I|..]; apply rbind_ok in NS; destruct NS as (b & _ & NS); injection NS as <-; apply unfilled_aligned; reflexivity.
    - unfold assign_symbol. destruct (dget _ _ nm) as [s|]; [|apply G]. destruct (assign _ _ _ _ s v) as [s'|] eqn:AS; [|apply G]. cbn. split; [apply G|].
      intros d' cols H1 H2 name s'' I. cbn in *. apply in_dset_s in I. destruct I as [[-> ->]|I]; [|apply (proj2 (G k) d' cols H1 H2 name s'' I)].
      eapply assign_aligned; eauto.
    - split; [apply G|]. intros d' cols H1 H2 name s [].
    - destruct (run_stochastic E (mheap E w) (mcont E w k) (mw_tabs w) (model E w k) g cl sc ck) as [[ts m] r] eqn:R. apply stochastic_touch in R.
      eapply run_good; [apply G|exact R].
    - destruct (run_discrete_utilities E (mheap E w) (mcont E w k) (mw_tabs w) (model E w k) n cl) as [[ts m] r] eqn:R. apply discrete_touch in R.
      eapply run_good; [apply G|exact R].
    - destruct (preval E (mheap E w) (mcont E w k) (mw_tabs w) (model E w k) g dr cl) as [[[ts c] m] r] eqn:R.
      pose proof (preval_in E _ _ _ _ _ _ _ _ _ _ _ R) as PI. apply preval_touch in R. destruct R as (R1 & R2 & _). eapply good_incl; [apply (G k)|exact R1|exact R2|exact PI].
    - unfold empty_symbol. destruct (dget _ _ en) as [s|]; [|apply G]. cbn. split; [apply G|].
      intros d' cols H1 H2 name s'' I. cbn in *. apply in_dset_s in I. destruct I as [[-> ->]|I]; [|apply (proj2 (G k) d' cols H1 H2 name s'' I)].
      apply unfilled_aligned. now destruct s.
    - destruct (give E (mw_tabs w) (model E w k) gr gc gt gb gd gm) as [ts m] eqn:R. apply give_touch in R. destruct R as (R1 & R2 & R3). eapply good_incl; [apply (G k)|exact R1|exact R3|]. cbn. rewrite R2. apply incl_refl.
  Qed.

  Lemma copy_good m m' : good m -> m_tree m' = m_tree m ->
    ((m_du m' = m_du m /\ m_scope m' = copy_scope E true None (m_scope m)) \/ no_data m') -> good m'.
  Proof.
    intros [A B] T [[U S]|N].
    - split; [now rewrite T|]. intros d cols H1 H2 name s I. rewrite U in H1. rewrite T in H2. rewrite S in I. unfold copy_scope in I. apply in_map_iff in I.
      destruct I as ((n0 & s0) & Q & I). injection Q as -> <-. specialize (B d cols H1 H2 name s0 I).
      destruct s0 as [[v|]|o [v|]|o ma al [t|]|o rc rr fi [[j mm]|]]; cbn in *; auto; destruct o; auto.
    - split; [now rewrite T|]. intros d cols _ _. now apply no_data_aligned.
  Qed.
  Lemma subset_good m d mi mask : good m -> m_du m = Some d -> length mi = length mask -> index_equals (ev_eq E) mi d = true ->
    good (CM (m_tree m) (copy_scope E true (Some mask) (m_scope m)) (Some (keep mask d)) None).
  Proof.
    intros [A B] U LM IE. split; auto. intros d' cols H1 H2 name s I. cbn in *. injection H1 as <-. apply (index_equals_spec (ev_eq E) (fl_eq FL)) in IE. subst mi.
    unfold copy_scope in I. apply in_map_iff in I. destruct I as ((n0 & s0) & Q & I). injection Q as -> <-. specialize (B d cols U H2 name s0 I).
    destruct s0 as [[v|]|o [v|]|o ma al [t|]|o rc rr fi [[j mm]|]]; cbn in *; auto; try (destruct o; auto).
    - now apply keep_length.
    - destruct B as [B1 B2]. split; [|apply (fl_columns FL)]. rewrite (fl_loc FL). now apply keep_length.
    - destruct B as [B1 B2]. split; auto. destruct (rect_keep mask _ _ _ B2) as [R1 R2]. split; auto. rewrite R1. apply keep_length. now rewrite repeat_length.
    - destruct B as [B1 B2]. split; auto. destruct (rect_keep mask _ _ _ B2) as [R1 R2]. split; auto. rewrite R1. apply keep_length. now rewrite repeat_length.
  Qed.

  Lemma good_all w i : Forall good (mw_models w) -> good (model E w i).
  Proof.
    intros G. unfold model. destruct (lt_dec i (length (mw_models w))); [|rewrite nth_overflow by lia; apply good_new].
    rewrite Forall_forall in G. apply G, nth_In; auto.
  Qed.
  Lemma good_upd l i m : Forall good l -> good m -> Forall good (upd l i m).
  Proof. intros G M. apply Forall_forall. intros y I. apply in_upd in I. destruct I as [->|I]; auto. rewrite Forall_forall in G; auto. Qed.

  Lemma step_good w o : Forall good (mw_models w) -> orderly w o -> Forall good (mw_models (mstep E w o)).
  Proof.
    intros G O. pose proof (fun i => good_all w i G) as GM. pose proof (result_good w o GM O) as RG.
    destruct o as [|k o|k d|k nm d|k nm v|k|k text g|k|k g|k g cl sc ck|k n cl|k g dr cl|k f|k mi mask|k en|k gr gc gt gb gd gm]; cbn [mstep opt_target step_result] in *;
      try (apply good_upd; [exact G|apply RG; congruence]); try exact G.
    - apply Forall_app. split; auto. constructor; auto. apply good_new.
    - destruct o; try (apply good_upd; [exact G|apply RG; congruence]). exact G.
    - destruct (run_stochastic _ _ _ _ _ _ _ _ _) as [[ts m] r]. apply good_upd; [exact G|apply RG; congruence].
    - destruct (run_discrete_utilities _ _ _ _ _ _ _) as [[ts m] r]. apply good_upd; [exact G|apply RG; congruence].
    - destruct (preval _ _ _ _ _ _ _ _) as [[[ts c] m] r]. apply good_upd; [exact G|apply RG; congruence].
    - destruct (copy_model E (mw_tabs w) (model E w k) f) as [ts m] eqn:R. apply Forall_app. split; auto. constructor; auto.
      apply (copy_good (model E w k)); auto; unfold copy_model in R.
      + destruct (m_utils (model E w k)); [destruct (cf_utils f)|]; injection R as <- <-; reflexivity.
      + assert (X : m_du m = (if (cf_units f || cf_assigned f)%bool then m_du (model E w k) else None) /\
                    m_scope m = if (cf_declared f || cf_assigned f)%bool then copy_scope E (cf_assigned f) None (m_scope (model E w k)) else [])
          by (destruct (m_utils (model E w k)); [destruct (cf_utils f)|]; injection R as <- <-; auto).
        destruct X as [X1 X2]. destruct (cf_assigned f) eqn:CA; rewrite ?orb_true_r in *; [left; auto|]. right. rewrite orb_false_r in X2.
        intros name s I. rewrite X2 in I. destruct (cf_declared f); [|destruct I]. unfold copy_scope in I. apply in_map_iff in I.
        destruct I as ((n0 & s0) & Q & I). injection Q as -> <-. right. destruct s0; reflexivity.
    - destruct (copy_subset E (mw_tabs w) (model E w k) mi mask) as [ts [m|x]] eqn:R; [|exact G]. apply Forall_app. split; auto. constructor; auto.
      unfold copy_subset in R. cbn [orderly] in O. unfold units in R. destruct (m_du (model E w k)) as [d|] eqn:U; [|discriminate].
      destruct (index_equals (ev_eq E) mi d) eqn:IE; [|discriminate]. pose proof (subset_good _ d mi mask (GM k) U O IE) as SG.
      destruct (m_utils (model E w k)) as [u|]; [destruct (index_equals (ev_eq E) mi (u_index u)); [|discriminate]|]; injection R as <- <-; auto.
    - destruct (give _ _ _ _ _ _ _ _ _) as [ts m]. apply good_upd; [exact G|apply RG; congruence].
  Qed.
  Lemma history_good : forall ops w, Forall good (mw_models w) -> orderly_history w ops -> Forall good (mw_models (mrun E w ops)).
  Proof. induction ops as [|o ops IH]; intros w G H; [exact G|]. destruct H as [H1 H2]. cbn. apply IH; auto. now apply step_good. Qed.

  Lemma good_labels m cols : good m -> choices (m_tree m) = Ok cols -> NoDup (map label_parts cols).
  Proof.
    intros [I _] C. assert (V : validate_tree (m_tree m) = Ok tt) by (unfold choices in C; destruct (validate_tree (m_tree m)) as [[]|]; [auto|discriminate]).
    assert (DD : exists dd, depth (m_tree m) = Ok dd).
    { unfold choices in C. rewrite V in C. cbn in C. destruct (depth (m_tree m)) as [dd|]; [eauto|discriminate]. }
    destruct DD as [dd DD]. rewrite (choices_eq F _ dd I V DD) in C. injection C as <-.
    pose proof (labels_nodup F (m_tree m) dd I) as N. rewrite map_map. rewrite <- (map_map (label_of F (m_tree m) dd) label_parts).
    set (ls := map (label_of F (m_tree m) dd) (ids (m_tree m))) in *.
    assert (K : forall a b, In a ls -> In b ls -> label_parts a = label_parts b -> a = b).
    { intros a b Ia Ib. unfold ls in Ia, Ib. apply in_map_iff in Ia. apply in_map_iff in Ib. destruct Ia as (i & <- & _), Ib as (j & <- & _).
      unfold label_of. destruct (dd =? 1); cbn; intros Q; [now injection Q as ->|now rewrite Q]. }
    revert N K. generalize ls as l. induction l as [|a l IH]; intros N K; cbn; constructor; inversion N; subst.
    - intros X. apply in_map_iff in X. destruct X as (b & Q & X). apply K in Q; cbn; auto. subst. contradiction.
    - apply IH; auto. intros x y Hx Hy. apply K; cbn; auto.
  Qed.
End Hist.

(** The laws hold in the example environment. *)
Lemma keep_map {A B} (f : A -> B) : forall mask l, keep mask (map f l) = map f (keep mask l).
Proof. induction mask as [|b mask IH]; intros [|x l]; cbn; auto. destruct b; cbn; now rewrite IH. Qed.
Lemma e_frame_laws (F : arith) lit nan ninf : frame_laws (eenv F lit nan ninf).
Proof.
  constructor.
  - intros a b. apply String.eqb_eq.
  - intros t. cbn. unfold ef_cells. split; [now rewrite !map_length|]. apply Forall_forall. intros row I. apply in_map_iff in I. destruct I as (r & <- & _). now rewrite map_length, seq_length.
  - intros t. split; cbn; [|discriminate]. intros a v. unfold ef_col. destruct (position String.eqb (ef_columns F t) a); [|discriminate]. intros H. injection H as <-. now rewrite !map_length.
  - intros mask t. cbn. now rewrite keep_map.
Qed.
