(** C46-C49: assigning data to symbols (cheval/api.py 268-489). *)
From Verif Require Import Prelude ExprModel TreeModel ScopeModel SpecScope ScopeProofs.
Local Open Scope string_scope.
Local Open Scope nat_scope.
Local Open Scope list_scope.

(** Frames for the examples: an index, columns, cells, linked or not.  Labels and cells: text, numbers. *)
Record xframe : Type := XFrame { x_index : list string; x_columns : list string; x_cells : list (list nat); x_linked : bool }.
Definition x_col (t : xframe) (a : string) : res (list nat) :=
  match position String.eqb (x_columns t) a with Some j => Ok (column (x_cells t) j) | None => Err KeyError end.
Definition xframes : frames nat string nat :=
  Frames nat string nat xframe x_index x_columns x_cells x_linked (fun t a => existsb (String.eqb a) (x_columns t)) x_col
         (fun t p _ => x_col t (hd "" p))
         (fun mask t => XFrame (keep mask (x_index t)) (x_columns t) (keep mask (x_cells t)) (x_linked t)).

Section Assign.
  Context {L D cell num : Type} (deq : D -> D -> bool) (FR : frames L D cell).
  Context (deq_spec : forall a b, deq a b = true <-> a = b).
  Notation assign := (assign (num:=num) deq FR).
  Notation get_simple := (get_simple (num:=num) FR).
  Notation get_chain := (get_chain (num:=num) FR).
  Set Default Proof Using "Type*".

  (** * C46 *)

  (** The index a symbol is aligned with: the decision units (orientation 0) or the choices (1). *)
  Definition context (orientation : bool) (units choices : res (list D)) : res (list D) := if orientation then choices else units.

  Lemma as_array_column c : column_vector c (as_array (num:=num) false (c : list cell)).
  Proof using Type.
    unfold as_array. exists (map (fun x => [x]) c). split; auto. split; [split; [apply map_length|]|].
    - apply Forall_forall. intros r I. apply in_map_iff in I. destruct I as (x & <- & _). reflexivity.
    - intros r. unfold at2. rewrite nth_error_map. destruct (nth_error c r); reflexivity.
  Qed.
  Lemma as_array_row c : row_vector c (as_array (num:=num) true (c : list cell)).
  Proof using Type. unfold as_array. exists [c]. split; auto. split; [split; [reflexivity|repeat constructor]|]. reflexivity. Qed.

  (** A vector is accepted exactly when it is a Series on the index of the context, or an array of
      its length; the data read back are the column (orientation 0) or the row (orientation 1) of the values. *)
  Theorem C46_vector_accepted_iff_aligned units choices orientation old v s :
    assign units choices (SVector orientation old) v = Ok s <->
    exists index cells, context orientation units choices = Ok index /\
      (v = VSeries index cells \/ v = VArray1 cells /\ length cells = length index) /\
      s = SVector orientation (Some cells).
  Proof.
    unfold assign, ScopeModel.assign, vector_assign, context.
    destruct (if orientation then choices else units) as [index|x]; simpl.
    2:{ split; [discriminate|]. intros (i & c & H & _). discriminate. }
    destruct v as [x|ix c|c| |t|]; simpl.
    1,4,5,6: split; [discriminate|]; intros (i & cs & H & [H1|[H1 _]] & _); discriminate.
    - destruct (index_equals deq index ix) eqn:E; simpl.
      + apply index_equals_spec in E; auto. subst ix. split.
        * intros H. injection H as <-. exists index, c. auto.
        * intros (i & cs & H & [H1|[H1 _]] & ->); [|discriminate]. congruence.
      + split; [discriminate|]. intros (i & cs & H & [H1|[H1 _]] & _); [|discriminate]. injection H as <-. injection H1 as -> ->.
        rewrite index_equals_refl in E by auto. discriminate.
    - destruct (Nat.eqb_spec (length c) (length index)); simpl.
      + split.
        * intros H. injection H as <-. exists index, c. auto.
        * intros (i & cs & H & [H1|[H1 H2]] & ->); [discriminate|]. congruence.
      + split; [discriminate|]. intros (i & cs & H & [H1|[H1 H2]] & _); [discriminate|]. congruence.
  Qed.
  Theorem C46_vector_stored units choices orientation old v s :
    assign units choices (SVector orientation old) v = Ok s ->
    exists cells d, (v = VArray1 cells \/ exists index, v = VSeries index cells) /\ filled FR s = true /\ get_simple s = Ok d /\
      (if orientation then row_vector cells d else column_vector cells d).
  Proof.
    intros H. apply C46_vector_accepted_iff_aligned in H. destruct H as (index & cells & _ & V & ->).
    exists cells, (as_array orientation cells). split; [destruct V as [->|[-> _]]; eauto|]. split; [reflexivity|]. split; [reflexivity|].
    destruct orientation; [apply as_array_row|apply as_array_column].
  Qed.

  (** A table that may have links is accepted exactly when it is a DataFrame on the index of the
      context with all the mandatory columns; reading one of its columns gives the column or row of its
      values (for every other form of table see C49). *)
  Theorem C46_table_accepted_iff_aligned units choices orientation mandatory old v s :
    assign units choices (STable orientation mandatory true old) v = Ok s <->
    exists t, v = VFrame t /\ context orientation units choices = Ok (fr_index FR t) /\
      (forall a, In a mandatory -> fr_has FR t a = true) /\ s = STable orientation mandatory true (Some t).
  Proof.
    unfold assign, ScopeModel.assign, table_assign, context.
    destruct v as [x|ix c|c| |t|]; simpl; try (split; [discriminate|]; intros (t' & H & _); discriminate).
    destruct (if orientation then choices else units) as [index|x]; simpl.
    2:{ split; [discriminate|]. intros (i & c & H & _). discriminate. }
    destruct (index_equals deq (fr_index FR t) index) eqn:E; simpl.
    2:{ split; [discriminate|]. intros (t' & H & H1 & _). injection H as <-. injection H1 as ->. rewrite index_equals_refl in E by auto. discriminate. }
    apply index_equals_spec in E; auto. destruct (forallb (fr_has FR t) mandatory) eqn:M; simpl.
    - rewrite forallb_forall in M. split.
      + intros H. injection H as <-. exists t. repeat split; auto. congruence.
      + intros (t' & H & _ & _ & ->). injection H as <-. reflexivity.
    - split; [discriminate|]. intros (t' & H & _ & H2 & _). injection H as <-. exfalso.
      rewrite (proj2 (forallb_forall _ _) H2) in M. discriminate.
  Qed.
  Theorem C46_table_column units choices orientation mandatory old t s a cells :
    assign units choices (STable orientation mandatory true old) (VFrame t) = Ok s ->
    fr_col FR t a = Ok cells ->
    exists d, get_chain s (Chain [a] None) = Ok d /\ (if orientation then row_vector cells d else column_vector cells d).
  Proof.
    intros H C. apply C46_table_accepted_iff_aligned in H. destruct H as (t' & E & _ & _ & ->). injection E as <-.
    exists (as_array orientation cells). split; [unfold ScopeModel.get_chain; simpl; now rewrite C|].
    destruct orientation; [apply as_array_row|apply as_array_column].
  Qed.

  (** * C47, C48 *)

  (** The data are accepted along one axis when the labels are those of the model, or reindexing is
      allowed and every label is known. *)
  Definition axis_accepted (allowed : bool) (index labels : list D) : Prop :=
    index = labels \/ (allowed = true /\ incl labels index).

  (** what happens at a pair of positions *)
  Lemma write_rows (t : fr FR) orientation rows cols fill dat :
    NoDup rows -> NoDup (unit_labels FR orientation t) -> incl (unit_labels FR orientation t) rows -> cols = choice_labels FR orientation t -> NoDup cols ->
    rectangle (length (unit_labels FR orientation t)) (length (choice_labels FR orientation t)) dat ->
    (forall i j, i < length (unit_labels FR orientation t) -> j < length (choice_labels FR orientation t) -> at2 dat i j = entry_at FR orientation t i j) ->
    aligned_by_label FR orientation t rows cols fill
      (put_rows (repeat (repeat fill (length cols)) (length rows)) (positions deq rows (unit_labels FR orientation t)) dat).
  Proof.
    intros NR NU I EC NC [R1 R2] DAT. rewrite put_rows_put.
    pose proof (positions_bound deq deq_spec rows _ I) as PB. pose proof (positions_nodup deq deq_spec rows _ I NU) as PN.
    set (p := positions deq rows (unit_labels FR orientation t)) in *.
    assert (PL : length p = length (unit_labels FR orientation t)) by apply map_length.
    split; [split|].
    - rewrite put_length. apply repeat_length.
    - apply put_forall; [apply blank_rect|]. rewrite EC. exact R2.
    - intros r c x y Hr Hc. assert (Lr : r < length rows) by (apply nth_error_Some; congruence). assert (Lc : c < length cols) by (apply nth_error_Some; congruence).
      split.
      + intros i j Hi Hj. destruct (positions_nth deq deq_spec rows _ i x Hi) as (r' & P1 & P2 & _); [eapply nth_error_In; eauto|].
        assert (r' = r) by (apply (proj1 (NoDup_nth_error rows) NR); [apply nth_error_Some; congruence|congruence]). subst r'.
        unfold at2. fold p in P1. rewrite (put_at p _ _ i r PN) by (rewrite ?repeat_length; auto; rewrite PL; auto).
        assert (c = j) by (rewrite EC in Hc; apply (proj1 (NoDup_nth_error (choice_labels FR orientation t))); [now rewrite <- EC|rewrite <- EC; auto|congruence]). subst j.
        rewrite <- DAT; [reflexivity| |rewrite <- EC; auto]. apply nth_error_Some. congruence.
      + intros [H|H]; [|exfalso; apply H; rewrite <- EC; eapply nth_error_In; eauto].
        unfold at2. rewrite put_outside; [apply blank_at; auto|]. intros X. apply In_nth_error in X. destruct X as [i X].
        apply (positions_inv deq deq_spec) in X; auto. destruct X as (z & Z1 & Z2). apply H. assert (x = z) by congruence. subst. eapply nth_error_In; eauto.
  Qed.
  Lemma write_cols (t : fr FR) orientation rows cols fill dat :
    NoDup cols -> NoDup (choice_labels FR orientation t) -> incl (choice_labels FR orientation t) cols -> rows = unit_labels FR orientation t -> NoDup rows ->
    rectangle (length (unit_labels FR orientation t)) (length (choice_labels FR orientation t)) dat ->
    (forall i j, i < length (unit_labels FR orientation t) -> j < length (choice_labels FR orientation t) -> at2 dat i j = entry_at FR orientation t i j) ->
    aligned_by_label FR orientation t rows cols fill
      (put_cols (repeat (repeat fill (length cols)) (length rows)) (positions deq cols (choice_labels FR orientation t)) dat).
  Proof.
    intros NC NU I ER NR [R1 R2] DAT.
    pose proof (positions_bound deq deq_spec cols _ I) as PB. pose proof (positions_nodup deq deq_spec cols _ I NU) as PN.
    set (p := positions deq cols (choice_labels FR orientation t)) in *.
    assert (PL : length p = length (choice_labels FR orientation t)) by apply map_length.
    split; [split|].
    - rewrite put_cols_length. apply repeat_length.
    - apply put_cols_rows. apply blank_rect.
    - intros r c x y Hr Hc. assert (Lr : r < length rows) by (apply nth_error_Some; congruence). assert (Lc : c < length cols) by (apply nth_error_Some; congruence).
      destruct (rectangle_row _ _ dat r (conj R1 R2)) as (d & Hd & Ld); [rewrite <- ER; auto|].
      assert (AT : at2 (put_cols (repeat (repeat fill (length cols)) (length rows)) p dat) r c = nth_error (put (repeat fill (length cols)) p d) c) by (unfold at2; now rewrite (put_cols_nth _ _ _ r (repeat fill (length cols)) d (nth_error_repeat_lt _ _ _ Lr) Hd)). rewrite AT.
      split.
      + intros i j Hi Hj. destruct (positions_nth deq deq_spec cols _ j y Hj) as (c' & P1 & P2 & _); [eapply nth_error_In; eauto|].
        assert (c' = c) by (apply (proj1 (NoDup_nth_error cols) NC); [apply nth_error_Some; congruence|congruence]). subst c'. fold p in P1.
        assert (r = i) by (apply (proj1 (NoDup_nth_error rows) NR); [auto|rewrite ER; rewrite ER in Hr; congruence]). subst i.
        rewrite (put_at p _ _ j c PN) by (rewrite ?repeat_length; auto; rewrite PL; auto).
        rewrite <- DAT; [unfold at2; now rewrite Hd|rewrite <- ER; auto|]. apply nth_error_Some. congruence.
      + intros [H|H]; [exfalso; apply H; rewrite <- ER; eapply nth_error_In; eauto|].
        rewrite put_outside; [now apply nth_error_repeat_lt|]. intros X. apply In_nth_error in X. destruct X as [i X].
        apply (positions_inv deq deq_spec) in X; auto. destruct X as (z & Z1 & Z2). apply H. assert (y = z) by congruence. subst. eapply nth_error_In; eauto.
  Qed.
  Lemma write_one_row (t : fr FR) orientation rows cols fill dat :
    NoDup rows -> NoDup cols -> NoDup (unit_labels FR orientation t) -> NoDup (choice_labels FR orientation t) ->
    incl (unit_labels FR orientation t) rows -> incl (choice_labels FR orientation t) cols ->
    rectangle (length (unit_labels FR orientation t)) (length (choice_labels FR orientation t)) dat ->
    (forall i j, i < length (unit_labels FR orientation t) -> j < length (choice_labels FR orientation t) -> at2 dat i j = entry_at FR orientation t i j) ->
    length (unit_labels FR orientation t) = 1 ->
    exists m, put_paired (repeat (repeat fill (length cols)) (length rows)) (positions deq rows (unit_labels FR orientation t))
                (positions deq cols (choice_labels FR orientation t)) dat = Ok m /\ aligned_by_label FR orientation t rows cols fill m.
  Proof.
    intros NR NC NU NL IR IC [R1 R2] DAT ONE.
    pose proof (positions_bound deq deq_spec cols _ IC) as CB. pose proof (positions_nodup deq deq_spec cols _ IC NL) as CN.
    pose proof (fun j y => positions_nth deq deq_spec cols (choice_labels FR orientation t) j y) as CP.
    pose proof (fun j y H => positions_inv deq deq_spec cols (choice_labels FR orientation t) j y H IC) as CI.
    assert (CL : length (positions deq cols (choice_labels FR orientation t)) = length (choice_labels FR orientation t)) by apply map_length.
    set (q := positions deq cols (choice_labels FR orientation t)) in *.
    destruct (unit_labels FR orientation t) as [|x0 [|? ?]] eqn:EU; try discriminate.
    destruct (positions_nth deq deq_spec rows [x0] 0 x0 eq_refl) as (r0 & P1 & P2 & P3); [apply IR; simpl; auto|].
    assert (EP : positions deq rows [x0] = [r0]).
    { pose proof (positions_length deq deq_spec rows [x0]) as M. destruct (positions deq rows [x0]) as [|a [|b l]]; simpl in P1, M; try discriminate. congruence. }
    rewrite EP. destruct dat as [|d [|? ?]]; try discriminate. inversion R2 as [|? ? LD _]; subst.
    rewrite paired_one_row by congruence. eexists. split; [reflexivity|].
    set (blank := repeat (repeat fill (length cols)) (length rows)).
    assert (NB : nth r0 blank [] = repeat fill (length cols)).
    { unfold blank. rewrite nth_indep with (d' := repeat fill (length cols)) by (rewrite repeat_length; auto). apply nth_repeat. }
    assert (BL : length blank = length rows) by apply repeat_length.
    rewrite NB. set (m := if _ =? 0 then _ else _).
    assert (M : m = upd blank r0 (put (repeat fill (length cols)) q d)).
    { unfold m. destruct (length q =? 0) eqn:Q; auto. apply Nat.eqb_eq in Q. destruct q; [|discriminate]. simpl.
      symmetry. unfold blank. clear -P3. revert r0 P3. generalize (length rows). induction n as [|n IH]; intros [|r0] H; simpl; auto; try lia. f_equal. apply IH. lia. }
    rewrite M. clear m M. split; [split|].
    - now rewrite upd_length.
    - apply Forall_forall. intros row I. apply In_nth_error in I. destruct I as [i I].
      destruct (Nat.eq_dec r0 i) as [->|N].
      + rewrite nth_error_upd_eq in I by lia. injection I as <-. rewrite put_length. apply repeat_length.
      + rewrite nth_error_upd_neq in I by auto. apply nth_error_In in I. apply repeat_spec in I. subst. apply repeat_length.
    - intros r c x y Hr Hc. assert (Lr : r < length rows) by (apply nth_error_Some; congruence). assert (Lc : c < length cols) by (apply nth_error_Some; congruence).
      rewrite EU. split.
      + intros i j Hi Hj. destruct i as [|i]; [|destruct i; discriminate]. simpl in Hi. injection Hi as <-.
        assert (r0 = r) by (apply (proj1 (NoDup_nth_error rows) NR); [auto|congruence]). subst r0.
        destruct (CP j y Hj) as (c' & Q1 & Q2 & _); [eapply nth_error_In; eauto|].
        assert (c' = c) by (apply (proj1 (NoDup_nth_error cols) NC); [apply nth_error_Some; congruence|congruence]). subst c'.
        unfold at2. rewrite nth_error_upd_eq by lia. rewrite (put_at q _ _ j c CN) by (rewrite ?repeat_length; auto; congruence).
        rewrite <- DAT; [reflexivity|simpl; lia|]. apply nth_error_Some. congruence.
      + intros H. destruct (Nat.eq_dec r0 r) as [->|N].
        * assert (x = x0) by congruence. subst x. destruct H as [H|H]; [exfalso; apply H; simpl; auto|].
          unfold at2. rewrite nth_error_upd_eq by lia. rewrite put_outside; [now apply nth_error_repeat_lt|]. intros X. apply In_nth_error in X. destruct X as [i X].
          apply CI in X. destruct X as (z & Z1 & Z2). apply H. assert (y = z) by congruence. subst. eapply nth_error_In; eauto.
        * unfold at2. rewrite nth_error_upd_neq by auto. apply blank_at; auto.
  Qed.

  Lemma oriented_data (t : fr FR) (orientation : bool) : proper_frame FR t ->
    let dat := if orientation then transpose (length (fr_columns FR t)) (fr_cells FR t) else fr_cells FR t in
    rectangle (length (unit_labels FR orientation t)) (length (choice_labels FR orientation t)) dat /\
    (forall i j, i < length (unit_labels FR orientation t) -> j < length (choice_labels FR orientation t) -> at2 dat i j = entry_at FR orientation t i j).
  Proof using Type.
    intros [P _ _] dat. unfold dat, unit_labels, choice_labels, entry_at. destruct orientation; split; auto.
    - now apply transpose_rect.
    - intros i j Hi Hj. now apply transpose_at with (n := length (fr_index FR t)).
  Qed.

  Section OneMatrix.
    Context (rows cols : list D) (orientation reindex_cols reindex_rows : bool) (fill : cell) (old : option (nat * list (list cell))) (t : fr FR).
    Context (NR : NoDup rows) (NC : NoDup cols) (PF : proper_frame FR t).
    Notation before := (SMatrix orientation reindex_cols reindex_rows fill old).
    Notation after m := (SMatrix orientation reindex_cols reindex_rows fill (Some (length cols, m))).
    Notation ri := (unit_labels FR orientation t).
    Notation ci := (choice_labels FR orientation t).

    Lemma labels_nodup : NoDup ri /\ NoDup ci.
    Proof using PF. destruct PF. unfold unit_labels, choice_labels. destruct orientation; auto. Qed.

    (** the whole of [MatrixSymbol.assign], case by case *)
    Lemma matrix_cases :
      let dat := if orientation then transpose (length (fr_columns FR t)) (fr_cells FR t) else fr_cells FR t in
      let blank := repeat (repeat fill (length cols)) (length rows) in
      assign (Ok rows) (Ok cols) before (VFrame t)
      = do cx <- axis deq reindex_cols cols ci;
        do rx <- axis deq reindex_rows rows ri;
        do m <- match rx, cx with
                | None, None => Ok dat
                | Some r, None => Ok (put_rows blank r dat)
                | None, Some c => Ok (put_cols blank c dat)
                | Some r, Some c => put_paired blank r c dat
                end;
        Ok (after m).
    Proof.
      intros dat blank. unfold assign, ScopeModel.assign, matrix_assign.
      cbn [rbind].
      assert (E : (if orientation then (fr_columns FR t, fr_index FR t, transpose (length (fr_columns FR t)) (fr_cells FR t))
                   else (fr_index FR t, fr_columns FR t, fr_cells FR t)) = (ri, ci, dat)) by (unfold dat, unit_labels, choice_labels; destruct orientation; reflexivity).
      rewrite E. cbv beta iota. fold blank.
      destruct (index_equals deq rows ri && index_equals deq cols ci)%bool eqn:B.
      - apply andb_true_iff in B. destruct B as [B1 B2]. unfold axis. rewrite B1, B2. cbn [rbind]. reflexivity.
      - destruct (axis deq reindex_cols cols ci) as [cx|]; cbn [rbind]; [|reflexivity].
        destruct (axis deq reindex_rows rows ri) as [rx|]; cbn [rbind]; [|reflexivity].
        destruct rx, cx; cbn [rbind]; try reflexivity. destruct (put_paired blank _ _ dat); reflexivity.
    Qed.

    (** When the data need reindexing along at most one axis: accepted exactly when both axes are
        accepted, and then every cell is the one with its labels, or the fill value.  Otherwise an
        exception, whose kind tells a disallowed mismatch from an unknown label. *)
    Theorem C47_matrix_aligned_by_label :
      rows = ri \/ cols = ci ->
      match assign (Ok rows) (Ok cols) before (VFrame t) with
      | Ok s => axis_accepted reindex_rows rows ri /\ axis_accepted reindex_cols cols ci /\
          exists m, s = after m /\ aligned_by_label FR orientation t rows cols fill m /\
                    get_simple s = Ok (DArr (length rows) (length cols) m)
      | Err x =>
          (x = AssertionError /\ ((rows <> ri /\ reindex_rows = false) \/ (cols <> ci /\ reindex_cols = false))) \/
          (x = NotImplementedErr /\ ((rows <> ri /\ reindex_rows = true /\ ~ incl ri rows) \/ (cols <> ci /\ reindex_cols = true /\ ~ incl ci cols)))
      end.
    Proof.
      intros ONE. rewrite matrix_cases. cbv zeta. destruct (oriented_data t orientation PF) as [RD DAT].
      set (dat := if orientation then _ else _) in *. destruct labels_nodup as [NU NL].
      assert (FIN : forall m, aligned_by_label FR orientation t rows cols fill m ->
        exists m0, after m = SMatrix (num:=num) (FR:=FR) orientation reindex_cols reindex_rows fill (Some (length cols, m0)) /\ aligned_by_label FR orientation t rows cols fill m0 /\
                    get_simple (after m) = Ok (DArr (length rows) (length cols) m0)).
      { intros m AL. exists m. split; auto. split; auto. destruct AL as [[LM _] _]. unfold ScopeModel.get_simple. now rewrite LM. }
      destruct (axis_spec deq deq_spec reindex_cols cols ci NC) as [[C1 ->]|[(C1 & C2 & ->)|[(C1 & C2 & C3 & ->)|(C1 & C2 & C3 & ->)]]]; cbn [rbind];
        try (left; split; [reflexivity|right; auto]); try (right; split; [reflexivity|right; auto]);
      (destruct (axis_spec deq deq_spec reindex_rows rows ri NR) as [[R1 ->]|[(R1 & R2 & ->)|[(R1 & R2 & R3 & ->)|(R1 & R2 & R3 & ->)]]]; cbn [rbind];
        try (left; split; [reflexivity|left; auto]); try (right; split; [reflexivity|left; auto])).
      - split; [left; auto|]. split; [left; auto|]. apply FIN.
        split; [now rewrite R1, C1|]. intros r c x y Hr Hc. split.
        + intros i j Hi Hj.
          assert (r = i) by (apply (proj1 (NoDup_nth_error rows) NR); [apply nth_error_Some; congruence|rewrite R1 at 2; congruence]).
          assert (c = j) by (apply (proj1 (NoDup_nth_error cols) NC); [apply nth_error_Some; congruence|rewrite C1 at 2; congruence]). subst.
          apply DAT; apply nth_error_Some; congruence.
        + intros [H|H]; exfalso; apply H; [rewrite <- R1|rewrite <- C1]; eapply nth_error_In; eauto.
      - split; [right; auto|]. split; [left; auto|]. apply FIN. now apply write_rows.
      - split; [left; auto|]. split; [right; auto|]. apply FIN. now apply write_cols.
      - exfalso. tauto.
    Qed.

    (** When both axes need reindexing, are allowed it and have only known labels: accepted exactly when the
        data have a single row (decision unit), and then aligned. *)
    Theorem C48_both_axes_partial :
      rows <> ri -> cols <> ci -> axis_accepted reindex_rows rows ri -> axis_accepted reindex_cols cols ci ->
      if length ri =? 1
      then exists m, assign (Ok rows) (Ok cols) before (VFrame t) = Ok (after m) /\ aligned_by_label FR orientation t rows cols fill m
      else assign (Ok rows) (Ok cols) before (VFrame t) = Err ValueError \/ assign (Ok rows) (Ok cols) before (VFrame t) = Err IndexError.
    Proof.
      intros HR HC [AR|[AR IR]] [AC|[AC IC]]; try contradiction.
      rewrite matrix_cases. cbv zeta. destruct (oriented_data t orientation PF) as [RD DAT].
      set (dat := if orientation then _ else _) in *. destruct labels_nodup as [NU NL].
      destruct (axis_spec deq deq_spec reindex_cols cols ci NC) as [[C1 _]|[(C1 & C2 & _)|[(C1 & C2 & C3 & _)|(C1 & C2 & C3 & ->)]]]; try congruence; try contradiction.
      destruct (axis_spec deq deq_spec reindex_rows rows ri NR) as [[R1 _]|[(R1 & R2 & _)|[(R1 & R2 & R3 & _)|(R1 & R2 & R3 & ->)]]]; try congruence; try contradiction.
      cbn [rbind]. destruct (Nat.eqb_spec (length ri) 1) as [E|E].
      - destruct (write_one_row t orientation rows cols fill dat NR NC NU NL IR IC RD DAT E) as (m & -> & AL). exists m. auto.
      - unfold put_paired. destruct (broadcast2 _ _) as [k|]; cbn [rbind]; [|right; reflexivity]. destruct RD as [R1' _].
        destruct dat as [|d [|d2 ds]]; cbn [rbind]; auto. simpl in R1'. congruence.
    Qed.
  End OneMatrix.

  (** * C49 *)

  (** Exactly the opposite holds: a table symbol declared with allow_links=False accepts an aligned table
      if and only if it is a LinkedDataFrame. *)
  Theorem C49_allow_links_inverted units choices orientation mandatory old t :
    context orientation units choices = Ok (fr_index FR t) -> (forall a, In a mandatory -> fr_has FR t a = true) ->
    assign units choices (STable orientation mandatory false old) (VFrame t)
    = if fr_linked FR t then Ok (STable orientation mandatory false (Some t)) else Err TypeError.
  Proof.
    intros H M. unfold assign, ScopeModel.assign, table_assign. unfold context in H. rewrite H. cbn [rbind].
    rewrite index_equals_refl by auto. cbn [guard rbind]. rewrite (proj2 (forallb_forall _ _) M). cbn [guard rbind].
    destruct (fr_linked FR t); reflexivity.
  Qed.
End Assign.
Print Assumptions C46_vector_accepted_iff_aligned.
Print Assumptions C46_vector_stored.
Print Assumptions C46_table_accepted_iff_aligned.
Print Assumptions C46_table_column.
Print Assumptions C47_matrix_aligned_by_label.
Print Assumptions C48_both_axes_partial.
Print Assumptions C49_allow_links_inverted.

Definition x_frame (t : xframe) : value (num:=nat) xframes := VFrame (FR:=xframes) t.
Notation x_assign := (assign (num:=nat) String.eqb xframes).
Definition x_units : res (list string) := Ok ["h1"; "h2"; "h3"].
Definition x_choices : res (list string) := Ok ["car"; "bus"].

Example C46_hypotheses_met :
  x_assign x_units x_choices (SVector false None) (VSeries ["h1"; "h2"; "h3"] [4; 5; 6]) = Ok (SVector false (Some [4; 5; 6])) /\
  x_assign x_units x_choices (SVector true None) (VArray1 [4; 5]) = Ok (SVector true (Some [4; 5])) /\
  x_assign x_units x_choices (SVector false None) (VSeries ["h1"; "h3"; "h2"] [4; 5; 6]) = Err AssertionError /\
  is_ok (x_assign x_units x_choices (STable true ["cost"] true None) (x_frame (XFrame ["car"; "bus"] ["cost"] [[1]; [2]] false))) = true.
Proof. vm_compute. auto. Qed.

(** data for some of the decision units, in another order *)
Definition x_some_rows : xframe := XFrame ["h3"; "h1"] ["car"; "bus"] [[31; 32]; [11; 12]] false.
Lemma x_some_rows_proper : proper_frame xframes x_some_rows.
Proof. split; [split; [reflexivity|repeat constructor]| |]; repeat constructor; simpl; intuition discriminate. Qed.
Example C47_hypotheses_met :
  proper_frame xframes x_some_rows /\ NoDup ["h1"; "h2"; "h3"] /\ NoDup ["car"; "bus"] /\
  ["car"; "bus"] = choice_labels xframes false x_some_rows /\
  x_assign x_units x_choices (SMatrix false true true 9 None) (x_frame x_some_rows)
  = Ok (SMatrix false true true 9 (Some (2, [[11; 12]; [9; 9]; [31; 32]]))).
Proof. split; [apply x_some_rows_proper|]. split; [repeat constructor; simpl; intuition discriminate|]. split; [repeat constructor; simpl; intuition discriminate|]. vm_compute. auto. Qed.

(** C48 is false: two decision units of three and one choice of two *)
Definition x_block : xframe := XFrame ["h3"; "h1"] ["bus"] [[32]; [12]] false.
Theorem C48_both_axes_refuted :
  proper_frame xframes x_block /\ NoDup ["h1"; "h2"; "h3"] /\ NoDup ["car"; "bus"] /\
  axis_accepted true ["h1"; "h2"; "h3"] (unit_labels xframes false x_block) /\
  axis_accepted true ["car"; "bus"] (choice_labels xframes false x_block) /\
  x_assign x_units x_choices (SMatrix false true true 9 None) (x_frame x_block) = Err ValueError.
Proof.
  split; [split; [split; [reflexivity|repeat constructor]| |]; repeat constructor; simpl; intuition discriminate|].
  split; [repeat constructor; simpl; intuition discriminate|]. split; [repeat constructor; simpl; intuition discriminate|].
  split; [right; split; auto; intros x; simpl; intuition auto|]. split; [right; split; auto; intros x; simpl; intuition auto|].
  vm_compute. reflexivity.
Qed.
Print Assumptions C48_both_axes_refuted.
Example C48_hypotheses_met :
  x_assign x_units x_choices (SMatrix false true true 9 None) (x_frame (XFrame ["h2"] ["bus"] [[22]] false))
  = Ok (SMatrix false true true 9 (Some (2, [[9; 9]; [9; 22]; [9; 9]]))).
Proof. vm_compute. reflexivity. Qed.

(** C49 is false both ways *)
Theorem C49_allow_links_refuted :
  x_assign x_units x_choices (STable true [] false None) (x_frame (XFrame ["car"; "bus"] ["cost"] [[1]; [2]] false)) = Err TypeError /\
  is_ok (x_assign x_units x_choices (STable true [] false None) (x_frame (XFrame ["car"; "bus"] ["cost"] [[1]; [2]] true))) = true.
Proof. vm_compute. auto. Qed.
Print Assumptions C49_allow_links_refuted.
