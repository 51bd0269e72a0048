(** Lemmas about the scope symbols (ScopeModel.v). *)
From Verif Require Import Prelude ExprModel TreeModel ScopeModel SpecScope.
Local Open Scope nat_scope.
Local Open Scope list_scope.

Section Index.
  Context {D : Type} (deq : D -> D -> bool) (deq_spec : forall a b, deq a b = true <-> a = b).
  Set Default Proof Using "Type*".

  Lemma deq_refl a : deq a a = true. Proof. now apply deq_spec. Qed.
  Lemma deq_neq a b : a <> b -> deq a b = false.
  Proof. intros N. destruct (deq a b) eqn:E; auto. now apply deq_spec in E. Qed.

  Lemma index_equals_spec : forall a b, index_equals deq a b = true <-> a = b.
  Proof.
    induction a as [|x a IH]; intros [|y b]; simpl; split; intros H; try discriminate; auto.
    - apply andb_true_iff in H. destruct H as [H1 H2]. apply deq_spec in H1. apply IH in H2. congruence.
    - injection H as -> ->. apply andb_true_iff. split; [apply deq_refl|now apply IH].
  Qed.
  Lemma index_equals_refl a : index_equals deq a a = true. Proof. now apply index_equals_spec. Qed.
  Lemma index_equals_neq a b : a <> b -> index_equals deq a b = false.
  Proof. intros N. destruct (index_equals deq a b) eqn:E; auto. now apply index_equals_spec in E. Qed.

  Lemma position_some : forall l x i, position deq l x = Some i -> nth_error l i = Some x.
  Proof.
    induction l as [|y l IH]; simpl; intros x i H; [discriminate|]. destruct (deq x y) eqn:E.
    - injection H as <-. apply deq_spec in E. subst. reflexivity.
    - destruct (position deq l x) as [j|] eqn:P; [|discriminate]. injection H as <-. simpl. now apply IH.
  Qed.
  Lemma position_none : forall l x, position deq l x = None <-> ~ In x l.
  Proof.
    induction l as [|y l IH]; simpl; intros x; [split; auto; discriminate|]. destruct (deq x y) eqn:E.
    - apply deq_spec in E. subst. split; [discriminate|]. intros H. exfalso. auto.
    - assert (y <> x) by (intros ->; rewrite deq_refl in E; discriminate).
      destruct (position deq l x) as [j|] eqn:P; split; try discriminate; auto.
      + intros H1. exfalso. assert (~ In x l) by tauto. apply IH in H0. congruence.
      + intros _ [H1|H1]; [auto|]. revert H1. now apply IH.
  Qed.
  Lemma position_lt l x i : position deq l x = Some i -> i < length l.
  Proof. intros H. apply position_some in H. apply nth_error_Some. congruence. Qed.
  Lemma position_nth l x i : NoDup l -> nth_error l i = Some x -> position deq l x = Some i.
  Proof.
    intros N H. destruct (position deq l x) as [j|] eqn:P.
    - f_equal. apply position_some in P. apply (proj1 (NoDup_nth_error l) N); [apply nth_error_Some; congruence|congruence].
    - apply position_none in P. exfalso. apply P. eapply nth_error_In; eauto.
  Qed.
  Lemma unique_spec : forall l, unique deq l = true <-> NoDup l.
  Proof.
    induction l as [|x l IH]; simpl; [split; auto; constructor|]. rewrite andb_true_iff, negb_true_iff, IH. split.
    - intros [H1 H2]. constructor; auto. intros I. rewrite <- not_true_iff_false in H1. apply H1. apply existsb_exists.
      exists x. split; auto. apply deq_refl.
    - intros N. inversion N; subst. split; auto. apply not_true_iff_false. intros E. apply existsb_exists in E.
      destruct E as (y & I & E). apply deq_spec in E. subst. auto.
  Qed.
  Lemma get_indexer_unique index labels : NoDup index ->
    get_indexer deq index labels
    = Ok (map (fun x => match position deq index x with Some i => Z.of_nat i | None => (-1)%Z end) labels).
  Proof. intros N. unfold get_indexer. apply unique_spec in N. now rewrite N. Qed.

  Definition positions (index labels : list D) : list nat :=
    map (fun x => match position deq index x with Some i => i | None => 0 end) labels.

  Lemma known_iff index labels :
    forallb (fun z => (0 <=? z)%Z) (map (fun x => match position deq index x with Some i => Z.of_nat i | None => (-1)%Z end) labels) = true
    <-> incl labels index.
  Proof.
    rewrite forallb_forall. split.
    - intros H x I. destruct (position deq index x) as [i|] eqn:P.
      + apply position_some in P. eapply nth_error_In; eauto.
      + exfalso. specialize (H (-1)%Z). discriminate H. apply in_map_iff. exists x. rewrite P. auto.
    - intros H z I. apply in_map_iff in I. destruct I as (x & <- & I). apply H in I.
      destruct (position deq index x) as [i|] eqn:P; [apply Z.leb_le; lia|]. apply position_none in P. tauto.
  Qed.

  (** one axis of a matrix assignment *)
  Lemma axis_spec allowed index labels : NoDup index ->
    (index = labels /\ axis deq allowed index labels = Ok None) \/
    (index <> labels /\ allowed = false /\ axis deq allowed index labels = Err AssertionError) \/
    (index <> labels /\ allowed = true /\ ~ incl labels index /\ axis deq allowed index labels = Err NotImplementedErr) \/
    (index <> labels /\ allowed = true /\ incl labels index /\ axis deq allowed index labels = Ok (Some (positions index labels))).
  Proof.
    intros N. unfold axis. destruct (index_equals deq index labels) eqn:E.
    - left. split; auto. now apply index_equals_spec.
    - right. assert (NE : index <> labels) by (intros ->; rewrite index_equals_refl in E; discriminate).
      destruct allowed; simpl; [|left; auto]. right. rewrite get_indexer_unique by auto. simpl.
      destruct (forallb _ _) eqn:K; simpl.
      + right. repeat split; auto; [now apply known_iff|]. f_equal. f_equal. unfold positions. rewrite map_map. apply map_ext. intros x.
        destruct (position deq index x) eqn:P; [apply Nat2Z.id|].
        (* unknown labels do not occur *) reflexivity.
      + left. repeat split; auto. intros I. apply known_iff in I. congruence.
  Qed.

  Lemma positions_length index labels : length (positions index labels) = length labels.
  Proof. apply map_length. Qed.
  Lemma positions_nth index labels i x : nth_error labels i = Some x -> In x index ->
    exists r, nth_error (positions index labels) i = Some r /\ nth_error index r = Some x /\ r < length index.
  Proof.
    intros H I. destruct (position deq index x) as [r|] eqn:P; [|apply position_none in P; tauto].
    exists r. split; [unfold positions; rewrite nth_error_map, H; simpl; now rewrite P|].
    split; [now apply position_some|eapply position_lt; eauto].
  Qed.
  Lemma positions_inv index labels i r : nth_error (positions index labels) i = Some r -> incl labels index ->
    exists x, nth_error labels i = Some x /\ nth_error index r = Some x.
  Proof.
    unfold positions. rewrite nth_error_map. destruct (nth_error labels i) as [x|] eqn:E; [|discriminate]. simpl. intros H I.
    exists x. split; auto. apply nth_error_In in E. apply I in E.
    destruct (position deq index x) as [j|] eqn:P; [|apply position_none in P; tauto]. injection H as <-. now apply position_some.
  Qed.
  Lemma positions_nodup index labels : incl labels index -> NoDup labels -> NoDup (positions index labels).
  Proof.
    intros I N. apply NoDup_nth_error. intros i j Hi E. rewrite positions_length in Hi.
    destruct (nth_error (positions index labels) i) as [r|] eqn:Ei.
    2:{ exfalso. apply nth_error_None in Ei. rewrite positions_length in Ei. lia. }
    symmetry in E. apply positions_inv in Ei, E; auto. destruct Ei as (x & X1 & X2), E as (y & Y1 & Y2).
    assert (x = y) by congruence. subst y.
    apply (proj1 (NoDup_nth_error labels) N); [apply nth_error_Some; congruence|congruence].
  Qed.
  Lemma positions_bound index labels : incl labels index -> Forall (fun r => r < length index) (positions index labels).
  Proof.
    intros I. apply Forall_forall. intros r H. apply In_nth_error in H. destruct H as [i H]. apply positions_inv in H; auto.
    destruct H as (x & _ & H). apply nth_error_Some. congruence.
  Qed.
End Index.

(** ** Writing at integer positions *)
Section Put.
  Context {A : Type}.
  Fixpoint put (m : list A) (rows : list nat) (data : list A) : list A :=
    match rows, data with r :: rs, d :: ds => put (upd m r d) rs ds | _, _ => m end.
  Lemma put_length : forall rows m data, length (put m rows data) = length m.
  Proof. induction rows as [|r rs IH]; intros m [|d ds]; simpl; auto. now rewrite IH, upd_length. Qed.
  Lemma put_outside : forall rows m data r, ~ In r rows -> nth_error (put m rows data) r = nth_error m r.
  Proof.
    induction rows as [|r0 rs IH]; intros m [|d ds] r H; simpl in *; auto. rewrite IH by tauto. apply nth_error_upd_neq. tauto.
  Qed.
  Lemma put_at : forall rows m data i r, NoDup rows -> Forall (fun r => r < length m) rows -> length data = length rows ->
    nth_error rows i = Some r -> nth_error (put m rows data) r = nth_error data i.
  Proof.
    induction rows as [|r0 rs IH]; intros m data i r N B LD H; [destruct i; discriminate|].
    destruct data as [|d ds]; [discriminate|]. simpl in LD. inversion N; inversion B; subst. simpl.
    destruct i as [|i]; simpl in *.
    - injection H as <-. rewrite put_outside by auto. now apply nth_error_upd_eq.
    - apply IH; auto. eapply Forall_impl; [|eassumption]. intros a Ha. now rewrite upd_length.
  Qed.
End Put.

Section Matrix.
  Context {cell : Type}.
  Notation matrix := (list (list cell)).
  Lemma put_rows_put : forall rows (m data : matrix), put_rows m rows data = put m rows data.
  Proof. induction rows as [|r rs IH]; intros m [|d ds]; simpl; auto. Qed.
  Lemma put_cells_put : forall cols (m data : list cell), put_cells m cols data = put m cols data.
  Proof. induction cols as [|r rs IH]; intros m [|d ds]; simpl; auto. Qed.
  Lemma put_cols_nth : forall (m data : matrix) cols r row d, nth_error m r = Some row -> nth_error data r = Some d ->
    nth_error (put_cols m cols data) r = Some (put row cols d).
  Proof.
    induction m as [|row0 m IH]; intros data cols r row d H1 H2; [destruct r; discriminate|].
    destruct data as [|d0 data]; [destruct r; discriminate|]. destruct r as [|r]; simpl in *.
    - injection H1 as ->. injection H2 as ->. now rewrite put_cells_put.
    - now apply IH.
  Qed.
  Lemma put_cols_length : forall (m data : matrix) cols, length (put_cols m cols data) = length m.
  Proof. induction m as [|row m IH]; intros [|d data] cols; simpl; auto. Qed.
  Lemma put_cols_rows k : forall (m data : matrix) cols, Forall (fun row => length row = k) m ->
    Forall (fun row => length row = k) (put_cols m cols data).
  Proof.
    induction m as [|row m IH]; intros [|d data] cols H; simpl; auto. inversion H; subst. constructor; auto.
    now rewrite put_cells_put, put_length.
  Qed.

  Lemma blank_rect (fill : cell) n k : rectangle n k (repeat (repeat fill k) n).
  Proof. split; [apply repeat_length|]. apply Forall_forall. intros r I. apply repeat_spec in I. subst. apply repeat_length. Qed.
  Lemma nth_error_repeat_lt {A} (x : A) n i : i < n -> nth_error (repeat x n) i = Some x.
  Proof. revert i. induction n as [|n IH]; intros i H; [lia|]. destruct i; simpl; auto. apply IH. lia. Qed.
  Lemma blank_at (fill : cell) n k r c : r < n -> c < k -> at2 (repeat (repeat fill k) n) r c = Some fill.
  Proof. intros H1 H2. unfold at2. rewrite nth_error_repeat_lt by auto. now apply nth_error_repeat_lt. Qed.

  Lemma put_forall {A} (P : A -> Prop) : forall rows (m data : list A), Forall P m -> Forall P data -> Forall P (put m rows data).
  Proof.
    assert (U : forall (l : list A) i x, Forall P l -> P x -> Forall P (upd l i x)).
    { induction l as [|a l IH]; intros [|i] x F X; simpl; auto; inversion F; subst; constructor; auto. }
    induction rows as [|r rs IH]; intros m [|d ds] F1 F2; simpl; auto. inversion F2; subst. apply IH; auto.
  Qed.

  Lemma rectangle_row n k (m : matrix) r : rectangle n k m -> r < n -> exists row, nth_error m r = Some row /\ length row = k.
  Proof.
    intros [H1 H2] H. destruct (nth_error m r) as [row|] eqn:E; [|apply nth_error_None in E; lia].
    exists row. split; auto. rewrite Forall_forall in H2. apply H2. eapply nth_error_In; eauto.
  Qed.

  Lemma at2_column (m : matrix) k j i : Forall (fun row => length row = k) m -> j < k ->
    nth_error (column m j) i = at2 m i j.
  Proof.
    intros F H. unfold column, at2. revert i. induction m as [|row m IH]; intros i; simpl; [now destruct i|]. inversion F; subst.
    destruct (nth_error row j) as [x|] eqn:E; [|apply nth_error_None in E; lia]. destruct i as [|i]; simpl; auto.
  Qed.
  Lemma column_length (m : matrix) k j : Forall (fun row => length row = k) m -> j < k -> length (column m j) = length m.
  Proof.
    intros F H. unfold column. induction m as [|row m IH]; simpl; auto. inversion F; subst.
    destruct (nth_error row j) as [x|] eqn:E; [|apply nth_error_None in E; lia]. simpl. f_equal. now apply IH.
  Qed.
  Lemma transpose_rect n k (m : matrix) : rectangle n k m -> rectangle k n (transpose k m).
  Proof.
    intros [H1 H2]. split; [unfold transpose; now rewrite map_length, seq_length|]. apply Forall_forall. intros row I.
    unfold transpose in I. apply in_map_iff in I. destruct I as (j & <- & I). apply in_seq in I. rewrite (column_length m k); auto. lia.
  Qed.
  Lemma transpose_at n k (m : matrix) i j : rectangle n k m -> j < k -> at2 (transpose k m) j i = at2 m i j.
  Proof.
    intros [H1 H2] H. unfold at2 at 1. unfold transpose. rewrite nth_error_map.
    replace (nth_error (seq 0 k) j) with (Some j).
    - simpl. now apply at2_column with (k := k).
    - symmetry. rewrite (nth_error_nth' _ 0) by (now rewrite seq_length). now rewrite seq_nth.
  Qed.

  (** the paired write of one row of data *)
  Lemma paired_one_row (fill : cell) n k r cols d : length d = length cols ->
    put_paired (repeat (repeat fill k) n) [r] cols [d]
    = Ok (if length cols =? 0 then repeat (repeat fill k) n
          else upd (repeat (repeat fill k) n) r (put (nth r (repeat (repeat fill k) n) []) cols d)).
  Proof.
    intros LD. set (m := repeat (repeat fill k) n). unfold put_paired.
    assert (B : broadcast2 (length [r]) (length cols) = Some (length cols)).
    { unfold broadcast2. simpl length. destruct (1 =? length cols) eqn:E; [apply Nat.eqb_eq in E; now rewrite E|]. reflexivity. }
    rewrite B. replace ((length d =? length cols) || (length d =? 1))%bool with true by (rewrite LD, Nat.eqb_refl; reflexivity).
    f_equal. clear B.
    assert (G : forall cols2 (d2 : list cell) (m : matrix), length d2 = length cols2 -> (cols2 = [] -> False) ->
      fold_left (fun m i => match nth_error d2 i with Some x => upd m r (upd (nth r m []) (nth i cols2 0) x) | None => m end) (seq 0 (length cols2)) m
      = if r <? length m then upd m r (put (nth r m []) cols2 d2) else m).
    { clear. assert (G : forall cols2 (d2 : list cell) c1 (d1 : list cell) (m : matrix), length d1 = length c1 -> length d2 = length cols2 -> r < length m ->
        fold_left (fun m i => match nth_error (d1 ++ d2) i with Some x => upd m r (upd (nth r m []) (nth i (c1 ++ cols2) 0) x) | None => m end)
                  (seq (length c1) (length cols2)) m
        = if length cols2 =? 0 then m else upd m r (put (nth r m []) cols2 d2)).
      { induction cols2 as [|c cs IH]; intros [|x xs] c1 d1 m L1 L2 HR; simpl in L2; try discriminate; auto.
        cbn [length seq fold_left Nat.eqb put].
        rewrite nth_error_app2 by lia. rewrite L1, Nat.sub_diag. cbn [nth_error].
        rewrite app_nth2 by lia. rewrite Nat.sub_diag. cbn [nth].
        replace (c1 ++ c :: cs) with ((c1 ++ [c]) ++ cs) by (now rewrite <- app_assoc).
        replace (d1 ++ x :: xs) with ((d1 ++ [x]) ++ xs) by (now rewrite <- app_assoc).
        replace (S (length c1)) with (length (c1 ++ [c])) by (rewrite app_length; simpl; lia).
        rewrite IH; [|rewrite !app_length; simpl; lia|lia|now rewrite upd_length].
        destruct cs as [|c2 cs]; cbn [length Nat.eqb].
        - destruct xs; [|discriminate]. reflexivity.
        - rewrite nth_upd_eq by auto. clear. revert r. induction m as [|a m IHm]; intros [|r]; simpl; auto. f_equal. apply IHm. }
      intros cols2 d2 m L2 NE. destruct (r <? length m) eqn:HR.
      - apply Nat.ltb_lt in HR. specialize (G cols2 d2 [] [] m eq_refl L2 HR). cbn [length app] in G. rewrite G.
        destruct cols2; [tauto|reflexivity].
      - apply Nat.ltb_ge in HR.
        assert (U : forall x, upd m r x = m).
        { intros x. clear -HR. revert r HR. induction m as [|a m IH]; intros [|r] H; simpl in *; auto; try lia. f_equal. apply IH. lia. }
        induction (seq 0 (length cols2)) as [|i l IH]; cbn [fold_left]; auto.
        destruct (nth_error d2 i); [rewrite U|]; auto. }
    assert (OUT : forall x, length m <= r -> upd m r x = m).
    { intros x HR. clear -HR. revert r HR. induction m as [|a m IH]; intros [|r] H; simpl in *; auto; try lia. f_equal. apply IH. lia. }
    destruct cols as [|c cs].
    - reflexivity.
    - cbn [length Nat.eqb].
      transitivity (fold_left (fun m i => match nth_error d i with Some x => upd m r (upd (nth r m []) (nth i (c :: cs) 0) x) | None => m end) (seq 0 (length (c :: cs))) m).
      + apply fold_left_ext. intros a i I. apply in_seq in I. unfold pick. simpl (length [r] =? 1). cbn [nth].
        destruct (length d =? 1) eqn:E1.
        * apply Nat.eqb_eq in E1. rewrite E1 in LD. rewrite <- LD. replace i with 0 by (cbn [length] in *; lia). reflexivity.
        * replace (length (c :: cs) =? 1) with false; [reflexivity|]. rewrite <- LD. auto.
      + rewrite G; auto; [|discriminate]. destruct (r <? length m) eqn:HR; auto. symmetry. apply OUT. now apply Nat.ltb_ge.
  Qed.
End Matrix.
