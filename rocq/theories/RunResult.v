(** The arrays of the parallel loop become the returned Series or frame. *)
From Verif Require Import Prelude Arith TreeModel ParModel ExprModel ScopeModel SpecScope ModelModel ModelProofs SpecModel KernelProofs EvalProofs PropState RunOut SpecEnd OutProofs.
Local Open Scope nat_scope.
Local Open Scope list_scope.

Section Result.
  Context {L : Type} {F : arith} {D cell : Type} (E : env L F D cell).
  (** the arrays of a loop that has written positions become a result that shows them *)
  Lemma result_ok (m1 : cm E) d cols n (mem : ParModel.mem F) as_index squeeze : units E m1 = Ok d -> choices (m_tree m1) = Ok cols -> 1 <= n ->
    (forall r j, r < length d -> j < n -> exists k, mem (CRes r j) = VI (Z.of_nat k) /\ k < length cols) ->
    exists res, convert_result E m1 (result_array mem (length d) n) n as_index squeeze = Ok res /\ result_units res = d /\
      forall r j, r < length d -> j < n -> exists e, result_entry res r j = Some e /\ forall k, mem (CRes r j) = VI (Z.of_nat k) -> shows cols as_index e k.
  Proof.
    intros DU1 CH1 Hn' DR. set (raw := result_array mem (length d) n) in *.
    assert (AT : forall r j, r < length d -> j < n -> at2 raw r j = Some (int_cell (mem (CRes r j)))).
    { intros r j Hr Hj. unfold at2, raw, result_array. rewrite nth_error_map, nth_error_seq0 by auto. cbn. rewrite nth_error_map, nth_error_seq0 by auto. reflexivity. }
    assert (RR : rectangle (length d) n raw).
    { split; [unfold raw, result_array; now rewrite map_length, seq_length|]. apply Forall_forall. intros x I. unfold raw, result_array in I. apply in_map_iff in I. destruct I as (k & <- & _). now rewrite map_length, seq_length. }
    assert (RG : forall row z, In row raw -> In z row -> (0 <= z < Z.of_nat (length cols))%Z).
    { intros row z I1 I2. unfold raw, result_array in I1. apply in_map_iff in I1. destruct I1 as (r & <- & I1). apply in_seq in I1. apply in_map_iff in I2. destruct I2 as (j & <- & I2). apply in_seq in I2.
      destruct (DR r j) as (k & CK & Hk); [lia|lia|]. rewrite CK. cbn. lia. }
    pose proof (C59_positions_to_labels E m1 d cols raw n as_index squeeze DU1 CH1 Hn' RR RG) as C59.
    assert (RE : exists res, convert_result E m1 raw n as_index squeeze = Ok res /\ result_units res = d /\ forall r j z, at2 raw r j = Some z -> exists e, result_entry res r j = Some e /\ stands_for cols as_index z e).
    { destruct (andb (n =? 1) squeeze) eqn:SQ.
      - destruct C59 as (values & Q & _ & Q2). eexists. split; [exact Q|]. split; auto. intros r j z H. apply andb_true_iff in SQ. destruct SQ as [SQ _]. apply Nat.eqb_eq in SQ.
        assert (j = 0). { destruct RR as [_ RR]. rewrite Forall_forall in RR. unfold at2 in H. destruct (nth_error raw r) as [row|] eqn:NR; [|discriminate]. pose proof (RR row (nth_error_In _ _ NR)). assert (j < length row) by (apply nth_error_Some; congruence). lia. }
        subst j. apply (Q2 r z H).
      - destruct C59 as (columns & Q & _ & Q2). eexists. split; [exact Q|]. split; auto. }
    destruct RE as (res & CV & RE1 & RE2). exists res. split; auto. split; auto. intros r j Hr Hj. destruct (RE2 r j _ (AT r j Hr Hj)) as (e & E1 & E2). exists e. split; auto.
    intros k CK. rewrite CK in E2. unfold stands_for in E2. cbn in E2. unfold shows. destruct as_index; auto. now rewrite Nat2Z.id in E2.
  Qed.
End Result.
