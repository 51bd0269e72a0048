(** Collapse to multinomial logit, shift invariance, one-level trees (C16-C18). *)
From Coq Require Import Reals Lra Psatz Permutation.
From Flocq Require Import Core.Core IEEE754.BinarySingleNaN.
From Verif Require Import Prelude Arith CoreModel SpecSampling SpecLogit SpecNested SamplingProofs MnlProofs NestedProofs NestedExact.
Local Open Scope R_scope.

Section Collapse.
  Context (n : nat) (h : list Z) (lv : list nat) (bt : list bool) (scaled : bool) (scales : list R).
  Hypothesis WF : wf_table n h lv bt.
  Hypothesis HS : length scales = n /\ Forall (fun s => 0 < s) scales.
  Context (us : list (option R)).
  Hypothesis HU : length us = n.
  Hypothesis HC : forall i, (i < n)%nat -> children n h i <> [] -> nth i scales 0 = 1 /\ nth i us None = Some 0.

  Notation leaf := (leaf n h).
  Notation nl_real := (nl_real n h scaled scales us).

  Lemma leaf_false i : leaf i = false <-> children n h i <> [].
  Proof. unfold leaf. unfold NestedExact.leaf. destruct (children n h i); split; congruence. Qed.

  Lemma dv_one i : (i < n)%nat -> dv h scaled scales i = 1.
  Proof.
    intros Hi. unfold dv. destruct (parent_of h i) as [p|] eqn:Ep; auto. destruct scaled; auto.
    assert (Hp : (p < n)%nat) by (now apply (parent_some n h lv bt WF i p)).
    apply HC; auto. intros E. assert (In i (children n h p)) by (now apply in_children). now rewrite E in H.
  Qed.

  Lemma collapse_leaf e i : nl_real e -> (i < n)%nat -> leaf i = true -> e i = expu (nth i us None).
  Proof.
    intros H Hi Hl. rewrite (H i Hi), Hl. unfold uof. rewrite dv_one by auto.
    destruct (nth i us None); simpl; auto. f_equal. field.
  Qed.
  Lemma collapse_nest e i : nl_real e -> (i < n)%nat -> leaf i = false -> e i = SUM e (children n h i).
  Proof.
    intros H Hi Hl. rewrite (H i Hi), Hl. destruct (HC i Hi) as [H1 H2]; [now apply leaf_false|].
    unfold uof, sc. rewrite H1, H2, dv_one by auto.
    destruct (Rltb 0 (SUM e (children n h i))) eqn:E.
    - apply Rltb_true in E. replace ((0 + 1 * ln (SUM e (children n h i))) / 1) with (ln (SUM e (children n h i))) by field.
      now apply exp_ln.
    - apply Rltb_false in E.
      assert (0 <= SUM e (children n h i)).
      { apply SUM_nonneg. intros j Hj. apply (nl_real_nonneg _ _ _ _ _ e H). now apply in_children in Hj. }
      lra.
  Qed.

  Definition leaf_utils : list (option R) := map (fun i => nth i us None) (filter leaf (seq 0 n)).

  Lemma collapse_total e : nl_real e -> SUM e (tops n h) = total leaf_utils.
  Proof.
    intros H. rewrite <- (leaves_total n h lv bt WF e).
    - unfold total, leaf_utils. rewrite map_map. apply SUM_ext. intros i Hi. apply filter_In in Hi.
      destruct Hi as [Hi Hl]. apply in_seq in Hi. apply collapse_leaf; auto; lia.
    - intros i Hi Hl. symmetry. now apply collapse_nest.
  Qed.

  Lemma collapse_abs e q : nl_real e -> abs_real n h e q -> 0 < SUM e (tops n h) ->
    forall i, (i < n)%nat -> q i = e i / SUM e (tops n h).
  Proof.
    intros H Hq Ht. apply (down_ind n h lv bt WF). intros i Hi IH. rewrite (Hq i Hi).
    unfold cnd, siblings. destruct (parent_of h i) as [p|] eqn:Ep.
    - assert (Hp : (p < n)%nat) by (now apply (parent_some n h lv bt WF i p)).
      rewrite (IH p eq_refl).
      assert (Hl : leaf p = false).
      { apply leaf_false. intros E. assert (X : In i (children n h p)) by (now apply in_children). now rewrite E in X. }
      rewrite (collapse_nest e p) by auto.
      destruct (Rleb (SUM e (children n h p)) 0) eqn:E.
      + apply Rleb_true in E.
        assert (He : e i <= SUM e (children n h p)).
        { apply SUM_ge; [|now apply in_children]. intros j Hj. apply (nl_real_nonneg _ _ _ _ _ e H). now apply in_children in Hj. }
        pose proof (nl_real_nonneg _ _ _ _ _ e H i Hi).
        assert (E0 : e i = 0) by lra. rewrite E0. unfold Rdiv. ring.
      + apply Rleb_false in E. field. lra.
    - destruct (Rleb (SUM e (tops n h)) 0) eqn:E; auto. apply Rleb_true in E. lra.
  Qed.

  Lemma collapse_result chk :
    match nested_probabilities XR h lv (map Fin scales) bt scaled (map as_x us) chk,
          multinomial_probabilities XR (map as_x leaf_utils) chk with
    | Ok (p, ls, _), Ok (p', ls', _) => p' = map (fun i => nth i p NaN) (filter leaf (seq 0 n)) /\ ls' = ls
    | Err x, Err y => x = y
    | _, _ => False
    end.
  Proof.
    destruct (nested_real n h lv bt scaled scales WF HS us HU chk) as (e & q & He & Hq & ->).
    pose proof (collapse_total e He) as HT.
    destruct (feasible_dec leaf_utils) as [Hf|Hf].
    - pose proof (total_pos _ Hf) as HP. rewrite mnl_formula by auto. unfold mnl_result. rewrite HT in *.
      destruct (Rleb (total leaf_utils) 0) eqn:E; [apply Rleb_true in E; lra|]. simpl.
      split; auto. unfold leaf_utils at 2. rewrite !map_map. apply map_ext_in. intros i Hi.
      apply filter_In in Hi. destruct Hi as [Hi Hl]. apply in_seq in Hi.
      unfold outp. rewrite map_map, nth_map_seq by lia. fold leaf. rewrite Hl. f_equal.
      rewrite (collapse_abs e q He Hq) by (try lia; rewrite HT; auto).
      rewrite HT. unfold mnl. rewrite <- (collapse_leaf e i) by (auto; lia). reflexivity.
    - pose proof (total_zero _ Hf) as HP. rewrite mnl_infeasible by auto. rewrite HT, HP in *.
      destruct (Rleb 0 0) eqn:E; [|apply Rleb_false in E; lra]. destruct chk; simpl; auto.
      split; auto. unfold leaf_utils. rewrite map_map. apply map_ext_in. intros i Hi.
      apply filter_In in Hi. destruct Hi as [Hi Hl]. apply in_seq in Hi.
      unfold outp. rewrite map_map, nth_map_seq by lia. fold leaf. rewrite Hl. f_equal. symmetry.
      assert (Hqz : forall i, (i < n)%nat -> q i = 0).
      { apply (down_ind n h lv bt WF). intros k Hk IH. rewrite (Hq k Hk).
        destruct (parent_of h k) as [p|] eqn:Ep; [rewrite (IH p eq_refl); ring|].
        unfold cnd, siblings. rewrite Ep, HT. destruct (Rleb 0 0) eqn:E'; auto. apply Rleb_false in E'; lra. }
      apply Hqz. lia.
  Qed.
End Collapse.

Section Shift.
  Context (n : nat) (h : list Z) (lv : list nat) (bt : list bool) (scaled : bool) (scales : list R).
  Hypothesis WF : wf_table n h lv bt.
  Hypothesis HS : length scales = n /\ Forall (fun s => 0 < s) scales.
  Context (us : list (option R)) (c : R).
  Hypothesis HU : length us = n.

  Definition shift_tops : list (option R) :=
    map (fun i => match parent_of h i with None => shift c (nth i us None) | Some _ => nth i us None end) (seq 0 n).

  Lemma shift_tops_len : length shift_tops = n.
  Proof. unfold shift_tops. now rewrite map_length, seq_length. Qed.
  Lemma shift_tops_nth i : (i < n)%nat -> uof shift_tops i =
     match parent_of h i with None => shift c (nth i us None) | Some _ => nth i us None end.
  Proof. intros Hi. unfold uof, shift_tops. now rewrite nth_map_seq. Qed.

  Definition fac (i : nat) : R := match parent_of h i with None => exp c | Some _ => 1 end.

  Lemma shift_terms e e' : nl_real n h scaled scales us e -> nl_real n h scaled scales shift_tops e' ->
    forall i, (i < n)%nat -> e' i = fac i * e i.
  Proof.
    intros H H'. apply (up_ind n h lv bt WF). intros i Hi IH.
    rewrite (H i Hi), (H' i Hi), shift_tops_nth by auto. unfold uof.
    assert (ES : SUM e' (children n h i) = SUM e (children n h i)).
    { apply SUM_ext. intros j Hj. rewrite IH by auto. unfold fac. apply in_children in Hj.
      destruct Hj as [_ ->]. ring. }
    rewrite ES. unfold fac, dv. destruct (parent_of h i) as [p|] eqn:Ep.
    - ring.
    - destruct (nth i us None) as [x|]; simpl; [|ring].
      destruct (leaf n h i).
      + rewrite <- exp_plus. f_equal. field.
      + destruct (Rltb 0 _); [|ring]. rewrite <- exp_plus. f_equal. field.
  Qed.

  Lemma shift_sum e e' l : (forall i, (i < n)%nat -> e' i = fac i * e i) ->
    (forall j, In j l -> (j < n)%nat /\ parent_of h j = None) -> SUM e' l = exp c * SUM e l.
  Proof.
    intros H Hl. rewrite <- SUM_mult. apply SUM_ext. intros j Hj. destruct (Hl j Hj) as [A B].
    rewrite H by auto. unfold fac. now rewrite B.
  Qed.

  Lemma shift_cnd e e' : (forall i, (i < n)%nat -> e' i = fac i * e i) ->
    forall i, (i < n)%nat -> cnd n h e' i = cnd n h e i.
  Proof.
    intros H i Hi. unfold cnd, siblings. destruct (parent_of h i) as [p|] eqn:Ep.
    - assert (ES : SUM e' (children n h p) = SUM e (children n h p)).
      { apply SUM_ext. intros j Hj. apply in_children in Hj. destruct Hj as [A B]. rewrite H by auto.
        unfold fac. rewrite B. ring. }
      rewrite ES. destruct (Rleb _ 0); auto. rewrite H by auto. unfold fac. rewrite Ep. f_equal. ring.
    - rewrite (shift_sum e e') by (auto; intros j Hj; now apply in_tops in Hj).
      pose proof (exp_pos c).
      destruct (Rleb (SUM e (tops n h)) 0) eqn:E1; destruct (Rleb (exp c * SUM e (tops n h)) 0) eqn:E2; auto.
      + apply Rleb_true in E1. apply Rleb_false in E2. nra.
      + apply Rleb_false in E1. apply Rleb_true in E2. nra.
      + apply Rleb_false in E1. rewrite H by auto. unfold fac. rewrite Ep. field. split; lra.
  Qed.

  Lemma shift_result chk :
    match nested_probabilities XR h lv (map Fin scales) bt scaled (map as_x us) chk,
          nested_probabilities XR h lv (map Fin scales) bt scaled (map as_x shift_tops) chk with
    | Ok (p, ls, _), Ok (p', ls', _) => p' = p /\ exists x, ls = Fin x /\ ls' = Fin (exp c * x)
    | Err x, Err y => x = y
    | _, _ => False
    end.
  Proof.
    destruct (nested_real n h lv bt scaled scales WF HS us HU chk) as (e & q & He & Hq & ->).
    destruct (nested_real n h lv bt scaled scales WF HS shift_tops shift_tops_len chk) as (e' & q' & He' & Hq' & ->).
    pose proof (shift_terms e e' He He') as HE. pose proof (shift_cnd e e' HE) as Hcnd.
    assert (HT : SUM e' (tops n h) = exp c * SUM e (tops n h)).
    { apply shift_sum; auto. intros j Hj. now apply in_tops in Hj. }
    assert (HQ : forall i, (i < n)%nat -> q' i = q i).
    { apply (down_ind n h lv bt WF). intros i Hi IH. rewrite (Hq i Hi), (Hq' i Hi), Hcnd by auto.
      destruct (parent_of h i) as [p|] eqn:Ep; auto. now rewrite (IH p eq_refl). }
    pose proof (exp_pos c).
    assert (HB : Rleb (SUM e' (tops n h)) 0 = Rleb (SUM e (tops n h)) 0).
    { rewrite HT. destruct (Rleb (SUM e (tops n h)) 0) eqn:E1.
      - apply Rleb_true in E1. apply Rleb_true. nra.
      - apply Rleb_false in E1. apply Rleb_false. nra. }
    rewrite HB. destruct (Rleb (SUM e (tops n h)) 0 && chk); auto. split.
    - unfold outp. f_equal. apply map_ext_in. intros i Hi. apply in_seq in Hi. rewrite HQ by lia. reflexivity.
    - eexists. split; [reflexivity|]. now rewrite HT.
  Qed.
End Shift.

(** ** One-level tables *)
Section OneLevel.
  Local Open Scope nat_scope.
  Context (F : arith) (n : nat) (h : list Z) (lv : list nat) (scales : list (num F)) (bt : list bool) (scaled : bool).
  Hypothesis WF : wf_table n h lv bt.
  Hypothesis HT : forall i, i < n -> parent_of h i = None.
  Hypothesis Hdiv1 : forall x, ndiv F x (none_ F) = x.
  Context (u : list (num F)).
  Hypothesis HU : length u = n.

  Lemma ol_children i : children n h i = [].
  Proof.
    destruct (children n h i) as [|j t] eqn:E; auto. exfalso.
    assert (H : In j (children n h i)) by (rewrite E; now left). apply in_children in H.
    destruct H as [Hj H]. rewrite HT in H by auto. discriminate.
  Qed.
  Lemma ol_tops : tops n h = seq 0 n.
  Proof.
    unfold tops. assert (H : forall l, (forall j, In j l -> j < n) -> filter (is_top h) l = l).
    { induction l as [|j t IH]; intros Hl; simpl; auto.
      unfold is_top at 1. rewrite HT by (apply Hl; now left). f_equal. apply IH. intros; apply Hl; now right. }
    apply H. intros j Hj. apply in_seq in Hj. lia.
  Qed.
  Lemma ol_E : E1 F h lv scales bt scaled u = map (nexp F) u.
  Proof.
    apply list_eq_nth with (d := nzero F).
    - rewrite map_length, HU. now apply (step1_len F n).
    - intros i Hi. rewrite (step1_len F n) in Hi by auto.
      destruct (step1_terms F n h lv scales bt scaled WF u HU) as [_ H]. rewrite (H i Hi).
      rewrite ol_children. unfold divisor. rewrite HT by auto. rewrite Hdiv1.
      rewrite nth_indep with (d' := nexp F (nzero F)) (l := map (nexp F) u) by (rewrite map_length; lia).
      now rewrite map_nth.
  Qed.
  Lemma gsum_all (E : list (num F)) : length E = n -> group_sum F E (seq 0 n) = nsum F E.
  Proof.
    intros HL. unfold group_sum, nsum.
    assert (X : forall (l : list (num F)) pre a, E = pre ++ l ->
        fold_left (fun a j => nadd F a (nth j E (nzero F))) (seq (length pre) (length l)) a = fold_left (nadd F) l a).
    { induction l as [|x t IH]; intros pre a HE; simpl; auto.
      specialize (IH (pre ++ [x])). rewrite app_length in IH. simpl in IH. rewrite Nat.add_1_r in IH.
      rewrite IH by (rewrite HE, <- app_assoc; reflexivity).
      f_equal. f_equal. rewrite HE, app_nth2, Nat.sub_diag by lia. reflexivity. }
    rewrite <- HL. apply (X E [] _). reflexivity.
  Qed.
  Lemma ol_T : T1 F h lv scales bt scaled u = nsum F (map (nexp F) u).
  Proof.
    rewrite (step1_top F n) by auto. rewrite ol_tops, ol_E. apply gsum_all. now rewrite map_length.
  Qed.
  Lemma ol_result chk :
    nested_probabilities F h lv scales bt scaled u chk = multinomial_probabilities F u chk.
  Proof.
    rewrite (nested_out F n) by auto. unfold multinomial_probabilities. rewrite ol_T, ol_E.
    assert (HP : P4 F h lv scales bt scaled u =
              map (fun e => if nle F (nsum F (map (nexp F) u)) (nzero F) then nzero F
                            else ndiv F e (nsum F (map (nexp F) u))) (map (nexp F) u)).
    { apply list_eq_nth with (d := nzero F).
      - rewrite !map_length, HU. now apply (P4_len F n).
      - intros i Hi. rewrite (P4_len F n) in Hi by auto.
        pose proof (P4_eq F n h lv scales bt scaled WF u HU i Hi) as E. unfold rd at 1 in E. rewrite E.
        rewrite ol_children. rewrite (P3_eq F n h lv scales bt scaled WF u HU i Hi), HT by auto.
        unfold cond, siblings. rewrite HT by auto. rewrite ol_tops, ol_E, gsum_all by (now rewrite map_length).
        rewrite map_map.
        rewrite (nth_map_lt _ u i (nzero F)) by lia.
        rewrite (nth_map_lt _ u i (nzero F)) by lia. reflexivity. }
    rewrite HP. destruct (nle F (nsum F (map (nexp F) u)) (nzero F)); destruct chk; reflexivity.
  Qed.
End OneLevel.

(** division by one in doubles *)
Lemma f64_div_one (x : float64) : f64_div x f64_one = x.
Proof.
  unfold f64_div. destruct (is_finite x) eqn:Fx.
  - assert (Hone : B2R f64_one = 1) by apply Bone_correct.
    pose proof (Bdiv_correct 53 1024 _ _ mode_NE x f64_one) as H. rewrite Hone in H.
    specialize (H ltac:(lra)). replace (B2R x / 1) with (B2R x) in H by field.
    rewrite round_generic in H by (try typeclasses eauto; apply generic_format_B2R).
    rewrite Rlt_bool_true in H by (apply abs_B2R_lt_emax).
    destruct H as (HR & HF & HSg).
    apply B2R_Bsign_inj; auto.
    + now rewrite HF.
    + rewrite HSg.
      * unfold f64_one. rewrite Bsign_Bone. now rewrite xorb_false_r.
      * destruct (Bdiv mode_NE x f64_one); auto. rewrite Fx in HF. discriminate.
  - destruct x as [s|s| |s m e Hb]; simpl in Fx; try discriminate; [|reflexivity].
    destruct s; reflexivity.
Qed.

Lemma xdiv_one (x : xr) : xdiv x (Fin 1) = x.
Proof.
  destruct x as [x| | |]; simpl; auto.
  - destruct (Reqb 1 0) eqn:E; [apply Reqb_true in E; lra|]. f_equal. field.
  - destruct (Rltb 1 0) eqn:E; auto. apply Rltb_true in E. lra.
  - destruct (Rltb 1 0) eqn:E; auto. apply Rltb_true in E. lra.
Qed.
