(** The nested model in exact arithmetic (C14-C18). *)
From Coq Require Import Reals Lra Psatz Permutation.
From Flocq Require Import Core.Core IEEE754.BinarySingleNaN.
From Verif Require Import Prelude Arith CoreModel SpecSampling SpecLogit SpecNested SamplingProofs MnlProofs NestedProofs.
Local Open Scope R_scope.

Definition SUM (f : nat -> R) (l : list nat) : R := Rsum (map f l).

Lemma SUM_app f a b : SUM f (a ++ b) = SUM f a + SUM f b.
Proof. unfold SUM. rewrite map_app. apply Rsum_app. Qed.
Lemma SUM_cons f x l : SUM f (x :: l) = f x + SUM f l.
Proof. reflexivity. Qed.
Lemma SUM_plus f g l : SUM (fun i => f i + g i) l = SUM f l + SUM g l.
Proof. induction l as [|x t IH]; [unfold SUM; simpl; lra|]. rewrite !SUM_cons, IH. lra. Qed.
Lemma SUM_ext f g l : (forall i, In i l -> f i = g i) -> SUM f l = SUM g l.
Proof. intros H. unfold SUM. f_equal. now apply map_ext_in. Qed.
Lemma SUM_mult c f l : SUM (fun i => c * f i) l = c * SUM f l.
Proof. induction l as [|x t IH]; [unfold SUM; simpl; lra|]. rewrite !SUM_cons, IH. lra. Qed.
Lemma SUM_zero l : SUM (fun _ => 0) l = 0.
Proof. induction l as [|x t IH]; [reflexivity|]. rewrite SUM_cons, IH. lra. Qed.
Lemma SUM_nonneg f l : (forall i, In i l -> 0 <= f i) -> 0 <= SUM f l.
Proof.
  intros H. apply Rsum_nonneg. apply Forall_map, Forall_forall. exact H.
Qed.
Lemma SUM_ge f l i : (forall i, In i l -> 0 <= f i) -> In i l -> f i <= SUM f l.
Proof.
  intros H Hi. apply Rsum_ge_elem; [apply Forall_map, Forall_forall; exact H|now apply in_map].
Qed.
Lemma SUM_pos_ex f l : 0 < SUM f l -> exists i, In i l /\ 0 < f i.
Proof.
  induction l as [|x t IH]; [unfold SUM; simpl; lra|]. rewrite SUM_cons. intros H.
  destruct (Rlt_dec 0 (f x)); [exists x; simpl; auto|].
  destruct IH as (i & Hi & Hf); [lra|]. exists i; simpl; auto.
Qed.
Lemma SUM_filter f (b : nat -> bool) l : SUM f (filter b l) = SUM (fun i => if b i then f i else 0) l.
Proof.
  induction l as [|x t IH]; [reflexivity|]. simpl. rewrite SUM_cons, <- IH.
  destruct (b x); [rewrite SUM_cons; lra|lra].
Qed.
Lemma SUM_indicator p x n : (p < n)%nat -> SUM (fun i => if Nat.eqb p i then x else 0) (seq 0 n) = x.
Proof.
  induction n as [|n IH]; intros H; [lia|]. rewrite seq_S, SUM_app. simpl.
  unfold SUM at 2. simpl.
  destruct (Nat.eqb_spec p n) as [->|Ne].
  - rewrite SUM_ext with (g := fun _ => 0); [rewrite SUM_zero; lra|].
    intros i Hi. apply in_seq in Hi. destruct (Nat.eqb_spec n i); [lia|auto].
  - rewrite IH by lia. lra.
Qed.

Section Exact.
  Context (n : nat) (h : list Z) (lv : list nat) (bt : list bool) (scaled : bool).
  Context (scales : list R).
  Hypothesis WF : wf_table n h lv bt.
  Hypothesis HS : length scales = n /\ Forall (fun s => 0 < s) scales.

  Notation scx := (map Fin scales).
  Definition sc (i : nat) : R := nth i scales 0.
  Lemma sc_pos i : (i < n)%nat -> 0 < sc i.
  Proof. intros Hi. destruct HS as [L P]. rewrite Forall_forall in P. apply P, nth_In. lia. Qed.
  Lemma rd_scx i : (i < n)%nat -> nth i scx (Fin 0) = Fin (sc i).
  Proof. intros Hi. change (Fin 0) with (Fin 0). rewrite (map_nth Fin scales 0). reflexivity. Qed.

  Definition dv (i : nat) : R :=
    match parent_of h i with Some p => if scaled then sc p else 1 | None => 1 end.

  Lemma dv_pos i : (i < n)%nat -> 0 < dv i.
  Proof.
    intros Hi. unfold dv. destruct (parent_of h i) as [p|] eqn:Ep; [|lra].
    destruct scaled; [|lra]. apply sc_pos. now apply (parent_some n h lv bt WF i p).
  Qed.
  Lemma divisor_XR i : (i < n)%nat -> divisor XR h scx scaled i = Fin (dv i).
  Proof.
    intros Hi. unfold divisor, dv. destruct (parent_of h i) as [p|] eqn:Ep; [|reflexivity].
    destruct scaled; [|reflexivity]. apply (rd_scx p). now apply (parent_some n h lv bt WF i p).
  Qed.

  Lemma regroup f : SUM f (seq 0 n) = SUM f (tops n h) + SUM (fun i => SUM f (children n h i)) (seq 0 n).
  Proof using WF. clear HS scales.
    unfold tops, children.
    assert (H : forall l, (forall j, In j l -> (j < n)%nat) ->
      SUM f l = SUM f (filter (is_top h) l) + SUM (fun i => SUM f (filter (is_child h i) l)) (seq 0 n)).
    { induction l as [|j t IH]; intros Hl.
      - cbn [filter]. change (SUM (fun i => SUM f []) (seq 0 n)) with (SUM (fun _ => 0) (seq 0 n)).
        rewrite SUM_zero. unfold SUM; simpl; lra.
      - rewrite SUM_cons, IH by (intros; apply Hl; now right).
        assert (Hj : (j < n)%nat) by (apply Hl; now left).
        destruct (parent_of h j) as [p|] eqn:Ep.
        + assert (Hp : (p < n)%nat) by (now apply (parent_some n h lv bt WF j p)).
          simpl. unfold is_top at 2. rewrite Ep.
          rewrite (SUM_ext (fun i => SUM f (if is_child h i j then j :: filter (is_child h i) t else filter (is_child h i) t))
                     (fun i => (if Nat.eqb p i then f j else 0) + SUM f (filter (is_child h i) t))).
          * rewrite SUM_plus, SUM_indicator by auto. lra.
          * intros i _. unfold is_child at 1. rewrite Ep. destruct (Nat.eqb p i); [rewrite SUM_cons|]; lra.
        + simpl. unfold is_top at 2. rewrite Ep, SUM_cons.
          rewrite (SUM_ext (fun i => SUM f (if is_child h i j then j :: filter (is_child h i) t else filter (is_child h i) t))
                     (fun i => SUM f (filter (is_child h i) t))); [lra|].
          intros i _. unfold is_child at 1. now rewrite Ep. }
    apply H. intros j Hj. apply in_seq in Hj. lia.
  Qed.

  Definition leaf (i : nat) : bool := match children n h i with [] => true | _ => false end.

  (** if [f] of a nest is the sum of [f] over its children, the leaves carry the top total *)
  Lemma leaves_total f :
    (forall i, (i < n)%nat -> leaf i = false -> SUM f (children n h i) = f i) ->
    SUM f (filter leaf (seq 0 n)) = SUM f (tops n h).
  Proof using WF. clear HS scales.
    intros H. pose proof (regroup f) as R0. rewrite SUM_filter.
    assert (E : SUM (fun i => SUM f (children n h i)) (seq 0 n) =
                SUM (fun i => if leaf i then 0 else f i) (seq 0 n)).
    { apply SUM_ext. intros i Hi. apply in_seq in Hi. destruct (leaf i) eqn:El.
      - unfold leaf in El. destruct (children n h i); [reflexivity|discriminate].
      - apply H; auto; lia. }
    rewrite E in R0. clear E.
    assert (E : SUM f (seq 0 n) = SUM (fun i => if leaf i then f i else 0) (seq 0 n)
                                  + SUM (fun i => if leaf i then 0 else f i) (seq 0 n)).
    { rewrite <- SUM_plus. apply SUM_ext. intros i _. destruct (leaf i); lra. }
    lra.
  Qed.

  Lemma gsum_Fin (E : list xr) e l :
    (forall j, In j l -> nth j E (Fin 0) = Fin (e j)) -> group_sum XR E l = Fin (SUM e l).
  Proof.
    intros H. unfold group_sum. simpl.
    assert (G : forall a, fold_left (fun a j => xadd a (nth j E (Fin 0))) l (Fin a) = Fin (a + SUM e l)).
    { induction l as [|j t IH]; intros a; simpl; [f_equal; unfold SUM; simpl; lra|].
      rewrite (H j) by (now left). simpl. rewrite IH by (intros; apply H; now right).
      rewrite SUM_cons. f_equal; lra. }
    rewrite G. f_equal; lra.
  Qed.

  (** downward induction on levels *)
  Lemma up_ind (P : nat -> Prop) :
    (forall i, (i < n)%nat -> (forall j, In j (children n h i) -> P j) -> P i) ->
    forall i, (i < n)%nat -> P i.
  Proof using WF. clear HS scales.
    intros H.
    assert (G : forall d i, (i < n)%nat -> (max_level lv - lev lv i <= d)%nat -> P i).
    { induction d as [|d IH]; intros i Hi Hd; apply H; auto; intros j Hj;
        apply in_children in Hj; destruct Hj as [Hj Ep];
        destruct (parent_some n h lv bt WF j i Hj Ep) as (_ & _ & HL);
        pose proof (max_level_ge n h lv bt WF j Hj).
      - lia.
      - apply IH; auto; lia. }
    intros i Hi. apply (G (max_level lv - lev lv i)%nat); auto.
  Qed.

  Lemma down_ind (P : nat -> Prop) :
    (forall i, (i < n)%nat -> (forall p, parent_of h i = Some p -> P p) -> P i) ->
    forall i, (i < n)%nat -> P i.
  Proof using WF. clear HS scales.
    intros H i Hi. remember (lev lv i) as l eqn:El. revert i El Hi.
    induction l as [|l IH]; intros i El Hi; apply H; auto; intros p Ep;
      destruct (parent_some n h lv bt WF i p Hi Ep) as (_ & Hp & HL); [lia|].
    apply IH; auto; lia.
  Qed.

  Section WithU.
    Context (us : list (option R)).
    Hypothesis HU : length us = n.
    Notation ux := (map as_x us).
    Definition uof (i : nat) : option R := nth i us None.

    Lemma rd_ux i : (i < n)%nat -> nth i ux (Fin 0) = as_x (uof i).
    Proof.
      intros Hi. rewrite nth_indep with (d' := as_x None) by (rewrite map_length; lia).
      rewrite map_nth. reflexivity.
    Qed.

    (** the real numbers computed *)
    Definition nl_real (e : nat -> R) : Prop :=
      forall i, (i < n)%nat ->
        e i = match uof i with
              | None => 0
              | Some x =>
                  if leaf i then exp (x / dv i)
                  else if Rltb 0 (SUM e (children n h i))
                       then exp ((x + sc i * ln (SUM e (children n h i))) / dv i) else 0
              end.

    Lemma xdiv_Fin_pos x y : 0 < y -> xdiv (Fin x) (Fin y) = Fin (x / y).
    Proof. apply xdiv_pos. Qed.
    Lemma xdiv_NInf_pos y : 0 < y -> xdiv NInf (Fin y) = NInf.
    Proof. intros H. simpl. destruct (Rltb y 0) eqn:E; auto. apply Rltb_true in E. lra. Qed.
    Lemma xmul_pos_NInf s : 0 < s -> xmul (Fin s) NInf = NInf.
    Proof.
      intros H. simpl. unfold xsigninf. destruct (Reqb s 0) eqn:E; [apply Reqb_true in E; lra|].
      destruct (Rltb 0 s) eqn:E2; auto. apply Rltb_false in E2. lra.
    Qed.

    Lemma terms_real (E : list xr) :
      nl_terms XR n h scx scaled ux E ->
      exists e, nl_real e /\ (forall i, (i < n)%nat -> nth i E (Fin 0) = Fin (e i)) /\
                (forall i, (i < n)%nat -> 0 <= e i).
    Proof.
      intros [HL HE].
      pose (e := fun i => match nth i E (Fin 0) with Fin x => x | _ => 0 end).
      assert (K : forall i, (i < n)%nat ->
        nth i E (Fin 0) = Fin (e i) /\ 0 <= e i /\
        e i = match uof i with
              | None => 0
              | Some x =>
                  if leaf i then exp (x / dv i)
                  else if Rltb 0 (SUM e (children n h i))
                       then exp ((x + sc i * ln (SUM e (children n h i))) / dv i) else 0
              end).
      { apply up_ind. intros i Hi IH. specialize (HE i Hi).
        change (num XR) with xr in HE. change (nzero XR) with (Fin 0) in HE. rewrite divisor_XR in HE by auto.
        rewrite rd_ux in HE by auto.
        pose proof (dv_pos i Hi) as Hd. pose proof (sc_pos i Hi) as Hsc.
        unfold leaf. destruct (children n h i) as [|j t] eqn:Ec.
        - unfold e at 1 2 3. rewrite HE. destruct (uof i) as [x|]; cbn [as_x nexp ndiv XR].
          + rewrite xdiv_Fin_pos by auto. simpl. split; auto. split; auto. left; apply exp_pos.
          + rewrite xdiv_NInf_pos by auto. simpl. split; auto. split; auto. lra.
        - assert (Hk : forall k, In k (j :: t) -> (k < n)%nat).
          { intros k Hk. rewrite <- Ec in Hk. now apply in_children in Hk. }
          rewrite (gsum_Fin E e (j :: t)) in HE by (intros k Hk'; apply IH; auto).
          set (S := SUM e (j :: t)) in *.
          assert (HSn : 0 <= S).
          { apply SUM_nonneg. intros k Hk'. apply IH; auto. }
          rewrite rd_scx in HE by auto.
          destruct (Rltb 0 S) eqn:E0.
          + unfold e at 1 2 3. rewrite HE.
            cbn [nexp ndiv nadd nmul nlog XR xlog]. rewrite E0.
            destruct (uof i) as [x|]; cbn [as_x xmul xadd].
            * rewrite xdiv_Fin_pos by auto. simpl. split; auto. split; auto. left; apply exp_pos.
            * rewrite xdiv_NInf_pos by auto. simpl. split; auto. split; auto. lra.
          + unfold e at 1 2 3. rewrite HE.
            cbn [nexp ndiv nadd nmul nlog XR xlog]. rewrite E0.
            apply Rltb_false in E0.
            destruct (Reqb S 0) eqn:E1; [|apply Reqb_false in E1; lra].
            rewrite xmul_pos_NInf by auto.
            destruct (uof i) as [x|]; cbn [as_x xadd]; rewrite xdiv_NInf_pos by auto; simpl;
              split; auto; split; auto; lra. }
      exists e. split; [|split]; intros i Hi; now apply K.
    Qed.

    Lemma nl_real_nonneg e : nl_real e -> forall i, (i < n)%nat -> 0 <= e i.
    Proof.
      intros H i Hi. rewrite (H i Hi). destruct (uof i); [|lra]. destruct (leaf i); [left; apply exp_pos|].
      destruct (Rltb 0 _); [left; apply exp_pos|lra].
    Qed.

    (** positive term = feasible *)
    Lemma feasible_iff e : nl_real e -> forall i, (i < n)%nat -> (0 < e i <-> feasible n h us i).
    Proof.
      intros H. apply up_ind. intros i Hi IH. rewrite (H i Hi). unfold leaf, uof.
      assert (Hk : forall k, In k (children n h i) -> (k < n)%nat) by (intros k Hk; now apply in_children in Hk).
      destruct (children n h i) as [|j t] eqn:Ec.
      - destruct (nth i us None) as [x|] eqn:Ex.
        + split; intros _; [|apply exp_pos]. apply fs_leaf; auto. congruence.
        + split; [lra|]. intros Hf. destruct Hf; congruence.
      - rewrite <- Ec in *. destruct (nth i us None) as [x|] eqn:Ex.
        + destruct (Rltb 0 (SUM e (children n h i))) eqn:E0.
          * apply Rltb_true in E0. split; intros _; [|apply exp_pos].
            apply SUM_pos_ex in E0. destruct E0 as (k & Hk1 & Hk2).
            apply fs_nest with k; auto; [congruence|]. now apply IH.
          * apply Rltb_false in E0. split; [lra|]. intros Hf. destruct Hf as [i E|i k _ Hk1 Hk2].
            -- rewrite E in Ec. discriminate.
            -- apply IH in Hk2; auto.
               pose proof (SUM_ge e _ k (fun k Hk' => nl_real_nonneg e H k (Hk k Hk')) Hk1). lra.
        + split; [lra|]. intros Hf. destruct Hf; congruence.
    Qed.

    (** conditional and absolute probabilities *)
    Definition cnd (e : nat -> R) (i : nat) : R :=
      let g := SUM e (siblings n h i) in if Rleb g 0 then 0 else e i / g.

    Lemma sib_lt i j : In j (siblings n h i) -> (j < n)%nat.
    Proof.
      unfold siblings. destruct (parent_of h i); intros H; [apply in_children in H|apply in_tops in H]; tauto.
    Qed.
    Lemma sib_self i : (i < n)%nat -> In i (siblings n h i).
    Proof.
      intros Hi. unfold siblings. destruct (parent_of h i) eqn:E; [apply in_children|apply in_tops]; auto.
    Qed.

    Lemma cond_real E e i : (i < n)%nat -> (forall i, (i < n)%nat -> nth i E (Fin 0) = Fin (e i)) ->
      cond XR n h E i = Fin (cnd e i).
    Proof.
      intros Hi HE. unfold cond, cnd. rewrite (gsum_Fin E e) by (intros j Hj; apply HE, (sib_lt i), Hj).
      change (nle XR (Fin (SUM e (siblings n h i))) (nzero XR)) with (Rleb (SUM e (siblings n h i)) 0).
      destruct (Rleb (SUM e (siblings n h i)) 0) eqn:El; [reflexivity|].
      apply Rleb_false in El. change (nzero XR) with (Fin 0). rewrite HE by auto. now apply xdiv_pos.
    Qed.

    Lemma cnd_nonneg e i : nl_real e -> (i < n)%nat -> 0 <= cnd e i.
    Proof.
      intros H Hi. unfold cnd. destruct (Rleb _ 0) eqn:El; [lra|]. apply Rleb_false in El.
      apply Rmult_le_pos; [now apply nl_real_nonneg|]. left. now apply Rinv_0_lt_compat.
    Qed.
    Lemma cnd_pos_iff e i : nl_real e -> (i < n)%nat -> (0 < cnd e i <-> 0 < e i).
    Proof.
      intros H Hi. pose proof (nl_real_nonneg e H) as Hn.
      pose proof (SUM_ge e _ i (fun k Hk => Hn k (sib_lt i k Hk)) (sib_self i Hi)) as Hge.
      unfold cnd. destruct (Rleb (SUM e (siblings n h i)) 0) eqn:El.
      - apply Rleb_true in El. lra.
      - apply Rleb_false in El. pose proof (Rinv_0_lt_compat _ El).
        split; intros Hp.
        + destruct (Rle_lt_or_eq_dec 0 (e i) (Hn i Hi)) as [|E]; auto. rewrite <- E in Hp.
          unfold Rdiv in Hp. lra.
        + now apply Rmult_lt_0_compat.
    Qed.

    Lemma cnd_group e l : (forall j, In j l -> siblings n h j = l) -> nl_real e ->
      (forall j, In j l -> (j < n)%nat) ->
      SUM (cnd e) l = if Rltb 0 (SUM e l) then 1 else 0.
    Proof.
      intros Hs H Hl.
      destruct (Rltb 0 (SUM e l)) eqn:E.
      - apply Rltb_true in E.
        rewrite SUM_ext with (g := fun j => / SUM e l * e j).
        + rewrite SUM_mult. field. lra.
        + intros j Hj. unfold cnd. rewrite Hs by auto.
          destruct (Rleb (SUM e l) 0) eqn:E1; [apply Rleb_true in E1; lra|]. unfold Rdiv. ring.
      - apply Rltb_false in E. rewrite SUM_ext with (g := fun _ => 0); [apply SUM_zero|].
        intros j Hj. unfold cnd. rewrite Hs by auto.
        destruct (Rleb (SUM e l) 0) eqn:E1; auto. apply Rleb_false in E1. lra.
    Qed.
    Lemma sib_children i j : In j (children n h i) -> siblings n h j = children n h i.
    Proof. intros H. apply in_children in H. destruct H as [_ E]. unfold siblings. now rewrite E. Qed.
    Lemma sib_tops j : In j (tops n h) -> siblings n h j = tops n h.
    Proof. intros H. apply in_tops in H. destruct H as [_ E]. unfold siblings. now rewrite E. Qed.

    Definition abs_real (e q : nat -> R) : Prop :=
      forall i, (i < n)%nat -> q i = match parent_of h i with Some p => cnd e i * q p | None => cnd e i end.

    Lemma abs_nonneg e q : nl_real e -> abs_real e q -> forall i, (i < n)%nat -> 0 <= q i.
    Proof.
      intros H Hq. apply down_ind. intros i Hi IH. rewrite (Hq i Hi).
      pose proof (cnd_nonneg e i H Hi). destruct (parent_of h i) as [p|] eqn:Ep; auto.
      apply Rmult_le_pos; auto.
    Qed.

    Lemma abs_pos_iff e q : nl_real e -> abs_real e q ->
      forall i, (i < n)%nat -> (0 < q i <-> available n h us i).
    Proof.
      intros H Hq. apply down_ind. intros i Hi IH. rewrite (Hq i Hi).
      pose proof (cnd_nonneg e i H Hi) as Hc. pose proof (cnd_pos_iff e i H Hi) as Hci.
      rewrite (feasible_iff e H i Hi) in Hci.
      destruct (parent_of h i) as [p|] eqn:Ep.
      - assert (Hp : (p < n)%nat) by (now apply (parent_some n h lv bt WF i p)).
        pose proof (abs_nonneg e q H Hq p Hp).
        split.
        + intros Hm. assert (0 < cnd e i) by nra. assert (0 < q p) by nra.
          apply av_child with p; auto; [now apply IH|tauto].
        + intros Ha. destruct Ha as [i E|i p' E Ha Hf]; [congruence|].
          assert (p' = p) by congruence. subst p'.
          apply Rmult_lt_0_compat; [tauto|]. now apply IH.
      - rewrite Hci. split; [now constructor|]. intros Ha. destruct Ha; [auto|congruence].
    Qed.

    (** absolute probability of a nest = sum over its children *)
    Lemma abs_children e q i : nl_real e -> abs_real e q -> (i < n)%nat -> leaf i = false ->
      SUM q (children n h i) = q i.
    Proof.
      intros H Hq Hi Hl.
      rewrite SUM_ext with (g := fun j => q i * cnd e j).
      2:{ intros j Hj. apply in_children in Hj. destruct Hj as [Hj Ep]. rewrite (Hq j Hj), Ep. ring. }
      rewrite SUM_mult.
      rewrite (cnd_group e (children n h i)); auto.
      2:{ intros j Hj. now apply sib_children. }
      2:{ intros j Hj. now apply in_children in Hj. }
      destruct (Rltb 0 (SUM e (children n h i))) eqn:E; [ring|].
      assert (He : e i = 0).
      { rewrite (H i Hi), Hl, E. destruct (uof i); auto. }
      assert (Hc : cnd e i = 0).
      { unfold cnd. destruct (Rleb _ 0); auto. rewrite He. unfold Rdiv. ring. }
      rewrite (Hq i Hi), Hc. destruct (parent_of h i); ring.
    Qed.

    Lemma leaves_one e q : nl_real e -> abs_real e q -> 0 < SUM e (tops n h) ->
      SUM q (filter leaf (seq 0 n)) = 1.
    Proof.
      intros H Hq Ht. rewrite leaves_total by (intros; eapply abs_children; eauto).
      rewrite SUM_ext with (g := cnd e).
      - rewrite (cnd_group e (tops n h)); auto.
        + destruct (Rltb 0 (SUM e (tops n h))) eqn:E; auto. apply Rltb_false in E. lra.
        + intros j Hj. now apply sib_tops.
        + intros j Hj. now apply in_tops in Hj.
      - intros j Hj. apply in_tops in Hj. destruct Hj as [Hj Ep]. now rewrite (Hq j Hj), Ep.
    Qed.

    (** ** What the function returns *)
    Definition outp (q : nat -> R) : list R := map (fun i => if leaf i then q i else 0) (seq 0 n).

    Lemma nested_real chk : exists e q,
      nl_real e /\ abs_real e q /\
      nested_probabilities XR h lv scx bt scaled ux chk =
        if andb (Rleb (SUM e (tops n h)) 0) chk then Err UtilityBounds
        else Ok (map Fin (outp q), Fin (SUM e (tops n h)), map Fin (map e (seq 0 n))).
    Proof.
      assert (HUx : length ux = n) by (now rewrite map_length).
      rewrite (nested_out XR n h lv scx bt scaled WF ux HUx).
      pose proof (step1_terms XR n h lv scx bt scaled WF ux HUx) as HT.
      destruct (terms_real _ HT) as (e & He & HE & Hn).
      pose (q := fun i => match rd (F:=XR) (P3 XR h lv scx bt scaled ux) i with Fin x => x | _ => 0 end).
      assert (HQ : forall i, (i < n)%nat ->
                rd (F:=XR) (P3 XR h lv scx bt scaled ux) i = Fin (q i) /\
                q i = match parent_of h i with Some p => cnd e i * q p | None => cnd e i end).
      { apply down_ind. intros i Hi IH.
        pose proof (P3_eq XR n h lv scx bt scaled WF ux HUx i Hi) as EQ.
        rewrite (cond_real _ e i Hi HE) in EQ.
        unfold q at 1 2. rewrite EQ. destruct (parent_of h i) as [p|] eqn:Ep.
        - destruct (IH p eq_refl) as [-> _]. cbn [nmul XR xmul]. auto.
        - auto. }
      exists e, q. split; auto. split; [intros i Hi; now apply HQ|].
      assert (Ht : T1 XR h lv scx bt scaled ux = Fin (SUM e (tops n h))).
      { rewrite (step1_top XR n h lv scx bt scaled WF ux HUx). apply gsum_Fin.
        intros j Hj. apply HE. now apply in_tops in Hj. }
      rewrite Ht. change (nle XR (Fin (SUM e (tops n h))) (nzero XR)) with (Rleb (SUM e (tops n h)) 0).
      destruct (Rleb (SUM e (tops n h)) 0 && chk); auto. do 3 f_equal.
      - apply list_eq_nth with (d := Fin 0).
        + unfold outp. rewrite !map_length, seq_length. apply (P4_len XR n h lv scx bt scaled WF ux HUx).
        + intros i Hi. pose proof (P4_len XR n h lv scx bt scaled WF ux HUx) as L4.
          change (num XR) with xr in L4. rewrite L4 in Hi.
          pose proof (P4_eq XR n h lv scx bt scaled WF ux HUx i Hi) as E. unfold rd in E.
          change (num XR) with xr in E. change (nzero XR) with (Fin 0) in E. rewrite E. unfold outp. rewrite map_map, nth_map_seq by auto.
          unfold leaf. destruct (children n h i); auto. now apply HQ.
      - apply list_eq_nth with (d := Fin 0).
        + rewrite !map_length, seq_length. apply (step1_len XR n h lv scx bt scaled WF ux HUx).
        + intros i Hi. pose proof (step1_len XR n h lv scx bt scaled WF ux HUx) as L1.
          change (num XR) with xr in L1. rewrite L1 in Hi.
          rewrite map_map, nth_map_seq by auto. now apply HE.
    Qed.

    Lemma outp_length q : length (outp q) = n.
    Proof. unfold outp. now rewrite map_length, seq_length. Qed.
    Lemma outp_nth q i : (i < n)%nat -> nth i (outp q) 0 = if leaf i then q i else 0.
    Proof. intros Hi. unfold outp. now rewrite nth_map_seq. Qed.
    Lemma outp_sum q : Rsum (outp q) = SUM q (filter leaf (seq 0 n)).
    Proof. rewrite SUM_filter. reflexivity. Qed.

    Lemma tops_feasible e : nl_real e ->
      (0 < SUM e (tops n h) <-> exists i, (i < n)%nat /\ parent_of h i = None /\ feasible n h us i).
    Proof.
      intros H. split.
      - intros Hp. apply SUM_pos_ex in Hp. destruct Hp as (i & Hi & He). apply in_tops in Hi.
        exists i. repeat split; try tauto. apply (feasible_iff e H); tauto.
      - intros (i & Hi & Ep & Hf). apply (feasible_iff e H) in Hf; auto.
        apply Rlt_le_trans with (e i); auto.
        apply SUM_ge; [|now apply in_tops]. intros j Hj. apply (nl_real_nonneg e H). now apply in_tops in Hj.
    Qed.
    Lemma tops_nonneg e : nl_real e -> 0 <= SUM e (tops n h).
    Proof. intros H. apply SUM_nonneg. intros j Hj. apply (nl_real_nonneg e H). now apply in_tops in Hj. Qed.
  End WithU.
End Exact.
