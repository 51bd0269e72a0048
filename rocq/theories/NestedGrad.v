(** The derivative of the log of the top output with respect to one elemental utility (C102). *)
From Coq Require Import Reals Lra Psatz Permutation.
From Verif Require Import Prelude Arith CoreModel SpecSampling SpecLogit SpecNested SpecCalc SamplingProofs MnlProofs NestedProofs NestedExact NestedCalc.
Local Open Scope R_scope.

Lemma finite_choice (P : nat -> R -> Prop) n :
  (forall i, (i < n)%nat -> exists d, P i d) -> exists D, forall i, (i < n)%nat -> P i (D i).
Proof.
  induction n as [|n IH]; intros H.
  - exists (fun _ => 0). intros i Hi. lia.
  - destruct IH as (D & HD); [intros; apply H; lia|]. destruct (H n) as (d & Hd); [lia|].
    exists (fun i => if Nat.eqb i n then d else D i). intros i Hi.
    destruct (Nat.eqb_spec i n) as [->|Ne]; auto. apply HD. lia.
Qed.

Lemma deriv_SUM (f : R -> nat -> R) (D : nat -> R) x l :
  (forall j, In j l -> derivable_pt_lim (fun y => f y j) x (D j)) ->
  derivable_pt_lim (fun y => SUM (f y) l) x (SUM D l).
Proof.
  induction l as [|a t IH]; intros H.
  - unfold SUM; simpl. apply derivable_pt_lim_const.
  - rewrite SUM_cons.
    apply (derivable_pt_lim_plus (fun y => f y a) (fun y => SUM (f y) t)); [apply H; now left|].
    apply IH. intros; apply H; now right.
Qed.

Lemma deriv_ext f g x d : (forall y, f y = g y) -> derivable_pt_lim f x d -> derivable_pt_lim g x d.
Proof. intros E H eps He. destruct (H eps He) as (del & Hd). exists del. intros z Hz Hl. rewrite <- !E. now apply Hd. Qed.

Lemma deriv_ln f x d : 0 < f x -> derivable_pt_lim f x d -> derivable_pt_lim (fun y => ln (f y)) x (d / f x).
Proof.
  intros Hp H. replace (d / f x) with (/ f x * d) by (field; lra).
  apply (derivable_pt_lim_comp f ln); auto. now apply derivable_pt_lim_ln.
Qed.
Lemma deriv_exp f x d : derivable_pt_lim f x d -> derivable_pt_lim (fun y => exp (f y)) x (exp (f x) * d).
Proof. intros H. apply (derivable_pt_lim_comp f exp); auto. apply derivable_pt_lim_exp. Qed.

Section Grad.
  Context (n : nat) (h : list Z) (lv : list nat) (bt : list bool) (scaled : bool).
  Context (scales : list R).
  Hypothesis WF : wf_table n h lv bt.
  Hypothesis HS : length scales = n /\ Forall (fun s => 0 < s) scales.
  Notation dv := (dv h scaled scales).
  Notation sc := (sc scales).
  Context (k : nat) (Hk : (k < n)%nat) (Hleaf : children n h k = []).
  Context (us : list (option R)) (HU : length us = n).
  Notation usy y := (upd us k (Some y)).
  Context (e : R -> nat -> R).
  Hypothesis He : forall y, nl_real n h scaled scales (usy y) (e y).

  Lemma feasible_same y z i : feasible n h (usy y) i -> feasible n h (usy z) i.
  Proof.
    assert (G : forall i, nth i (usy y) None <> None -> nth i (usy z) None <> None).
    { intros j. destruct (Nat.eq_dec k j) as [<-|Ne].
      - rewrite !nth_upd_eq by lia. congruence.
      - now rewrite !nth_upd_neq by auto. }
    induction 1 as [i E N|i j N Hj Hf IH].
    - apply fs_leaf; auto.
    - apply fs_nest with j; auto.
  Qed.
  Lemma pos_same y z i : (i < n)%nat -> 0 < e y i -> 0 < e z i.
  Proof.
    intros Hi P. apply (feasible_iff n h lv bt scaled scales WF HS _ _ (He z) i Hi).
    apply (feasible_same y). now apply (feasible_iff n h lv bt scaled scales WF HS _ _ (He y) i Hi).
  Qed.
  Lemma e_nonneg y i : (i < n)%nat -> 0 <= e y i.
  Proof. apply (nl_real_nonneg n h scaled scales (usy y) (e y) (He y)). Qed.
  Lemma SUM_pos_same y z l : (forall j, In j l -> (j < n)%nat) -> 0 < SUM (e y) l -> 0 < SUM (e z) l.
  Proof.
    intros Hl P. apply SUM_pos_ex in P. destruct P as (j & Hj & Pj).
    apply Rlt_le_trans with (e z j); [apply (pos_same y); auto|]. apply SUM_ge; auto. intros; apply e_nonneg; auto.
  Qed.

  Context (x : R).

  (** derivatives of all terms at [x] *)
  Definition drel (D : nat -> R) (i : nat) : Prop :=
    derivable_pt_lim (fun y => e y i) x (D i) /\
    (i = k -> D i = e x i / dv i) /\
    (i <> k -> leaf n h i = true -> D i = 0) /\
    (e x i = 0 -> D i = 0) /\
    (leaf n h i = false -> 0 < e x i ->
       0 < SUM (e x) (children n h i) /\
       D i = e x i * (sc i / dv i * (SUM D (children n h i) / SUM (e x) (children n h i)))).

  Lemma derivs : exists D, forall i, (i < n)%nat -> drel D i.
  Proof.
    assert (EX : forall i, (i < n)%nat -> exists d, derivable_pt_lim (fun y => e y i) x d).
    { apply (up_ind n h lv bt WF). intros i Hi IH.
      assert (Hc : forall c, In c (children n h i) -> (c < n)%nat) by (intros c Hcc; now apply in_children in Hcc).
      destruct (Nat.eq_dec i k) as [->|Ne].
      - eexists. apply (deriv_ext (fun y => exp (y / dv k))).
        + intros y. rewrite (He y k Hk). unfold leaf. rewrite Hleaf. unfold uof. now rewrite nth_upd_eq by lia.
        + apply deriv_exp. apply (derivable_pt_lim_scal_right (fun y => y)). apply derivable_pt_lim_id.
      - destruct (uof us i) as [u|] eqn:Eu.
        2:{ exists 0. apply (deriv_ext (fun _ => 0)); [|apply derivable_pt_lim_const].
            intros y. rewrite (He y i Hi). unfold uof in *. now rewrite nth_upd_neq, Eu by auto. }
        destruct (leaf n h i) eqn:El.
        { exists 0. apply (deriv_ext (fun _ => exp (u / dv i))); [|apply derivable_pt_lim_const].
          intros y. rewrite (He y i Hi). unfold uof in *. now rewrite nth_upd_neq, Eu, El by auto. }
        destruct (Rltb 0 (SUM (e x) (children n h i))) eqn:E0.
        + apply Rltb_true in E0.
          assert (EXc : exists D, forall j, (j < n)%nat -> In j (children n h i) -> derivable_pt_lim (fun y => e y j) x (D j)).
          { apply (finite_choice (fun j d => In j (children n h i) -> derivable_pt_lim (fun y => e y j) x d)).
            intros j Hj. destruct (in_dec Nat.eq_dec j (children n h i)) as [I|NI].
            - destruct (IH j I) as (d & Hd). exists d. auto.
            - exists 0. intros; contradiction. }
          destruct EXc as (D & HD). eexists.
          apply (deriv_ext (fun y => exp ((u + sc i * ln (SUM (e y) (children n h i))) / dv i))).
          * intros y. rewrite (He y i Hi). unfold uof in *. rewrite nth_upd_neq, Eu, El by auto.
            destruct (Rltb 0 (SUM (e y) (children n h i))) eqn:E1; auto. apply Rltb_false in E1.
            apply (SUM_pos_same x y) in E0; auto. lra.
          * apply deriv_exp. apply (derivable_pt_lim_scal_right (fun y => u + sc i * ln (SUM (e y) (children n h i)))).
            apply (derivable_pt_lim_plus (fun _ => u)); [apply derivable_pt_lim_const|].
            apply (derivable_pt_lim_scal (fun y => ln (SUM (e y) (children n h i)))).
            apply (deriv_ln (fun y => SUM (e y) (children n h i))); auto.
            apply (deriv_SUM e D). intros j Hj. apply HD; auto.
        + exists 0. apply (deriv_ext (fun _ => 0)); [|apply derivable_pt_lim_const].
          apply Rltb_false in E0. intros y. rewrite (He y i Hi). unfold uof in *. rewrite nth_upd_neq, Eu, El by auto.
          destruct (Rltb 0 (SUM (e y) (children n h i))) eqn:E1; auto. apply Rltb_true in E1.
          apply (SUM_pos_same y x) in E1; auto. lra. }
    destruct (finite_choice _ n EX) as (D & HD). exists D. intros i Hi.
    assert (Hc : forall c, In c (children n h i) -> (c < n)%nat) by (intros c Hcc; now apply in_children in Hcc).
    assert (U : forall f d, (forall y, f y = e y i) -> derivable_pt_lim f x d -> D i = d).
    { intros f d Ef Hf. apply (uniqueness_limite (fun y => e y i) x); [now apply HD|]. now apply (deriv_ext f). }
    pose proof (dv_pos n h lv bt scaled scales WF HS i Hi) as Hd.
    split; [now apply HD|]. split; [|split; [|split]].
    - intros ->. apply (U (fun y => exp (y / dv k))).
      + intros y. rewrite (He y k Hk). unfold leaf. rewrite Hleaf. unfold uof. now rewrite nth_upd_eq by lia.
      + replace (e x k / dv k) with (exp (x / dv k) * (1 * / dv k)).
        * apply (deriv_exp (fun y => y / dv k)). apply (derivable_pt_lim_scal_right (fun y => y)). apply derivable_pt_lim_id.
        * rewrite (He x k Hk). unfold leaf. rewrite Hleaf. unfold uof. rewrite nth_upd_eq by lia. unfold Rdiv. ring.
    - intros Ne El. apply (U (fun _ => e x i)); [|apply derivable_pt_lim_const].
      intros y. rewrite (He y i Hi), (He x i Hi). unfold uof. now rewrite !nth_upd_neq, El by auto.
    - intros Z. apply (U (fun _ => 0)); [|apply derivable_pt_lim_const].
      intros y. destruct (Req_dec (e y i) 0) as [E|N]; auto. pose proof (e_nonneg y i Hi).
      assert (0 < e x i) by (apply (pos_same y); auto; lra). lra.
    - intros El P.
      assert (Ne : i <> k) by (intros ->; unfold leaf in El; rewrite Hleaf in El; discriminate).
      assert (Ei : exists u, uof us i = Some u).
      { rewrite (He x i Hi) in P. unfold uof in *. rewrite nth_upd_neq in P by auto.
        destruct (nth i us None) as [u|]; [eauto|lra]. }
      destruct Ei as (u & Eu).
      assert (E0 : 0 < SUM (e x) (children n h i)).
      { rewrite (He x i Hi) in P. unfold uof in *. rewrite nth_upd_neq, Eu, El in P by auto.
        destruct (Rltb 0 _) eqn:E0; [now apply Rltb_true|lra]. }
      split; auto.
      assert (Ee : forall y, exp ((u + sc i * ln (SUM (e y) (children n h i))) / dv i) = e y i).
      { intros y. rewrite (He y i Hi). unfold uof in *. rewrite nth_upd_neq, Eu, El by auto.
        destruct (Rltb 0 (SUM (e y) (children n h i))) eqn:E1; auto. apply Rltb_false in E1.
        apply (SUM_pos_same x y) in E0; auto. lra. }
      apply (U (fun y => exp ((u + sc i * ln (SUM (e y) (children n h i))) / dv i))); auto.
      replace (e x i * (sc i / dv i * (SUM D (children n h i) / SUM (e x) (children n h i))))
        with (e x i * ((0 + sc i * (SUM D (children n h i) / SUM (e x) (children n h i))) * / dv i)) by (field; split; lra).
      replace (e x i) with (exp ((u + sc i * ln (SUM (e x) (children n h i))) / dv i)) by apply Ee.
      apply (deriv_exp (fun y => (u + sc i * ln (SUM (e y) (children n h i))) / dv i)). apply (derivable_pt_lim_scal_right (fun y => u + sc i * ln (SUM (e y) (children n h i)))).
      apply (derivable_pt_lim_plus (fun _ => u)); [apply derivable_pt_lim_const|].
      apply (derivable_pt_lim_scal (fun y => ln (SUM (e y) (children n h i)))).
      apply (deriv_ln (fun y => SUM (e y) (children n h i))); auto.
      apply (deriv_SUM e D). intros j Hj. apply HD; auto.
  Qed.

  (** the weight of a node: product of scale over divisor of the nests above it *)
  Context (c : nat -> R).
  Hypothesis Hct : forall i, (i < n)%nat -> parent_of h i = None -> c i = 1.
  Hypothesis Hcc : forall i p, (i < n)%nat -> parent_of h i = Some p -> c i = c p * (sc p / dv p).
  Context (q : nat -> R).
  Hypothesis Hq : abs_real n h (e x) q.
  Hypothesis HT : 0 < SUM (e x) (tops n h).

  Lemma grad : derivable_pt_lim (fun y => ln (SUM (e y) (tops n h))) x (q k * (c k / dv k)).
  Proof.
    destruct derivs as (D & HD).
    assert (Htop : forall i, In i (tops n h) -> (i < n)%nat) by (intros i Hi; now apply in_tops in Hi).
    assert (Hch : forall i j, In j (children n h i) -> (j < n)%nat) by (intros i j Hj; now apply in_children in Hj).
    pose (f := fun i => q i * D i * c i / e x i).
    assert (F0 : forall i, (i < n)%nat -> e x i = 0 -> f i = 0).
    { intros i Hi Z. unfold f. destruct (HD i Hi) as (_ & _ & _ & Hz & _). rewrite (Hz Z). unfold Rdiv. ring. }
    assert (T : SUM f (filter (leaf n h) (seq 0 n)) = SUM f (tops n h)).
    { apply (leaves_total n h lv bt WF). intros i Hi El.
      destruct (HD i Hi) as (_ & _ & _ & Hz & Hn).
      pose proof (e_nonneg (x) i Hi) as En.
      destruct (Req_dec (e x i) 0) as [Z|NZ].
      - rewrite (F0 i Hi Z).
        assert (Qi : q i = 0).
        { rewrite (Hq i Hi). unfold cnd. rewrite Z. destruct (Rleb _ 0), (parent_of h i); unfold Rdiv; ring. }
        rewrite (SUM_ext f (fun _ => 0)); [apply SUM_zero|]. intros j Hj. unfold f.
        apply in_children in Hj. destruct Hj as [Hj Ej]. rewrite (Hq j Hj), Ej, Qi. unfold Rdiv. ring.
      - assert (P : 0 < e x i) by lra. destruct (Hn El P) as (Sp & Di).
        rewrite (SUM_ext f (fun j => q i * c i * (sc i / dv i) / SUM (e x) (children n h i) * D j)).
        + rewrite SUM_mult. unfold f. rewrite Di.
          pose proof (dv_pos n h lv bt scaled scales WF HS i Hi). field. repeat split; lra.
        + intros j Hj. pose proof (Hch i j Hj) as Hjn. destruct (Req_dec (e x j) 0) as [Zj|NZj].
          * rewrite (F0 j Hjn Zj). destruct (HD j Hjn) as (_ & _ & _ & Hzj & _). rewrite (Hzj Zj). ring.
          * pose proof (sib_children n h i j Hj) as Es. apply in_children in Hj. destruct Hj as [_ Ej].
            unfold f. rewrite (Hq j Hjn), Ej, (Hcc j i Hjn Ej). unfold cnd. rewrite Es.
            destruct (Rleb (SUM (e x) (children n h i)) 0) eqn:L; [apply Rleb_true in L; lra|].
            pose proof (dv_pos n h lv bt scaled scales WF HS i Hi). field. repeat split; lra. }
    assert (L : SUM f (filter (leaf n h) (seq 0 n)) = q k * (c k / dv k)).
    { rewrite SUM_filter.
      rewrite (SUM_ext _ (fun i => if Nat.eqb k i then q k * (c k / dv k) else 0)); [now apply SUM_indicator|].
      intros i Hi. apply in_seq in Hi. assert (Hin : (i < n)%nat) by lia.
      destruct (HD i Hin) as (_ & Dk & Dl & _ & _).
      destruct (Nat.eqb_spec k i) as [<-|Ne].
      - unfold leaf at 1. rewrite Hleaf. unfold f. rewrite (Dk eq_refl).
        assert (0 < e x k).
        { rewrite (He x k Hk). unfold leaf. rewrite Hleaf. unfold uof. rewrite nth_upd_eq by lia. apply exp_pos. }
        pose proof (dv_pos n h lv bt scaled scales WF HS k Hk). field. split; lra.
      - destruct (leaf n h i) eqn:El; auto. unfold f. rewrite Dl by auto. unfold Rdiv. ring. }
    rewrite <- L, T.
    rewrite (SUM_ext f (fun i => / SUM (e x) (tops n h) * D i)).
    - rewrite SUM_mult. replace (/ SUM (e x) (tops n h) * SUM D (tops n h)) with (SUM D (tops n h) / SUM (e x) (tops n h)) by (unfold Rdiv; ring).
      apply (deriv_ln (fun y => SUM (e y) (tops n h))); auto. apply (deriv_SUM e D). intros j Hj. apply HD. auto.
    - intros i Hi. pose proof (Htop i Hi) as Hin. destruct (Req_dec (e x i) 0) as [Z|NZ].
      + rewrite (F0 i Hin Z). destruct (HD i Hin) as (_ & _ & _ & Hz & _). rewrite (Hz Z). ring.
      + pose proof (sib_tops n h i Hi) as Es. apply in_tops in Hi. destruct Hi as [_ Ei].
        unfold f. rewrite (Hq i Hin), Ei, (Hct i Hin Ei). unfold cnd. rewrite Es.
        destruct (Rleb (SUM (e x) (tops n h)) 0) eqn:L0; [apply Rleb_true in L0; lra|].
        field. split; lra.
  Qed.
End Grad.

(** scaled utilities: the weights telescope to the divisors *)
Lemma weight_scaled n h lv bt scales : wf_table n h lv bt -> length scales = n /\ Forall (fun s => 0 < s) scales ->
  (forall i, (i < n)%nat -> parent_of h i = None -> dv h true scales i = 1) /\
  (forall i p, (i < n)%nat -> parent_of h i = Some p ->
     dv h true scales i = dv h true scales p * (sc scales p / dv h true scales p)).
Proof.
  intros WF HS. split.
  - intros i Hi E. unfold dv. now rewrite E.
  - intros i p Hi E. destruct (parent_some n h lv bt WF i p Hi E) as (_ & Hp & _).
    pose proof (dv_pos n h lv bt true scales WF HS p Hp).
    replace (dv h true scales i) with (sc scales p) by (unfold dv; now rewrite E). field. lra.
Qed.

(** unscaled utilities: the weights are the products of the scales on the path *)
Lemma path_scale_exists n h lv bt scales : wf_table n h lv bt -> forall i, (i < n)%nat -> exists w, path_scale h scales i w.
Proof.
  intros WF. apply (down_ind n h lv bt WF). intros i Hi IH. destruct (parent_of h i) as [p|] eqn:E.
  - destruct (IH p eq_refl) as (w & Hw). eexists. eapply ps_child; eauto.
  - exists 1. now constructor.
Qed.
Lemma path_scale_unique h scales i w w' : path_scale h scales i w -> path_scale h scales i w' -> w = w'.
Proof.
  intros H. revert w'. induction H as [i E|i p w E H IH]; intros w' H'.
  - destruct H'; auto. congruence.
  - destruct H' as [|i p' w' E' H']; [congruence|]. assert (p' = p) by congruence. subst. f_equal. auto.
Qed.
