(** Comparative statics of the nested model in exact arithmetic: supporting lemmas for
    C100 (shifts of the elemental utilities), C101 (raising one elemental utility) and
    C102 (the derivative of the log of the top output). *)
From Coq Require Import Reals Lra Psatz Permutation.
From Verif Require Import Prelude Arith CoreModel SpecSampling SpecLogit SpecNested SpecCalc SamplingProofs MnlProofs NestedProofs NestedExact.
Local Open Scope R_scope.

Lemma SUM_le f g l : (forall i, In i l -> f i <= g i) -> SUM f l <= SUM g l.
Proof.
  induction l as [|x t IH]; intros H; [unfold SUM; simpl; lra|]. rewrite !SUM_cons.
  pose proof (H x (or_introl eq_refl)). specialize (IH (fun i Hi => H i (or_intror Hi))). lra.
Qed.

Lemma exp_le x y : x <= y -> exp x <= exp y.
Proof. intros [H| ->]; [left; now apply exp_increasing|lra]. Qed.
Lemma ln_le x y : 0 < x -> x <= y -> ln x <= ln y.
Proof. intros Hx [H| ->]; [left; now apply ln_increasing|lra]. Qed.

Section Shift.
  Context (n : nat) (h : list Z) (lv : list nat) (bt : list bool).
  Context (scales : list R).
  Hypothesis WF : wf_table n h lv bt.
  Hypothesis HS : length scales = n /\ Forall (fun s => 0 < s) scales.
  Notation dv := (dv h true scales).
  Notation sc := (sc scales).

  Lemma dv_child i j : In j (children n h i) -> dv j = sc i.
  Proof. intros Hj. apply in_children in Hj. destruct Hj as [_ E]. unfold NestedExact.dv. now rewrite E. Qed.

  Lemma shift_terms c us e e' :
    nl_real n h true scales us e -> nl_real n h true scales (add_elemental n h c us) e' ->
    forall i, (i < n)%nat -> e' i = exp (c / dv i) * e i.
  Proof.
    intros H H'. apply (up_ind n h lv bt WF). intros i Hi IH.
    rewrite (H i Hi), (H' i Hi). unfold uof, add_elemental. rewrite nth_map_seq by auto.
    pose proof (dv_pos n h lv bt true scales WF HS i Hi) as Hd.
    pose proof (sc_pos n scales HS i Hi) as Hs.
    unfold leaf. destruct (children n h i) as [|j t] eqn:Ec.
    - destruct (nth i us None) as [x|]; cbn [shift]; [|ring].
      rewrite <- exp_plus. f_equal. field. lra.
    - rewrite <- Ec in *. destruct (nth i us None) as [x|]; [|ring].
      assert (ES : SUM e' (children n h i) = exp (c / sc i) * SUM e (children n h i)).
      { rewrite <- SUM_mult. apply SUM_ext. intros k Hk. rewrite IH by auto. now rewrite (dv_child i k Hk). }
      rewrite ES. pose proof (exp_pos (c / sc i)) as Hx.
      destruct (Rltb 0 (SUM e (children n h i))) eqn:E0.
      + apply Rltb_true in E0.
        destruct (Rltb 0 (exp (c / sc i) * SUM e (children n h i))) eqn:E1.
        * rewrite ln_mult by auto. rewrite ln_exp. rewrite <- exp_plus. f_equal. field. lra.
        * apply Rltb_false in E1. assert (0 < exp (c / sc i) * SUM e (children n h i)) by (now apply Rmult_lt_0_compat). lra.
      + apply Rltb_false in E0.
        destruct (Rltb 0 (exp (c / sc i) * SUM e (children n h i))) eqn:E1; [|ring].
        apply Rltb_true in E1. nra.
  Qed.

  Lemma shift_cnd c us e e' :
    nl_real n h true scales us e -> nl_real n h true scales (add_elemental n h c us) e' ->
    forall i, (i < n)%nat -> cnd n h e' i = cnd n h e i.
  Proof.
    intros H H' i Hi. pose proof (shift_terms c us e e' H H') as G.
    unfold cnd.
    assert (ES : SUM e' (siblings n h i) = exp (c / dv i) * SUM e (siblings n h i)).
    { rewrite <- SUM_mult. apply SUM_ext. intros k Hk.
      assert (Hkn : (k < n)%nat) by (exact (sib_lt n h scales HS i k Hk)).
      rewrite G by auto. do 3 f_equal. unfold NestedExact.dv. unfold siblings in Hk.
      destruct (parent_of h i) as [p|] eqn:Ep.
      - apply in_children in Hk. destruct Hk as [_ ->]. reflexivity.
      - apply in_tops in Hk. destruct Hk as [_ ->]. reflexivity. }
    rewrite ES, (G i Hi). pose proof (exp_pos (c / dv i)) as Hx.
    destruct (Rleb (SUM e (siblings n h i)) 0) eqn:E0.
    - apply Rleb_true in E0. destruct (Rleb (exp (c / dv i) * SUM e (siblings n h i)) 0) eqn:E1; auto.
      apply Rleb_false in E1. nra.
    - apply Rleb_false in E0. destruct (Rleb (exp (c / dv i) * SUM e (siblings n h i)) 0) eqn:E1.
      + apply Rleb_true in E1. nra.
      + field. lra.
  Qed.

  Lemma shift_abs c us e e' q q' :
    nl_real n h true scales us e -> nl_real n h true scales (add_elemental n h c us) e' ->
    abs_real n h e q -> abs_real n h e' q' ->
    forall i, (i < n)%nat -> q' i = q i.
  Proof.
    intros H H' Hq Hq'. apply (down_ind n h lv bt WF). intros i Hi IH.
    rewrite (Hq i Hi), (Hq' i Hi), (shift_cnd c us e e' H H' i Hi).
    destruct (parent_of h i) as [p|] eqn:Ep; auto. now rewrite IH.
  Qed.

  Lemma shift_top c us e e' :
    nl_real n h true scales us e -> nl_real n h true scales (add_elemental n h c us) e' ->
    SUM e' (tops n h) = exp c * SUM e (tops n h).
  Proof.
    intros H H'. rewrite <- SUM_mult. apply SUM_ext. intros i Hi. apply in_tops in Hi. destruct Hi as [Hi Ep].
    rewrite (shift_terms c us e e' H H' i Hi). unfold NestedExact.dv. rewrite Ep. do 2 f_equal. field.
  Qed.
End Shift.

(** ** Raising one elemental utility *)
Section Raise.
  Context (n : nat) (h : list Z) (lv : list nat) (bt : list bool) (scaled : bool).
  Context (scales : list R).
  Hypothesis WF : wf_table n h lv bt.
  Hypothesis HS : length scales = n /\ Forall (fun s => 0 < s) scales.
  Notation dv := (dv h scaled scales).
  Notation sc := (sc scales).
  Context (k : nat) (Hk : (k < n)%nat) (Hleaf : children n h k = []).

  (** [k] itself and the nests above it *)
  Inductive anc : nat -> Prop :=
  | anc_self : anc k
  | anc_up j p : anc j -> parent_of h j = Some p -> anc p.

  Lemma anc_lt i : anc i -> (i < n)%nat.
  Proof using WF Hk. clear HS.
    induction 1 as [|j p H IH E]; [exact Hk|]. destruct (parent_some n h lv bt WF j p IH E) as (? & ? & ?). auto.
  Qed.
  Lemma anc_lev i : anc i -> (lev lv i <= lev lv k)%nat /\ (lev lv i = lev lv k -> i = k).
  Proof using WF Hk. clear HS.
    induction 1 as [|j p H IH E]; [split; auto|].
    destruct (parent_some n h lv bt WF j p (anc_lt j H) E) as (_ & _ & L). destruct IH. split; [lia|]. intros; lia.
  Qed.
  Lemma anc_unique d : forall i j, anc i -> anc j -> lev lv i = lev lv j -> (lev lv k - lev lv i <= d)%nat -> i = j.
  Proof using WF Hk. clear HS.
    induction d as [|d IH]; intros i j Hi Hj E Hd.
    - destruct (anc_lev i Hi) as [A B], (anc_lev j Hj) as [A' B']. rewrite B, B' by lia. reflexivity.
    - destruct Hi as [|i p Hi Ei].
      { destruct (anc_lev j Hj) as [A' B']. symmetry. now apply B'. }
      destruct (parent_some n h lv bt WF i p (anc_lt i Hi) Ei) as (_ & _ & L).
      destruct Hj as [|j p' Hj Ej].
      { destruct (anc_lev i Hi) as [A' B']. lia. }
      destruct (parent_some n h lv bt WF j p' (anc_lt j Hj) Ej) as (_ & _ & L').
      assert (i = j) by (apply IH; auto; lia). congruence.
  Qed.
  Lemma anc_sib i j : anc i -> anc j -> In j (siblings n h i) -> j = i.
  Proof using WF Hk HS.
    intros Hi Hj Hs. apply (anc_unique (lev lv k - lev lv j)); auto.
    pose proof (anc_lt i Hi) as Li. pose proof (anc_lt j Hj) as Lj.
    unfold siblings in Hs. destruct (parent_of h i) as [p|] eqn:Ep.
    - apply in_children in Hs. destruct Hs as [_ Ej].
      destruct (parent_some n h lv bt WF i p Li Ep) as (_ & _ & L).
      destruct (parent_some n h lv bt WF j p Lj Ej) as (_ & _ & L'). lia.
    - apply in_tops in Hs. destruct Hs as [_ Ej].
      destruct WF as (_ & _ & _ & _ & W & _).
      pose proof (W i Li) as A. rewrite Ep in A. pose proof (W j Lj) as B. rewrite Ej in B.
      unfold lev. destruct A, B. congruence.
  Qed.
  Lemma anc_dec : forall i, (i < n)%nat -> anc i \/ ~ anc i.
  Proof using WF Hk. clear HS.
    apply (up_ind n h lv bt WF). intros i Hi IH.
    destruct (Nat.eq_dec i k) as [->|Ne]; [left; constructor|].
    assert (G : forall l, (forall j, In j l -> anc j \/ ~ anc j) ->
                 (exists j, In j l /\ anc j) \/ (forall j, In j l -> ~ anc j)).
    { induction l as [|a t IHl]; intros Hl; [right; intros j []|].
      destruct (Hl a (or_introl eq_refl)) as [Ha|Ha]; [left; exists a; split; [now left|auto]|].
      destruct IHl as [(j & Hj & Aj)|N]; [intros; apply Hl; now right| |].
      - left. exists j. split; [now right|auto].
      - right. intros j [<-|Hj]; auto. }
    destruct (G _ IH) as [(j & Hj & Aj)|N].
    - left. apply in_children in Hj. apply anc_up with j; tauto.
    - right. intros A. destruct A as [|j p Aj Ej]; [congruence|].
      apply (N j); auto. apply in_children. split; [now apply anc_lt|auto].
  Qed.

  Context (us : list (option R)) (v : option R).
  Hypothesis HU : length us = n.
  Hypothesis HR : expu (nth k us None) <= expu v.
  Notation us' := (upd us k v).
  Context (e e' : nat -> R).
  Hypothesis He : nl_real n h scaled scales us e.
  Hypothesis He' : nl_real n h scaled scales us' e'.

  Lemma nonneg_e i : (i < n)%nat -> 0 <= e i.
  Proof. intros Hi. exact (nl_real_nonneg n h scaled scales us e He i Hi). Qed.
  Lemma nonneg_e' i : (i < n)%nat -> 0 <= e' i.
  Proof. intros Hi. exact (nl_real_nonneg n h scaled scales us' e' He' i Hi). Qed.

  Lemma uof_other i : i <> k -> uof us' i = uof us i.
  Proof. intros Ne. unfold uof. apply nth_upd_neq. congruence. Qed.
  Lemma uof_k : uof us' k = v.
  Proof. unfold uof. apply nth_upd_eq. lia. Qed.

  Lemma leaf_mono : e k <= e' k.
  Proof.
    rewrite (He k Hk), (He' k Hk), uof_k. unfold leaf. rewrite Hleaf. unfold uof.
    pose proof (dv_pos n h lv bt scaled scales WF HS k Hk) as Hd.
    destruct (nth k us None) as [x|] eqn:Ex; cbn [expu] in HR.
    - destruct v as [y|]; cbn [expu] in HR; [|pose proof (exp_pos x); lra].
      assert (x <= y) by (destruct (Rle_lt_dec x y) as [|L]; auto; apply exp_increasing in L; lra).
      apply exp_le. apply Rmult_le_compat_r; auto. left. now apply Rinv_0_lt_compat.
    - destruct v; [left; apply exp_pos|lra].
  Qed.

  Lemma terms_mono : forall i, (i < n)%nat -> e i <= e' i /\ (~ anc i -> e' i = e i).
  Proof.
    apply (up_ind n h lv bt WF). intros i Hi IH.
    destruct (Nat.eq_dec i k) as [->|Ne]; [split; [exact leaf_mono|intros N; exfalso; apply N; constructor]|].
    pose proof (dv_pos n h lv bt scaled scales WF HS i Hi) as Hd.
    pose proof (sc_pos n scales HS i Hi) as Hs.
    assert (Hle : SUM e (children n h i) <= SUM e' (children n h i)) by (apply SUM_le; intros j Hj; now apply IH).
    rewrite (He i Hi), (He' i Hi), (uof_other i Ne). split.
    - destruct (uof us i) as [x|]; [|lra]. destruct (leaf n h i); [lra|].
      destruct (Rltb 0 (SUM e (children n h i))) eqn:E0; destruct (Rltb 0 (SUM e' (children n h i))) eqn:E1.
      + apply Rltb_true in E0. apply exp_le. apply Rmult_le_compat_r; [left; now apply Rinv_0_lt_compat|].
        apply Rplus_le_compat_l. apply Rmult_le_compat_l; [lra|]. now apply ln_le.
      + apply Rltb_true in E0. apply Rltb_false in E1. lra.
      + left; apply exp_pos.
      + lra.
    - intros N. assert (ES : SUM e' (children n h i) = SUM e (children n h i)).
      { apply SUM_ext. intros j Hj. apply IH; auto. intros A. apply N. apply in_children in Hj.
        apply anc_up with j; tauto. }
      now rewrite ES.
  Qed.

  Lemma SUM_one_changes l i : NoDup l -> In i l -> (forall j, In j l -> j <> i -> e' j = e j) ->
    SUM e' l = SUM e l + (e' i - e i).
  Proof. clear.
    induction l as [|a t IH]; intros ND Hi H; [destruct Hi|]. inversion_clear ND as [|? ? Na NDt].
    rewrite !SUM_cons. destruct Hi as [->|Hi].
    - rewrite (SUM_ext e' e t); [lra|]. intros j Hj. apply H; [now right|]. intros ->. auto.
    - rewrite IH; auto; [|intros; apply H; auto; now right].
      rewrite (H a); [lra|now left|]. intros ->. auto.
  Qed.
  Lemma NoDup_siblings i : NoDup (siblings n h i).
  Proof. unfold siblings. destruct (parent_of h i); apply NoDup_filter, seq_NoDup. Qed.

  Lemma sib_sum_anc i : anc i -> SUM e' (siblings n h i) = SUM e (siblings n h i) + (e' i - e i).
  Proof.
    intros A. apply SUM_one_changes; [apply NoDup_siblings|apply sib_self; now apply anc_lt|].
    intros j Hj Ne. apply terms_mono; [now apply (sib_lt n h scales HS i)|].
    intros Aj. apply Ne. now apply (anc_sib i j).
  Qed.
  Lemma sib_sum_le i : SUM e (siblings n h i) <= SUM e' (siblings n h i).
  Proof. apply SUM_le. intros j Hj. apply terms_mono. now apply (sib_lt n h scales HS i). Qed.
  Lemma sib_ge i : (i < n)%nat -> e i <= SUM e (siblings n h i).
  Proof.
    intros Hi. apply SUM_ge; [|now apply sib_self]. intros j Hj. apply nonneg_e. now apply (sib_lt n h scales HS i).
  Qed.
  Lemma sib_ge' i : (i < n)%nat -> e' i <= SUM e' (siblings n h i).
  Proof.
    intros Hi. apply SUM_ge; [|now apply sib_self]. intros j Hj. apply nonneg_e'. now apply (sib_lt n h scales HS i).
  Qed.

  (** the fraction [a/(a+r)] grows with [a] *)
  Lemma frac_mono a a' r : 0 <= a -> a <= a' -> 0 <= r -> 0 < a + r -> a / (a + r) <= a' / (a' + r).
  Proof. clear.
    intros Ha Haa Hr Hp. apply Rmult_le_reg_r with ((a + r) * (a' + r)); [nra|].
    replace (a / (a + r) * ((a + r) * (a' + r))) with (a * (a' + r)) by (field; lra).
    replace (a' / (a' + r) * ((a + r) * (a' + r))) with (a' * (a + r)) by (field; lra). nra.
  Qed.
  Lemma frac_strict a a' r : 0 <= a -> a < a' -> 0 < r -> a / (a + r) < a' / (a' + r).
  Proof. clear.
    intros Ha Haa Hr. apply Rmult_lt_reg_r with ((a + r) * (a' + r)); [nra|].
    replace (a / (a + r) * ((a + r) * (a' + r))) with (a * (a' + r)) by (field; lra).
    replace (a' / (a' + r) * ((a + r) * (a' + r))) with (a' * (a + r)) by (field; lra). nra.
  Qed.

  Lemma cnd_anc i : anc i -> cnd n h e i <= cnd n h e' i.
  Proof.
    intros A. pose proof (anc_lt i A) as Hi. unfold cnd. rewrite (sib_sum_anc i A).
    pose proof (sib_ge i Hi) as G. pose proof (nonneg_e i Hi) as N. destruct (terms_mono i Hi) as [M _].
    set (S := SUM e (siblings n h i)) in *.
    destruct (Rleb S 0) eqn:E0.
    - apply Rleb_true in E0. destruct (Rleb (S + (e' i - e i)) 0) eqn:E1; [lra|]. apply Rleb_false in E1.
      apply Rmult_le_pos; [lra|left; now apply Rinv_0_lt_compat].
    - apply Rleb_false in E0. destruct (Rleb (S + (e' i - e i)) 0) eqn:E1; [apply Rleb_true in E1; lra|].
      replace S with (e i + (S - e i)) by lra.
      replace (e i + (S - e i) + (e' i - e i)) with (e' i + (S - e i)) by lra.
      apply frac_mono; lra.
  Qed.

  Context (q q' : nat -> R).
  Hypothesis Hq : abs_real n h e q.
  Hypothesis Hq' : abs_real n h e' q'.
  Lemma nonneg_q i : (i < n)%nat -> 0 <= q i.
  Proof. exact (abs_nonneg n h lv bt scaled scales WF us e q He Hq i). Qed.
  Lemma nonneg_q' i : (i < n)%nat -> 0 <= q' i.
  Proof. exact (abs_nonneg n h lv bt scaled scales WF us' e' q' He' Hq' i). Qed.

  Lemma own_anc : forall i, (i < n)%nat -> anc i -> q i <= q' i.
  Proof.
    apply (down_ind n h lv bt WF (fun i => anc i -> q i <= q' i)). intros i Hi IH A.
    rewrite (Hq i Hi), (Hq' i Hi). pose proof (cnd_anc i A) as C.
    pose proof (cnd_nonneg n h scaled scales us e i He Hi) as Cn.
    destruct (parent_of h i) as [p|] eqn:Ep; auto.
    assert (Ap : anc p) by (now apply anc_up with i). pose proof (anc_lt p Ap) as Hp.
    apply Rmult_le_compat; auto. now apply nonneg_q.
  Qed.

  (** strictly, if the term of [k] really grows *)
  Hypothesis HRs : expu (nth k us None) < expu v.
  Lemma leaf_strict : e k < e' k.
  Proof.
    rewrite (He k Hk), (He' k Hk), uof_k. unfold leaf. rewrite Hleaf. unfold uof.
    pose proof (dv_pos n h lv bt scaled scales WF HS k Hk) as Hd.
    destruct (nth k us None) as [x|] eqn:Ex; cbn [expu] in HRs.
    - destruct v as [y|]; cbn [expu] in HRs; [|pose proof (exp_pos x); lra].
      apply exp_lt_inv in HRs.
      apply exp_increasing. apply Rmult_lt_compat_r; auto. now apply Rinv_0_lt_compat.
    - destruct v; [apply exp_pos|cbn [expu] in HRs; lra].
  Qed.
  Lemma SUM_lt_one l i : In i l -> (forall j, In j l -> e j <= e' j) -> e i < e' i -> SUM e l < SUM e' l.
  Proof. clear.
    induction l as [|a t IH]; intros Hi H L; [destruct Hi|]. rewrite !SUM_cons.
    pose proof (H a (or_introl eq_refl)). assert (SUM e t <= SUM e' t) by (apply SUM_le; intros; apply H; now right).
    destruct Hi as [->|Hi]; [lra|]. specialize (IH Hi (fun j Hj => H j (or_intror Hj)) L). lra.
  Qed.
  Lemma anc_strict : (forall a, anc a -> 0 < e a) -> forall i, anc i -> e i < e' i.
  Proof.
    intros HP i A. induction A as [|j p Aj IH Ej]; [exact leaf_strict|].
    pose proof (anc_lt j Aj) as Hj. destruct (parent_some n h lv bt WF j p Hj Ej) as (_ & Hp & _).
    assert (Hin : In j (children n h p)) by (now apply in_children).
    assert (Ne : p <> k) by (intros ->; rewrite Hleaf in Hin; destruct Hin).
    pose proof (dv_pos n h lv bt scaled scales WF HS p Hp) as Hd.
    pose proof (sc_pos n scales HS p Hp) as Hs.
    assert (Hl : leaf n h p = false) by (unfold leaf; destruct (children n h p); [destruct Hin|reflexivity]).
    assert (Hc : forall c, In c (children n h p) -> (c < n)%nat) by (intros c Hc; now apply in_children in Hc).
    pose proof (HP p (anc_up j p Aj Ej)) as P.
    revert P. rewrite (He p Hp), (He' p Hp), (uof_other p Ne), Hl. destruct (uof us p) as [x|]; [|lra].
    destruct (Rltb 0 (SUM e (children n h p))) eqn:E0; [|lra]. apply Rltb_true in E0. intros _.
    assert (L : SUM e (children n h p) < SUM e' (children n h p)).
    { apply SUM_lt_one with j; auto. intros c Hcc. now apply terms_mono, Hc. }
    destruct (Rltb 0 (SUM e' (children n h p))) eqn:E1; [|apply Rltb_false in E1; lra].
    apply exp_increasing. apply Rmult_lt_compat_r; [now apply Rinv_0_lt_compat|].
    apply Rplus_lt_compat_l. apply Rmult_lt_compat_l; [lra|]. now apply ln_increasing.
  Qed.
  Lemma anc_q_pos : 0 < q k -> forall i, anc i -> 0 < q i /\ 0 < e i.
  Proof.
    intros P i A. pose proof (fun j Aj => proj1 (cnd_pos_iff n h scaled scales HS us e j He (anc_lt j Aj))) as CP.
    assert (PQ : 0 < q i).
    { induction A as [|j p Aj IH Ej]; auto. pose proof (anc_lt j Aj) as Hj. rewrite (Hq j Hj), Ej in IH.
      destruct (parent_some n h lv bt WF j p Hj Ej) as (_ & Hp & _).
      pose proof (nonneg_q p Hp). pose proof (cnd_nonneg n h scaled scales us e j He Hj). nra. }
    split; auto. apply CP; auto. pose proof (anc_lt i A) as Hi. rewrite (Hq i Hi) in PQ.
    destruct (parent_of h i) as [p|] eqn:Ep; auto.
    assert (Ap : anc p) by (now apply anc_up with i). pose proof (nonneg_q p (anc_lt p Ap)).
    pose proof (cnd_nonneg n h scaled scales us e i He Hi). nra.
  Qed.
  Lemma cnd_le_1 i : (i < n)%nat -> cnd n h e i <= 1.
  Proof.
    intros Hi. unfold cnd. destruct (Rleb (SUM e (siblings n h i)) 0) eqn:E0; [lra|]. apply Rleb_false in E0.
    pose proof (sib_ge i Hi). apply Rmult_le_reg_r with (SUM e (siblings n h i)); auto.
    unfold Rdiv. rewrite Rmult_assoc, Rinv_l by lra. lra.
  Qed.
  Lemma own_strict : 0 < q k -> forall i, (i < n)%nat -> anc i -> q i < 1 -> q i < q' i.
  Proof.
    intros P. pose proof (fun a Aa => proj2 (anc_q_pos P a Aa)) as EP.
    pose proof (anc_strict EP) as ES.
    apply (down_ind n h lv bt WF (fun i => anc i -> q i < 1 -> q i < q' i)). intros i Hi IH A L1.
    pose proof (cnd_anc i A) as C. pose proof (cnd_le_1 i Hi) as C1.
    pose proof (proj2 (cnd_pos_iff n h scaled scales HS us e i He Hi) (EP i A)) as Cp.
    assert (CS : cnd n h e i < 1 -> cnd n h e i < cnd n h e' i).
    { intros Lt. revert Lt. unfold cnd. rewrite (sib_sum_anc i A).
      pose proof (sib_ge i Hi) as G. pose proof (EP i A) as N. pose proof (ES i A) as M.
      set (S := SUM e (siblings n h i)) in *.
      destruct (Rleb S 0) eqn:E0; [apply Rleb_true in E0; lra|].
      destruct (Rleb (S + (e' i - e i)) 0) eqn:E1; [apply Rleb_true in E1; lra|].
      intros Lt. assert (e i < S).
      { apply Rmult_lt_reg_r with (/ S); [apply Rinv_0_lt_compat; lra|]. rewrite Rinv_r by lra. exact Lt. }
      replace S with (e i + (S - e i)) at 1 by lra.
      replace (S + (e' i - e i)) with (e' i + (S - e i)) by lra.
      apply frac_strict; lra. }
    rewrite (Hq i Hi) in L1. rewrite (Hq i Hi), (Hq' i Hi).
    destruct (parent_of h i) as [p|] eqn:Ep; [|now apply CS].
    assert (Ap : anc p) by (now apply anc_up with i). pose proof (anc_lt p Ap) as Hp.
    destruct (anc_q_pos P p Ap) as [Qp _]. pose proof (own_anc p Hp Ap) as Qm.
    destruct (Rle_lt_or_eq_dec _ _ C1) as [Lt|Eq].
    - apply Rlt_le_trans with (cnd n h e' i * q p).
      + apply Rmult_lt_compat_r; auto.
      + apply Rmult_le_compat_l; lra.
    - rewrite Eq in *. apply Rlt_le_trans with (1 * q' p).
      + rewrite !Rmult_1_l in *. apply IH; auto.
      + apply Rmult_le_compat_r; lra.
  Qed.
  (* ---- others ---- *)
  Hypothesis SF : scales_fall n h scaled scales.
  Lemma sc_le_dv p : (p < n)%nat -> children n h p <> [] -> sc p <= dv p.
  Proof. intros Hp Hc. exact (SF p Hp Hc). Qed.

  (** the weight of one unit of a child's term: absolute probability over the children's sum *)
  Lemma rate_anc : forall p, (p < n)%nat -> anc p -> 0 < SUM e (children n h p) ->
    q' p / SUM e' (children n h p) <= q p / SUM e (children n h p).
  Proof.
    apply (down_ind n h lv bt WF (fun i => anc i -> 0 < SUM e (children n h i) -> q' i / SUM e' (children n h i) <= q i / SUM e (children n h i))). intros p Hp IH A HSp.
    assert (Hne : children n h p <> []) by (intros E; rewrite E in HSp; unfold SUM in HSp; simpl in HSp; lra).
    assert (Ne : p <> k) by (intros ->; auto).
    assert (Hl : leaf n h p = false) by (unfold leaf; destruct (children n h p); congruence).
    assert (Hc : forall c, In c (children n h p) -> (c < n)%nat) by (intros c Hcc; now apply in_children in Hcc).
    assert (HSle : SUM e (children n h p) <= SUM e' (children n h p)) by (apply SUM_le; intros c Hcc; now apply terms_mono, Hc).
    set (S := SUM e (children n h p)) in *. set (S' := SUM e' (children n h p)) in *.
    pose proof (He p Hp) as E. pose proof (He' p Hp) as E'. rewrite Hl in E, E'. rewrite (uof_other p Ne) in E'.
    fold S in E. fold S' in E'.
    pose proof (dv_pos n h lv bt scaled scales WF HS p Hp) as Hd.
    pose proof (sc_pos n scales HS p Hp) as Hs. pose proof (sc_le_dv p Hp Hne) as Hsd.
    destruct (uof us p) as [x|].
    2:{ assert (Z : q p = 0 /\ q' p = 0).
        { rewrite (Hq p Hp), (Hq' p Hp). unfold cnd. rewrite E, E'.
          destruct (Rleb _ 0), (Rleb _ 0), (parent_of h p); unfold Rdiv; split; ring. }
        destruct Z as [-> ->]. unfold Rdiv. lra. }
    destruct (Rltb 0 S) eqn:E0; [|apply Rltb_false in E0; lra].
    destruct (Rltb 0 S') eqn:E1; [|apply Rltb_false in E1; lra].
    assert (Pe : 0 < e p) by (rewrite E; apply exp_pos). assert (Pe' : 0 < e' p) by (rewrite E'; apply exp_pos).
    (* e/S falls *)
    assert (ER : e' p / S' <= e p / S).
    { assert (G : forall T, 0 < T -> exp ((x + sc p * ln T) / dv p) / T = exp (x / dv p + (sc p / dv p - 1) * ln T)).
      { intros T HT. replace (/ T) with (exp (- ln T)) by (rewrite exp_Ropp, exp_ln; auto).
        unfold Rdiv at 1. replace (/ T) with (exp (- ln T)) by (rewrite exp_Ropp, exp_ln; auto).
        rewrite <- exp_plus. f_equal. field. lra. }
      rewrite E, E', !G by lra. apply exp_le. apply Rplus_le_compat_l.
      assert (sc p / dv p <= 1).
      { apply Rmult_le_reg_r with (dv p); auto. unfold Rdiv. rewrite Rmult_assoc, Rinv_l by lra. lra. }
      assert (ln S <= ln S') by (apply ln_le; lra). nra. }
    pose proof (sib_ge p Hp) as G. pose proof (sib_ge' p Hp) as G'.
    pose proof (sib_sum_le p) as SL.
    (* q = e * rate *)
    assert (Rt : exists r r', 0 <= r' <= r /\ q p = e p * r /\ q' p = e' p * r').
    { rewrite (Hq p Hp), (Hq' p Hp). unfold cnd.
      destruct (Rleb (SUM e (siblings n h p)) 0) eqn:L0; [apply Rleb_true in L0; lra|].
      destruct (Rleb (SUM e' (siblings n h p)) 0) eqn:L1; [apply Rleb_true in L1; lra|].
      destruct (parent_of h p) as [g|] eqn:Eg.
      - assert (Ag : anc g) by (now apply anc_up with p). pose proof (anc_lt g Ag) as Hg.
        assert (Es : siblings n h p = children n h g) by (unfold siblings; now rewrite Eg).
        rewrite Es in *. exists (q g / SUM e (children n h g)), (q' g / SUM e' (children n h g)).
        split; [split|].
        + apply Rmult_le_pos; [now apply nonneg_q'|left; apply Rinv_0_lt_compat; lra].
        + apply IH; auto. lra.
        + split; field; lra.
      - exists (/ SUM e (siblings n h p)), (/ SUM e' (siblings n h p)). split; [split|].
        + left. apply Rinv_0_lt_compat. lra.
        + apply Rinv_le_contravar; lra.
        + split; reflexivity. }
    destruct Rt as (r & r' & [Hr' Hr] & -> & ->).
    replace (e' p * r' / S') with ((e' p / S') * r') by (unfold Rdiv; ring).
    replace (e p * r / S) with ((e p / S) * r) by (unfold Rdiv; ring).
    apply Rmult_le_compat; auto. apply Rmult_le_pos; [lra|left; apply Rinv_0_lt_compat; lra].
  Qed.

  Lemma others : forall j, (j < n)%nat -> ~ anc j -> q' j <= q j.
  Proof.
    apply (down_ind n h lv bt WF (fun i => ~ anc i -> q' i <= q i)). intros j Hj IH N.
    pose proof (proj2 (terms_mono j Hj) N) as Ee. pose proof (nonneg_e j Hj) as En.
    rewrite (Hq j Hj), (Hq' j Hj).
    pose proof (sib_ge j Hj) as G. pose proof (sib_sum_le j) as SL.
    destruct (parent_of h j) as [p|] eqn:Ep.
    - destruct (parent_some n h lv bt WF j p Hj Ep) as (_ & Hp & _).
      assert (Es : siblings n h j = children n h p) by (unfold siblings; now rewrite Ep).
      pose proof (nonneg_q p Hp) as Qp. pose proof (nonneg_q' p Hp) as Qp'.
      destruct (anc_dec p Hp) as [A|NA].
      + unfold cnd. rewrite Es in *. rewrite Ee.
        destruct (Rleb (SUM e (children n h p)) 0) eqn:L0.
        * apply Rleb_true in L0. assert (e j = 0) by lra. rewrite H.
          destruct (Rleb _ 0); unfold Rdiv; lra.
        * apply Rleb_false in L0. destruct (Rleb (SUM e' (children n h p)) 0) eqn:L1; [apply Rleb_true in L1; lra|].
          pose proof (rate_anc p Hp A L0) as RA.
          replace (e j / SUM e' (children n h p) * q' p) with (e j * (q' p / SUM e' (children n h p))) by (unfold Rdiv; ring).
          replace (e j / SUM e (children n h p) * q p) with (e j * (q p / SUM e (children n h p))) by (unfold Rdiv; ring).
          apply Rmult_le_compat_l; auto.
      + assert (Ec : cnd n h e' j = cnd n h e j).
        { unfold cnd. rewrite Es, Ee.
          rewrite (SUM_ext e' e (children n h p)); auto. intros c Hc. apply in_children in Hc. destruct Hc as [Hc Ecp].
          apply terms_mono; auto. intros Ac. apply NA. now apply anc_up with c. }
        rewrite Ec. apply Rmult_le_compat_l; [now apply (cnd_nonneg n h scaled scales us e j)|]. now apply IH.
    - unfold cnd. rewrite Ee. destruct (Rleb (SUM e (siblings n h j)) 0) eqn:L0.
      + apply Rleb_true in L0. assert (e j = 0) by lra. rewrite H. destruct (Rleb _ 0); unfold Rdiv; lra.
      + apply Rleb_false in L0. destruct (Rleb (SUM e' (siblings n h j)) 0) eqn:L1; [apply Rleb_true in L1; lra|].
        apply Rmult_le_compat_l; auto. apply Rinv_le_contravar; lra.
  Qed.
End Raise.
