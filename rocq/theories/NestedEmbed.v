(** Node tables that contain other node tables (C103, C104). *)
From Coq Require Import Reals Lra Psatz Permutation.
From Verif Require Import Prelude Arith CoreModel SpecSampling SpecLogit SpecNested SpecCalc SamplingProofs MnlProofs NestedProofs NestedExact NestedCalc.
Local Open Scope R_scope.

Lemma SUM_perm f l l' : Permutation l l' -> SUM f l = SUM f l'.
Proof.
  intros P. unfold SUM. induction P; simpl in *; lra.
Qed.

Lemma map_NoDup_in {A B} (f : A -> B) l :
  (forall a b, In a l -> In b l -> f a = f b -> a = b) -> NoDup l -> NoDup (map f l).
Proof.
  intros I ND. induction ND as [|a t Na ND IH]; simpl; constructor.
  - intros H. apply in_map_iff in H. destruct H as (b & E & Hb). apply Na.
    rewrite (I a b); auto; [now left|now right].
  - apply IH. intros x y Hx Hy. apply I; now right.
Qed.

Section Embed.
  Context (n : nat) (h : list Z) (lv : list nat) (bt : list bool) (scales : list R) (us : list util).
  Context (n' : nat) (h' : list Z) (lv' : list nat) (bt' : list bool) (scales' : list R) (us' : list util).
  Context (scaled : bool) (s : nat -> nat).
  Hypothesis WF : wf_table n h lv bt.
  Hypothesis HS : length scales = n /\ Forall (fun s => 0 < s) scales.
  Hypothesis WF' : wf_table n' h' lv' bt'.
  Hypothesis HS' : length scales' = n' /\ Forall (fun s => 0 < s) scales'.
  Hypothesis PO : part_of n h scales us n' h' scales' us' s.

  Definition keptb (j : nat) : bool := existsb (fun i => Nat.eqb (s i) j) (seq 0 n).
  Lemma keptb_iff j : keptb j = true <-> kept n s j.
  Proof.
    unfold keptb, kept. rewrite existsb_exists. split.
    - intros (i & Hi & E). apply in_seq in Hi. apply Nat.eqb_eq in E. exists i. split; [lia|auto].
    - intros (i & Hi & E). exists i. split; [apply in_seq; lia|now apply Nat.eqb_eq].
  Qed.

  (** a group of nodes of the large table, restricted to kept ones, is the image of the group *)
  Lemma group_perm (b : nat -> bool) (b' : nat -> bool) :
    (forall i, (i < n)%nat -> b' (s i) = b i) ->
    Permutation (filter keptb (filter b' (seq 0 n'))) (map s (filter b (seq 0 n))).
  Proof.
    intros Hb. destruct PO as [INJ P]. apply NoDup_Permutation.
    - apply NoDup_filter, NoDup_filter, seq_NoDup.
    - apply map_NoDup_in; [|apply NoDup_filter, seq_NoDup].
      intros i j Hi Hj E. apply filter_In in Hi, Hj. destruct Hi as [Hi _], Hj as [Hj _].
      apply in_seq in Hi, Hj. apply INJ; auto; lia.
    - intros j. rewrite !filter_In, keptb_iff, in_map_iff. split.
      + intros [[Hj Hbj] (i & Hi & E)]. exists i. split; auto. apply filter_In. split; [apply in_seq; lia|].
        rewrite <- Hb by auto. now rewrite E.
      + intros (i & E & Hi). apply filter_In in Hi. destruct Hi as [Hi Bi]. apply in_seq in Hi.
        assert (Hin : (i < n)%nat) by lia. destruct (P i Hin) as (Hs & _).
        split; [split|].
        * apply in_seq. lia.
        * rewrite <- E. now rewrite Hb.
        * exists i. auto.
  Qed.

  Lemma child_iff i j : (i < n)%nat -> (j < n)%nat -> is_child h' (s i) (s j) = is_child h i j.
  Proof.
    intros Hi Hj. destruct PO as [INJ P]. unfold is_child. destruct (P j Hj) as (_ & E & _). rewrite E.
    destruct (parent_of h j) as [p|] eqn:Ep; [|reflexivity]. cbn [option_map].
    destruct (parent_some n h lv bt WF j p Hj Ep) as (_ & Hp & _).
    destruct (Nat.eqb_spec p i) as [->|Ne]; [apply Nat.eqb_refl|].
    apply Nat.eqb_neq. intros E2. apply Ne. now apply INJ.
  Qed.
  Lemma top_iff j : (j < n)%nat -> is_top h' (s j) = is_top h j.
  Proof. intros Hj. destruct PO as [INJ P]. unfold is_top. destruct (P j Hj) as (_ & E & _). rewrite E. now destruct (parent_of h j). Qed.

  Lemma dv_same i : (i < n)%nat -> dv h' scaled scales' (s i) = dv h scaled scales i.
  Proof.
    intros Hi. destruct PO as [INJ P]. unfold dv. destruct (P i Hi) as (_ & E & _). rewrite E.
    destruct (parent_of h i) as [p|] eqn:Ep; cbn [option_map]; auto. destruct scaled; auto.
    destruct (parent_some n h lv bt WF i p Hi Ep) as (_ & Hp & _).
    destruct (P p Hp) as (_ & _ & Es & _). apply Es. intros E0.
    assert (I : In i (children n h p)) by (now apply in_children). rewrite E0 in I. destruct I.
  Qed.

  Context (e e' : nat -> R).
  Hypothesis He : nl_real n h scaled scales us e.
  Hypothesis He' : nl_real n' h' scaled scales' us' e'.
  Hypothesis Hz : forall j, (j < n')%nat -> ~ kept n s j -> e' j = 0.

  Lemma group_sum_kept b b' : (forall i, (i < n)%nat -> b' (s i) = b i) ->
    SUM e' (filter b' (seq 0 n')) = SUM (fun i => e' (s i)) (filter b (seq 0 n)).
  Proof.
    intros Hb.
    transitivity (SUM e' (map s (filter b (seq 0 n)))); [|unfold SUM; now rewrite map_map].
    rewrite <- (SUM_perm e' _ _ (group_perm b b' Hb)).
    rewrite (SUM_filter e' keptb). apply SUM_ext. intros j Hj. destruct (keptb j) eqn:E; auto.
    apply Hz; [|intros K; apply keptb_iff in K; congruence].
    apply filter_In in Hj. destruct Hj as [Hj _]. apply in_seq in Hj. lia.
  Qed.

  Lemma leaf_same i : (i < n)%nat -> leaf n' h' (s i) = leaf n h i.
  Proof.
    intros Hi. destruct PO as [INJ P]. destruct (P i Hi) as (_ & _ & _ & _ & L). unfold leaf.
    destruct (children n h i), (children n' h' (s i)); auto; [destruct L as [L _]|destruct L as [_ L]]; specialize (L eq_refl); discriminate.
  Qed.

  Lemma embed_terms : forall i, (i < n)%nat -> e' (s i) = e i.
  Proof.
    apply (up_ind n h lv bt WF). intros i Hi IH. pose proof PO as [INJ P].
    destruct (P i Hi) as (Hs & _ & Esc & Eu & _).
    rewrite (He i Hi), (He' (s i) Hs). rewrite (leaf_same i Hi), (dv_same i Hi).
    unfold uof, sc. rewrite Eu.
    assert (Esc' : leaf n h i = false -> nth (s i) scales' 0 = nth i scales 0).
    { intros L. apply Esc. unfold leaf in L. destruct (children n h i); [discriminate|congruence]. }
    replace (SUM e' (children n' h' (s i))) with (SUM e (children n h i)).
    { destruct (leaf n h i); [reflexivity|]. now rewrite Esc'. }
    unfold children. rewrite (group_sum_kept (is_child h i) (is_child h' (s i))).
    - apply SUM_ext. intros j Hj. symmetry. apply IH. exact Hj.
    - intros j Hj. now apply child_iff.
  Qed.

  Lemma embed_top : SUM e' (tops n' h') = SUM e (tops n h).
  Proof.
    unfold tops. rewrite (group_sum_kept (is_top h) (is_top h')) by (intros; now apply top_iff).
    apply SUM_ext. intros j Hj. apply filter_In in Hj. destruct Hj as [Hj _]. apply in_seq in Hj. apply embed_terms. lia.
  Qed.
  Lemma embed_siblings i : (i < n)%nat -> SUM e' (siblings n' h' (s i)) = SUM e (siblings n h i).
  Proof.
    intros Hi. pose proof PO as [INJ P]. destruct (P i Hi) as (_ & E & _). unfold siblings. rewrite E.
    destruct (parent_of h i) as [p|] eqn:Ep; cbn [option_map]; [|apply embed_top].
    destruct (parent_some n h lv bt WF i p Hi Ep) as (_ & Hp & _).
    unfold children. rewrite (group_sum_kept (is_child h p) (is_child h' (s p))) by (intros; now apply child_iff).
    apply SUM_ext. intros j Hj. apply filter_In in Hj. destruct Hj as [Hj _]. apply in_seq in Hj. apply embed_terms. lia.
  Qed.

  Context (q q' : nat -> R).
  Hypothesis Hq : abs_real n h e q.
  Hypothesis Hq' : abs_real n' h' e' q'.
  Lemma embed_abs : forall i, (i < n)%nat -> q' (s i) = q i.
  Proof.
    apply (down_ind n h lv bt WF). intros i Hi IH. pose proof PO as [INJ P].
    destruct (P i Hi) as (Hs & E & _). rewrite (Hq i Hi), (Hq' (s i) Hs), E.
    unfold cnd. rewrite (embed_siblings i Hi), (embed_terms i Hi).
    destruct (parent_of h i) as [p|] eqn:Ep; cbn [option_map]; auto. now rewrite IH.
  Qed.
End Embed.
