(** C105, C85: bounds of the top output (the sum whose logarithm is the logsum) of nested models
    (cheval/core.py 161-235, exact arithmetic). *)
From Coq Require Import Reals Lra Psatz.
From Verif Require Import Prelude Arith CoreModel SpecSampling SpecLogit SpecNested SpecCalc
  SamplingProofs MnlProofs NestedProofs NestedExact NestedMore NestedCalc NestedGrad NestedEmbed PropNested PropNestedCalc.
Local Open Scope R_scope.

(** ** Powers of non-negative numbers *)
Definition pw (s x : R) : R := if Rltb 0 x then exp (s * ln x) else 0.
Lemma pw_nonneg s x : 0 <= pw s x.
Proof. unfold pw. destruct (Rltb 0 x); [left; apply exp_pos|lra]. Qed.
Lemma pw_zero s x : x <= 0 -> pw s x = 0.
Proof. intros H. unfold pw. destruct (Rltb 0 x) eqn:L; auto. apply Rltb_true in L. lra. Qed.
Lemma pw_pos s x : 0 < x -> pw s x = exp (s * ln x).
Proof. intros H. unfold pw. destruct (Rltb 0 x) eqn:L; auto. apply Rltb_false in L. lra. Qed.
Lemma pw_exp s y : 0 < s -> pw s (exp (y / s)) = exp y.
Proof. intros H. rewrite pw_pos by apply exp_pos. rewrite ln_exp. f_equal. field. lra. Qed.
Lemma pw_mono s x y : 0 < s -> x <= y -> pw s x <= pw s y.
Proof.
  intros Hs H. destruct (Rle_lt_dec x 0) as [L|L]; [rewrite (pw_zero s x L); apply pw_nonneg|].
  rewrite !pw_pos by lra. apply exp_le. apply Rmult_le_compat_l; [lra|]. apply ln_le; lra.
Qed.
Lemma pw_add s x y : 0 < s <= 1 -> 0 <= x -> 0 <= y -> pw s (x + y) <= pw s x + pw s y.
Proof.
  intros Hs [Hx|<-] [Hy|<-].
  2:{ rewrite Rplus_0_r. pose proof (pw_nonneg s 0). lra. }
  2:{ rewrite Rplus_0_l. pose proof (pw_nonneg s 0). lra. }
  2:{ rewrite Rplus_0_r. pose proof (pw_nonneg s 0). lra. }
  rewrite !pw_pos by lra.
  assert (G : forall z t, 0 < z -> z <= t -> z * exp ((s - 1) * ln t) <= exp (s * ln z)).
  { intros z t Hz Ht. replace (s * ln z) with (ln z + (s - 1) * ln z) by ring. rewrite exp_plus, exp_ln by auto.
    apply Rmult_le_compat_l; [lra|]. apply exp_le. pose proof (ln_le z t Hz Ht). nra. }
  pose proof (G x (x + y) Hx ltac:(lra)) as G1. pose proof (G y (x + y) Hy ltac:(lra)) as G2.
  replace (s * ln (x + y)) with (ln (x + y) + (s - 1) * ln (x + y)) by ring. rewrite exp_plus, exp_ln by lra. lra.
Qed.
Lemma pw_sum s (f : nat -> R) l : 0 < s <= 1 -> (forall i, In i l -> 0 <= f i) -> pw s (SUM f l) <= SUM (fun i => pw s (f i)) l.
Proof.
  intros Hs. induction l as [|a t IH]; intros H.
  - unfold SUM. simpl. rewrite pw_zero by lra. lra.
  - rewrite !SUM_cons. assert (Ht : forall i, In i t -> 0 <= f i) by (intros; apply H; now right).
    pose proof (pw_add s (f a) (SUM f t) Hs (H a (or_introl eq_refl)) (SUM_nonneg f t Ht)) as G. specialize (IH Ht). lra.
Qed.

Section Logsum.
  Context (n : nat) (h : list Z) (lv : list nat) (bt : list bool) (scales : list R).
  Hypothesis WF : wf_table n h lv bt.
  Hypothesis HS : length scales = n /\ Forall (fun s => 0 < s) scales.
  Context (us : list util) (full : nat -> util).
  Hypothesis HF : forall i, (i < n)%nat -> path_utility h us i (full i).
  Context (e : nat -> R).
  Hypothesis He : nl_real n h true scales us e.
  Notation dv := (dv h true scales).
  Notation sc := (sc scales).

  Lemma path_fun i a : path_utility h us i a -> forall b, path_utility h us i b -> a = b.
  Proof. clear.
    induction 1 as [i E|i p w E H IH]; intros b Hb; destruct Hb as [j E'|j p' w' E' H']; try congruence.
    replace p' with p in * by congruence. f_equal. now apply IH.
  Qed.
  Definition above (i : nat) : util := match parent_of h i with Some p => full p | None => Some 0 end.
  Lemma full_eq i : (i < n)%nat -> full i = add_util (uof us i) (above i).
  Proof.
    intros Hi. apply (path_fun i); auto. unfold above, uof. destruct (parent_of h i) as [p|] eqn:Ep.
    - apply pu_child with p; auto. apply HF. now apply (parent_some n h lv bt WF i p).
    - assert (Q : path_utility h us i (nth i us None)) by now apply pu_top. destruct (nth i us None); cbn; auto. now rewrite Rplus_0_r.
  Qed.
  Lemma expu_add a b : expu (add_util a b) = expu a * expu b.
  Proof. destruct a, b; cbn; try ring. apply exp_plus. Qed.

  Definition wt (i : nat) : R := pw (dv i) (e i) * expu (above i).
  Lemma wt_leaf i : (i < n)%nat -> leaf n h i = true -> wt i = expu (full i).
  Proof.
    intros Hi Hl. unfold wt. rewrite (full_eq i Hi), expu_add. f_equal. rewrite (He i Hi), Hl.
    destruct (uof us i) as [x|]; cbn [expu]; [|apply pw_zero; lra]. apply pw_exp. now apply (dv_pos n h lv bt true scales WF HS).
  Qed.
  Lemma wt_nest i : (i < n)%nat -> leaf n h i = false -> wt i = pw (sc i) (SUM e (children n h i)) * expu (full i).
  Proof.
    intros Hi Hl. unfold wt. rewrite (full_eq i Hi), expu_add, (He i Hi), Hl.
    destruct (uof us i) as [x|]; cbn [expu]; [|rewrite pw_zero by lra; ring]. unfold pw at 2. destruct (Rltb 0 (SUM e (children n h i))).
    - rewrite pw_exp by now apply (dv_pos n h lv bt true scales WF HS). rewrite exp_plus. ring.
    - rewrite pw_zero by lra. ring.
  Qed.
  Lemma wt_child i j : In j (children n h i) -> wt j = pw (sc i) (e j) * expu (full i).
  Proof.
    intros Hj. unfold wt, above. rewrite (dv_child n h scales i j Hj). apply in_children in Hj. destruct Hj as [_ ->]. reflexivity.
  Qed.
  Lemma e_nonneg i : (i < n)%nat -> 0 <= e i.
  Proof. exact (nl_real_nonneg n h true scales us e He i). Qed.
  Lemma wt_top i : In i (tops n h) -> wt i = e i.
  Proof.
    intros Hi. apply in_tops in Hi. destruct Hi as [Hi Ep]. unfold wt, above, NestedExact.dv. rewrite Ep. cbn. rewrite exp_0, Rmult_1_r.
    destruct (e_nonneg i Hi) as [P|P]; [rewrite pw_pos by auto; rewrite Rmult_1_l; now apply exp_ln|]. rewrite <- P. apply pw_zero. lra.
  Qed.
  Lemma sc_pos i : (i < n)%nat -> 0 < sc i.
  Proof.
    intros Hi. destruct HS as [L P]. unfold NestedExact.sc. rewrite Forall_forall in P. apply P, nth_In. lia.
  Qed.
  (** the weight of a node is at most that of the nest it is in *)
  Lemma wt_up i j : (i < n)%nat -> In j (children n h i) -> wt j <= wt i.
  Proof.
    intros Hi Hj. rewrite (wt_child i j Hj). assert (Hl : leaf n h i = false) by (unfold leaf; destruct (children n h i); [destruct Hj|reflexivity]).
    rewrite (wt_nest i Hi Hl). apply Rmult_le_compat_r; [apply expu_nonneg|]. apply pw_mono; [now apply sc_pos|].
    apply SUM_ge; auto. intros k Hk. apply e_nonneg. now apply in_children in Hk.
  Qed.
  Lemma wt_below_top : forall i, (i < n)%nat -> wt i <= SUM e (tops n h).
  Proof.
    apply (down_ind n h lv bt WF). intros i Hi IH. destruct (parent_of h i) as [p|] eqn:Ep.
    - pose proof (parent_some n h lv bt WF i p Hi Ep) as (_ & Hp & _). pose proof (IH p eq_refl).
      assert (In i (children n h p)) by (apply in_children; auto). pose proof (wt_up p i Hp H0). lra.
    - assert (In i (tops n h)) by (apply in_tops; auto). rewrite (wt_top i) by auto. apply SUM_ge; auto. intros k Hk. apply e_nonneg. now apply in_tops in Hk.
  Qed.
  Lemma top_at_least k : (k < n)%nat -> children n h k = [] -> expu (full k) <= SUM e (tops n h).
  Proof.
    intros Hk Hc. rewrite <- (wt_leaf k Hk) by (unfold leaf; now rewrite Hc). now apply wt_below_top.
  Qed.
  Hypothesis H1 : forall p, (p < n)%nat -> children n h p <> [] -> nth p scales 0 <= 1.
  Lemma wt_split i : (i < n)%nat -> leaf n h i = false -> wt i <= SUM wt (children n h i).
  Proof.
    intros Hi Hl. rewrite (wt_nest i Hi Hl). rewrite (SUM_ext wt (fun j => expu (full i) * pw (sc i) (e j))).
    2:{ intros j Hj. rewrite (wt_child i j Hj). ring. }
    rewrite SUM_mult, Rmult_comm. apply Rmult_le_compat_l; [apply expu_nonneg|]. apply pw_sum.
    - split; [now apply sc_pos|]. apply H1; auto. unfold leaf in Hl. destruct (children n h i); congruence.
    - intros j Hj. apply e_nonneg. now apply in_children in Hj.
  Qed.
  Lemma top_at_most : SUM e (tops n h) <= SUM (fun k => expu (full k)) (elemental n h).
  Proof.
    change (elemental n h) with (filter (leaf n h) (seq 0 n)).
    pose proof (regroup n h lv bt WF wt) as RG.
    assert (T : SUM wt (tops n h) = SUM e (tops n h)) by (apply SUM_ext; intros; now apply wt_top).
    assert (S1 : SUM wt (seq 0 n) - SUM (fun i => if leaf n h i then wt i else 0) (seq 0 n) <= SUM (fun i => SUM wt (children n h i)) (seq 0 n)).
    { assert (G : forall l, (forall i, In i l -> (i < n)%nat) -> SUM wt l - SUM (fun i => if leaf n h i then wt i else 0) l <= SUM (fun i => SUM wt (children n h i)) l).
      { induction l as [|a t IH]; intros Hl; [unfold SUM; simpl; lra|]. rewrite !SUM_cons. specialize (IH (fun i Hi => Hl i (or_intror Hi))). pose proof (Hl a (or_introl eq_refl)) as Ha.
        destruct (leaf n h a) eqn:La; [|pose proof (wt_split a Ha La); lra].
        assert (SUM wt (children n h a) = 0) by (unfold leaf in La; destruct (children n h a); [reflexivity|discriminate]). lra. }
      apply G. intros i Hi. apply in_seq in Hi. lia. }
    assert (S2 : SUM (fun k => expu (full k)) (filter (leaf n h) (seq 0 n)) = SUM (fun i => if leaf n h i then wt i else 0) (seq 0 n)).
    { rewrite <- SUM_filter. apply SUM_ext. intros i Hi. apply filter_In in Hi. destruct Hi as [Hi Hl]. apply in_seq in Hi. symmetry. apply wt_leaf; auto; lia. }
    lra.
  Qed.
End Logsum.

(** every node of a well-formed table has a path utility *)
Lemma path_utility_exists n h lv bt us : wf_table n h lv bt -> exists full, forall i, (i < n)%nat -> path_utility h us i (full i).
Proof.
  intros WF. assert (G : forall i, (i < n)%nat -> exists w, path_utility h us i w).
  { apply (down_ind n h lv bt WF (fun i => exists w, path_utility h us i w)). intros i Hi IH. destruct (parent_of h i) as [p|] eqn:Ep.
    - destruct (IH p eq_refl) as [w Hw]. eexists. eapply pu_child; eauto.
    - eexists. now apply pu_top. }
  clear WF. induction n as [|m IHm]; [exists (fun _ => None); lia|].
  destruct IHm as [f Hf]; [auto|]. destruct (G m (Nat.lt_succ_diag_r m)) as [w Hw].
  exists (fun i => if Nat.eqb i m then w else f i). intros i Hi. destruct (Nat.eqb_spec i m) as [->|Ne]; auto. apply Hf. lia.
Qed.

(** ** C105 *)

(** With scaled utilities the top output is at least the exponential of the utility of every elemental choice
    taken together with the nests it is in; and when no nest has a scale above 1 it is at most the sum
    of these exponentials, that is the output of the model without the nests. *)
Theorem C105_output_bounds :
  forall n h lv bt (scales : list R) (us : list util) full chk p ls t,
  wf_table n h lv bt -> length scales = n /\ Forall (fun s => 0 < s) scales -> length us = n ->
  (forall i, (i < n)%nat -> path_utility h us i (full i)) ->
  nested_probabilities XR h lv (map Fin scales) bt true (map as_x us) chk = Ok (p, ls, t) ->
  exists top, ls = Fin top /\
    (forall k, In k (elemental n h) -> expu (full k) <= top) /\
    ((forall q, (q < n)%nat -> children n h q <> [] -> nth q scales 0 <= 1) -> top <= SpecLogit.total (map full (elemental n h))).
Proof.
  intros n h lv bt scales us full chk p ls t WF HS HU HF R.
  destruct (nested_real n h lv bt true scales WF HS us HU chk) as (e & q & He & Hq & E). rewrite R in E.
  destruct (Rleb (SUM e (tops n h)) 0 && chk)%bool; [discriminate|]. injection E as _ -> _.
  exists (SUM e (tops n h)). split; [reflexivity|]. split.
  - intros k Hk. apply filter_In in Hk. destruct Hk as [Hk Hc]. apply in_seq in Hk.
    apply (top_at_least n h lv bt scales WF HS us full HF e He); [lia|]. destruct (children n h k); [reflexivity|discriminate].
  - intros H1. unfold SpecLogit.total. rewrite map_map. exact (top_at_most n h lv bt scales WF HS us full HF e He H1).
Qed.

Lemma total_le_count B : forall l, (forall x, In (Some x) l -> x <= B) -> SpecLogit.total l <= INR (length l) * exp B.
Proof.
  induction l as [|u l IH]; intros H; [cbn; lra|]. change (SpecLogit.total (u :: l)) with (expu u + SpecLogit.total l).
  cbn [length]. rewrite S_INR. assert (expu u <= exp B) by (destruct u as [x|]; cbn; [apply exp_le, H; now left|left; apply exp_pos]).
  specialize (IH (fun x I => H x (or_intror I))). pose proof (exp_pos B). nra.
Qed.

(** The same in logarithms: the logsum is at least the greatest path utility and exceeds it by at most the logarithm
    of the number of elemental choices. *)
Theorem C105_logsum_bounds :
  forall n h lv bt (scales : list R) (us : list util) full chk p ls t,
  wf_table n h lv bt -> length scales = n /\ Forall (fun s => 0 < s) scales -> length us = n ->
  (forall i, (i < n)%nat -> path_utility h us i (full i)) ->
  nested_probabilities XR h lv (map Fin scales) bt true (map as_x us) chk = Ok (p, ls, t) ->
  (exists k, In k (elemental n h) /\ full k <> None) ->
  exists top, ls = Fin top /\ 0 < top /\
    (forall k x, In k (elemental n h) -> full k = Some x -> x <= ln top) /\
    ((forall q, (q < n)%nat -> children n h q <> [] -> nth q scales 0 <= 1) ->
     forall B, (forall k x, In k (elemental n h) -> full k = Some x -> x <= B) -> ln top <= B + ln (INR (length (elemental n h)))).
Proof.
  intros n h lv bt scales us full chk p ls t WF HS HU HF R (k0 & K0 & N0).
  destruct (C105_output_bounds n h lv bt scales us full chk p ls t WF HS HU HF R) as (top & -> & LO & UP).
  assert (TP : 0 < top) by (pose proof (LO k0 K0); pose proof (proj2 (expu_pos_iff (full k0)) N0); lra).
  exists top. split; [reflexivity|]. split; [exact TP|]. split.
  - intros k x Hk Ex. pose proof (LO k Hk) as G. rewrite Ex in G. cbn in G. rewrite <- (ln_exp x). apply ln_le; auto. apply exp_pos.
  - intros H1 B HB. specialize (UP H1).
    assert (G : SpecLogit.total (map full (elemental n h)) <= INR (length (elemental n h)) * exp B).
    { rewrite <- (map_length full). apply total_le_count. intros x Hx. apply in_map_iff in Hx. destruct Hx as (k & Ek & Hk). eauto. }
    assert (C0 : 0 < INR (length (elemental n h))) by (apply lt_0_INR; destruct (elemental n h); [destruct K0|cbn; lia]).
    replace (B + ln (INR (length (elemental n h)))) with (ln (INR (length (elemental n h)) * exp B)).
    + apply ln_le; lra.
    + rewrite ln_mult, ln_exp by (auto; apply exp_pos). ring.
Qed.
(** models without nests *)
Theorem C105_without_nests : forall (us : list util) chk p ls t,
  some_feasible us -> multinomial_probabilities XR (map as_x us) chk = Ok (p, ls, t) ->
  exists top, ls = Fin top /\ 0 < top /\
    (forall x, In (Some x) us -> x <= ln top) /\
    forall B, (forall x, In (Some x) us -> x <= B) -> ln top <= B + ln (INR (length us)).
Proof.
  intros us chk p ls t SF R. rewrite mnl_formula in R by auto. injection R as _ <- _. pose proof (MnlProofs.total_pos us SF) as TP.
  exists (SpecLogit.total us). split; [reflexivity|]. split; [exact TP|]. split.
  - intros x Hx. rewrite <- (ln_exp x). apply ln_le; [apply exp_pos|]. change (exp x) with (expu (Some x)).
    clear -Hx. induction us as [|u us IH]; [destruct Hx|]. change (SpecLogit.total (u :: us)) with (expu u + SpecLogit.total us).
    assert (NN : 0 <= SpecLogit.total us) by (clear; induction us as [|v us IH]; [cbn; lra|]; change (SpecLogit.total (v :: us)) with (expu v + SpecLogit.total us); pose proof (expu_nonneg v); lra).
    destruct Hx as [->|Hx]; [lra|]. specialize (IH Hx). pose proof (expu_nonneg u). lra.
  - intros B HB. pose proof (total_le_count B us HB) as G.
    assert (C0 : 0 < INR (length us)) by (apply lt_0_INR; destruct us; [destruct SF as [? []]|cbn; lia]).
    replace (B + ln (INR (length us))) with (ln (INR (length us) * exp B)); [apply ln_le; lra|].
    rewrite ln_mult, ln_exp by (auto; apply exp_pos). ring.
Qed.

(** a nest with two elemental choices (1 and 2) and one without (3); path utilities: the nest has utility 1 *)
Definition lg_h : list Z := [-1; 0; 0; -1]%Z.
Definition lg_lv : list nat := [0; 1; 1; 0]%nat.
Definition lg_bt : list bool := [false; true; true; true].
Example lg_wf : wf_table 4 lg_h lg_lv lg_bt.
Proof.
  split; [lia|]. do 3 (split; [reflexivity|]). split.
  - intros i Hi. do 4 (destruct i as [|i]; [vm_compute; repeat split; lia|]). lia.
  - intros i Hi. do 4 (destruct i as [|i]; [vm_compute; split; congruence|]). lia.
Qed.
Definition lg_full (i : nat) : util := nth i [Some 1; Some (2 + 1); None; Some 0] None.
Example C105_hypotheses_met :
  wf_table 4 lg_h lg_lv lg_bt /\ elemental 4 lg_h = [1; 2; 3]%nat /\
  (forall i, (i < 4)%nat -> path_utility lg_h [Some 1; Some 2; None; Some 0] i (lg_full i)) /\
  (exists p ls t, nested_probabilities XR lg_h lg_lv (map Fin [1/2; 1; 1; 1]) lg_bt true (map as_x [Some 1; Some 2; None; Some 0]) false = Ok (p, ls, t)) /\
  (forall q, (q < 4)%nat -> children 4 lg_h q <> [] -> nth q [1/2; 1; 1; 1] 0 <= 1).
Proof.
  split; [exact lg_wf|]. split; [reflexivity|]. split; [|split].
  - intros i Hi. assert (P0 : path_utility lg_h [Some 1; Some 2; None; Some 0] 0 (Some 1)) by now apply (pu_top lg_h [Some 1; Some 2; None; Some 0] 0).
    destruct i as [|[|[|[|i]]]]; [exact P0| | |now apply (pu_top lg_h [Some 1; Some 2; None; Some 0] 3)|lia].
    + exact (pu_child lg_h [Some 1; Some 2; None; Some 0] 1 0 (Some 1) eq_refl P0).
    + exact (pu_child lg_h [Some 1; Some 2; None; Some 0] 2 0 (Some 1) eq_refl P0).
  - destruct (nested_real 4 lg_h lg_lv lg_bt true [1/2; 1; 1; 1] lg_wf) with (us := [Some 1; Some 2; None; Some 0]) (chk := false) as (e & q & _ & _ & ->); [split; [reflexivity|repeat constructor; lra]|reflexivity|].
    rewrite andb_false_r. eauto.
  - intros q Hq _. do 4 (destruct q as [|q]; [cbn; lra|]). lia.
Qed.

(** the bound on the scales is needed: two choices of utility 0 in one nest of scale 2 give an output of 4 *)
Definition sq_h : list Z := [-1; 0; 0]%Z.
Example sq_wf : wf_table 3 sq_h [0; 1; 1]%nat [false; true; true].
Proof.
  split; [lia|]. do 3 (split; [reflexivity|]). split.
  - intros i Hi. do 3 (destruct i as [|i]; [vm_compute; repeat split; lia|]). lia.
  - intros i Hi. do 3 (destruct i as [|i]; [vm_compute; split; congruence|]). lia.
Qed.
Example C105_large_scales : exists p t,
  nested_probabilities XR sq_h [0; 1; 1]%nat (map Fin [2; 1; 1]) [false; true; true] true (map as_x [Some 0; Some 0; Some 0]) true = Ok (p, Fin 4, t).
Proof.
  assert (HSs : length [2; 1; 1] = 3%nat /\ Forall (fun s => 0 < s) [2; 1; 1]) by (split; [reflexivity|repeat constructor; lra]).
  destruct (nested_real 3 sq_h [0; 1; 1]%nat [false; true; true] true [2; 1; 1] sq_wf HSs [Some 0; Some 0; Some 0] eq_refl true) as (e & q & He & _ & ->).
  assert (E1 : e 1%nat = 1) by (rewrite (He 1%nat) by lia; cbn; replace (0 / 2) with 0 by field; apply exp_0).
  assert (E2 : e 2%nat = 1) by (rewrite (He 2%nat) by lia; cbn; replace (0 / 2) with 0 by field; apply exp_0).
  assert (E0 : e 0%nat = 4).
  { rewrite (He 0%nat) by lia. change (children 3 sq_h 0) with [1; 2]%nat. change (leaf 3 sq_h 0) with false.
    change (uof [Some 0; Some 0; Some 0] 0) with (Some 0). cbv iota.
    replace (SUM e [1; 2]%nat) with 2 by (unfold SUM; simpl; rewrite E1, E2; lra).
    destruct (Rltb 0 2) eqn:L; [|apply Rltb_false in L; lra]. cbn. replace ((0 + 2 * ln 2) / 1) with (ln 2 + ln 2) by field.
    rewrite exp_plus, exp_ln by lra. lra. }
  assert (ET : SUM e (tops 3 sq_h) = 4) by (change (tops 3 sq_h) with [0%nat]; unfold SUM; simpl; rewrite E0; lra).
  rewrite ET. rewrite Rleb_pos by lra. cbn. eauto.
Qed.

(** ** C85 for nested models *)
Theorem C85_nested_log_of_the_output_partial :
  forall n h lv bt (scales : list R) (us : list util) (c : R) chk p ls t,
  wf_table n h lv bt -> length scales = n /\ Forall (fun s => 0 < s) scales -> length us = n ->
  (exists i, (i < n)%nat /\ parent_of h i = None /\ feasible n h us i) ->
  nested_probabilities XR h lv (map Fin scales) bt true (map as_x us) chk = Ok (p, ls, t) ->
  exists s s' t', nested_probabilities XR h lv (map Fin scales) bt true (map as_x (add_elemental n h c us)) chk = Ok (p, Fin s', t') /\
    ls = Fin s /\ 0 < s /\ s' = exp c * s /\ ln s' = c + ln s.
Proof.
  intros n h lv bt scales us c chk p ls t WF HS HU FE R.
  pose proof (C100_shift_of_all_choices n h lv bt scales us c chk WF HS HU) as G. rewrite R in G.
  destruct (nested_probabilities XR h lv (map Fin scales) bt true (map as_x (add_elemental n h c us)) chk) as [[[p' ls'] t']|]; [|destruct G].
  destruct G as [-> (x & -> & ->)].
  assert (XP : 0 < x).
  { destruct (nested_real n h lv bt true scales WF HS us HU chk) as (e & q & He & Hq & E). rewrite R in E.
    destruct (Rleb (SUM e (tops n h)) 0 && chk)%bool; [discriminate|]. injection E as _ -> _. apply (tops_feasible n h lv bt true scales WF HS us e He). exact FE. }
  exists x, (exp c * x), t'. split; [reflexivity|]. split; [reflexivity|]. split; [exact XP|]. split; [reflexivity|].
  rewrite ln_mult, ln_exp by (auto; apply exp_pos). reflexivity.
Qed.
Print Assumptions C105_output_bounds.
Print Assumptions C105_logsum_bounds.
Print Assumptions C105_without_nests.
Print Assumptions C85_nested_log_of_the_output_partial.
