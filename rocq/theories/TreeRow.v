(** C27: the probability row of [run_stochastic] over the exact extended reals. *)
From Coq Require Import Ascii Reals Lra.
From Verif Require Import Prelude Arith CoreModel SpecSampling SpecLogit SpecNested SpecTree
  SamplingProofs MnlProofs NestedProofs PropMultinomial PropNested TreeModel DictProofs TreeProofs TreeMore TreeHist.
Local Open Scope string_scope.
Local Open Scope nat_scope.

Lemma label_eqb_spec a b : label_eqb a b = true <-> a = b.
Proof.
  destruct a as [x|x], b as [y|y]; simpl; try (split; intros; congruence).
  - rewrite String.eqb_eq. split; congruence.
  - destruct (list_eq_dec string_dec x y); split; congruence.
Qed.

Definition childless {F} (t : tree F) (i : nat) : bool := Nat.eqb (n_children (t_heap t) i) 0.
Definition elemental_ids {F} (t : tree F) : list nat := filter (childless t) (map snd (t_all t)).

Lemma filter_select {A B C} (f : A -> B) (beq : B -> B -> bool) (g : A -> bool) (l : list A) (p : list C) :
  (forall a b, beq a b = true <-> a = b) ->
  (forall i j, In i l -> In j l -> f i = f j -> i = j) ->
  filter (fun lv => existsb (beq (fst lv)) (map f (filter g l))) (combine (map f l) p)
  = map (fun ix => (f (fst ix), snd ix)) (filter (fun ix => g (fst ix)) (combine l p)).
Proof.
  intros Hb Hinj.
  assert (H : forall i, In i l -> existsb (beq (f i)) (map f (filter g l)) = g i).
  { intros i Hi. destruct (g i) eqn:G.
    - apply existsb_exists. exists (f i). split; [apply in_map, filter_In; auto|now apply Hb].
    - destruct (existsb _ _) eqn:E; auto. apply existsb_exists in E. destruct E as (y & Hy & E).
      apply Hb in E. subst y. apply in_map_iff in Hy. destruct Hy as (j & Ej & Hj). apply filter_In in Hj. destruct Hj as [Hj Gj].
      apply Hinj in Ej; auto. congruence. }
  revert p H. generalize (map f (filter g l)). intros sel. clear Hinj.
  induction l as [|i l IH]; intros [|x p] H; simpl; auto.
  rewrite (H i) by (simpl; auto). destruct (g i); simpl; rewrite IH; auto; intros; apply H; simpl; auto.
Qed.
Lemma map_fst_filter {A C} (g : A -> bool) (l : list A) (p : list C) : length l = length p ->
  map fst (filter (fun ix => g (fst ix)) (combine l p)) = filter g l.
Proof.
  revert p; induction l as [|i l IH]; intros [|x p] H; simpl in *; try lia; auto.
  destruct (g i); simpl; rewrite IH; auto.
Qed.

Local Open Scope R_scope.
Lemma Rsum_select (g : nat -> bool) (l : list nat) (p : list R) : length l = length p ->
  (forall k i, nth_error l k = Some i -> g i = false -> nth k p 0 = 0) ->
  Rsum (map snd (filter (fun ix => g (fst ix)) (combine l p))) = Rsum p.
Proof.
  revert p; induction l as [|i l IH]; intros [|x p] H Hz; simpl in *; try lia; auto.
  assert (Hz' : forall k j, nth_error l k = Some j -> g j = false -> nth k p 0 = 0) by (intros k j; exact (Hz (S k) j)).
  destruct (g i) eqn:G; simpl; rewrite IH; auto. specialize (Hz 0%nat i eq_refl G). simpl in Hz. lra.
Qed.
Lemma combine_map_r {A B C} (f : B -> C) (l : list A) (p : list B) :
  combine l (map f p) = map (fun ix => (fst ix, f (snd ix))) (combine l p).
Proof. revert p; induction l as [|i l IH]; intros [|x p]; simpl; auto. now rewrite IH. Qed.
Lemma filter_map_comm {A B} (f : A -> B) (g : B -> bool) l : filter g (map f l) = map f (filter (fun x => g (f x)) l).
Proof. induction l as [|x l IH]; simpl; auto. destruct (g (f x)); simpl; now rewrite IH. Qed.
Lemma map_pair_combine {A B C D} (f : A -> C) (g : B -> D) (l : list (A * B)) :
  map (fun ix => (f (fst ix), g (snd ix))) l = combine (map f (map fst l)) (map g (map snd l)).
Proof. induction l as [|[a b] l IH]; simpl; auto. now rewrite IH. Qed.

Lemma filter_all {A} (g : A -> bool) l : (forall a, In a l -> g a = true) -> filter g l = l.
Proof. induction l as [|x l IH]; intros H; simpl; auto. rewrite H by (simpl; auto). rewrite IH; auto. intros; apply H; simpl; auto. Qed.

Section Row.
  Variable t : tree XR.
  Hypothesis I : inv XR t.

  Lemma scale_real s : scale_ok XR s = true -> exists r, s = Fin r /\ 0 < r <= 1.
  Proof.
    unfold scale_ok; simpl. destruct s as [r| | |]; simpl; try discriminate.
    unfold Rltb, Rleb. destruct (Rlt_dec 0 r), (Rle_dec r 1); try discriminate. eauto.
  Qed.
  Lemma scales_real : exists sc, map (exp_sc XR t) (ids t) = map Fin sc /\ length sc = length (ids t) /\ Forall (fun s => 0 < s) sc.
  Proof.
    assert (H : forall l, (forall i, In i l -> stored XR t i) -> exists sc, map (exp_sc XR t) l = map Fin sc /\ length sc = length l /\ Forall (fun s => 0 < s) sc).
    { induction l as [|i l IH]; intros H; [exists []; auto|].
      destruct IH as (sc & E & L & P); [intros; apply H; simpl; auto|].
      assert (X : exists r, exp_sc XR t i = Fin r /\ 0 < r).
      { pose proof I as [C W]. destruct (c_node XR t C i (H i (or_introl eq_refl))) as (nd & En & Sc & _).
        unfold exp_sc. rewrite En. destruct (is_parent (t_heap t) i).
        - destruct (scale_real _ Sc) as (r & -> & Hr). exists r. split; auto. lra.
        - exists 1. split; [reflexivity|lra]. }
      destruct X as (r & Er & Hr). exists (r :: sc). split; [|split; [simpl; now rewrite L|auto]]. cbn [map]. rewrite Er. f_equal. exact E. }
    apply H. auto.
  Qed.

  Lemma childless_negb i : childless t i = negb (is_parent (t_heap t) i).
  Proof. unfold childless, is_parent. now rewrite negb_involutive. Qed.

  Lemma feasible_transport us i : length us = length (ids t) -> choice_feasible t us i ->
    exists k, nth_error (ids t) k = Some i /\ feasible (length (ids t)) (map (exp_h XR t) (ids t)) us k.
  Proof.
    intros L H. induction H as [k i E U NC|k i c nd E U En P H IH]; exists k; (split; [exact E|]).
    - apply fs_leaf; auto. apply (children_nil XR t k i I E).
      assert (S : stored XR t i) by (eapply nth_error_In; eauto).
      destruct (is_parent (t_heap t) i) eqn:X; auto. exfalso. apply NC. now apply has_child_iff.
    - destruct IH as (j & Ej & Fj). apply fs_nest with j; auto. apply (children_exp XR t k i j I E). eauto.
  Qed.

  Theorem row_result d us scaled chk :
    validate_tree t = Ok tt -> depth t = Ok d -> length us = length (t_all t) ->
    (exists i, In i (t_top t) /\ choice_feasible t us i) ->
    exists labels ps,
      stochastic_row XR t (map as_x us) scaled chk = Ok (combine labels (map (fun r => Fin r : num XR) ps)) /\
      labels = map (label_of XR t d) (elemental_ids t) /\ elemental_choices t = Ok labels /\
      length ps = length labels /\ Rsum ps = 1 /\ Forall (fun p => 0 <= p <= 1) ps.
  Proof.
    intros V D L (i & Ti & Fi). pose proof I as [C W].
    assert (LI : length (t_all t) = length (ids t)) by (unfold ids, dvals; now rewrite map_length).
    assert (EI : elemental_ids t = filter (fun i => negb (is_parent (t_heap t) i)) (ids t)).
    { unfold elemental_ids. apply filter_ext. intros a. apply childless_negb. }
    rewrite LI in L. destruct (feasible_transport us i L Fi) as (k & Ek & Fk).
    pose proof (choices_eq XR t d I V D) as CE.
    unfold stochastic_row. rewrite D. cbn [rbind]. destruct (Nat.ltb_spec 1 d) as [Hd|Hd].
    - rewrite (flatten_eq XR t d I D Hd). cbn [rbind].
      pose proof (flatten_wf XR t d I D) as WF. destruct scales_real as (sc & Esc & Lsc & Psc). rewrite Esc.
      destruct (C14_sum_to_one _ _ _ _ scaled sc us chk WF (conj Lsc Psc) L) as (p & top & terms & E & Htop & Lp & Sp & Bp & Zp).
      { exists k. split; [apply nth_error_Some; congruence|]. split; auto.
        apply (c_top XR t C) in Ti. destruct Ti as [Si Pi]. destruct (stored_node XR t i C Si) as [nd En].
        unfold parent_id in Pi. rewrite En in Pi. pose proof (parent_of_exp XR t k i nd I Ek En) as X. rewrite Pi in X. tauto. }
      change (num XR) with xr in *. rewrite E. cbn [rbind]. unfold nested_frame_row.
      assert (EL : elemental_choices t = Ok (map (label_of XR t d) (elemental_ids t))).
      { unfold elemental_choices. rewrite D. cbn [rbind]. destruct (Nat.eqb_spec d 1); [lia|]. rewrite EI. f_equal.
        apply map_ext_in. intros j Hj. apply filter_In in Hj. destruct Hj as [Hj _]. unfold label_of.
        destruct (Nat.eqb_spec d 1); [lia|]. f_equal. apply (nested_id_spec XR); auto; intros; apply (depth_ok XR t d D); auto. }
      rewrite EL, CE. cbn [rbind].
      set (sel := filter (fun ix => negb (is_parent (t_heap t) (fst ix))) (combine (ids t) p)).
      exists (map (label_of XR t d) (elemental_ids t)), (map snd sel).
      assert (Lp' : length (ids t) = length p) by auto.
      split; [|split; [reflexivity|split; [reflexivity|]]].
      + f_equal. rewrite EI.
        rewrite (filter_select (label_of XR t d) label_eqb (fun i => negb (is_parent (t_heap t) i)) (ids t)).
        2: exact label_eqb_spec.
        2: { intros a b Ha Hb. apply (label_of_inj XR t d); auto. }
        rewrite combine_map_r, filter_map_comm, map_map. cbn [fst snd].
        rewrite (map_pair_combine (label_of XR t d) Fin). f_equal. f_equal. now apply (map_fst_filter (fun i => negb (is_parent (t_heap t) i))).
      + split; [|split].
        * rewrite !map_length, EI. rewrite <- (map_fst_filter (fun i => negb (is_parent (t_heap t) i)) (ids t) p Lp'), map_length. reflexivity.
        * unfold sel. rewrite (Rsum_select (fun i => negb (is_parent (t_heap t) i))); auto. intros j a Ea Ha. apply Zp; [apply nth_error_Some; congruence|].
          intros X. apply (children_nil XR t j a I Ea) in X. rewrite X in Ha. discriminate.
        * rewrite Forall_forall in *. intros x Hx. apply Bp. apply in_map_iff in Hx. destruct Hx as ([a b] & <- & Hx).
          apply filter_In in Hx. destruct Hx as [Hx _]. simpl. eapply in_combine_r; eauto.
    - assert (Hd1 : d = 1%nat).
      { assert (S : stored XR t i) by (eapply nth_error_In; eauto). pose proof (depth_ok XR t d D i S) as X.
        destruct (c_node XR t C i S) as (nd & En & _ & P). unfold level_of in X. rewrite En in X.
        destruct (nd_parent nd) as [q|]; lia. }
      assert (NP : forall a, In a (ids t) -> negb (is_parent (t_heap t) a) = true).
      { intros a Ha. destruct (is_parent (t_heap t) a) eqn:X; auto. exfalso.
        apply (has_child_iff XR t a I Ha) in X. destruct X as (c & nc & Hc & Ec & Pc). apply in_model_stored in Hc.
        pose proof (depth_ok XR t d D c Hc) as Y. destruct (c_node XR t C c Hc) as (nc' & Ec' & _ & P). rewrite Ec in Ec'. injection Ec' as <-.
        rewrite Pc in P. destruct P as [_ P]. unfold level_of at 1 in Y. rewrite Ec in Y.
        destruct (c_node XR t C a Ha) as (na & Ea & _ & Pa). unfold level_of in P. rewrite Ea in P. destruct (nd_parent na); lia. }
      assert (EA : elemental_ids t = ids t).
      { rewrite EI. apply filter_all. exact NP. }
      assert (SF : some_feasible us).
      { assert (U : nth k us None <> None) by (inversion Fk; auto).
        destruct (nth k us None) as [x|] eqn:Ex; [|congruence]. exists x. rewrite <- Ex. apply nth_In.
        rewrite L. apply nth_error_Some. congruence. }
      change (num XR) with xr in *. rewrite (C06_logit_formula us chk SF). cbn [rbind]. rewrite CE. cbn [rbind].
      destruct (C06_sum_to_one_and_bounds us SF) as [S1 B1].
      exists (map (label_of XR t d) (ids t)), (map (fun u => expu u / total us) us).
      rewrite map_map, EA. split; [reflexivity|]. split; [reflexivity|]. split.
      + unfold elemental_choices. rewrite D, Hd1. cbn [rbind Nat.eqb]. rewrite CE, Hd1. reflexivity.
      + rewrite !map_length. auto.
  Qed.
End Row.
