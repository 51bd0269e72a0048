(** C100-C104: how nested probabilities and the top output respond to the elemental
    utilities (cheval/core.py 161-235, exact arithmetic). *)
From Coq Require Import Reals Lra Psatz.
From Verif Require Import Prelude Arith CoreModel SpecSampling SpecLogit SpecNested SpecCalc
  SamplingProofs MnlProofs NestedProofs NestedExact NestedMore NestedCalc NestedGrad NestedEmbed PropNested.
Local Open Scope R_scope.

Lemma map_Fin_inj (a b : list R) : map Fin a = map Fin b -> a = b.
Proof.
  intros H. apply (f_equal (map (fun x => match x with Fin r => r | _ => 0 end))) in H.
  rewrite !map_map, !map_id in H. exact H.
Qed.
Lemma Rleb_pos x : 0 < x -> Rleb x 0 = false.
Proof. intros H. destruct (Rleb x 0) eqn:L; auto. apply Rleb_true in L. lra. Qed.
Lemma outp_ext n h q q' : (forall i, (i < n)%nat -> q i = q' i) -> outp n h q = outp n h q'.
Proof.
  intros H. unfold outp. apply map_ext_in. intros i Hi. apply in_seq in Hi. destruct (leaf n h i); auto. apply H; lia.
Qed.
Lemma add_elemental_length n h c us : length (add_elemental n h c us) = n.
Proof. unfold add_elemental. now rewrite map_length, seq_length. Qed.

(** ** C100 *)

(** With scaled utilities, a constant added to every elemental utility changes no
    probability and multiplies the top output by e^c. *)
Theorem C100_shift_of_all_choices :
  forall n h lv bt (scales : list R) (us : list util) (c : R) chk,
  wf_table n h lv bt -> length scales = n /\ Forall (fun s => 0 < s) scales -> length us = n ->
  match nested_probabilities XR h lv (map Fin scales) bt true (map as_x us) chk,
        nested_probabilities XR h lv (map Fin scales) bt true (map as_x (add_elemental n h c us)) chk with
  | Ok (p, ls, _), Ok (p', ls', _) => p' = p /\ exists x, ls = Fin x /\ ls' = Fin (exp c * x)
  | Err x, Err y => x = y
  | _, _ => False
  end.
Proof.
  intros n h lv bt scales us c chk WF HS HU.
  destruct (nested_real n h lv bt true scales WF HS us HU chk) as (e & q & He & Hq & ->).
  destruct (nested_real n h lv bt true scales WF HS _ (add_elemental_length n h c us) chk) as (e' & q' & He' & Hq' & ->).
  rewrite (shift_top n h lv bt scales WF HS c us e e' He He').
  assert (EB : Rleb (exp c * SUM e (tops n h)) 0 = Rleb (SUM e (tops n h)) 0).
  { pose proof (exp_pos c). destruct (Rleb (SUM e (tops n h)) 0) eqn:E0.
    - apply Rleb_true in E0. destruct (Rleb (exp c * _) 0) eqn:E1; auto. apply Rleb_false in E1. nra.
    - apply Rleb_false in E0. destruct (Rleb (exp c * _) 0) eqn:E1; auto. apply Rleb_true in E1. nra. }
  rewrite EB. destruct (Rleb (SUM e (tops n h)) 0 && chk)%bool; auto.
  split; [|eauto]. f_equal. apply outp_ext.
  exact (shift_abs n h lv bt scales WF HS c us e e' q q' He He' Hq Hq').
Qed.
Print Assumptions C100_shift_of_all_choices.

(** one nest (node 0, scale 1/2) with one choice 1, and a top-level choice 2 *)
Definition sm_h : list Z := [-1; 0; -1]%Z.
Definition sm_lv : list nat := [0; 1; 0]%nat.
Definition sm_bt : list bool := [false; true; true].
Example sm_wf : wf_table 3 sm_h sm_lv sm_bt.
Proof.
  split; [lia|]. do 3 (split; [reflexivity|]). split.
  - intros i Hi. do 3 (destruct i as [|i]; [vm_compute; repeat split; lia|]). lia.
  - intros i Hi. do 3 (destruct i as [|i]; [vm_compute; split; congruence|]). lia.
Qed.
Lemma sm_scales : length [1/2; 1; 1] = 3%nat /\ Forall (fun s => 0 < s) [1/2; 1; 1].
Proof. split; [reflexivity|repeat constructor; lra]. Qed.
Example C100_hypotheses_met :
  wf_table 3 sm_h sm_lv sm_bt /\ (length [1/2; 1; 1] = 3%nat /\ Forall (fun s => 0 < s) [1/2; 1; 1]) /\
  add_elemental 3 sm_h 1 [Some 0; Some 0; None] = [Some 0; Some (0 + 1); None].
Proof. split; [exact sm_wf|]. split; [exact sm_scales|reflexivity]. Qed.

(** the numbers computed for this table *)
Lemma sm_run a b chk : exists e q,
  nl_real 3 sm_h false [1/2; 1; 1] [Some 0; Some a; Some b] e /\ abs_real 3 sm_h e q /\
  e 0%nat = exp (a / 2) /\ e 2%nat = exp b /\ q 1%nat = exp (a / 2) / (exp (a / 2) + exp b) /\
  nested_probabilities XR sm_h sm_lv (map Fin [1/2; 1; 1]) sm_bt false (map as_x [Some 0; Some a; Some b]) chk =
    Ok (map Fin (outp 3 sm_h q), Fin (exp (a / 2) + exp b), map Fin (map e (seq 0 3))).
Proof.
  destruct (nested_real 3 sm_h sm_lv sm_bt false [1/2; 1; 1] sm_wf sm_scales [Some 0; Some a; Some b] eq_refl chk)
    as (e & q & He & Hq & EQ).
  exists e, q. split; [exact He|]. split; [exact Hq|].
  assert (E1 : e 1%nat = exp a).
  { rewrite (He 1%nat) by lia. cbn. f_equal. field. }
  assert (E2 : e 2%nat = exp b).
  { rewrite (He 2%nat) by lia. cbn. f_equal. field. }
  assert (E0 : e 0%nat = exp (a / 2)).
  { rewrite (He 0%nat) by lia.
    change (children 3 sm_h 0) with [1%nat]. change (leaf 3 sm_h 0) with false.
    change (uof [Some 0; Some a; Some b] 0) with (Some 0). cbv iota.
    replace (SUM e [1%nat]) with (exp a) by (unfold SUM; simpl; rewrite E1; lra).
    destruct (Rltb 0 (exp a)) eqn:L; [|apply Rltb_false in L; pose proof (exp_pos a); lra].
    rewrite ln_exp. f_equal. cbn. field. }
  pose proof (exp_pos a) as Pa. pose proof (exp_pos b) as Pb. pose proof (exp_pos (a / 2)) as Pc.
  assert (ET : SUM e (tops 3 sm_h) = exp (a / 2) + exp b).
  { change (tops 3 sm_h) with [0%nat; 2%nat]. unfold SUM; simpl. rewrite E0, E2. lra. }
  assert (Q0 : q 0%nat = exp (a / 2) / (exp (a / 2) + exp b)).
  { rewrite (Hq 0%nat) by lia. change (parent_of sm_h 0) with (@None nat). cbv iota. unfold cnd.
    change (siblings 3 sm_h 0) with (tops 3 sm_h). rewrite ET, E0.
    rewrite Rleb_pos by lra. reflexivity. }
  assert (Q1 : q 1%nat = exp (a / 2) / (exp (a / 2) + exp b)).
  { rewrite (Hq 1%nat) by lia. change (parent_of sm_h 1) with (Some 0%nat). cbv iota. unfold cnd.
    change (siblings 3 sm_h 1) with [1%nat].
    replace (SUM e [1%nat]) with (exp a) by (unfold SUM; simpl; rewrite E1; lra).
    destruct (Rleb (exp a) 0) eqn:L; [apply Rleb_true in L; lra|].
    rewrite Q0, E1. field. lra. }
  split; [exact E0|]. split; [exact E2|]. split; [exact Q1|].
  rewrite EQ, ET. rewrite Rleb_pos by lra. reflexivity.
Qed.

(** without scaling the same shift does change probabilities *)
Theorem C100_unscaled_refuted :
  ~ (forall n h lv bt (scales : list R) (us : list util) (c : R) chk p ls t p' ls' t',
     wf_table n h lv bt -> length scales = n /\ Forall (fun s => 0 < s) scales -> length us = n ->
     nested_probabilities XR h lv (map Fin scales) bt false (map as_x us) chk = Ok (p, ls, t) ->
     nested_probabilities XR h lv (map Fin scales) bt false (map as_x (add_elemental n h c us)) chk = Ok (p', ls', t') ->
     p' = p).
Proof.
  intros H.
  destruct (sm_run 0 0 true) as (e & q & _ & _ & _ & _ & Q & R1).
  destruct (sm_run (0 + 2) (0 + 2) true) as (e' & q' & _ & _ & _ & _ & Q' & R2).
  specialize (H _ _ _ _ _ [Some 0; Some 0; Some 0] 2 true _ _ _ _ _ _ sm_wf sm_scales eq_refl R1 R2).
  apply map_Fin_inj in H. apply (f_equal (fun l => nth 1 l 0)) in H.
  rewrite !outp_nth in H by lia. cbn in H. rewrite Q, Q' in H.
  replace (0 / 2) with 0 in H by field. replace ((0 + 2) / 2) with 1 in H by field.
  replace (0 + 2) with (1 + 1) in H by ring. rewrite exp_plus in H. rewrite exp_0 in H.
  assert (E1 : 1 < exp 1) by (pose proof (exp_ineq1 1); lra).
  apply (f_equal (fun z => z * ((exp 1 + exp 1 * exp 1) * 2))) in H.
  replace (exp 1 / (exp 1 + exp 1 * exp 1) * ((exp 1 + exp 1 * exp 1) * 2)) with (exp 1 * 2) in H by (field; nra).
  replace (1 / (1 + 1) * ((exp 1 + exp 1 * exp 1) * 2)) with (exp 1 + exp 1 * exp 1) in H by field.
  nra.
Qed.
Print Assumptions C100_unscaled_refuted.

(** ** C101 *)

(** Raising the utility of one elemental choice never lowers its probability, whatever the
    (positive) scales. *)
Theorem C101_own_probability :
  forall n h lv bt scaled (scales : list R) (us : list util) k v chk p ls t p' ls' t',
  wf_table n h lv bt -> length scales = n /\ Forall (fun s => 0 < s) scales -> length us = n ->
  (k < n)%nat -> children n h k = [] -> expu (nth k us None) <= expu v ->
  nested_probabilities XR h lv (map Fin scales) bt scaled (map as_x us) chk = Ok (map Fin p, ls, t) ->
  nested_probabilities XR h lv (map Fin scales) bt scaled (map as_x (upd us k v)) chk = Ok (map Fin p', ls', t') ->
  prob p k <= prob p' k /\
  (expu (nth k us None) < expu v -> 0 < prob p k < 1 -> prob p k < prob p' k).
Proof.
  intros n h lv bt scaled scales us k v chk p ls t p' ls' t' WF HS HU Hk Hl HR R1 R2.
  destruct (nested_real n h lv bt scaled scales WF HS us HU chk) as (e & q & He & Hq & E1).
  assert (HU' : length (upd us k v) = n) by (now rewrite upd_length).
  destruct (nested_real n h lv bt scaled scales WF HS _ HU' chk) as (e' & q' & He' & Hq' & E2).
  rewrite R1 in E1. destruct (_ && _)%bool in E1; [discriminate|]. injection E1 as P1 _ _. apply map_Fin_inj in P1.
  rewrite R2 in E2. destruct (_ && _)%bool in E2; [discriminate|]. injection E2 as P2 _ _. apply map_Fin_inj in P2.
  subst p p'. unfold prob. rewrite !outp_nth by auto. unfold leaf. rewrite Hl. split.
  - exact (own_anc n h lv bt scaled scales WF HS k Hk Hl us v HU HR e e' He He' q q' Hq Hq' k Hk (anc_self h k)).
  - intros Lt [Pp L1].
    exact (own_strict n h lv bt scaled scales WF HS k Hk Hl us v HU HR e e' He He' q q' Hq Hq' Lt Pp k Hk (anc_self h k) L1).
Qed.
Print Assumptions C101_own_probability.

(** No other choice gains, provided every nest's scale is at most that of the nest around it. *)
Theorem C101_other_probabilities :
  forall n h lv bt scaled (scales : list R) (us : list util) k v j chk p ls t p' ls' t',
  wf_table n h lv bt -> length scales = n /\ Forall (fun s => 0 < s) scales -> length us = n ->
  scales_fall n h scaled scales ->
  (k < n)%nat -> children n h k = [] -> expu (nth k us None) <= expu v ->
  (j < n)%nat -> j <> k ->
  nested_probabilities XR h lv (map Fin scales) bt scaled (map as_x us) chk = Ok (map Fin p, ls, t) ->
  nested_probabilities XR h lv (map Fin scales) bt scaled (map as_x (upd us k v)) chk = Ok (map Fin p', ls', t') ->
  prob p' j <= prob p j.
Proof.
  intros n h lv bt scaled scales us k v j chk p ls t p' ls' t' WF HS HU SF Hk Hl HR Hj Ne R1 R2.
  destruct (nested_real n h lv bt scaled scales WF HS us HU chk) as (e & q & He & Hq & E1).
  assert (HU' : length (upd us k v) = n) by (now rewrite upd_length).
  destruct (nested_real n h lv bt scaled scales WF HS _ HU' chk) as (e' & q' & He' & Hq' & E2).
  rewrite R1 in E1. destruct (_ && _)%bool in E1; [discriminate|]. injection E1 as P1 _ _. apply map_Fin_inj in P1.
  rewrite R2 in E2. destruct (_ && _)%bool in E2; [discriminate|]. injection E2 as P2 _ _. apply map_Fin_inj in P2.
  subst p p'. unfold prob. rewrite !outp_nth by auto. destruct (leaf n h j) eqn:El; [|lra].
  apply (others n h lv bt scaled scales WF HS k Hk Hl us v HU HR e e' He He' q q' Hq Hq' SF j Hj).
  intros A. destruct A as [|i p A Ep]; [congruence|].
  assert (In i (children n h p)).
  { apply in_children. split; auto. exact (anc_lt n h lv bt WF k Hk i A). }
  unfold leaf in El. destruct (children n h p); [contradiction|discriminate].
Qed.
Print Assumptions C101_other_probabilities.

Example C101_hypotheses_met :
  scales_fall 8 ex_h true [1/2; 1; 1; 1; 1/2; 1; 1; 1] /\
  children 8 ex_h 5 = [] /\ expu (nth 5 [Some 0; None; Some 1; None; Some 2; Some 3; None; Some (-1)] None) <= expu (Some 4).
Proof.
  split; [|split; [reflexivity|]].
  - intros p Hp Hc. do 8 (destruct p as [|p]; [first [exfalso; apply Hc; reflexivity|vm_compute; lra]|]). lia.
  - simpl. left. apply exp_increasing. lra.
Qed.

(** a nest (node 0, scale 2) with choices 1 and 2, and a top-level choice 3 *)
Definition big_h : list Z := [-1; 0; 0; -1]%Z.
Definition big_lv : list nat := [0; 1; 1; 0]%nat.
Definition big_bt : list bool := [false; true; true; true].
Example big_wf : wf_table 4 big_h big_lv big_bt.
Proof.
  split; [lia|]. do 3 (split; [reflexivity|]). split.
  - intros i Hi. do 4 (destruct i as [|i]; [vm_compute; repeat split; lia|]). lia.
  - intros i Hi. do 4 (destruct i as [|i]; [vm_compute; split; congruence|]). lia.
Qed.
Lemma big_scales : length [2; 1; 1; 1] = 4%nat /\ Forall (fun s => 0 < s) [2; 1; 1; 1].
Proof. split; [reflexivity|repeat constructor; lra]. Qed.

Lemma big_run x chk : 0 < x -> exists q,
  q 2%nat = (1 + x) / ((1 + x) * (1 + x) + 16) /\
  exists t, nested_probabilities XR big_h big_lv (map Fin [2; 1; 1; 1]) big_bt true
    (map as_x [Some 0; Some (2 * ln x); Some 0; Some (ln 16)]) chk =
    Ok (map Fin (outp 4 big_h q), Fin ((1 + x) * (1 + x) + 16), t).
Proof.
  intros Hx.
  destruct (nested_real 4 big_h big_lv big_bt true [2; 1; 1; 1] big_wf big_scales
              [Some 0; Some (2 * ln x); Some 0; Some (ln 16)] eq_refl chk) as (e & q & He & Hq & EQ).
  exists q.
  assert (E1 : e 1%nat = x).
  { rewrite (He 1%nat) by lia. cbn. replace (2 * ln x / 2) with (ln x) by field. now apply exp_ln. }
  assert (E2 : e 2%nat = 1).
  { rewrite (He 2%nat) by lia. cbn. replace (0 / 2) with 0 by field. apply exp_0. }
  assert (E3 : e 3%nat = 16).
  { rewrite (He 3%nat) by lia. change (leaf 4 big_h 3) with true.
    change (uof [Some 0; Some (2 * ln x); Some 0; Some (ln 16)] 3) with (Some (ln 16)). cbv iota.
    change (dv big_h true [2; 1; 1; 1] 3) with 1. replace (ln 16 / 1) with (ln 16) by field. apply exp_ln. lra. }
  assert (ES : SUM e (children 4 big_h 0) = 1 + x).
  { change (children 4 big_h 0) with [1%nat; 2%nat]. unfold SUM; simpl. rewrite E1, E2. lra. }
  assert (E0 : e 0%nat = (1 + x) * (1 + x)).
  { rewrite (He 0%nat) by lia. rewrite ES. change (leaf 4 big_h 0) with false.
    change (uof [Some 0; Some (2 * ln x); Some 0; Some (ln 16)] 0) with (Some 0). cbv iota.
    destruct (Rltb 0 (1 + x)) eqn:L; [|apply Rltb_false in L; lra].
    change (dv big_h true [2; 1; 1; 1] 0) with 1. change (sc [2; 1; 1; 1] 0) with 2.
    replace ((0 + 2 * ln (1 + x)) / 1) with (ln (1 + x) + ln (1 + x)) by field.
    rewrite exp_plus, exp_ln; lra. }
  assert (ET : SUM e (tops 4 big_h) = (1 + x) * (1 + x) + 16).
  { change (tops 4 big_h) with [0%nat; 3%nat]. unfold SUM; simpl. rewrite E0, E3. lra. }
  assert (P : 0 < (1 + x) * (1 + x) + 16) by nra.
  assert (Q0 : q 0%nat = (1 + x) * (1 + x) / ((1 + x) * (1 + x) + 16)).
  { rewrite (Hq 0%nat) by lia. change (parent_of big_h 0) with (@None nat). cbv iota. unfold cnd.
    change (siblings 4 big_h 0) with (tops 4 big_h). rewrite ET, E0.
    rewrite Rleb_pos by lra. reflexivity. }
  split.
  - rewrite (Hq 2%nat) by lia. change (parent_of big_h 2) with (Some 0%nat). cbv iota. unfold cnd.
    change (siblings 4 big_h 2) with (children 4 big_h 0). rewrite ES, E2, Q0.
    rewrite Rleb_pos by lra. field. split; lra.
  - eexists. rewrite EQ, ET. rewrite Rleb_pos by lra. reflexivity.
Qed.

(** without that condition another choice can gain *)
Theorem C101_any_scales_refuted :
  ~ (forall n h lv bt (scales : list R) (us : list util) k v j chk p ls t p' ls' t',
     wf_table n h lv bt -> length scales = n /\ Forall (fun s => 0 < s) scales -> length us = n ->
     (k < n)%nat -> children n h k = [] -> expu (nth k us None) <= expu v -> (j < n)%nat -> j <> k ->
     nested_probabilities XR h lv (map Fin scales) bt true (map as_x us) chk = Ok (map Fin p, ls, t) ->
     nested_probabilities XR h lv (map Fin scales) bt true (map as_x (upd us k v)) chk = Ok (map Fin p', ls', t') ->
     prob p' j <= prob p j).
Proof.
  intros H.
  destruct (big_run 1 true) as (q & Q & t & R1); [lra|].
  destruct (big_run 2 true) as (q' & Q' & t' & R2); [lra|].
  assert (HR : expu (nth 1 [Some 0; Some (2 * ln 1); Some 0; Some (ln 16)] None) <= expu (Some (2 * ln 2))).
  { simpl. apply exp_le. apply Rmult_le_compat_l; [lra|]. apply ln_le; lra. }
  specialize (H _ _ _ _ _ [Some 0; Some (2 * ln 1); Some 0; Some (ln 16)] 1%nat (Some (2 * ln 2)) 2%nat true _ _ _ _ _ _ big_wf big_scales eq_refl
                ltac:(lia) eq_refl HR ltac:(lia) ltac:(lia) R1 R2).
  unfold prob in H. rewrite !outp_nth in H by lia. cbn in H. rewrite Q, Q' in H. lra.
Qed.
Print Assumptions C101_any_scales_refuted.

(** ** C102 *)

Lemma nl_real_ext n h scaled scales us e e' :
  (forall i, (i < n)%nat -> e' i = e i) -> nl_real n h scaled scales us e -> nl_real n h scaled scales us e'.
Proof.
  intros E H i Hi. rewrite (E i Hi), (H i Hi).
  replace (SUM e' (children n h i)) with (SUM e (children n h i)); auto.
  apply SUM_ext. intros j Hj. symmetry. apply E. now apply in_children in Hj.
Qed.

(** The derivative of the logarithm of the top output with respect to the utility of an
    elemental choice is its probability - with scaled utilities; without scaling it is the
    probability times the product of the scales of the nests above the choice. *)
Theorem C102_derivative_is_probability :
  forall n h lv bt scaled (scales : list R) (us : list util) k w,
  wf_table n h lv bt -> length scales = n /\ Forall (fun s => 0 < s) scales -> length us = n ->
  (k < n)%nat -> children n h k = [] -> path_scale h scales k w ->
  (exists x i, (i < n)%nat /\ parent_of h i = None /\ feasible n h (upd us k (Some x)) i) ->
  exists (p : R -> list R) (top : R -> R) (terms : R -> list R),
    (forall x, nested_probabilities XR h lv (map Fin scales) bt scaled (map as_x (upd us k (Some x))) true
                 = Ok (map Fin (p x), Fin (top x), map Fin (terms x)) /\ 0 < top x) /\
    forall x, derivable_pt_lim (fun y => ln (top y)) x ((if scaled then 1 else w) * nth k (p x) 0).
Proof.
  intros n h lv bt scaled scales us k w WF HS HU Hk Hl HW (x0 & i0 & Hi0 & Ep0 & Hf0).
  assert (HUx : forall x, length (upd us k (Some x)) = n) by (intros; now rewrite upd_length).
  pose (unfin := fun z => match z with Fin r => r | _ => 0 end).
  pose (run := fun x => nested_probabilities XR h lv (map Fin scales) bt scaled (map as_x (upd us k (Some x))) true).
  pose (pf := fun x => match run x with Ok (p, _, _) => map unfin p | Err _ => [] end).
  pose (tf := fun x => match run x with Ok (_, t, _) => unfin t | Err _ => 0 end).
  pose (ef := fun x => match run x with Ok (_, _, E) => map unfin E | Err _ => [] end).
  pose (e := fun x i => nth i (ef x) 0).
  assert (UF : forall l, map unfin (map Fin l) = l) by (intros l; rewrite map_map, map_id; reflexivity).
  assert (K : forall x, nl_real n h scaled scales (upd us k (Some x)) (e x) /\
                (exists q, abs_real n h (e x) q /\ pf x = outp n h q) /\
                0 < SUM (e x) (tops n h) /\ tf x = SUM (e x) (tops n h) /\
                run x = Ok (map Fin (pf x), Fin (tf x), map Fin (ef x))).
  { intros x. destruct (nested_real n h lv bt scaled scales WF HS _ (HUx x) true) as (e1 & q1 & He & Hq & EQ).
    assert (T : 0 < SUM e1 (tops n h)).
    { apply (tops_feasible n h lv bt scaled scales WF HS _ e1 He). exists i0. split; auto. split; auto.
      exact (feasible_same n h scales HS k Hk us HU x0 x i0 Hf0). }
    destruct (Rleb (SUM e1 (tops n h)) 0) eqn:L; [apply Rleb_true in L; lra|]. cbn [andb] in EQ.
    change (run x = Ok (map Fin (outp n h q1), Fin (SUM e1 (tops n h)), map Fin (map e1 (seq 0 n)))) in EQ.
    assert (EP : pf x = outp n h q1) by (unfold pf; rewrite EQ; apply UF).
    assert (EF : ef x = map e1 (seq 0 n)) by (unfold ef; rewrite EQ; apply UF).
    assert (ET : tf x = SUM e1 (tops n h)) by (unfold tf; now rewrite EQ).
    assert (EE : forall i, (i < n)%nat -> e x i = e1 i).
    { intros i Hi. unfold e. rewrite EF. now rewrite nth_map_seq. }
    assert (ES : forall l, (forall j, In j l -> (j < n)%nat) -> SUM (e x) l = SUM e1 l).
    { intros l Hll. apply SUM_ext. intros j Hj. apply EE. auto. }
    rewrite (ES (tops n h)) by (intros j Hj; now apply in_tops in Hj).
    split; [now apply (nl_real_ext n h scaled scales _ e1)|]. split; [|split; [exact T|split; [exact ET|]]].
    - exists q1. split; [|exact EP]. intros i Hi. rewrite (Hq i Hi).
      assert (EC : cnd n h (e x) i = cnd n h e1 i).
      { unfold cnd. rewrite (EE i Hi), (ES (siblings n h i)); auto. intros j. apply (sib_lt n h scales HS i). }
      now rewrite EC.
    - now rewrite EP, ET, EF. }
  exists pf, tf, ef. split.
  { intros x. destruct (K x) as (_ & _ & T & ET & R). split; [exact R|]. now rewrite ET. }
  intros x. apply (deriv_ext (fun y => ln (SUM (e y) (tops n h)))).
  { intros y. destruct (K y) as (_ & _ & _ & -> & _). reflexivity. }
  destruct (K x) as (_ & (q & Hq & ->) & T & _ & _).
  rewrite outp_nth by auto. unfold leaf. rewrite Hl.
  assert (He : forall y, nl_real n h scaled scales (upd us k (Some y)) (e y)) by (intros y; apply K).
  destruct scaled.
  - destruct (weight_scaled n h lv bt scales WF HS) as [W1 W2].
    pose proof (grad n h lv bt true scales WF HS k Hk Hl us HU e He x (dv h true scales) W1 W2 q Hq T) as G.
    pose proof (dv_pos n h lv bt true scales WF HS k Hk) as D.
    replace (1 * q k) with (q k * (dv h true scales k / dv h true scales k)) by (field; lra). exact G.
  - destruct (finite_choice (fun i c => path_scale h scales i c) n (path_scale_exists n h lv bt scales WF)) as (c & Hc).
    assert (W1 : forall i, (i < n)%nat -> parent_of h i = None -> c i = 1).
    { intros i Hi Ei. apply (path_scale_unique h scales i); [now apply Hc|now constructor]. }
    assert (W2 : forall i p, (i < n)%nat -> parent_of h i = Some p -> c i = c p * (sc scales p / dv h false scales p)).
    { intros i p Hi Ei. destruct (parent_some n h lv bt WF i p Hi Ei) as (_ & Hp & _).
      assert (D1 : dv h false scales p = 1) by (unfold dv; now destruct (parent_of h p)).
      rewrite D1. replace (c p * (sc scales p / 1)) with (sc scales p * c p) by field.
      apply (path_scale_unique h scales i); [now apply Hc|]. apply ps_child; auto. }
    pose proof (grad n h lv bt false scales WF HS k Hk Hl us HU e He x c W1 W2 q Hq T) as G.
    assert (D1 : dv h false scales k = 1) by (unfold dv; now destruct (parent_of h k)).
    rewrite D1 in G. replace (w * q k) with (q k * (c k / 1)); [exact G|].
    rewrite (path_scale_unique h scales k _ _ (Hc k Hk) HW). field.
Qed.
Print Assumptions C102_derivative_is_probability.

Example C102_hypotheses_met :
  children 8 ex_h 5 = [] /\ path_scale ex_h [1/2; 1/3; 1; 1; 1/2; 1; 1; 1] 5 (1/2 * (1/3 * 1)) /\
  exists x i, (i < 8)%nat /\ parent_of ex_h i = None /\
    feasible 8 ex_h (upd [None; Some 0; Some 1; None; Some 2; None; None; None] 5 (Some x)) i.
Proof.
  split; [reflexivity|]. split.
  - set (l := [1/2; 1/3; 1; 1; 1/2; 1; 1; 1]). change (1/2 * (1/3 * 1)) with (nth 4 l 0 * (nth 1 l 0 * 1)).
    apply (ps_child ex_h l 5 4); [reflexivity|]. apply (ps_child ex_h l 4 1); [reflexivity|]. now constructor.
  - exists 0, 1%nat. split; [lia|]. split; [reflexivity|].
    apply fs_nest with 4%nat; [simpl; discriminate|vm_compute; auto|].
    apply fs_nest with 5%nat; [simpl; discriminate|vm_compute; auto|].
    apply fs_leaf; [reflexivity|simpl; discriminate].
Qed.

(** the same for a flat model: the derivative of the logsum is the multinomial probability *)
Theorem C102_multinomial :
  forall (us : list util) k, (k < length us)%nat ->
  exists (p : R -> list R) (top : R -> R) (terms : R -> list xr),
    (forall x, multinomial_probabilities XR (map as_x (upd us k (Some x))) true
                 = Ok (map Fin (p x), Fin (top x), terms x) /\ 0 < top x) /\
    forall x, derivable_pt_lim (fun y => ln (top y)) x (nth k (p x) 0).
Proof.
  intros us k Hk. set (n := length us).
  pose (h := repeat (-1)%Z n).
  assert (HT : forall i, parent_of h i = None).
  { intros i. unfold parent_of, h. replace (nth i (repeat (-1)%Z n) (-1)%Z) with (-1)%Z; [reflexivity|].
    destruct (Nat.lt_ge_cases i n); [|now rewrite nth_overflow by (now rewrite repeat_length)].
    symmetry. apply nth_repeat. }
  assert (HC : forall i, children n h i = []).
  { intros i. unfold children. induction (seq 0 n) as [|j t IH]; auto. simpl. unfold is_child at 1. now rewrite HT. }
  assert (WF : wf_table n h (repeat 0%nat n) (repeat true n)).
  { split; [unfold n; lia|]. unfold h. rewrite !repeat_length. do 3 (split; [reflexivity|]). fold h. split.
    - intros i Hi. rewrite HT. split; [unfold h; apply nth_repeat|apply nth_repeat].
    - intros i Hi. rewrite HC. split; auto. intros _. apply nth_repeat. }
  assert (HS : length (repeat 1 n) = n /\ Forall (fun s => 0 < s) (repeat 1 n)).
  { rewrite repeat_length. split; auto. apply Forall_forall. intros s Hs. apply repeat_spec in Hs. lra. }
  destruct (C102_derivative_is_probability n h (repeat 0%nat n) (repeat true n) true (repeat 1 n) us k 1 WF HS eq_refl Hk (HC k))
    as (p & top & terms & HR & HD).
  - constructor. apply HT.
  - exists 0, k. split; [exact Hk|]. split; [apply HT|]. apply fs_leaf; [apply HC|].
    rewrite nth_upd_eq by auto. discriminate.
  - exists p, top, (fun x => map Fin (terms x)). split.
    + intros x. destruct (HR x) as [R P]. split; [|exact P]. rewrite <- R. symmetry.
      apply (C18_one_level_is_multinomial XR n); auto; [|now rewrite map_length, upd_length].
      intros y. exact (xdiv_one y).
    + intros x. replace (nth k (p x) 0) with (1 * nth k (p x) 0) by ring. apply HD.
Qed.
Print Assumptions C102_multinomial.

(** ** C103, C104 *)

(** A node table and a larger one containing it: as long as everything left out is infeasible,
    the choices kept have the same probabilities, the ones left out have probability 0, and
    the top output (or the error) is the same. *)
Lemma part_result :
  forall n h lv bt (scales : list R) (us : list util) n' h' lv' bt' (scales' : list R) (us' : list util) scaled s chk,
  wf_table n h lv bt -> length scales = n /\ Forall (fun s => 0 < s) scales -> length us = n ->
  wf_table n' h' lv' bt' -> length scales' = n' /\ Forall (fun s => 0 < s) scales' -> length us' = n' ->
  part_of n h scales us n' h' scales' us' s ->
  (forall j, (j < n')%nat -> ~ kept n s j -> ~ feasible n' h' us' j) ->
  match nested_probabilities XR h lv (map Fin scales) bt scaled (map as_x us) chk,
        nested_probabilities XR h' lv' (map Fin scales') bt' scaled (map as_x us') chk with
  | Ok (p, ls, _), Ok (p', ls', _) =>
      (forall i, (i < n)%nat -> nth (s i) p' NaN = nth i p NaN) /\
      (forall j, (j < n')%nat -> ~ kept n s j -> nth j p' NaN = Fin 0) /\ ls' = ls
  | Err x, Err y => x = y
  | _, _ => False
  end.
Proof.
  intros n h lv bt scales us n' h' lv' bt' scales' us' scaled s chk WF HS HU WF' HS' HU' PO Hnf.
  destruct (nested_real n h lv bt scaled scales WF HS us HU chk) as (e & q & He & Hq & ->).
  destruct (nested_real n' h' lv' bt' scaled scales' WF' HS' us' HU' chk) as (e' & q' & He' & Hq' & ->).
  assert (Hz : forall j, (j < n')%nat -> ~ kept n s j -> e' j = 0).
  { intros j Hj Nk. pose proof (nl_real_nonneg n' h' scaled scales' us' e' He' j Hj) as N.
    destruct (Rle_lt_or_eq_dec _ _ N) as [P|E]; [|auto].
    exfalso. apply (Hnf j Hj Nk). now apply (feasible_iff n' h' lv' bt' scaled scales' WF' HS' us' e' He' j Hj). }
  rewrite (embed_top n h lv bt scales us n' h' scales' us' scaled s WF HS HS' PO e e' He He' Hz).
  destruct (Rleb (SUM e (tops n h)) 0 && chk)%bool; auto.
  assert (G : forall m H Q i, (i < m)%nat -> nth i (map Fin (outp m H Q)) NaN = Fin (if leaf m H i then Q i else 0)).
  { intros m H Q i Hi. rewrite nth_indep with (d' := Fin 0) by (now rewrite map_length, outp_length).
    rewrite map_nth. now rewrite outp_nth. }
  split; [|split; auto].
  - intros i Hi. pose proof PO as [_ P]. destruct (P i Hi) as (Hs & _).
    rewrite !G by auto. rewrite (leaf_same n h scales us n' h' scales' us' s PO i Hi).
    rewrite (embed_abs n h lv bt scales us n' h' scales' us' scaled s WF HS HS' PO e e' He He' Hz q q' Hq Hq' i Hi).
    reflexivity.
  - intros j Hj Nk. rewrite G by auto. destruct (leaf n' h' j); auto. f_equal.
    rewrite (Hq' j Hj). unfold cnd. rewrite (Hz j Hj Nk). destruct (Rleb _ 0), (parent_of h' j); unfold Rdiv; ring.
Qed.

(** The order in which the nodes are numbered does not matter. *)
Theorem C103_order_irrelevant :
  forall n h lv bt (scales : list R) (us : list util) h' lv' bt' (scales' : list R) (us' : list util) scaled s chk,
  wf_table n h lv bt -> length scales = n /\ Forall (fun s => 0 < s) scales -> length us = n ->
  wf_table n h' lv' bt' -> length scales' = n /\ Forall (fun s => 0 < s) scales' -> length us' = n ->
  part_of n h scales us n h' scales' us' s -> (forall j, (j < n)%nat -> kept n s j) ->
  match nested_probabilities XR h lv (map Fin scales) bt scaled (map as_x us) chk,
        nested_probabilities XR h' lv' (map Fin scales') bt' scaled (map as_x us') chk with
  | Ok (p, ls, _), Ok (p', ls', _) => (forall i, (i < n)%nat -> nth (s i) p' NaN = nth i p NaN) /\ ls' = ls
  | Err x, Err y => x = y
  | _, _ => False
  end.
Proof.
  intros n h lv bt scales us h' lv' bt' scales' us' scaled s chk WF HS HU WF' HS' HU' PO K.
  pose proof (part_result n h lv bt scales us n h' lv' bt' scales' us' scaled s chk WF HS HU WF' HS' HU' PO
                (fun j Hj Nk => False_ind _ (Nk (K j Hj)))) as G.
  destruct (nested_probabilities XR h _ _ _ _ _ _) as [((p & ls) & t)|x],
           (nested_probabilities XR h' _ _ _ _ _ _) as [((p' & ls') & t')|y]; auto. tauto.
Qed.
Print Assumptions C103_order_irrelevant.

(** the table of the C100 example with its nodes in the order choice, nest, choice *)
Example C103_hypotheses_met :
  let h' := [-1; -1; 1]%Z in
  let s := fun i => match i with 0 => 1 | 1 => 2 | _ => 0 end%nat in
  wf_table 3 h' [0; 0; 1]%nat [true; false; true] /\
  part_of 3 sm_h [1/2; 1; 1] [Some 0; Some 1; Some 2] 3 h' [1; 1/2; 1] [Some 2; Some 0; Some 1] s /\
  forall j, (j < 3)%nat -> kept 3 s j.
Proof.
  cbv zeta. split; [|split].
  - split; [lia|]. do 3 (split; [reflexivity|]). split.
    + intros i Hi. do 3 (destruct i as [|i]; [vm_compute; repeat split; lia|]). lia.
    + intros i Hi. do 3 (destruct i as [|i]; [vm_compute; split; congruence|]). lia.
  - split.
    + intros i j Hi Hj. do 3 (destruct i as [|i]; [do 3 (destruct j as [|j]; [intros; congruence|]); lia|]). lia.
    + intros i Hi. do 3 (destruct i as [|i]; [split; [lia|]; split; [reflexivity|]; split; [intros; reflexivity|]; split; [reflexivity|]; vm_compute; split; congruence|]). lia.
  - intros j Hj. destruct j as [|[|[|j]]]; [exists 2%nat|exists 0%nat|exists 1%nat|lia]; split; try lia; reflexivity.
Qed.

(** Disabling choices or nests (-inf) is the same as leaving them out, provided no nest is
    left without children. *)
Theorem C104_disable_is_leave_out :
  forall n h lv bt (scales : list R) (us : list util) n' h' lv' bt' (scales' : list R) (us' : list util) scaled s chk,
  wf_table n h lv bt -> length scales = n /\ Forall (fun s => 0 < s) scales -> length us = n ->
  wf_table n' h' lv' bt' -> length scales' = n' /\ Forall (fun s => 0 < s) scales' -> length us' = n' ->
  part_of n h scales us n' h' scales' us' s ->
  (forall j, (j < n')%nat -> ~ kept n s j -> ~ feasible n' h' us' j) ->
  match nested_probabilities XR h lv (map Fin scales) bt scaled (map as_x us) chk,
        nested_probabilities XR h' lv' (map Fin scales') bt' scaled (map as_x us') chk with
  | Ok (p, ls, _), Ok (p', ls', _) =>
      (forall i, (i < n)%nat -> nth (s i) p' NaN = nth i p NaN) /\
      (forall j, (j < n')%nat -> ~ kept n s j -> nth j p' NaN = Fin 0) /\ ls' = ls
  | Err x, Err y => x = y
  | _, _ => False
  end.
Proof. exact part_result. Qed.
Print Assumptions C104_disable_is_leave_out.

(** a choice 3 added to the nest of the C100 example, and disabled *)
Example C104_hypotheses_met :
  let h' := [-1; 0; -1; 0]%Z in let us' := [Some 0; Some 1; Some 2; None] in
  wf_table 4 h' [0; 1; 0; 1]%nat [false; true; true; true] /\
  part_of 3 sm_h [1/2; 1; 1] [Some 0; Some 1; Some 2] 4 h' [1/2; 1; 1; 1] us' (fun i => i) /\
  forall j, (j < 4)%nat -> ~ kept 3 (fun i => i) j -> ~ feasible 4 h' us' j.
Proof.
  cbv zeta. split; [|split].
  - split; [lia|]. do 3 (split; [reflexivity|]). split.
    + intros i Hi. do 4 (destruct i as [|i]; [vm_compute; repeat split; lia|]). lia.
    + intros i Hi. do 4 (destruct i as [|i]; [vm_compute; split; congruence|]). lia.
  - split; [intros i j _ _ E; exact E|].
    intros i Hi. do 3 (destruct i as [|i]; [split; [lia|]; split; [reflexivity|]; split; [intros; reflexivity|]; split; [reflexivity|]; vm_compute; split; congruence|]). lia.
  - intros j Hj Nk Hf.
    assert (j = 3%nat) by (destruct (Nat.lt_ge_cases j 3); [exfalso; apply Nk; exists j; auto|lia]). subst j.
    inversion Hf as [? _ N|? ? N]; apply N; reflexivity.
Qed.

(** without that proviso it is false: a nest whose only choice is disabled has probability 0,
    a nest whose only choice is left out has become a choice itself *)
Theorem C104_last_child_refuted :
  ~ (forall n h lv bt (scales : list R) (us : list util) n' h' lv' bt' (scales' : list R) (us' : list util) s chk p ls t p' ls' t',
     wf_table n h lv bt -> length scales = n /\ Forall (fun s => 0 < s) scales -> length us = n ->
     wf_table n' h' lv' bt' -> length scales' = n' /\ Forall (fun s => 0 < s) scales' -> length us' = n' ->
     (forall i, (i < n)%nat -> (s i < n')%nat /\ parent_of h' (s i) = option_map s (parent_of h i) /\
        nth (s i) scales' 0 = nth i scales 0 /\ nth (s i) us' None = nth i us None) ->
     (forall i j, (i < n)%nat -> (j < n)%nat -> s i = s j -> i = j) ->
     (forall j, (j < n')%nat -> ~ kept n s j -> ~ feasible n' h' us' j) ->
     nested_probabilities XR h lv (map Fin scales) bt true (map as_x us) chk = Ok (map Fin p, ls, t) ->
     nested_probabilities XR h' lv' (map Fin scales') bt' true (map as_x us') chk = Ok (map Fin p', ls', t') ->
     forall i, (i < n)%nat -> prob p' (s i) = prob p i).
Proof.
  intros H.
  (* small: two top-level choices; large: the first is a nest with a disabled choice *)
  assert (WFs : wf_table 2 [-1; -1]%Z [0; 0]%nat [true; true]).
  { split; [lia|]. do 3 (split; [reflexivity|]). split; intros i Hi;
      do 2 (destruct i as [|i]; [vm_compute; repeat split; auto|]); lia. }
  assert (HSs : length [1; 1] = 2%nat /\ Forall (fun s => 0 < s) [1; 1]) by (split; [reflexivity|repeat constructor; lra]).
  assert (WFl : wf_table 3 [-1; -1; 0]%Z [0; 0; 1]%nat [false; true; true]).
  { split; [lia|]. do 3 (split; [reflexivity|]). split.
    - intros i Hi. do 3 (destruct i as [|i]; [vm_compute; repeat split; lia|]). lia.
    - intros i Hi. do 3 (destruct i as [|i]; [vm_compute; split; congruence|]). lia. }
  assert (HSl : length [1; 1; 1] = 3%nat /\ Forall (fun s => 0 < s) [1; 1; 1]) by (split; [reflexivity|repeat constructor; lra]).
  assert (Fs : exists i, (i < 2)%nat /\ parent_of [-1; -1]%Z i = None /\ feasible 2 [-1; -1]%Z [Some 0; Some 0] i).
  { exists 0%nat. split; [lia|]. split; [reflexivity|]. apply fs_leaf; [reflexivity|discriminate]. }
  assert (Fl : exists i, (i < 3)%nat /\ parent_of [-1; -1; 0]%Z i = None /\ feasible 3 [-1; -1; 0]%Z [Some 0; Some 0; None] i).
  { exists 1%nat. split; [lia|]. split; [reflexivity|]. apply fs_leaf; [reflexivity|discriminate]. }
  destruct (C14_sum_to_one 2 _ _ _ true [1; 1] [Some 0; Some 0] true WFs HSs eq_refl Fs) as (p & ls & t & R1 & _).
  destruct (C14_sum_to_one 3 _ _ _ true [1; 1; 1] [Some 0; Some 0; None] true WFl HSl eq_refl Fl) as (p' & ls' & t' & R2 & _ & _ & _ & _ & Z).
  specialize (H 2%nat _ _ _ [1; 1] [Some 0; Some 0] 3%nat _ _ _ [1; 1; 1] [Some 0; Some 0; None] (fun i => i) true p (Fin ls) (map Fin t) p' (Fin ls') (map Fin t')
                WFs HSs eq_refl WFl HSl eq_refl).
  assert (A : prob p' 0 = prob p 0).
  { apply (fun a b c => H a b c R1 R2 0%nat).
    - intros i Hi. do 2 (destruct i as [|i]; [split; [lia|]; repeat split|]). lia.
    - auto.
    - intros j Hj Nk Hf.
      assert (j = 2%nat) by (destruct (Nat.lt_ge_cases j 2); [exfalso; apply Nk; exists j; auto|lia]). subst j.
      inversion Hf as [? _ N|? ? N]; apply N; reflexivity.
    - lia. }
  assert (B : prob p' 0 = 0) by (apply Z; [lia|vm_compute; congruence]).
  assert (C : 0 < prob p 0).
  { apply (C15_positive_iff_available 2 _ _ _ true [1; 1] [Some 0; Some 0] true p _ _ WFs HSs eq_refl R1 0%nat); [lia|reflexivity|].
    apply av_top; [reflexivity|]. apply fs_leaf; [reflexivity|discriminate]. }
  lra.
Qed.
Print Assumptions C104_last_child_refuted.
