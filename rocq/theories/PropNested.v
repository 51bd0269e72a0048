(** C13-C18: nested probabilities (cheval/core.py 161-235). *)
From Coq Require Import Reals Lra.
From Flocq Require Import Core.Core IEEE754.BinarySingleNaN.
From Verif Require Import Prelude Arith CoreModel SpecSampling SpecLogit SpecNested
  SamplingProofs MnlProofs NestedProofs NestedExact NestedMore.

(** The concrete table used in the examples: two top nests 0 and 1 (children 2,3 and 4),
    node 4 being itself a nest with children 5,6, and a top-level leaf 7. *)
Definition ex_h : list Z := [-1; -1; 0; 0; 1; 4; 4; -1]%Z.
Definition ex_lv : list nat := [0; 0; 1; 1; 1; 2; 2; 0].
Definition ex_bt : list bool := [false; false; true; true; false; true; true; true].
Example ex_wf : wf_table 8 ex_h ex_lv ex_bt.
Proof.
  split; [lia|]. do 3 (split; [reflexivity|]). split.
  - intros i Hi. do 8 (destruct i as [|i]; [vm_compute; repeat split; lia|]). lia.
  - intros i Hi. do 8 (destruct i as [|i]; [vm_compute; split; congruence|]). lia.
Qed.

(** ** C13: the outputs solve the nested-logit equations, in the arithmetic of the machine *)

Theorem C13_nested_logit_equations :
  forall (F : arith) (n : nat) (h : list Z) (lv : list nat) (bt : list bool)
         (scales u : list (num F)) (scaled chk : bool) P top E,
  wf_table n h lv bt -> length u = n ->
  nested_probabilities F h lv scales bt scaled u chk = Ok (P, top, E) ->
  nl_solution F n h scales scaled u P top E.
Proof.
  intros F n h lv bt scales u scaled chk P top E WF HU H.
  rewrite (nested_out F n h lv scales bt scaled WF u HU) in H.
  destruct (_ && _)%bool; [discriminate|]. injection H as <- <- <-.
  exact (nested_solution F n h lv scales bt scaled WF u HU).
Qed.
Print Assumptions C13_nested_logit_equations.

(** the only other outcome is the infeasibility error *)
Theorem C13_total :
  forall (F : arith) (n : nat) (h : list Z) (lv : list nat) (bt : list bool)
         (scales u : list (num F)) (scaled : bool),
  wf_table n h lv bt -> length u = n ->
  exists P top E, forall chk,
    nested_probabilities F h lv scales bt scaled u chk =
      if (nle F top (nzero F) && chk)%bool then Err UtilityBounds else Ok (P, top, E).
Proof.
  intros F n h lv bt scales u scaled WF HU. do 3 eexists. intros chk.
  exact (nested_out F n h lv scales bt scaled WF u HU chk).
Qed.
Print Assumptions C13_total.

(** the equations determine the outputs: two solutions agree *)
Theorem C13_solution_unique :
  forall (F : arith) (n : nat) (h : list Z) (lv : list nat) (bt : list bool)
         (scales u : list (num F)) (scaled : bool) P top E P' top' E',
  wf_table n h lv bt ->
  nl_solution F n h scales scaled u P top E -> nl_solution F n h scales scaled u P' top' E' ->
  P = P' /\ top = top' /\ E = E'.
Proof.
  intros F n h lv bt scales u scaled P top E P' top' E' WF (HE & HT & HL & HP) (HE' & HT' & HL' & HP').
  assert (EE : E = E').
  { destruct HE as [L1 A1], HE' as [L2 A2]. apply list_eq_nth with (d := nzero F); [congruence|].
    rewrite L1. apply (up_ind n h lv bt WF). intros i Hi IH. rewrite A1, A2 by auto.
    destruct (children n h i) as [|j t] eqn:Ec; auto. rewrite <- Ec in *.
    replace (group_sum F E' (children n h i)) with (group_sum F E (children n h i)); auto.
    unfold group_sum. apply fold_left_ext. intros a k Hk. now rewrite IH. }
  subst E'. split; [|split]; [|congruence|reflexivity].
  apply list_eq_nth with (d := nzero F); [congruence|]. rewrite HL. intros i Hi.
  specialize (HP i Hi). specialize (HP' i Hi). destruct (children n h i); [|congruence].
  assert (U : forall i x y, path_prob F n h E i x -> path_prob F n h E i y -> x = y).
  { intros k x y Hx. revert y. induction Hx as [k Ek|k p q Ek Hq IH]; intros y Hy.
    - destruct Hy; auto. congruence.
    - destruct Hy as [k Ek'|k p' q' Ek' Hq']; [congruence|]. assert (p' = p) by congruence. subst p'.
      f_equal. now apply IH. }
  eapply U; eauto.
Qed.
Print Assumptions C13_solution_unique.

Local Open Scope R_scope.

(** ** C14 *)

Theorem C14_sum_to_one :
  forall n h lv bt scaled (scales : list R) (us : list (option R)) chk,
  wf_table n h lv bt -> length scales = n /\ Forall (fun s => 0 < s) scales -> length us = n ->
  (exists i, (i < n)%nat /\ parent_of h i = None /\ feasible n h us i) ->
  exists p top terms,
    nested_probabilities XR h lv (map Fin scales) bt scaled (map as_x us) chk
      = Ok (map Fin p, Fin top, map Fin terms) /\
    0 < top /\ length p = n /\ Rsum p = 1 /\ Forall (fun x => 0 <= x <= 1) p /\
    forall i, (i < n)%nat -> children n h i <> [] -> nth i p 0 = 0.
Proof.
  intros n h lv bt scaled scales us chk WF HS HU Hf.
  destruct (nested_real n h lv bt scaled scales WF HS us HU chk) as (e & q & He & Hq & ->).
  pose proof (proj2 (tops_feasible n h lv bt scaled scales WF HS us e He) Hf) as Ht.
  exists (outp n h q), (SUM e (tops n h)), (map e (seq 0 n)).
  destruct (Rleb (SUM e (tops n h)) 0) eqn:E; [apply Rleb_true in E; lra|].
  assert (Hone : Rsum (outp n h q) = 1).
  { rewrite outp_sum. now apply (leaves_one n h lv bt scaled scales WF HS us e q). }
  assert (Hnn : nonneg (outp n h q)).
  { apply Forall_map, Forall_forall. intros i Hi. apply in_seq in Hi. destruct (leaf n h i); [|lra].
    apply (abs_nonneg n h lv bt scaled scales WF us e q); auto. lia. }
  split; [reflexivity|]. split; [exact Ht|]. split; [apply outp_length|]. split; [exact Hone|]. split.
  - apply Forall_forall. intros x Hx. split.
    + unfold nonneg in Hnn. rewrite Forall_forall in Hnn. now apply Hnn.
    + rewrite <- Hone. now apply Rsum_ge_elem.
  - intros i Hi Hc. rewrite outp_nth by auto. unfold leaf. destruct (children n h i); [congruence|reflexivity].
Qed.
Print Assumptions C14_sum_to_one.

Example C14_hypotheses_met :
  let us := [Some 0; None; Some 1; None; Some 2; Some 3; None; Some (-1)] in
  let scales := [1/2; 1; 1; 1; 1/2; 1; 1; 1] in
  (length scales = 8%nat /\ Forall (fun s => 0 < s) scales) /\ length us = 8%nat /\
  exists i, (i < 8)%nat /\ parent_of ex_h i = None /\ feasible 8 ex_h us i.
Proof.
  cbn zeta. split; [split; [reflexivity|repeat constructor; lra]|]. split; [reflexivity|].
  exists 0%nat. split; [lia|]. split; [reflexivity|].
  apply fs_nest with 2%nat; [simpl; discriminate|vm_compute; auto|]. apply fs_leaf; [reflexivity|simpl; discriminate].
Qed.

(** ** C15 *)

(** An elemental choice has positive probability exactly when it and all nests above it are
    feasible; in particular nothing below an infeasible nest is ever chosen. *)
Theorem C15_positive_iff_available :
  forall n h lv bt scaled (scales : list R) (us : list (option R)) chk p top terms,
  wf_table n h lv bt -> length scales = n /\ Forall (fun s => 0 < s) scales -> length us = n ->
  nested_probabilities XR h lv (map Fin scales) bt scaled (map as_x us) chk
      = Ok (map Fin p, top, terms) ->
  forall i, (i < n)%nat -> children n h i = [] ->
    (0 < nth i p 0 <-> available n h us i).
Proof.
  intros n h lv bt scaled scales us chk p top terms WF HS HU H i Hi Hc.
  destruct (nested_real n h lv bt scaled scales WF HS us HU chk) as (e & q & He & Hq & E).
  rewrite E in H. destruct (_ && _)%bool; [discriminate|]. injection H as Hp _ _.
  assert (p = outp n h q).
  { apply (f_equal (map (fun x => match x with Fin r => r | _ => 0 end))) in Hp.
    rewrite !map_map in Hp. rewrite !map_id in Hp. congruence. }
  subst p. rewrite outp_nth by auto. unfold leaf. rewrite Hc.
  now apply (abs_pos_iff n h lv bt scaled scales WF HS us e q).
Qed.
Print Assumptions C15_positive_iff_available.

Theorem C15_below_infeasible_nest :
  forall n h lv bt scaled (scales : list R) (us : list (option R)) chk p top terms,
  wf_table n h lv bt -> length scales = n /\ Forall (fun s => 0 < s) scales -> length us = n ->
  nested_probabilities XR h lv (map Fin scales) bt scaled (map as_x us) chk
      = Ok (map Fin p, top, terms) ->
  forall i j, (j < n)%nat -> ~ feasible n h us i -> below h i j -> ~ 0 < nth j p 0.
Proof.
  intros n h lv bt scaled scales us chk p top terms WF HS HU H i j Hj Hnf Hb Hpos.
  destruct (nested_real n h lv bt scaled scales WF HS us HU chk) as (e & q & He & Hq & E).
  rewrite E in H. destruct (_ && _)%bool; [discriminate|]. injection H as Hp _ _.
  assert (p = outp n h q).
  { apply (f_equal (map (fun x => match x with Fin r => r | _ => 0 end))) in Hp.
    rewrite !map_map in Hp. rewrite !map_id in Hp. congruence. }
  subst p. rewrite outp_nth in Hpos by auto. destruct (leaf n h j); [|lra].
  apply (abs_pos_iff n h lv bt scaled scales WF HS us e q) in Hpos; auto.
  clear - Hnf Hb Hpos. induction Hb as [j Ej|j p Ej Hb IH].
  - destruct Hpos as [k Ek Hk|k p Ek Ha Hk]; [congruence|]. assert (p = i) by congruence. subst p.
    apply Hnf. destruct Ha; auto.
  - destruct Hpos as [k Ek Hk|k p' Ek Ha Hk]; [congruence|]. assert (p' = p) by congruence. subst p'. auto.
Qed.
Print Assumptions C15_below_infeasible_nest.

(** the error is raised iff no top-level node is feasible and the check is on *)
Theorem C15_error_iff :
  forall n h lv bt scaled (scales : list R) (us : list (option R)) chk,
  wf_table n h lv bt -> length scales = n /\ Forall (fun s => 0 < s) scales -> length us = n ->
  (nested_probabilities XR h lv (map Fin scales) bt scaled (map as_x us) chk = Err UtilityBounds <->
   chk = true /\ ~ exists i, (i < n)%nat /\ parent_of h i = None /\ feasible n h us i).
Proof.
  intros n h lv bt scaled scales us chk WF HS HU.
  destruct (nested_real n h lv bt scaled scales WF HS us HU chk) as (e & q & He & Hq & ->).
  rewrite <- (tops_feasible n h lv bt scaled scales WF HS us e He).
  pose proof (tops_nonneg n h scaled scales HS us e He).
  destruct (Rleb (SUM e (tops n h)) 0) eqn:E; [apply Rleb_true in E|apply Rleb_false in E];
    destruct chk; simpl; split; try discriminate; try tauto; intros; try lra.
Qed.
Print Assumptions C15_error_iff.

(** with the check off an infeasible row gives zeros *)
Theorem C15_unchecked_all_zero :
  forall n h lv bt scaled (scales : list R) (us : list (option R)),
  wf_table n h lv bt -> length scales = n /\ Forall (fun s => 0 < s) scales -> length us = n ->
  (~ exists i, (i < n)%nat /\ parent_of h i = None /\ feasible n h us i) ->
  exists terms, nested_probabilities XR h lv (map Fin scales) bt scaled (map as_x us) false
    = Ok (repeat (Fin 0) n, Fin 0, terms).
Proof.
  intros n h lv bt scaled scales us WF HS HU Hn.
  destruct (nested_real n h lv bt scaled scales WF HS us HU false) as (e & q & He & Hq & ->).
  rewrite <- (tops_feasible n h lv bt scaled scales WF HS us e He) in Hn.
  pose proof (tops_nonneg n h scaled scales HS us e He).
  assert (HT : SUM e (tops n h) = 0) by lra. rewrite HT, Bool.andb_false_r. eexists.
  assert (Hqz : forall i, (i < n)%nat -> q i = 0).
  { apply (down_ind n h lv bt WF). intros k Hk IH. rewrite (Hq k Hk).
    destruct (parent_of h k) as [p|] eqn:Ep; [rewrite (IH p eq_refl); ring|].
    unfold cnd, siblings. rewrite Ep, HT. destruct (Rleb 0 0) eqn:E'; auto. apply Rleb_false in E'; lra. }
  enough (EQ : map Fin (outp n h q) = repeat (Fin 0) n) by (rewrite EQ; reflexivity).
  apply list_eq_nth with (d := Fin 0).
  - rewrite map_length, outp_length, repeat_length. reflexivity.
  - intros i Hi. rewrite map_length, outp_length in Hi.
    rewrite (nth_map_lt Fin (outp n h q) i 0) by (now rewrite outp_length).
    rewrite outp_nth by auto. rewrite Hqz by auto.
    replace (if leaf n h i then 0 else 0) with 0 by (destruct (leaf n h i); reflexivity).
    symmetry. apply (repeat_spec n). apply nth_In. now rewrite repeat_length.
Qed.
Print Assumptions C15_unchecked_all_zero.

(** ** C16 *)

(** elemental choices, in order *)
Definition elemental (n : nat) (h : list Z) : list nat :=
  filter (fun i => match children n h i with [] => true | _ => false end) (seq 0 n).

Theorem C16_collapse_to_multinomial :
  forall n h lv bt scaled (scales : list R) (us : list (option R)) chk,
  wf_table n h lv bt -> length scales = n /\ Forall (fun s => 0 < s) scales -> length us = n ->
  (forall i, (i < n)%nat -> children n h i <> [] -> nth i scales 0 = 1 /\ nth i us None = Some 0) ->
  match nested_probabilities XR h lv (map Fin scales) bt scaled (map as_x us) chk,
        multinomial_probabilities XR (map as_x (map (fun i => nth i us None) (elemental n h))) chk with
  | Ok (p, ls, _), Ok (p', ls', _) => p' = map (fun i => nth i p NaN) (elemental n h) /\ ls' = ls
  | Err x, Err y => x = y
  | _, _ => False
  end.
Proof.
  intros n h lv bt scaled scales us chk WF HS HU HC.
  exact (collapse_result n h lv bt scaled scales WF HS us HU HC chk).
Qed.
Print Assumptions C16_collapse_to_multinomial.

Example C16_hypotheses_met :
  let us := [Some 0; Some 0; Some 1; None; Some 0; Some 3; None; Some (-1)] in
  let scales := [1; 1; 1/2; 1; 1; 1; 1; 1] in
  forall i, (i < 8)%nat -> children 8 ex_h i <> [] -> nth i scales 0 = 1 /\ nth i us None = Some 0.
Proof.
  cbn zeta. intros i Hi Hc. do 8 (destruct i as [|i]; [first [split; reflexivity|exfalso; apply Hc; reflexivity]|]). lia.
Qed.

(** ** C17 *)

(** [shifted] adds [c] to the utility of every top-level node *)
Theorem C17_top_shift_invariance :
  forall n h lv bt scaled (scales : list R) (us : list (option R)) (c : R) chk,
  wf_table n h lv bt -> length scales = n /\ Forall (fun s => 0 < s) scales -> length us = n ->
  let shifted := map (fun i => match parent_of h i with
                               | None => shift c (nth i us None)
                               | Some _ => nth i us None end) (seq 0 n) in
  match nested_probabilities XR h lv (map Fin scales) bt scaled (map as_x us) chk,
        nested_probabilities XR h lv (map Fin scales) bt scaled (map as_x shifted) chk with
  | Ok (p, ls, _), Ok (p', ls', _) => p' = p /\ exists x, ls = Fin x /\ ls' = Fin (exp c * x)
  | Err x, Err y => x = y
  | _, _ => False
  end.
Proof.
  intros n h lv bt scaled scales us c chk WF HS HU.
  exact (shift_result n h lv bt scaled scales WF HS us c HU chk).
Qed.
Print Assumptions C17_top_shift_invariance.

(** ** C18 *)

Theorem C18_one_level_is_multinomial :
  forall (F : arith) n h lv bt (scales u : list (num F)) scaled chk,
  (forall x, ndiv F x (none_ F) = x) ->
  wf_table n h lv bt -> length u = n -> (forall i, (i < n)%nat -> parent_of h i = None) ->
  nested_probabilities F h lv scales bt scaled u chk = multinomial_probabilities F u chk.
Proof.
  intros F n h lv bt scales u scaled chk H1 WF HU HT.
  exact (ol_result F n h lv scales bt scaled WF HT H1 u HU chk).
Qed.
Print Assumptions C18_one_level_is_multinomial.

(** x/1 = x holds in doubles and in exact arithmetic *)
Theorem C18_double : forall fexp flog n h lv bt (scales u : list float64) scaled chk,
  wf_table n h lv bt -> length u = n -> (forall i, (i < n)%nat -> parent_of h i = None) ->
  nested_probabilities (B64 fexp flog) h lv scales bt scaled u chk
    = multinomial_probabilities (B64 fexp flog) u chk.
Proof.
  intros fexp flog n h lv bt scales u scaled chk. apply (C18_one_level_is_multinomial (B64 fexp flog)).
  exact f64_div_one.
Qed.
Print Assumptions C18_double.

Example C18_hypotheses_met :
  wf_table 2 [-1; -1]%Z [0; 0]%nat [true; true] /\
  forall i, (i < 2)%nat -> parent_of [-1; -1]%Z i = None.
Proof.
  split.
  - split; [lia|]. do 3 (split; [reflexivity|]). split; intros i Hi;
      do 2 (destruct i as [|i]; [vm_compute; repeat split; auto|]); lia.
  - intros i Hi. do 2 (destruct i as [|i]; [reflexivity|]). lia.
Qed.
