(** Lemmas for the multinomial model (C06-C12). *)
From Coq Require Import Reals Lra Psatz Permutation.
From Flocq Require Import Core.Core IEEE754.BinarySingleNaN.
From Verif Require Import Prelude Arith CoreModel SpecSampling SpecLogit SamplingProofs.
Local Open Scope R_scope.

Lemma map_ext_in_iff' {A B} (f g : A -> B) l : (forall a, In a l -> f a = g a) -> map f l = map g l.
Proof. apply map_ext_in. Qed.

Lemma expu_nonneg u : 0 <= expu u.
Proof. destruct u; simpl; [left; apply exp_pos|lra]. Qed.

Lemma expu_pos_iff u : 0 < expu u <-> u <> None.
Proof. destruct u; simpl; split; intros; try congruence; try lra. apply exp_pos. Qed.

Lemma Rsum_nonneg l : nonneg l -> 0 <= Rsum l.
Proof. induction 1; simpl; lra. Qed.

Lemma Rsum_ge_elem l x : nonneg l -> In x l -> x <= Rsum l.
Proof.
  induction 1 as [|y t Hy Ht IH]; simpl; [tauto|].
  pose proof (Rsum_nonneg t Ht). intros [->|Hx]; [lra|]. specialize (IH Hx). lra.
Qed.

Lemma nonneg_expu us : nonneg (map expu us).
Proof. apply Forall_map. apply Forall_forall. intros; apply expu_nonneg. Qed.

Lemma total_nonneg us : 0 <= total us.
Proof. apply Rsum_nonneg, nonneg_expu. Qed.

Lemma total_ge us u : In u us -> expu u <= total us.
Proof. intros H. apply Rsum_ge_elem; [apply nonneg_expu|now apply in_map]. Qed.

Lemma total_pos us : some_feasible us -> 0 < total us.
Proof.
  intros [x Hx]. apply Rlt_le_trans with (expu (Some x)); [apply exp_pos|now apply total_ge].
Qed.

Lemma total_zero us : none_feasible us -> total us = 0.
Proof.
  intros H. unfold total. induction us as [|u t IH]; simpl; auto.
  rewrite (H u) by (left; auto). rewrite IH; [simpl; lra|]. intros v Hv; apply H; right; auto.
Qed.

Lemma feasible_dec us : some_feasible us \/ none_feasible us.
Proof.
  induction us as [|[x|] t IH].
  - right. intros u [].
  - left. exists x. now left.
  - destruct IH as [[y Hy]|IH]; [left; exists y; now right|].
    right. intros u [<-|H]; auto.
Qed.

Lemma total_pos_iff us : 0 < total us <-> some_feasible us.
Proof.
  split; [|apply total_pos]. intros H. destruct (feasible_dec us) as [|N]; auto.
  rewrite total_zero in H by auto. lra.
Qed.

Lemma Rsum_map_div l c : Rsum (map (fun x => x / c) l) = Rsum l / c.
Proof. induction l as [|x t IH]; simpl; [unfold Rdiv; ring|rewrite IH; unfold Rdiv; ring]. Qed.

Lemma Rsum_map_mult l c : Rsum (map (fun x => c * x) l) = c * Rsum l.
Proof. induction l as [|x t IH]; simpl; [ring|rewrite IH; ring]. Qed.

Lemma Rsum_perm l m : Permutation l m -> Rsum l = Rsum m.
Proof. induction 1; simpl; lra. Qed.

(** the numbers of the model *)
Lemma nsum_XR_acc l a : fold_left xadd (map Fin l) (Fin a) = Fin (a + Rsum l).
Proof.
  revert a; induction l as [|x t IH]; intros a; simpl; [f_equal; lra|].
  rewrite IH. f_equal. lra.
Qed.
Lemma nsum_XR l : nsum XR (map Fin l) = Fin (Rsum l).
Proof.
  unfold nsum. change (nadd XR) with xadd. change (nzero XR) with (Fin 0).
  transitivity (Fin (0 + Rsum l)); [apply nsum_XR_acc|f_equal; lra].
Qed.

Lemma exp_as_x us : map (nexp XR) (map as_x us) = map Fin (map expu us).
Proof. rewrite !map_map. apply map_ext. intros [x|]; reflexivity. Qed.

Lemma xdiv_pos x y : 0 < y -> xdiv (Fin x) (Fin y) = Fin (x / y).
Proof. intros H. simpl. destruct (Reqb y 0) eqn:E; auto. apply Reqb_true in E. lra. Qed.

Definition mnl_result (us : list util) : list xr * xr * list xr :=
  (map Fin (map (mnl us) us), Fin (total us), map Fin (map expu us)).

Lemma mnl_formula us chk :
  some_feasible us -> multinomial_probabilities XR (map as_x us) chk = Ok (mnl_result us).
Proof.
  intros H. pose proof (total_pos us H) as HT. unfold multinomial_probabilities, mnl_result.
  rewrite exp_as_x, nsum_XR. fold (total us).
  change (nle XR (Fin (total us)) (nzero XR)) with (Rleb (total us) 0).
  destruct (Rleb (total us) 0) eqn:E; [apply Rleb_true in E; lra|].
  do 3 f_equal. rewrite !map_map. apply map_ext. intros u. unfold mnl. now apply xdiv_pos.
Qed.

Lemma mnl_infeasible us chk :
  none_feasible us -> multinomial_probabilities XR (map as_x us) chk =
    if chk then Err UtilityBounds
    else Ok (map (fun _ => Fin 0) us, Fin 0, map (fun _ => Fin 0) us).
Proof.
  intros H. pose proof (total_zero us H) as HT. unfold multinomial_probabilities.
  rewrite exp_as_x, nsum_XR. fold (total us). rewrite HT.
  change (nle XR (Fin 0) (nzero XR)) with (Rleb 0 0).
  destruct (Rleb 0 0) eqn:E; [|apply Rleb_false in E; lra].
  destruct chk; auto. rewrite !map_map.
  rewrite (map_ext_in (fun x => Fin (expu x)) (fun _ => Fin 0)); [reflexivity|].
  intros u Hu. rewrite (H u Hu). reflexivity.
Qed.

Lemma mnl_sum us : some_feasible us -> Rsum (map (mnl us) us) = 1.
Proof.
  intros H. pose proof (total_pos us H).
  replace (map (mnl us) us) with (map (fun x => x / total us) (map expu us)) by (now rewrite map_map).
  rewrite Rsum_map_div. fold (total us). field. lra.
Qed.

Lemma mnl_bounds us u : some_feasible us -> In u us -> 0 <= mnl us u <= 1.
Proof.
  intros H Hu. pose proof (total_pos us H). pose proof (expu_nonneg u). pose proof (total_ge us u Hu).
  unfold mnl. split.
  - apply Rmult_le_pos; auto. left. now apply Rinv_0_lt_compat.
  - apply Rmult_le_reg_r with (total us); auto. unfold Rdiv. rewrite Rmult_assoc, Rinv_l; lra.
Qed.

(** shift *)
Lemma expu_shift c u : expu (shift c u) = exp c * expu u.
Proof. destruct u; simpl; [rewrite exp_plus; ring|ring]. Qed.
Lemma total_shift c us : total (map (shift c) us) = exp c * total us.
Proof.
  unfold total. rewrite map_map. rewrite <- Rsum_map_mult, map_map. f_equal.
  apply map_ext. intros; apply expu_shift.
Qed.
Lemma some_feasible_shift c us : some_feasible us -> some_feasible (map (shift c) us).
Proof. intros [x Hx]. exists (x + c). change (Some (x + c)) with (shift c (Some x)). now apply in_map. Qed.
Lemma mnl_shift c us : some_feasible us -> map (mnl (map (shift c) us)) (map (shift c) us) = map (mnl us) us.
Proof.
  intros H. pose proof (total_pos us H). rewrite map_map. apply map_ext. intros u. unfold mnl.
  rewrite total_shift, expu_shift. pose proof (exp_pos c). field. lra.
Qed.

(** IIA *)
Lemma prob_mnl us i : (i < length us)%nat -> prob (map (mnl us) us) i = mnl us (nth i us None).
Proof.
  intros H. unfold prob. rewrite nth_indep with (d' := mnl us None) by (now rewrite map_length).
  apply map_nth.
Qed.

Lemma total_app a b : total (a ++ b) = total a + total b.
Proof. unfold total. rewrite map_app. apply Rsum_app. Qed.

Lemma mnl_drop a b u : mnl (a ++ None :: b) u = mnl (a ++ b) u.
Proof. unfold mnl. rewrite !total_app. unfold total at 2; simpl. fold (total b). do 2 f_equal. lra. Qed.

(** monotonicity *)
Lemma expu_le u v : expu u < expu v -> exists y, v = Some y.
Proof. destruct v as [y|]; eauto. simpl. pose proof (expu_nonneg u). lra. Qed.

(** permutation *)
Definition pick {A} (d : A) (l : list A) (sigma : list nat) : list A := map (fun i => nth i l d) sigma.

Lemma pick_seq {A} (d : A) l : pick d l (seq 0 (length l)) = l.
Proof.
  unfold pick. apply list_eq_nth with (d := d).
  - now rewrite map_length, seq_length.
  - intros i Hi. rewrite map_length, seq_length in Hi. rewrite nth_map_seq; auto.
Qed.

Lemma pick_perm {A} (d : A) l sigma :
  Permutation sigma (seq 0 (length l)) -> Permutation (pick d l sigma) l.
Proof.
  intros H. rewrite <- (pick_seq d l) at 2. unfold pick. now apply Permutation_map.
Qed.

Lemma pick_map {A B} (d : A) (e : B) (f : A -> B) l sigma :
  Forall (fun i => (i < length l)%nat) sigma ->
  map f (pick d l sigma) = pick e (map f l) sigma.
Proof.
  intros H. unfold pick. rewrite map_map. apply map_ext_in. intros i Hi.
  rewrite Forall_forall in H. specialize (H i Hi).
  rewrite nth_indep with (d' := f d) by (now rewrite map_length). now rewrite map_nth.
Qed.

Lemma total_perm us us' : Permutation us us' -> total us = total us'.
Proof. intros H. apply Rsum_perm. now apply Permutation_map. Qed.

Lemma mnl_permute us sigma chk p ls terms :
  Permutation sigma (seq 0 (length us)) ->
  multinomial_probabilities XR (map as_x us) chk = Ok (p, ls, terms) ->
  multinomial_probabilities XR (map as_x (pick None us sigma)) chk
    = Ok (pick (Fin 0) p sigma, ls, pick (Fin 0) terms sigma).
Proof.
  intros Hs H.
  assert (HB : Forall (fun i => (i < length us)%nat) sigma).
  { apply Forall_forall. intros i Hi. apply (Permutation_in _ Hs) in Hi. apply in_seq in Hi. lia. }
  pose proof (pick_perm None us sigma Hs) as HP.
  destruct (feasible_dec us) as [Hf|Hf].
  - assert (Hf' : some_feasible (pick None us sigma)).
    { destruct Hf as [x Hx]. exists x. apply (Permutation_in _ (Permutation_sym HP)), Hx. }
    rewrite mnl_formula in * by auto. unfold mnl_result in *. injection H as <- <- <-.
    rewrite (total_perm _ _ HP).
    rewrite !map_map.
    rewrite (pick_map None (Fin 0) (fun x => Fin (mnl (pick None us sigma) x))) by auto.
    rewrite (pick_map None (Fin 0) (fun x => Fin (expu x))) by auto.
    rewrite (map_ext (fun x => Fin (mnl (pick None us sigma) x)) (fun x => Fin (mnl us x))); [reflexivity|].
    intros u. unfold mnl. now rewrite (total_perm _ _ HP).
  - assert (Hf' : none_feasible (pick None us sigma)).
    { intros u Hu. apply Hf. apply (Permutation_in _ HP), Hu. }
    rewrite mnl_infeasible in * by auto. destruct chk; [discriminate|]. injection H as <- <- <-.
    assert (E : map (fun _ : util => Fin 0) (pick None us sigma) = pick (Fin 0) (map (fun _ => Fin 0) us) sigma)
      by (apply pick_map; auto).
    rewrite E. reflexivity.
Qed.

(** raising one utility *)
Lemma total_upd (us : list util) k v : (k < length us)%nat ->
  total (upd us k v) = total us - expu (nth k us (None : util)) + expu v.
Proof.
  unfold total. revert k; induction us as [|u t IH]; intros [|k] Hk; simpl in *; try lia.
  - lra.
  - rewrite IH by lia. lra.
Qed.

Lemma frac_mono a b x y :
  0 <= x < y -> 0 < a + x -> 0 < b -> a = b -> x / (a + x) < y / (a + y).
Proof.
  intros [Hx Hy] Ha Hb <-. apply Rmult_lt_reg_r with ((a + x) * (a + y)); [apply Rmult_lt_0_compat; lra|].
  replace (x / (a + x) * ((a + x) * (a + y))) with (x * (a + y)) by (field; lra).
  replace (y / (a + y) * ((a + x) * (a + y))) with (y * (a + x)) by (field; lra).
  nra.
Qed.

Lemma mnl_raise_own (us : list util) k v :
  (k < length us)%nat -> expu (nth k us (None : util)) < expu v ->
  (exists j x, j <> k /\ nth j us None = Some x) ->
  mnl us (nth k us (None : util)) < mnl (upd us k v) v.
Proof.
  intros Hk Hv (j & x & Hjk & Hj).
  set (u := nth k us None) in *. set (rest := total us - expu u).
  assert (Hrest : 0 < rest).
  { assert (Hjl : (j < length us)%nat).
    { destruct (Nat.lt_ge_cases j (length us)); auto. rewrite nth_overflow in Hj by auto. discriminate. }
    assert (H : 0 < total (upd us k None)).
    { apply total_pos. exists x. rewrite <- Hj. rewrite <- (nth_upd_neq us k j None None) by auto.
      apply nth_In. now rewrite upd_length. }
    rewrite total_upd in H by auto. fold u in H. simpl in H. unfold rest. lra. }
  unfold mnl. rewrite total_upd by auto. fold u. fold rest.
  replace (total us) with (rest + expu u) by (unfold rest; lra).
  apply frac_mono with (b := rest); auto. split; auto. apply expu_nonneg.
  pose proof (expu_nonneg u). lra.
Qed.

Lemma mnl_raise_other (us : list util) k v j :
  (k < length us)%nat -> expu (nth k us (None : util)) <= expu v -> j <> k -> some_feasible us ->
  mnl (upd us k v) (nth j (upd us k v) None) <= mnl us (nth j us None).
Proof.
  intros Hk Hv Hj Hf. rewrite nth_upd_neq by auto.
  pose proof (total_pos us Hf). unfold mnl. rewrite total_upd by auto.
  unfold Rdiv. apply Rmult_le_compat_l; [apply expu_nonneg|].
  apply Rinv_le_contravar; lra.
Qed.
