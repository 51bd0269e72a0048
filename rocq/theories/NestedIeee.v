(** Lemmas for C92: products, sums and quotients of doubles that are NaN or nonnegative. *)
From Coq Require Import Reals Lra Lia.
From Flocq Require Import Core.Core IEEE754.BinarySingleNaN.
From Verif Require Import Prelude Arith CoreModel SpecSampling SamplingProofs SpecIeee IeeeProofs PropIeee SpecNested NestedProofs.
Local Open Scope R_scope.

(** a NaN, or not negative *)
Definition proper (x : float64) : Prop := is_nan x = true \/ f64_nonneg x.
Notation probable := nan_or_between.

Lemma nan_add_l (a b : float64) : is_nan a = true -> is_nan (f64_add a b) = true.
Proof. destruct a as [[]|[]| |[]], b as [[]|[]| |[]]; intros; try discriminate; reflexivity. Qed.
Lemma nan_add_r (a b : float64) : is_nan b = true -> is_nan (f64_add a b) = true.
Proof. destruct a as [[]|[]| |[]], b as [[]|[]| |[]]; intros; try discriminate; reflexivity. Qed.
Lemma nan_mul (a b : float64) : is_nan a = true \/ is_nan b = true -> is_nan (f64_mul a b) = true.
Proof. destruct a as [[]|[]| |[]], b as [[]|[]| |[]]; intros [|]; try discriminate; reflexivity. Qed.
Lemma nan_div (a b : float64) : is_nan a = true \/ is_nan b = true -> is_nan (f64_div a b) = true.
Proof. destruct a as [[]|[]| |[]], b as [[]|[]| |[]]; intros [|]; try discriminate; reflexivity. Qed.
Lemma nan_le (a b : float64) : is_nan a = true -> f64_le a b = false.
Proof. destruct a as [[]|[]| |[]], b as [[]|[]| |[]]; intros; try discriminate; reflexivity. Qed.
Lemma proper_add (a b : float64) : proper a -> proper b -> proper (f64_add a b).
Proof.
  intros [A|A] [B|B]; try (left; auto using nan_add_l, nan_add_r; fail). right. apply f64_add_nonneg_le; auto.
Qed.
Lemma between_mul (a b : float64) : between_0_and_1 a -> between_0_and_1 b -> between_0_and_1 (f64_mul a b).
Proof.
  intros [Fa Ba] [Fb Bb]. unfold between_0_and_1, real, f64_mul in *. pose proof (Bmult_correct 53 1024 _ _ mode_NE a b) as C. set (q := B2R a * B2R b) in *.
  assert (Q0 : 0 <= q <= 1) by (unfold q; nra).
  assert (RQ : 0 <= round radix2 (SpecFloat.fexp 53 1024) (round_mode mode_NE) q <= 1).
  { split.
    - rewrite <- (round_0 radix2 (SpecFloat.fexp 53 1024) (round_mode mode_NE)). apply round_le; try typeclasses eauto. lra.
    - assert (G1 : generic_format radix2 (SpecFloat.fexp 53 1024) 1). { rewrite <- one_is. apply generic_format_B2R. }
      rewrite <- (round_generic radix2 (SpecFloat.fexp 53 1024) (round_mode mode_NE) 1 G1). apply round_le; try typeclasses eauto. lra. }
  rewrite Rlt_bool_true in C; cycle 1. { rewrite Rabs_pos_eq by lra. eapply Rle_lt_trans; [apply RQ|]. change 1 with (bpow radix2 0). apply bpow_lt. lia. }
  destruct C as (HR & HF & _). rewrite HR, HF, Fa, Fb. split; auto.
Qed.
Lemma probable_mul (a b : float64) : probable a -> probable b -> probable (f64_mul a b).
Proof. intros [A|A] [B|B]; try (left; apply nan_mul; auto; fail). right. now apply between_mul. Qed.
Lemma between_zero : between_0_and_1 f64_zero.
Proof. split; [reflexivity|]. unfold real. simpl. lra. Qed.

Section Group.
  Context (fexp flog : float64 -> float64) (T : list float64).
  Notation F := (B64 fexp flog).
  Notation at_ i := (nth i T f64_zero).
  Notation G := (group_sum F T).
  Lemma group_fsum l : G l = fsum f64_zero (map (fun j => at_ j) l).
  Proof.
    unfold group_sum, fsum. cbn [nadd nzero B64]. assert (Q : forall acc, fold_left (fun a j => f64_add a (at_ j)) l acc = fold_left f64_add (map (fun j => at_ j) l) acc); [|apply Q]. induction l as [|j l IH]; intros acc; cbn; auto.
  Qed.
  (** a sum that is not NaN has no NaN in it *)
  Lemma fsum_no_nan : forall l acc, is_nan (fsum acc l) = false -> is_nan acc = false /\ Forall (fun x => is_nan x = false) l.
  Proof.
    induction l as [|x l IH]; intros acc H; cbn in *; auto. destruct (IH _ H) as [A B]. destruct (is_nan acc) eqn:Na; [rewrite nan_add_l in A by auto; discriminate|].
    destruct (is_nan x) eqn:Nx; [rewrite nan_add_r in A by auto; discriminate|]. auto.
  Qed.
  Context (PT : Forall proper T).
  Lemma at_proper i : proper (at_ i).
  Proof. destruct (lt_dec i (length T)) as [L|L]; [rewrite Forall_forall in PT; apply PT, nth_In, L|]. rewrite nth_overflow by lia. right. reflexivity. Qed.

  Lemma cond_probable l i : In i l -> probable (if f64_le (G l) f64_zero then f64_zero else f64_div (at_ i) (G l)).
  Proof.
    intros I. rewrite group_fsum. set (ws := map (fun j => at_ j) l). assert (IW : In (at_ i) ws) by (apply in_map_iff; eauto). set (s := fsum f64_zero ws).
    destruct (f64_le s f64_zero) eqn:Z; [right; apply between_zero|].
    destruct (is_nan s) eqn:NS; [left; apply nan_div; auto|]. destruct (fsum_no_nan ws f64_zero NS) as [_ NW].
    assert (NN : Forall f64_nonneg ws). { apply Forall_forall. intros x J. assert (PX : proper x) by (apply in_map_iff in J; destruct J as (j & <- & _); apply at_proper). rewrite Forall_forall in NW. specialize (NW x J). destruct PX as [PX|PX]; [congruence|exact PX]. }
    destruct (fsum_le ws f64_zero zero_nonneg NN) as [N1 _]. fold s in N1. assert (NE : f64_nonneg (at_ i)) by (rewrite Forall_forall in NN; auto).
    assert (LE : f64_le (at_ i) s = true) by (apply fsum_mem; auto; apply zero_nonneg).
    destruct (not_le_zero s N1 Z) as [[FS PS]|IS].
    - right. apply div_between; auto.
    - rewrite IS in *. destruct (f64_nonneg_cases _ NE) as [[Fe Pe]| ->]; [|left; reflexivity]. right. unfold between_0_and_1, real.
      destruct (at_ i) as [[]|[]| |[]]; try discriminate; simpl; split; auto; lra.
  Qed.
  (** with finite terms there is no NaN *)
  Context (FT : Forall (fun x => is_finite x = true) T).
  Lemma at_finite i : is_finite (at_ i) = true /\ f64_nonneg (at_ i).
  Proof.
    assert (H : is_finite (at_ i) = true). { destruct (lt_dec i (length T)) as [L|L]; [rewrite Forall_forall in FT; apply FT, nth_In, L|]. rewrite nth_overflow by lia. reflexivity. }
    split; auto. destruct (at_proper i) as [N|N]; auto. destruct (at_ i); discriminate.
  Qed.
  Lemma cond_between l i : In i l -> between_0_and_1 (if f64_le (G l) f64_zero then f64_zero else f64_div (at_ i) (G l)).
  Proof.
    intros I. rewrite group_fsum. set (ws := map (fun j => at_ j) l). assert (IW : In (at_ i) ws) by (apply in_map_iff; eauto). set (s := fsum f64_zero ws).
    destruct (f64_le s f64_zero) eqn:Z; [apply between_zero|].
    assert (NN : Forall f64_nonneg ws). { apply Forall_forall. intros x J. apply in_map_iff in J. destruct J as (j & <- & _). apply at_finite. }
    destruct (fsum_le ws f64_zero zero_nonneg NN) as [N1 _]. fold s in N1. destruct (at_finite i) as [Fe NE].
    assert (LE : f64_le (at_ i) s = true) by (apply fsum_mem; auto; apply zero_nonneg).
    destruct (not_le_zero s N1 Z) as [[FS PS]|IS].
    - apply div_between; auto.
    - rewrite IS in *. unfold between_0_and_1, real. destruct (at_ i) as [[]|[]| |[]]; try discriminate; simpl; split; auto; lra.
  Qed.
End Group.

(** ** Paths *)
Section Nested.
  Context (fexp flog : float64 -> float64) (n : nat) (h : list Z) (sc : list float64) (scaled : bool).
  Notation F := (B64 fexp flog).
  Context (PAR : forall i p, (i < n)%nat -> parent_of h i = Some p -> (p < n)%nat).
  Lemma in_siblings i : (i < n)%nat -> In i (siblings n h i).
  Proof.
    intros Hi. unfold siblings, children, tops. destruct (parent_of h i) as [p|] eqn:P; apply filter_In; (split; [apply in_seq; lia|]).
    - unfold is_child. rewrite P. apply Nat.eqb_refl.
    - unfold is_top. now rewrite P.
  Qed.
  Lemma path_probable (T : list float64) : Forall proper T -> forall i q, path_prob F n h T i q -> (i < n)%nat -> probable q.
  Proof.
    intros PT i q H. induction H as [i P|i p q P H IH]; intros Hi.
    - exact (cond_probable fexp flog T PT (siblings n h i) i (in_siblings i Hi)).
    - apply probable_mul; [exact (cond_probable fexp flog T PT (siblings n h i) i (in_siblings i Hi))|]. apply IH. eapply PAR; eauto.
  Qed.
  Lemma path_between (T : list float64) : Forall proper T -> Forall (fun x => is_finite x = true) T -> forall i q, path_prob F n h T i q -> (i < n)%nat -> between_0_and_1 q.
  Proof.
    intros PT FT i q H. induction H as [i P|i p q P H IH]; intros Hi.
    - exact (cond_between fexp flog T PT FT (siblings n h i) i (in_siblings i Hi)).
    - apply between_mul; [exact (cond_between fexp flog T PT FT (siblings n h i) i (in_siblings i Hi))|]. apply IH. eapply PAR; eauto.
  Qed.
  Context (SE : sane_exp fexp) (SN : forall x, is_nan x = true -> is_nan (fexp x) = true).
  Lemma exp_proper x : proper (fexp x).
  Proof. destruct (is_nan x) eqn:N; [left; auto|right; now apply SE]. Qed.
  Lemma terms_proper u (T : list float64) : nl_terms F n h sc scaled u T -> Forall proper T.
  Proof.
    intros [L H]. change (@length float64 T = n) in L. apply Forall_forall. intros x I. apply (In_nth _ _ f64_zero) in I. destruct I as (i & Hi & <-). rewrite L in Hi. specialize (H i Hi). enough (proper (nth i (T : list (num F)) (nzero F))) by assumption. rewrite H.
    destruct (children n h i); apply exp_proper.
  Qed.
  Lemma solution_probable u P top T : nl_solution F n h sc scaled u P top T -> Forall probable P /\ (Forall (fun x => is_finite x = true) T -> Forall between_0_and_1 P).
  Proof.
    intros (NT & _ & LP & H). change (@length float64 P = n) in LP. pose proof (terms_proper u T NT) as PT. split.
    - apply Forall_forall. intros x I. apply (In_nth _ _ f64_zero) in I. destruct I as (i & Hi & <-). rewrite LP in Hi. specialize (H i Hi). enough (probable (nth i (P : list (num F)) (nzero F))) by assumption. destruct (children n h i); [eapply path_probable; eauto|rewrite H; right; apply between_zero].
    - intros FT. apply Forall_forall. intros x I. apply (In_nth _ _ f64_zero) in I. destruct I as (i & Hi & <-). rewrite LP in Hi. specialize (H i Hi). enough (between_0_and_1 (nth i (P : list (num F)) (nzero F))) by assumption. destruct (children n h i); [eapply path_between; eauto|rewrite H; apply between_zero].
  Qed.
End Nested.
