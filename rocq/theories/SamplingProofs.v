(** Lemmas about the samplers (C01-C05). *)
From Coq Require Import Reals Lra Psatz.
From Flocq Require Import Core.Core IEEE754.BinarySingleNaN.
From Verif Require Import Prelude Arith CoreModel SpecSampling.
Local Open Scope nat_scope.

(** ** Generic facts *)
Section Generic.
  Context (F : arith).
  Notation num := (num F).

  Lemma cumsum_length a (p : list num) : length (cumsum_from F a p) = length p.
  Proof. revert a; induction p as [|x t IH]; intros a; simpl; auto. Qed.

  (** the linear scan finds the first running sum that reaches the draw *)
  Lemma sample_loop_spec (p : list num) r acc k :
    let reach i := nle F r (rd (cumsum_from F acc p) i) in
    match sample_loop F p r acc k with
    | Some i => exists j, i = k + j /\ j < length p /\ reach j = true /\
                          forall j', j' < j -> reach j' = false
    | None => forall j, j < length p -> reach j = false
    end.
  Proof.
    revert acc k; induction p as [|x t IH]; intros acc k; cbn zeta; simpl.
    - intros j H; simpl in H; lia.
    - destruct (nle F r (nadd F acc x)) eqn:E.
      + exists 0. simpl. split; [lia|]. split; [lia|]. split; [exact E|]. intros; lia.
      + specialize (IH (nadd F acc x) (S k)). cbn zeta in IH.
        destruct (sample_loop F t r (nadd F acc x) (S k)) as [i|].
        * destruct IH as (j & -> & Hj & Hr & Hn).
          exists (S j). simpl. split; [lia|]. split; [lia|]. split; [exact Hr|].
          intros [|j'] Hj'; [exact E|]. apply Hn; lia.
        * intros [|j] Hj; [exact E|]. apply IH; simpl in *; lia.
  Qed.

  Lemma sample_once_first (p : list num) r :
    p <> [] ->
    exists i, sample_once F p r = Z.of_nat i /\
      first_reaching (fun i => nle F (pymax F r (ntiny F)) (rd (nbf_cumsum F p) i)) (length p) i.
  Proof.
    intros Hne. unfold sample_once.
    pose proof (sample_loop_spec p (pymax F r (ntiny F)) (nzero F) 0) as H. cbn zeta in H.
    assert (HL : 0 < length p) by (destruct p; simpl; [congruence|lia]).
    destruct (sample_loop F p (pymax F r (ntiny F)) (nzero F) 0) as [i|].
    - destruct H as (j & -> & Hj & Hr & Hn). exists j. split; [reflexivity|].
      split; [exact Hj|]. left. auto.
    - exists (length p - 1). split; [lia|]. split; [lia|]. right. split; auto.
  Qed.

  (** loop of the binary search: termination and bounds for any array and draw *)
  Lemma search_loop_total r cps : forall fuel lo hi,
    (0 <= lo <= hi)%Z -> (hi - lo < Z.of_nat fuel)%Z ->
    exists lo' hi', search_loop F fuel r cps lo hi = Some (lo', hi') /\
      (lo <= lo' <= hi')%Z /\ (hi' <= hi)%Z /\ (hi' - lo' <= 1)%Z /\
      (lo' = lo \/ nle F r (rd cps (Z.to_nat lo')) = false) /\
      (hi' = hi \/ nle F r (rd cps (Z.to_nat hi')) = true).
  Proof.
    induction fuel as [|fuel IH]; intros lo hi H1 H2; [lia|].
    cbn [search_loop].
    destruct (hi - lo >? 1)%Z eqn:E.
    - apply Z.gtb_lt in E.
      assert (Hm : (lo < (hi + lo) / 2 < hi)%Z).
      { assert (lo + 1 <= (hi + lo) / 2)%Z by (apply Z.div_le_lower_bound; lia).
        split; [lia|apply Z.div_lt_upper_bound; lia]. }
      destruct (nle F r (rd cps (Z.to_nat ((hi + lo) / 2)))) eqn:R.
      + destruct (IH lo ((hi + lo) / 2)%Z) as (lo' & hi' & Heq & A & B & C & D & G); [lia|lia|].
        exists lo', hi'. repeat split; auto; try lia. right. destruct G as [->|G]; auto.
      + destruct (IH ((hi + lo) / 2)%Z hi) as (lo' & hi' & Heq & A & B & C & D & G); [lia|lia|].
        exists lo', hi'. repeat split; auto; try lia. right. destruct D as [->|D]; auto.
    - assert (hi - lo <= 1)%Z by (destruct (Z.gtb_spec (hi - lo) 1); [discriminate|lia]).
      exists lo, hi. repeat split; auto; lia.
  Qed.

  Definition eff_draw (r : num) : num := if neqb F r (nzero F) then ntiny F else r.

  Lemma log_search_in_range r (cps : list num) :
    cps <> [] -> exists i, logarithmic_search F r cps = Some (Z.of_nat i) /\ i < length cps.
  Proof.
    intros Hne. unfold logarithmic_search.
    destruct cps as [|c0 ct]; [congruence|]. set (cps := c0 :: ct) in *.
    assert (HL : 0 < length cps) by (simpl; lia).
    destruct (search_loop_total (if neqb F r (nzero F) then ntiny F else r) cps
                (S (length cps)) 0 (Z.of_nat (length cps) - 1)%Z) as (lo & hi & Heq & A & B & _);
      [lia|lia|].
    rewrite Heq.
    destruct (nle F _ _).
    - exists (Z.to_nat lo). split; [f_equal; lia|lia].
    - exists (Z.to_nat hi). split; [f_equal; lia|lia].
  Qed.

  Lemma log_search_first r (cps : list num) :
    cps <> [] ->
    (forall i j, i <= j < length cps -> nle F (eff_draw r) (rd cps i) = true ->
                 nle F (eff_draw r) (rd cps j) = true) ->
    exists i, logarithmic_search F r cps = Some (Z.of_nat i) /\
      first_reaching (fun i => nle F (eff_draw r) (rd cps i)) (length cps) i.
  Proof.
    intros Hne Hmono. unfold logarithmic_search. fold (eff_draw r).
    destruct cps as [|c0 ct]; [congruence|]. set (cps := c0 :: ct) in *.
    assert (HL : 0 < length cps) by (simpl; lia).
    destruct (search_loop_total (eff_draw r) cps
                (S (length cps)) 0 (Z.of_nat (length cps) - 1)%Z)
      as (lo & hi & Heq & A & B & C & D & G); [lia|lia|].
    rewrite Heq.
    assert (Hfalse : forall k j, j <= k < length cps -> nle F (eff_draw r) (rd cps k) = false ->
                      nle F (eff_draw r) (rd cps j) = false).
    { intros k j Hjk Hk. destruct (nle F (eff_draw r) (rd cps j)) eqn:E; auto.
      rewrite (Hmono j k) in Hk; auto. }
    destruct (nle F (eff_draw r) (rd cps (Z.to_nat lo))) eqn:El.
    - exists (Z.to_nat lo). split; [f_equal; lia|]. split; [lia|]. left. split; [first [exact El|reflexivity]|].
      intros j Hj. destruct D as [->|D]; [lia|]. congruence.
    - exists (Z.to_nat hi). split; [f_equal; lia|]. split; [lia|].
      destruct (nle F (eff_draw r) (rd cps (Z.to_nat hi))) eqn:Eh.
      + left. split; [first [exact Eh|reflexivity]|]. intros j Hj. apply (Hfalse (Z.to_nat lo)); [lia|exact El].
      + right. destruct G as [->|G]; [|congruence]. split; [lia|].
        intros j Hj. apply (Hfalse (Z.to_nat (Z.of_nat (length cps) - 1))); [lia|exact Eh].
  Qed.

  Lemma first_reaching_unique reach n i j :
    first_reaching reach n i -> first_reaching reach n j -> i = j.
  Proof.
    intros [Hi [[Ri Ni]|[-> Ni]]] [Hj [[Rj Nj]|[-> Nj]]]; auto.
    - destruct (Nat.lt_trichotomy i j) as [L|[L|L]]; auto.
      + rewrite Nj in Ri; congruence.
      + rewrite Ni in Rj; congruence.
    - rewrite Nj in Ri; congruence.
    - rewrite Ni in Rj; congruence.
  Qed.

  (** agreement of the two samplers, given a transitive order and non-decreasing running sums *)
  Lemma multi_once_agree (p : list num) (draws : list num) :
    p <> [] ->
    (forall a b c, nle F a b = true -> nle F b c = true -> nle F a c = true) ->
    (forall i j, i <= j < length p -> nle F (rd (nbf_cumsum F p) i) (rd (nbf_cumsum F p) j) = true) ->
    (forall r, In r draws -> neqb F r (nzero F) = false /\ nlt F r (ntiny F) = false) ->
    snd (sample_multi F p draws) = Some (map (sample_once F p) draws).
  Proof.
    intros Hne Htr Hmono. unfold sample_multi; simpl.
    assert (Hlen : length (nbf_cumsum F p) = length p) by apply cumsum_length.
    assert (Hne' : nbf_cumsum F p <> []).
    { intros E. rewrite E in Hlen. destruct p; simpl in *; [congruence|discriminate]. }
    induction draws as [|r t IH]; intros Hd; simpl; auto.
    rewrite IH by (intros; apply Hd; right; auto).
    destruct (Hd r (or_introl eq_refl)) as [H0 Ht].
    destruct (log_search_first r (nbf_cumsum F p) Hne') as (i & -> & Hi).
    { intros i j Hij H. eapply Htr; [exact H|]. apply Hmono. lia. }
    destruct (sample_once_first p r Hne) as (j & -> & Hj).
    unfold pymax in Hj. rewrite Ht in Hj. unfold eff_draw in Hi. rewrite H0 in Hi.
    rewrite Hlen in Hi. rewrite (first_reaching_unique _ _ _ _ Hi Hj). reflexivity.
  Qed.

  (** running sums are non-decreasing when adding an element never decreases *)
  Lemma cumsum_mono (p : list num) (pos : num -> Prop) acc :
    (forall a b c, nle F a b = true -> nle F b c = true -> nle F a c = true) ->
    (forall a, pos a -> nle F a a = true) ->
    (forall a x, pos a -> pos x -> pos (nadd F a x) /\ nle F a (nadd F a x) = true) ->
    pos acc -> Forall pos p ->
    (forall i j, i <= j < length p ->
       nle F (rd (cumsum_from F acc p) i) (rd (cumsum_from F acc p) j) = true) /\
    (forall i, i < length p -> nle F acc (rd (cumsum_from F acc p) i) = true /\
                               pos (rd (cumsum_from F acc p) i)).
  Proof.
    intros Htr Hrefl Hadd. revert acc; induction p as [|x t IH]; intros acc Ha Hp.
    - split; simpl; intros; lia.
    - inversion Hp as [|? ? Hx Ht']; subst.
      destruct (Hadd acc x Ha Hx) as [Hs Hle].
      destruct (IH (nadd F acc x) Hs Ht') as [M1 M2].
      assert (G : forall i, i < length (x :: t) ->
                nle F (nadd F acc x) (rd (cumsum_from F acc (x :: t)) i) = true /\
                pos (rd (cumsum_from F acc (x :: t)) i)).
      { intros [|i] Hi; unfold rd; simpl; [auto|]. apply (M2 i). simpl in Hi; lia. }
      split.
      + intros [|i] [|j] Hij; try lia.
        * unfold rd; simpl; auto.
        * apply (G (S j)). lia.
        * apply (M1 i j). simpl in Hij; lia.
      + intros i Hi. destruct (G i Hi). split; auto. eapply Htr; eauto.
  Qed.
End Generic.

(** ** Exact arithmetic *)
Local Open Scope R_scope.

Lemma Rleb_true a b : Rleb a b = true <-> a <= b.
Proof. unfold Rleb; destruct (Rle_dec a b); split; auto; discriminate || lra. Qed.
Lemma Rleb_false a b : Rleb a b = false <-> b < a.
Proof. unfold Rleb; destruct (Rle_dec a b); split; auto; try discriminate; lra. Qed.
Lemma Rltb_true a b : Rltb a b = true <-> a < b.
Proof. unfold Rltb; destruct (Rlt_dec a b); split; auto; discriminate || lra. Qed.
Lemma Rltb_false a b : Rltb a b = false <-> b <= a.
Proof. unfold Rltb; destruct (Rlt_dec a b); split; auto; try discriminate; lra. Qed.
Lemma Reqb_true a b : Reqb a b = true <-> a = b.
Proof. unfold Reqb; destruct (Req_EM_T a b); split; auto; discriminate || congruence. Qed.
Lemma Reqb_false a b : Reqb a b = false <-> a <> b.
Proof. unfold Reqb; destruct (Req_EM_T a b); split; auto; try discriminate; congruence. Qed.

Lemma tinyR_pos : 0 < tinyR.
Proof. unfold tinyR. apply bpow_gt_0. Qed.

Lemma cumsum_XR p acc i :
  (i < length p)%nat ->
  rd (F := XR) (cumsum_from XR (Fin acc) (map Fin p)) i = Fin (acc + partial_sum p (S i)).
Proof.
  revert acc i; induction p as [|x t IH]; intros acc i Hi; simpl in *; [lia|].
  destruct i as [|i].
  - unfold rd; simpl. unfold partial_sum; simpl. f_equal; lra.
  - unfold rd in *; simpl. rewrite IH by lia. unfold partial_sum; simpl. f_equal; lra.
Qed.

Lemma pymax_XR r : pymax XR (Fin r) (Fin tinyR) = Fin (Rmax r tinyR).
Proof.
  unfold pymax; simpl. destruct (Rltb r tinyR) eqn:E.
  - apply Rltb_true in E. rewrite Rmax_right; auto; lra.
  - apply Rltb_false in E. rewrite Rmax_left; auto; lra.
Qed.

Lemma Rsum_app a b : Rsum (a ++ b) = Rsum a + Rsum b.
Proof. induction a as [|x t IH]; simpl; lra. Qed.

Lemma partial_sum_S p i : (i < length p)%nat -> partial_sum p (S i) = partial_sum p i + nth i p 0.
Proof.
  revert i; induction p as [|x t IH]; intros i Hi; simpl in Hi; [lia|].
  destruct i as [|i]; unfold partial_sum in *; simpl.
  - lra.
  - specialize (IH i). simpl in IH. rewrite IH by lia. lra.
Qed.

Lemma partial_sum_all p : partial_sum p (length p) = Rsum p.
Proof. unfold partial_sum. now rewrite firstn_all. Qed.

Lemma partial_sum_mono p i j : nonneg p -> (i <= j <= length p)%nat -> partial_sum p i <= partial_sum p j.
Proof.
  intros Hp [Hij Hj]. induction Hij as [|j Hij IH]; [lra|].
  rewrite partial_sum_S by lia.
  assert (0 <= nth j p 0).
  { unfold nonneg in Hp. rewrite Forall_forall in Hp. apply Hp, nth_In. lia. }
  assert (partial_sum p i <= partial_sum p j) by (apply IH; lia). lra.
Qed.

Lemma sample_once_cell p r i :
  nonneg p -> (i < length p)%nat -> Rmax r tinyR <= Rsum p ->
  (sample_once XR (map Fin p) (Fin r) = Z.of_nat i <-> in_cell p i (Rmax r tinyR)).
Proof.
  intros Hp Hi Htot.
  assert (Hne : map Fin p <> []) by (destruct p; simpl in *; [lia|congruence]).
  destruct (sample_once_first XR (map Fin p) (Fin r) Hne) as (k & Hk & Hfr).
  rewrite map_length in Hfr. rewrite Hk.
  change (ntiny XR) with (Fin tinyR) in Hfr. rewrite pymax_XR in Hfr.
  set (r' := Rmax r tinyR) in *.
  assert (Hreach : forall j, (j < length p)%nat ->
            nle XR (Fin r') (rd (F := XR) (nbf_cumsum XR (map Fin p)) j) = Rleb r' (partial_sum p (S j))).
  { intros j Hj. unfold nbf_cumsum. change (nzero XR) with (Fin 0). rewrite cumsum_XR by auto.
    simpl. f_equal. lra. }
  assert (Hcell : in_cell p k r').
  { destruct Hfr as [Hkl [[R1 N1]|[-> N1]]].
    - rewrite Hreach in R1 by auto. apply Rleb_true in R1. split; [|exact R1].
      destruct k as [|k].
      + unfold partial_sum; simpl. unfold r'. pose proof tinyR_pos. pose proof (Rmax_r r tinyR). lra.
      + specialize (N1 k ltac:(lia)). rewrite Hreach in N1 by lia. now apply Rleb_false in N1.
    - specialize (N1 (length p - 1)%nat ltac:(lia)). rewrite Hreach in N1 by lia.
      apply Rleb_false in N1. replace (S (length p - 1)) with (length p) in N1 by lia.
      rewrite partial_sum_all in N1. lra. }
  assert (Hkl : (k < length p)%nat) by (destruct Hfr; auto).
  split.
  - intros E. apply Nat2Z.inj in E. now subst.
  - intros Hc. f_equal. destruct (Nat.lt_trichotomy k i) as [L|[L|L]]; auto; exfalso.
    + assert (partial_sum p (S k) <= partial_sum p i) by (apply partial_sum_mono; auto; lia).
      destruct Hc, Hcell; lra.
    + assert (partial_sum p (S i) <= partial_sum p k) by (apply partial_sum_mono; auto; lia).
      destruct Hc, Hcell; lra.
Qed.

Lemma sample_once_over p r :
  p <> [] -> nonneg p -> Rsum p < Rmax r tinyR ->
  sample_once XR (map Fin p) (Fin r) = (Z.of_nat (length p) - 1)%Z.
Proof.
  intros Hne Hp Htot.
  assert (Hne' : map Fin p <> []) by (destruct p; simpl in *; congruence).
  assert (HL : (0 < length p)%nat) by (destruct p; simpl; [congruence|lia]).
  destruct (sample_once_first XR (map Fin p) (Fin r) Hne') as (k & Hk & Hfr).
  rewrite map_length in Hfr. rewrite Hk.
  change (ntiny XR) with (Fin tinyR) in Hfr. rewrite pymax_XR in Hfr.
  destruct Hfr as [Hkl [[R1 N1]|[-> N1]]]; [|lia]. exfalso.
  unfold nbf_cumsum in R1. change (nzero XR) with (Fin 0) in R1. rewrite cumsum_XR in R1 by auto.
  simpl in R1. apply Rleb_true in R1.
  assert (partial_sum p (S k) <= partial_sum p (length p)) by (apply partial_sum_mono; auto; lia).
  rewrite partial_sum_all in *. lra.
Qed.

Lemma cell_exists p r :
  nonneg p -> 0 < r <= Rsum p -> exists! i, (i < length p)%nat /\ in_cell p i r.
Proof.
  intros Hp [Hr Ht].
  assert (Hex : exists i, (i < length p)%nat /\ in_cell p i r).
  { rewrite <- partial_sum_all in Ht. remember (length p) as n eqn:En.
    assert (Hn : (n <= length p)%nat) by lia. clear En.
    induction n as [|n IH].
    - unfold partial_sum in Ht; simpl in Ht; lra.
    - destruct (Rle_dec r (partial_sum p n)) as [L|L].
      + destruct IH as (i & Hi & Hc); auto; try lia. exists i; split; auto; lia.
      + exists n. split; [lia|]. split; lra. }
  destruct Hex as (i & Hi & Hc). exists i. split; [auto|].
  intros k [Hkl Hck].
  destruct (Nat.lt_trichotomy k i) as [L|[L|L]]; auto; exfalso.
  - assert (partial_sum p (S k) <= partial_sum p i) by (apply partial_sum_mono; auto; lia).
    destruct Hc, Hck; lra.
  - assert (partial_sum p (S i) <= partial_sum p k) by (apply partial_sum_mono; auto; lia).
    destruct Hc, Hck; lra.
Qed.

Lemma sample_once_range (F : arith) (p : list (num F)) r :
  p <> [] -> exists i, sample_once F p r = Z.of_nat i /\ (i < length p)%nat.
Proof.
  intros H. destruct (sample_once_first F p r H) as (i & Hi & Hf & _). eauto.
Qed.

Lemma sample_once_positive p r :
  nonneg p -> Rmax r tinyR <= Rsum p ->
  exists i, sample_once XR (map Fin p) (Fin r) = Z.of_nat i /\ (i < length p)%nat /\ 0 < nth i p 0.
Proof.
  intros Hp Ht.
  assert (Hpos : 0 < Rmax r tinyR) by (pose proof tinyR_pos; pose proof (Rmax_r r tinyR); lra).
  destruct (cell_exists p (Rmax r tinyR) Hp) as (i & [Hi Hc] & _); [lra|].
  exists i. split; [now apply sample_once_cell|]. split; auto.
  destruct Hc as [H1 H2]. rewrite partial_sum_S in H2 by auto. lra.
Qed.

(** ** IEEE binary64 *)

Definition f64_nonneg (x : float64) : Prop := f64_le f64_zero x = true.

Lemma f64_le_trans a b c : f64_le a b = true -> f64_le b c = true -> f64_le a c = true.
Proof.
  unfold f64_le. intros H1 H2.
  destruct (is_finite a) eqn:Fa, (is_finite b) eqn:Fb, (is_finite c) eqn:Fc;
    try (rewrite Bleb_correct in *; auto;
         destruct (Rle_bool_spec (B2R a) (B2R b)), (Rle_bool_spec (B2R b) (B2R c)),
                  (Rle_bool_spec (B2R a) (B2R c)); try discriminate; auto; lra);
    destruct a as [[]|[]| |[]], b as [[]|[]| |[]], c as [[]|[]| |[]];
    unfold Bleb, SpecFloat.SFleb in *; simpl in *; try discriminate; auto.
Qed.

Lemma f64_le_refl a : is_nan a = false -> f64_le a a = true.
Proof.
  unfold f64_le. intros H. destruct (is_finite a) eqn:Fa.
  - rewrite Bleb_correct by auto. apply Rle_bool_true. lra.
  - destruct a as [[]|[]| |[]]; try discriminate; reflexivity.
Qed.

Lemma f64_nonneg_cases x :
  f64_nonneg x -> (is_finite x = true /\ 0 <= B2R x) \/ x = B754_infinity false.
Proof.
  unfold f64_nonneg, f64_le. intros H. destruct (is_finite x) eqn:Fx.
  - left. split; auto. rewrite Bleb_correct in H by auto. simpl in H.
    destruct (Rle_bool_spec 0 (B2R x)); auto; discriminate.
  - right. destruct x as [[]|[]| |[]]; try discriminate; auto.
Qed.

Lemma f64_nonneg_not_nan x : f64_nonneg x -> is_nan x = false.
Proof. intros H. destruct (f64_nonneg_cases x H) as [[Hf _]| ->]; auto. destruct x; auto; discriminate. Qed.

Lemma B2R_pos_sign (x : float64) : is_finite x = true -> 0 < B2R x -> Bsign x = false.
Proof.
  destruct x as [s|s| |s m e Hb]; simpl; try discriminate; intros _ H; [lra|].
  destruct s; auto. exfalso. 
  assert (F2R (Float radix2 (Zneg m) e) < 0) by (apply F2R_lt_0; simpl; lia). simpl in H. lra.
Qed.

Lemma f64_add_nonneg_le a x :
  f64_nonneg a -> f64_nonneg x ->
  f64_nonneg (f64_add a x) /\ f64_le a (f64_add a x) = true.
Proof.
  intros Ha Hx.
  assert (G : f64_le a (f64_add a x) = true).
  { destruct (f64_nonneg_cases a Ha) as [[Fa Pa]| ->]; destruct (f64_nonneg_cases x Hx) as [[Fx Px]| ->].
    - unfold f64_add. pose proof (Bplus_correct 53 1024 _ _ mode_NE a x Fa Fx) as H.
      destruct (Rlt_bool _ _) eqn:E.
      + destruct H as (HR & HF & _). unfold f64_le. rewrite Bleb_correct by auto. rewrite HR.
        apply Rle_bool_true.
        assert (Hg : generic_format radix2 (SpecFloat.fexp 53 1024) (B2R a)) by apply generic_format_B2R.
        rewrite <- (round_generic radix2 (SpecFloat.fexp 53 1024) (round_mode mode_NE) (B2R a) Hg) at 1.
        apply round_le; try typeclasses eauto. lra.
      + destruct H as (HS & Hsg).
        assert (Hs : Bsign a = false).
        { destruct (Rle_lt_or_eq_dec 0 (B2R a) Pa) as [Hlt|Heq]; [now apply B2R_pos_sign|].
          destruct (Rle_lt_or_eq_dec 0 (B2R x) Px) as [Hlt|Heq'].
          - rewrite Hsg. now apply B2R_pos_sign.
          - rewrite <- Heq, <- Heq', Rplus_0_r, round_0 in E by typeclasses eauto.
            rewrite Rabs_R0 in E. rewrite Rlt_bool_true in E; [discriminate|apply bpow_gt_0]. }
        rewrite Hs in HS. unfold f64_le, Bleb. rewrite HS.
        destruct a as [[]|[]| |[]]; simpl in *; try discriminate; reflexivity.
    - unfold f64_add. destruct a as [[]|[]| |[]]; simpl in *; try discriminate; reflexivity.
    - unfold f64_add. destruct x as [[]|[]| |[]]; simpl in *; try discriminate; reflexivity.
    - reflexivity. }
  split; auto. unfold f64_nonneg in *. exact (f64_le_trans _ _ _ Ha G).
Qed.

Lemma f64_samplers_agree fexp flog (p draws : list float64) :
  p <> [] -> Forall f64_nonneg p -> Forall (fun r => f64_le f64_tiny r = true) draws ->
  snd (sample_multi (B64 fexp flog) p draws) = Some (map (sample_once (B64 fexp flog) p) draws).
Proof.
  intros Hne Hp Hd. apply multi_once_agree; auto.
  - exact f64_le_trans.
  - apply (cumsum_mono (B64 fexp flog) p f64_nonneg f64_zero); auto.
    + exact f64_le_trans.
    + intros a Ha. apply f64_le_refl. now apply f64_nonneg_not_nan.
    + exact f64_add_nonneg_le.
    + reflexivity.
  - intros r Hr. rewrite Forall_forall in Hd. specialize (Hd r Hr). simpl.
    unfold f64_le, Bleb, f64_eq, Beqb, f64_lt, Bltb, f64_zero, SpecFloat.SFleb, SpecFloat.SFeqb, SpecFloat.SFltb in *.
    split.
    + destruct r as [s|[]| |s m e Hb]; try reflexivity; simpl in Hd; try discriminate.
      destruct s; reflexivity.
    + assert (Hsym : SpecFloat.SFcompare (B2SF r) (B2SF f64_tiny) =
               match SpecFloat.SFcompare (B2SF f64_tiny) (B2SF r) with
               | Some c => Some (CompOpp c) | None => None end).
      { exact (Bcompare_swap 53 1024 f64_tiny r). }
      rewrite Hsym. destruct (SpecFloat.SFcompare (B2SF f64_tiny) (B2SF r)) as [[]|]; simpl in *; auto; discriminate.
Qed.

(** adding a zero does not change comparisons from the left *)
Lemma f64_le_add_zero r a x :
  f64_nonneg a -> f64_eq x f64_zero = true -> f64_le r (f64_add a x) = f64_le r a.
Proof.
  intros Ha Hx.
  assert (Hx' : exists s, x = B754_zero s).
  { destruct x as [s|s| |s m e Hb]; unfold f64_eq, Beqb in Hx; simpl in Hx; try discriminate; eauto;
      destruct s; discriminate. }
  destruct Hx' as [s ->].
  destruct a as [s'|s'| |s' m e Hb]; try reflexivity.
  unfold f64_le, Bleb, f64_add. simpl. destruct (Bool.eqb s' s); reflexivity.
Qed.

Lemma f64_draw_not_le_zero r x :
  f64_le f64_tiny r = true -> f64_eq x f64_zero = true -> f64_le r x = false.
Proof.
  intros Hr Hx. destruct (f64_le r x) eqn:E; auto.
  pose proof (f64_le_trans _ _ _ Hr E) as H.
  destruct x as [s|s| |s m e Hb]; unfold f64_eq, Beqb in Hx; simpl in Hx; try discriminate;
    try (destruct s; discriminate).
Qed.

Lemma f64_add_zero_zero x : f64_eq x f64_zero = true -> f64_eq (f64_add f64_zero x) f64_zero = true.
Proof.
  intros Hx. destruct x as [s|s| |s m e Hb]; unfold f64_eq, Beqb in Hx; simpl in Hx; try discriminate;
    destruct s; try discriminate; reflexivity.
Qed.

Lemma cumsum_S (F : arith) acc p i d :
  (S i < length p)%nat ->
  rd (cumsum_from F acc p) (S i) = nadd F (rd (cumsum_from F acc p) i) (nth (S i) p d).
Proof.
  revert acc i; induction p as [|x t IH]; intros acc i Hi; simpl in Hi; [lia|].
  destruct i as [|i].
  - destruct t as [|y t]; simpl in Hi; [lia|]. reflexivity.
  - change (rd (cumsum_from F (nadd F acc x) t) (S i) =
            nadd F (rd (cumsum_from F (nadd F acc x) t) i) (nth (S i) t d)).
    apply IH. lia.
Qed.

(** in doubles, the sampled alternative has a non-zero probability unless it is the last one *)
Lemma f64_sampled_nonzero_or_last fexp flog (p : list float64) r :
  p <> [] -> Forall f64_nonneg p -> f64_le f64_tiny r = true ->
  exists i, sample_once (B64 fexp flog) p r = Z.of_nat i /\ (i < length p)%nat /\
    (f64_eq (nth i p f64_zero) f64_zero = false \/ S i = length p).
Proof.
  intros Hne Hp Hr.
  destruct (sample_once_first (B64 fexp flog) p r Hne) as (i & Hi & HL & Hf).
  exists i. split; auto. split; auto.
  destruct Hf as [[R1 N1]|[E _]]; [|right; simpl in *; lia].
  assert (Hmax : pymax (B64 fexp flog) r f64_tiny = r).
  { unfold pymax. simpl. unfold f64_lt, Bltb, SpecFloat.SFltb.
    pose proof (Bcompare_swap 53 1024 f64_tiny r) as Hs. unfold Bcompare in Hs. rewrite Hs.
    unfold f64_le, Bleb, SpecFloat.SFleb in Hr.
    destruct (SpecFloat.SFcompare (B2SF f64_tiny) (B2SF r)) as [[]|]; simpl; auto; discriminate. }
  simpl in R1, N1. rewrite Hmax in *. clear Hmax.
  left. destruct (f64_eq (nth i p f64_zero) f64_zero) eqn:Ez; auto. exfalso.
  destruct i as [|i].
  - destruct p as [|x t]; [congruence|]. unfold rd in R1. simpl in R1, Ez.
    rewrite (f64_draw_not_le_zero r) in R1; auto; [discriminate|]. now apply f64_add_zero_zero.
  - specialize (N1 i ltac:(lia)). unfold nbf_cumsum in *.
    rewrite (cumsum_S (B64 fexp flog) _ p i f64_zero HL) in R1. simpl in R1.
    rewrite f64_le_add_zero in R1; auto; [exact (eq_true_false_abs _ R1 N1)|].
    apply (cumsum_mono (B64 fexp flog) p f64_nonneg f64_zero); auto; try lia.
    + exact f64_le_trans.
    + intros a Ha. apply f64_le_refl. now apply f64_nonneg_not_nan.
    + exact f64_add_nonneg_le.
    + reflexivity.
Qed.
