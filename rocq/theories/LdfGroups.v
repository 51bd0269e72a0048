(** Grouping the rows of a target by key: what [factorize], [group_codes] and [group_of] compute. *)
From Coq Require Import Sorted.
From Verif Require Import Prelude DictProofs ExprModel ScopeModel ScopeProofs LdfModel SpecLdf LdfProofs LdfKeys.
Local Open Scope string_scope.
Local Open Scope nat_scope.
Local Open Scope list_scope.

(** the entries of [vals] at the positions [js] are [vs] *)
Definition values_at {A} (vals : list A) (js : list nat) (vs : list A) : Prop := Forall2 (fun j v => nth_error vals j = Some v) js vs.
(** exactly the positions that satisfy [P], in increasing order *)
Definition listing (P : nat -> Prop) (js : list nat) : Prop := StronglySorted lt js /\ forall j, In j js <-> P j.

Lemma filter_listing {A B} (p : A -> bool) : forall (codes : list A) (vals : list B) k, length codes = length vals ->
  exists js, StronglySorted lt js /\ (forall j, In j js <-> k <= j /\ exists c, nth_error codes (j - k) = Some c /\ p c = true) /\
    Forall2 (fun j v => nth_error vals (j - k) = Some v) js (map snd (filter (fun q => p (fst q)) (combine codes vals))).
Proof.
  induction codes as [|c codes IH]; intros [|v vals] k HL; try discriminate.
  - exists []. split; [constructor|]. split; [|constructor]. intros j. split; [intros []|]. intros (_ & c & H & _). destruct (j - k); discriminate.
  - simpl in HL. destruct (IH vals (S k) ltac:(lia)) as (js & HS & HI & HF).
    assert (HF' : Forall2 (fun j v0 => nth_error (v :: vals) (j - k) = Some v0) js (map snd (filter (fun q => p (fst q)) (combine codes vals)))).
    { revert HI HF. generalize (map snd (filter (fun q => p (fst q)) (combine codes vals))). clear. intros vs HI HF.
      assert (HB : forall j, In j js -> S k <= j) by (intros j Hj; now apply HI in Hj). clear HI.
      induction HF as [|j v0 js vs Hj HF IH]; constructor; [|apply IH; intros; apply HB; simpl; auto].
      specialize (HB j (or_introl eq_refl)). destruct (j - k) as [|m] eqn:Em; [lia|]. simpl. now replace (j - S k) with m in Hj by lia. }
    assert (HI' : forall j, In j js <-> k < j /\ exists c0, nth_error (c :: codes) (j - k) = Some c0 /\ p c0 = true).
    { intros j. rewrite HI. split; intros (H1 & c0 & H2 & H3); (split; [lia|]); exists c0; (split; [|auto]).
      - destruct (j - k) as [|m] eqn:Em; [lia|]. simpl. now replace (j - S k) with m in H2 by lia.
      - destruct (j - k) as [|m] eqn:Em; [lia|]. simpl in H2. now replace (j - S k) with m by lia. }
    simpl. destruct (p c) eqn:Ep; simpl.
    + exists (k :: js). split; [|split].
      * constructor; auto. apply Forall_forall. intros j Hj. apply HI' in Hj. lia.
      * intros j. simpl. rewrite HI'. split.
        -- intros [<-|[H1 H2]]; [|split; [lia|auto]]. split; [lia|]. rewrite Nat.sub_diag. exists c. auto.
        -- intros [H1 H2]. destruct (Nat.eq_dec k j) as [->|N]; [auto|right; split; [lia|auto]].
      * constructor; auto. now rewrite Nat.sub_diag.
    + exists js. split; auto. split; auto. intros j. rewrite HI'. split; [intros [H1 H2]; split; [lia|auto]|].
      intros [H1 H2]. split; auto. destruct (Nat.eq_dec k j) as [->|N]; [|lia]. exfalso. rewrite Nat.sub_diag in H2. destruct H2 as (c0 & H2 & H3). simpl in H2. congruence.
Qed.

Section Groups.
  Context {L V : Type} (E : venv L V) (veq_spec : forall a b, v_eq E a b = true <-> a = b).
  Notation key := (list V).

  Lemma group_listing codes (vals : list V) c : length codes = length vals ->
    exists js, listing (fun j => nth_error codes j = Some c) js /\ values_at vals js (group_of codes vals c).
  Proof.
    intros HL. destruct (filter_listing (fun z => Z.eqb z c) codes vals 0 HL) as (js & HS & HI & HF). exists js. split; [split; auto|].
    - intros j. rewrite HI, Nat.sub_0_r. split.
      + intros (_ & c0 & H1 & H2). apply Z.eqb_eq in H2. now subst.
      + intros H. split; [lia|]. exists c. split; auto. apply Z.eqb_refl.
    - unfold values_at, group_of. eapply F2_impl; [|exact HF]. simpl. intros j v. now rewrite Nat.sub_0_r.
  Qed.

  Definition key_code (u : list key) (k : key) : Z := if key_null E k then (-1)%Z else pos_or_missing E u k.
  Lemma code_of_key (u : list key) k p : NoDup u -> (forall x, In x u -> key_null E x = false) ->
    (key_code u k = Z.of_nat p <-> nth_error u p = Some k).
  Proof using veq_spec.
    intros HN HU. unfold key_code. destruct (key_null E k) eqn:Ek.
    - split; [lia|]. intros H. apply nth_error_In in H. apply HU in H. congruence.
    - unfold pos_or_missing. destruct (position (keq E) u k) as [q|] eqn:Eq.
      + split.
        * intros H. apply Nat2Z.inj in H. subst q. now apply (position_some _ (keq_spec E veq_spec)) in Eq.
        * intros H. apply (position_nth _ (keq_spec E veq_spec) _ _ _ HN) in H. congruence.
      + split; [lia|]. intros H. apply (position_none _ (keq_spec E veq_spec)) in Eq. exfalso. apply Eq. eapply nth_error_In; eauto.
  Qed.
  Lemma code_of_null (u : list key) k : key_null E k = false -> In k u -> key_code u k <> (-1)%Z.
  Proof using veq_spec.
    intros Hn HI. unfold key_code. rewrite Hn. unfold pos_or_missing. destruct (position (keq E) u k) as [q|] eqn:Eq; [lia|].
    apply (position_none _ (keq_spec E veq_spec)) in Eq. contradiction.
  Qed.

  Lemma filter_seq_lt m : forall n k, filter (fun c => existsb (Z.eqb c) (map Z.of_nat (seq 0 m))) (map Z.of_nat (seq k n)) = map Z.of_nat (seq k (min n (m - k))).
  Proof.
    induction n as [|n IH]; intros k; auto. cbn [seq map filter].
    destruct (Nat.lt_ge_cases k m) as [H|H].
    - assert (existsb (Z.eqb (Z.of_nat k)) (map Z.of_nat (seq 0 m)) = true) as ->.
      { apply existsb_exists. exists (Z.of_nat k). split; [|apply Z.eqb_refl]. apply in_map, in_seq. lia. }
      rewrite IH. replace (min (S n) (m - k)) with (S (min n (m - S k))) by lia. reflexivity.
    - assert (existsb (Z.eqb (Z.of_nat k)) (map Z.of_nat (seq 0 m)) = false) as ->.
      { apply Bool.not_true_is_false. intros X. apply existsb_exists in X. destruct X as (z & I & Ez). apply Z.eqb_eq in Ez. subst z. apply in_map_iff in I. destruct I as (x & Hx & I). apply in_seq in I. lia. }
      rewrite IH. replace (min (S n) (m - k)) with 0 by lia. replace (min n (m - S k)) with 0 by lia. reflexivity.
  Qed.

  (** the groups of factorised keys: one for the missing keys if there are any, then one per key *)
  Lemma groups_of_keys (ok : list key) : let u := uniques E [] ok in
    group_codes (fst (factorize E ok)) = (if existsb (key_null E) ok then [(-1)%Z] else []) ++ map Z.of_nat (seq 0 (length u)).
  Proof using veq_spec.
    intros u. unfold factorize. simpl. fold u. fold (key_code u). change (fun k => if key_null E k then (-1)%Z else pos_or_missing E u k) with (key_code u).
    pose proof (order_nodup E veq_spec ok) as HN. pose proof (fun k => order_in E veq_spec ok k) as HI. fold u in HN, HI.
    assert (HU : forall x, In x u -> key_null E x = false) by (intros x Hx; now apply HI in Hx).
    unfold group_codes. rewrite map_length. cbn [seq map filter].
    assert (HM : existsb (Z.eqb (-1)) (map (key_code u) ok) = existsb (key_null E) ok).
    { apply eq_true_iff_eq. rewrite !existsb_exists. split.
      - intros (z & I & Ez). apply Z.eqb_eq in Ez. subst z. apply in_map_iff in I. destruct I as (k & Hk & I). exists k. split; auto.
        destruct (key_null E k) eqn:En; auto. exfalso. apply (code_of_null u k En); [apply HI; auto|auto].
      - intros (k & I & Hk). exists (-1)%Z. split; auto. apply in_map_iff. exists k. split; auto. unfold key_code. now rewrite Hk. }
    change (Z.of_nat 0 - 1)%Z with (-1)%Z. rewrite HM.
    assert (HR : filter (fun c => existsb (Z.eqb c) (map (key_code u) ok)) (map (fun i => (Z.of_nat i - 1)%Z) (seq 1 (length ok))) = map Z.of_nat (seq 0 (length u))).
    { rewrite <- (seq_shift (length ok) 0), map_map.
      rewrite (map_ext _ Z.of_nat) by (intros; lia).
      assert (HLe : length u <= length ok).
      { apply (NoDup_incl_length HN). intros x Hx. now apply HI in Hx. }
      transitivity (filter (fun c => existsb (Z.eqb c) (map Z.of_nat (seq 0 (length u)))) (map Z.of_nat (seq 0 (length ok)))).
      - apply filter_ext_in. intros z Hz. apply in_map_iff in Hz. destruct Hz as (p & <- & _). apply eq_true_iff_eq. rewrite !existsb_exists. split.
        + intros (z & I & Ez). apply Z.eqb_eq in Ez. subst z. apply in_map_iff in I. destruct I as (k & Hk & I). apply (code_of_key u k p HN HU) in Hk.
          exists (Z.of_nat p). split; [|apply Z.eqb_refl]. apply in_map, in_seq. assert (p < length u) by (apply nth_error_Some; congruence). lia.
        + intros (z & I & Ez). apply Z.eqb_eq in Ez. subst z. exists (Z.of_nat p). split; [|apply Z.eqb_refl]. apply in_map_iff in I. destruct I as (q & Hq & I). apply Nat2Z.inj in Hq. subst q. apply in_seq in I.
          destruct (nth_error u p) as [k|] eqn:Ek; [|apply nth_error_None in Ek; lia]. apply in_map_iff. exists k. split; [now apply (code_of_key u k p HN HU)|].
          apply nth_error_In in Ek. now apply HI in Ek.
      - rewrite filter_seq_lt. f_equal. f_equal. lia. }
    rewrite HR. destruct (existsb (key_null E) ok); reflexivity.
  Qed.

  (** keys are listed in the order of their first appearance *)
  Definition first_seen (ks u : list key) : Prop :=
    forall p q kp kq, p < q -> nth_error u p = Some kp -> nth_error u q = Some kq ->
      forall j, nth_error ks j = Some kq -> exists j', j' < j /\ nth_error ks j' = Some kp.
  Lemma uniques_prefix : forall ks seen, exists t, uniques E seen ks = seen ++ t.
  Proof.
    induction ks as [|k ks IH]; intros seen; simpl; [exists []; now rewrite app_nil_r|]. destruct (orb _ _); auto.
    destruct (IH (seen ++ [k])) as (t & ->). exists (k :: t). now rewrite <- app_assoc.
  Qed.
  Lemma uniques_seen : forall ks seen p q kp kq, NoDup seen -> p < q -> nth_error (uniques E seen ks) p = Some kp -> nth_error (uniques E seen ks) q = Some kq ->
    length seen <= q -> forall j, nth_error ks j = Some kq -> In kp seen \/ exists j', j' < j /\ nth_error ks j' = Some kp.
  Proof using veq_spec.
    induction ks as [|k ks IH]; intros seen p q kp kq HN Hpq Hp Hq Hle j Hj; [destruct j; discriminate|]. simpl in Hp, Hq.
    destruct (orb (key_null E k) (existsb (keq E k) seen)) eqn:Eo.
    - destruct j as [|j]; simpl in Hj.
      + injection Hj as ->. exfalso. destruct (uniques_spec E veq_spec ks seen HN) as [HN' HI]. destruct (uniques_prefix ks seen) as (t & Ht).
        apply orb_true_iff in Eo. destruct Eo as [En|Ex].
        * assert (Hk : In kq seen \/ In kq ks /\ key_null E kq = false) by (apply HI; eapply nth_error_In; eauto). destruct Hk as [Hk|[_ Hk]]; [|congruence].
          apply In_nth_error in Hk. destruct Hk as (m & Hm). assert (m < length seen) by (apply nth_error_Some; congruence).
          assert (m = q); [|lia]. eapply NoDup_nth_error; [exact HN'| |rewrite Hq, Ht, nth_error_app1; auto]. rewrite Ht, app_length. lia.
        * apply existsb_exists in Ex. destruct Ex as (y & Hk & Ey). apply (keq_spec E veq_spec) in Ey. subst y.
          apply In_nth_error in Hk. destruct Hk as (m & Hm). assert (m < length seen) by (apply nth_error_Some; congruence).
          assert (m = q); [|lia]. eapply NoDup_nth_error; [exact HN'| |rewrite Hq, Ht, nth_error_app1; auto]. rewrite Ht, app_length. lia.
      + destruct (IH seen p q kp kq HN Hpq Hp Hq Hle j Hj) as [H|(j' & H1 & H2)]; auto. right. exists (S j'). split; [lia|auto].
    - apply orb_false_iff in Eo. destruct Eo as [_ Eo].
      assert (NI : ~ In k seen) by (intros I; assert (existsb (keq E k) seen = true); [|congruence]; apply existsb_exists; exists k; split; auto; now apply (keq_spec E veq_spec)).
      pose proof (NoDup_app_one seen k HN NI) as HN1. destruct (uniques_prefix ks (seen ++ [k])) as (t & Ht).
      assert (Hk : nth_error (uniques E (seen ++ [k]) ks) (length seen) = Some k).
      { rewrite Ht, nth_error_app1 by (rewrite app_length; simpl; lia). now rewrite nth_error_app2, Nat.sub_diag by lia. }
      destruct (Nat.eq_dec q (length seen)) as [->|Nq].
      + left. rewrite Ht in Hp. rewrite nth_error_app1 in Hp by (rewrite app_length; simpl; lia). rewrite nth_error_app1 in Hp by lia. eapply nth_error_In; eauto.
      + destruct j as [|j]; simpl in Hj.
        * injection Hj as ->. exfalso. apply Nq. destruct (uniques_spec E veq_spec ks _ HN1) as [HN' _]. eapply NoDup_nth_error; [exact HN'|apply nth_error_Some; congruence|congruence].
        * destruct (IH (seen ++ [k]) p q kp kq HN1 Hpq Hp Hq ltac:(rewrite app_length; simpl; lia) j Hj) as [H|(j' & H1 & H2)].
          -- apply in_app_iff in H. destruct H as [H|[<-|[]]]; auto. right. exists 0. split; [lia|auto].
          -- right. exists (S j'). split; [lia|auto].
  Qed.
  Lemma uniques_first ks : first_seen ks (uniques E [] ks).
  Proof using veq_spec.
    intros p q kp kq Hpq Hp Hq j Hj. destruct (uniques_seen ks [] p q kp kq (NoDup_nil _) Hpq Hp Hq ltac:(simpl; lia) j Hj) as [[]|H]. exact H.
  Qed.
End Groups.
