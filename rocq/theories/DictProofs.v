(** Facts about insertion-ordered dictionaries and '.'-joined names. *)
From Coq Require Import Ascii.
From Verif Require Import Prelude.
Local Open Scope nat_scope.

Section Dict.
  Context {K V : Type} (keq : K -> K -> bool).
  Hypothesis keq_spec : forall a b, keq a b = true <-> a = b.
  Notation dict := (dict K V).

  Lemma keq_refl a : keq a a = true. Proof. now apply keq_spec. Qed.
  Lemma keq_neq a b : a <> b -> keq a b = false.
  Proof. intros H. destruct (keq a b) eqn:E; auto. apply keq_spec in E. congruence. Qed.

  Lemma dget_in (d : dict) k v : dget keq d k = Some v -> In (k, v) d.
  Proof.
    induction d as [|[k' v'] t IH]; simpl; [discriminate|].
    destruct (keq k k') eqn:E; auto. apply keq_spec in E. subst k'. intros X. injection X as ->. auto.
  Qed.
  Lemma dget_none (d : dict) k : dget keq d k = None <-> ~ In k (dkeys d).
  Proof.
    induction d as [|[k' v'] t IH]; simpl; [tauto|].
    destruct (keq k k') eqn:E.
    - apply keq_spec in E. subst k'. split; [discriminate|]. intros H. exfalso. apply H. auto.
    - rewrite IH. split; [|tauto]. intros H [X|X]; auto. subst k'. rewrite keq_refl in E. discriminate.
  Qed.
  Lemma in_keys (d : dict) k v : In (k, v) d -> In k (dkeys d).
  Proof. intros H. apply (in_map fst) in H. exact H. Qed.
  Lemma in_keys_ex (d : dict) k : In k (dkeys d) -> exists v, In (k, v) d.
  Proof. intros H. apply in_map_iff in H. destruct H as ([k' v] & E & H). simpl in E. subst. eauto. Qed.
  Lemma in_vals (d : dict) k v : In (k, v) d -> In v (dvals d).
  Proof. intros H. apply (in_map snd) in H. exact H. Qed.
  Lemma in_vals_ex (d : dict) v : In v (dvals d) -> exists k, In (k, v) d.
  Proof. intros H. apply in_map_iff in H. destruct H as ([k v'] & E & H). simpl in E. subst. eauto. Qed.
  Lemma nodup_fun (d : dict) k v v' : NoDup (dkeys d) -> In (k, v) d -> In (k, v') d -> v = v'.
  Proof.
    induction d as [|[k1 v1] t IH]; simpl; [tauto|]. intros N. inversion N; subst.
    intros [E|H] [E'|H']; try congruence; auto.
    - injection E as -> ->. exfalso. apply in_keys in H'. auto.
    - injection E' as -> ->. exfalso. apply in_keys in H. auto.
  Qed.
  Lemma in_dget (d : dict) k v : NoDup (dkeys d) -> In (k, v) d -> dget keq d k = Some v.
  Proof.
    intros N H. destruct (dget keq d k) as [v'|] eqn:E.
    - apply dget_in in E. f_equal. eapply nodup_fun; eauto.
    - apply dget_none in E. apply in_keys in H. tauto.
  Qed.
  Lemma dmem_iff (d : dict) k : dmem keq d k = true <-> In k (dkeys d).
  Proof.
    unfold dmem. destruct (dget keq d k) as [v|] eqn:E.
    - split; auto. intros _. eapply in_keys, dget_in; eauto.
    - apply dget_none in E. split; [discriminate|tauto].
  Qed.

  Lemma dset_absent (d : dict) k v : ~ In k (dkeys d) -> dset keq d k v = d ++ [(k, v)].
  Proof.
    induction d as [|[k' v'] t IH]; simpl; auto. intros H. rewrite keq_neq by (intros ->; apply H; auto).
    rewrite IH by tauto. reflexivity.
  Qed.
  Lemma dset_keys (d : dict) k v : In k (dkeys d) -> dkeys (dset keq d k v) = dkeys d.
  Proof.
    induction d as [|[k' v'] t IH]; simpl; [tauto|]. intros H. destruct (keq k k') eqn:E; simpl; auto.
    f_equal. apply IH. destruct H as [->|]; auto. rewrite keq_refl in E. discriminate.
  Qed.
  Lemma dset_keys_nodup (d : dict) k v : NoDup (dkeys d) -> NoDup (dkeys (dset keq d k v)).
  Proof.
    intros N. destruct (in_dec (fun a b => match bool_dec (keq a b) true with left e => left (proj1 (keq_spec a b) e)
         | right n => right (fun e => n (proj2 (keq_spec a b) e)) end) k (dkeys d)) as [H|H].
    - now rewrite dset_keys.
    - rewrite dset_absent by auto. unfold dkeys in *. rewrite map_app. simpl.
      clear - N H. induction (map fst d) as [|x l IH]; simpl; [repeat constructor; auto|].
      inversion N; subst. constructor; [|apply IH; simpl in *; tauto].
      rewrite in_app_iff. simpl in *. intros [X|[X|[]]]; [tauto|subst; apply H; auto].
  Qed.
  Lemma in_dset (d : dict) k v k' v' : NoDup (dkeys d) ->
    (In (k', v') (dset keq d k v) <-> (k' = k /\ v' = v) \/ (k' <> k /\ In (k', v') d)).
  Proof.
    induction d as [|[k1 v1] t IH]; simpl; intros N.
    - split; [intros [E|[]]; injection E; auto|]. intros [[-> ->]|[_ []]]; auto.
    - inversion N; subst. destruct (keq k k1) eqn:E.
      + apply keq_spec in E. subst k1. simpl. split.
        * intros [X|X]; [injection X; auto|]. right. split; auto. intros ->. apply in_keys in X. auto.
        * intros [[-> ->]|[X [Y|Y]]]; auto. congruence.
      + simpl. rewrite IH by auto. assert (k <> k1) by (intros ->; rewrite keq_refl in E; discriminate).
        split.
        * intros [X|[X|X]]; [injection X as -> ->; auto| |]; tauto.
        * intros [[-> ->]|[X [Y|Y]]]; auto.
  Qed.
  Lemma in_ddel (d : dict) k k' v' : NoDup (dkeys d) ->
    (In (k', v') (ddel keq d k) <-> k' <> k /\ In (k', v') d).
  Proof.
    induction d as [|[k1 v1] t IH]; simpl; intros N; [tauto|].
    inversion N; subst. destruct (keq k k1) eqn:E.
    - apply keq_spec in E. subst k1. split.
      + intros X. split; auto. intros ->. apply in_keys in X. auto.
      + intros [X [Y|Y]]; auto. congruence.
    - simpl. rewrite IH by auto. assert (k <> k1) by (intros ->; rewrite keq_refl in E; discriminate).
      split; [|tauto]. intros [X|X]; [|tauto]. injection X as -> ->. auto.
  Qed.
  Lemma ddel_keys_nodup (d : dict) k : NoDup (dkeys d) -> NoDup (dkeys (ddel keq d k)).
  Proof.
    induction d as [|[k1 v1] t IH]; simpl; intros N; auto. inversion N; subst.
    destruct (keq k k1); simpl; auto. constructor; auto. intros X. apply in_keys_ex in X. destruct X as [v X].
    apply in_ddel in X; auto. apply H1. eapply in_keys. apply X.
  Qed.
  Lemma ddel_absent (d : dict) k : ~ In k (dkeys d) -> ddel keq d k = d.
  Proof.
    induction d as [|[k1 v1] t IH]; simpl; auto. intros H. rewrite keq_neq by (intros ->; apply H; auto).
    f_equal. apply IH. tauto.
  Qed.
  Lemma ddel_key_gone (d : dict) k : NoDup (dkeys d) -> ~ In k (dkeys (ddel keq d k)).
  Proof. intros N X. apply in_keys_ex in X. destruct X as [v X]. apply in_ddel in X; auto. tauto. Qed.

  Lemma dget_dset (d : dict) k v k' : dget keq (dset keq d k v) k' = if keq k' k then Some v else dget keq d k'.
  Proof.
    induction d as [|[k1 v1] t IH]; simpl; auto.
    destruct (keq k k1) eqn:E; simpl.
    - apply keq_spec in E. subst k1. destruct (keq k' k); auto.
    - rewrite IH. destruct (keq k' k1) eqn:E1; auto. apply keq_spec in E1. subst k1.
      destruct (keq k' k) eqn:E2; auto. apply keq_spec in E2. subst. rewrite keq_refl in E. discriminate.
  Qed.
End Dict.

Lemma string_eqb_spec a b : String.eqb a b = true <-> a = b.
Proof. apply String.eqb_eq. Qed.

Lemma NoDup_app_one {A} (l : list A) x : NoDup l -> ~ In x l -> NoDup (l ++ [x]).
Proof.
  induction l as [|y l IH]; simpl; intros N H; [repeat constructor; auto|].
  inversion N; subst. constructor; [|apply IH; tauto]. rewrite in_app_iff. simpl. intros [X|[X|[]]]; [tauto|subst; apply H; auto].
Qed.
