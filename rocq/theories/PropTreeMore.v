(** C28, C29: exactly what replacing a choice with children, and a rejected call with a name that exists, do. *)
From Verif Require Import Prelude Arith DictProofs TreeModel SpecTree TreeProofs TreeMore TreeHist PropTree.
Local Open Scope string_scope.
Local Open Scope nat_scope.

Definition without {A} (name : string) (d : list (string * A)) : list (string * A) := filter (fun kv => negb (String.eqb name (fst kv))) d.

Lemma ddel_without {A} name (d : list (string * A)) : NoDup (dkeys d) -> ddel String.eqb d name = without name d.
Proof.
  unfold dkeys. induction d as [|[k v] l IH]; simpl; intros N; auto. inversion N; subst.
  destruct (String.eqb name k) eqn:E; simpl; [|now rewrite IH].
  apply String.eqb_eq in E. subst k. clear -H1. induction l as [|[k v] l IH]; simpl in *; auto.
  destruct (String.eqb_spec name k); [subst; tauto|]. simpl. f_equal. apply IH. tauto.
Qed.

Section More.
  Context (F : arith).
  Notation tree := (tree F).

  (** A top-level choice added again is replaced, with or without children: it goes, all other choices stay - its
      own children too, whose parent is then not in the model any more. *)
  Theorem C28_replacing_any_choice : forall hist name scale old,
    history replacing_op new_tree hist -> let t := run_ops F new_tree hist in
    In (name, old) (t_all t) -> valid_args name scale ->
    exists t' id, add_choice F t name scale = (t', Ok id) /\ ~ in_model t id /\
      t_all t' = (without name (t_all t) ++ [(name, id)])%list /\
      nth_error (t_heap t') id = Some (Node name None scale 1 []) /\
      (forall i nd, nth_error (t_heap t) i = Some nd -> nth_error (t_heap t') i = Some nd) /\
      ~ in_model t' old /\
      (forall key c nd, In (key, c) (t_all t) -> nth_error (t_heap t) c = Some nd -> nd_parent nd = Some old ->
         In (key, c) (t_all t') /\ nth_error (t_heap t') c = Some nd).
  Proof.
    intros hist name scale old H t Ho V. apply valid_args_iff in V. destruct V as [Hn Hs].
    pose proof (history_inv F hist new_tree (inv_new F) H) as I. fold t in I.
    destruct (create_top_shape F (drop_cache F t) name scale) as (top' & E & N & T); auto; [now apply inv_cache|].
    destruct I as [C W]. pose proof (c_keys F t C) as NK.
    assert (LT : forall i, stored F t i -> i < length (t_heap t)) by (intros; now apply stored_lt).
    eexists. exists (length (t_heap t)). unfold add_choice. rewrite E. split; [reflexivity|]. cbn [add_top t_all t_heap drop_cache].
    assert (OL : old < length (t_heap t)) by (apply LT; eapply in_vals; eauto).
    rewrite ddel_without by auto.
    assert (KEEP : forall i nd, nth_error (t_heap t) i = Some nd -> nth_error (t_heap t ++ [Node name None scale 1 []]) i = Some nd).
    { intros i nd Ei. rewrite nth_error_app1; auto. apply nth_error_Some. congruence. }
    split; [|split; [|split; [|split; [|split]]]].
    - rewrite in_model_stored. intros X. apply LT in X. lia.
    - reflexivity.
    - now rewrite nth_error_app2, Nat.sub_diag by lia.
    - exact KEEP.
    - intros (k & X). cbn in X. apply in_app_or in X. destruct X as [X|[X|[]]]; [|injection X as _ X; lia].
      apply filter_In in X. destruct X as [X Y]. cbn in Y. rewrite (c_key F t C k old X), (c_key F t C name old Ho), String.eqb_refl in Y. discriminate.
    - intros key c nd Hc Ec Pc. split; auto. apply in_or_app. left. apply filter_In. split; auto. cbn. apply negb_true_iff, String.eqb_neq. intros <-.
      assert (c = old) by (eapply nodup_fun; eauto). subst c. pose proof (hw_parent F _ W old nd old Ec Pc). lia.
  Qed.

  (** the same below a node *)
  Theorem C28_replacing_any_child : forall hist p pkey name scale old,
    history replacing_op new_tree hist -> let t := run_ops F new_tree hist in
    In (pkey, p) (t_all t) -> let key := (pkey ++ "." ++ name)%string in
    In (key, old) (t_all t) -> valid_args name scale ->
    exists t' id, node_add_choice F t p name scale = (t', Ok id) /\ ~ in_model t id /\
      t_all t' = (without key (t_all t) ++ [(key, id)])%list /\
      nth_error (t_heap t') id = Some (Node name (Some p) scale (S (level_of (t_heap t) p)) []) /\
      (forall i nd, i <> p -> nth_error (t_heap t) i = Some nd -> nth_error (t_heap t') i = Some nd) /\
      ~ in_model t' old /\
      (forall k c nd, In (k, c) (t_all t) -> nth_error (t_heap t) c = Some nd -> nd_parent nd = Some old ->
         In (k, c) (t_all t') /\ exists nd', nth_error (t_heap t') c = Some nd' /\ nd_parent nd' = Some old).
  Proof.
    intros hist p pkey name scale old H t Hp key Ho V. apply valid_args_iff in V. destruct V as [Hn Hs].
    pose proof (history_inv F hist new_tree (inv_new F) H) as I. fold t in I. pose proof I as [C W]. pose proof (c_keys F t C) as NK.
    assert (LT : forall i, stored F t i -> i < length (t_heap t)) by (intros; now apply stored_lt).
    pose proof (create_child_shape F t p name scale I Hn Hs) as E. cbv zeta in E. rewrite <- (c_key F t C pkey p Hp) in E. fold key in E.
    assert (PL : p < length (t_heap t)) by (apply LT; eapply in_vals; eauto).
    assert (OL : old < length (t_heap t)) by (apply LT; eapply in_vals; eauto).
    eexists. exists (length (t_heap t)). unfold node_add_choice. rewrite E. split; [reflexivity|]. cbn [t_all t_heap].
    rewrite ddel_without by auto. set (h1 := (t_heap t ++ [Node name (Some p) scale (S (level_of (t_heap t) p)) []])%list).
    assert (KEEP : forall i nd, nth_error (t_heap t) i = Some nd -> nth_error h1 i = Some nd).
    { intros i nd Ei. unfold h1. rewrite nth_error_app1; auto. apply nth_error_Some. congruence. }
    assert (OTH : forall i, i <> p -> nth_error (set_child F h1 p name (length (t_heap t))) i = nth_error h1 i).
    { intros i Ne. unfold set_child. destruct (nth_error h1 p); auto. rewrite nth_error_upd_neq; auto. }
    split; [|split; [|split; [|split; [|split]]]].
    - rewrite in_model_stored. intros X. apply LT in X. lia.
    - reflexivity.
    - rewrite OTH by lia. unfold h1. now rewrite nth_error_app2, Nat.sub_diag by lia.
    - intros i nd Ne Ei. rewrite OTH by auto. auto.
    - intros (k & X). cbn in X. apply in_app_or in X. destruct X as [X|[X|[]]]; [|injection X as _ X; lia].
      apply filter_In in X. destruct X as [X Y]. cbn in Y. rewrite (c_key F t C k old X), (c_key F t C key old Ho), String.eqb_refl in Y. discriminate.
    - intros k c nd Hc Ec Pc. split.
      + apply in_or_app. left. apply filter_In. split; auto. cbn. apply negb_true_iff, String.eqb_neq. intros <-.
        assert (c = old) by (eapply nodup_fun; eauto). subst c. pose proof (hw_parent F _ W old nd old Ec Pc). lia.
      + destruct (set_child_node F h1 p name (length (t_heap t)) c nd (KEEP c nd Ec)) as (nd' & E1 & _ & E2 & _). exists nd'. split; auto. congruence.
  Qed.

  (** A rejected call whose full name exists removes that choice, and nothing else: no object changes, and the call
      is rejected exactly for invalid arguments.  (All histories of C24.) *)
  Theorem C29_rejected_existing_name : forall hist name scale,
    history replacing_op new_tree hist -> let t := run_ops F new_tree hist in is_key t name ->
    (forall t' e, add_choice F t name scale = (t', Err e) -> t_all t' = without name (t_all t) /\ t_heap t' = t_heap t /\ (forall i, In i (t_top t') -> In i (t_top t)) /\
        (forall i, In i (t_top t) -> In i (t_top t') \/ In (name, i) (t_all t))) /\
    ((exists t' e, add_choice F t name scale = (t', Err e)) <-> ~ valid_args name scale).
  Proof.
    intros hist name scale H t K. pose proof (history_inv F hist new_tree (inv_new F) H) as I. fold t in I.
    destruct (name_ok name && scale_ok F scale)%bool eqn:V.
    - apply andb_true_iff in V. destruct V as [Hn Hs].
      destruct (create_top_shape F (drop_cache F t) name scale) as (top' & E & N & T); auto; [now apply inv_cache|]. unfold add_choice. rewrite E. split.
      + intros t' e X. discriminate.
      + split; [intros (t' & e & X); discriminate|]. intros X. exfalso. apply X. now apply valid_args_iff.
    - destruct I as [C W]. pose proof (c_keys F t C) as NK. apply in_keys_ex in K. destruct K as [old K].
      assert (NV : ~ valid_args name scale) by (intros X; apply valid_args_iff in X; destruct X as [X1 X2]; rewrite X1, X2 in V; discriminate).
      assert (DG : dget String.eqb (t_all t) name = Some old) by (apply (in_dget String.eqb string_eqb_spec); auto).
      unfold add_choice, create_node. cbn [drop_cache t_all t_top t_heap t_cached]. rewrite DG.
      assert (DD : ddel String.eqb (t_all t) name = without name (t_all t)) by now apply ddel_without.
      destruct (set_remove (t_top t) old) as [top'|] eqn:SR.
      + unfold new_node. cbn [t_heap t_all t_top t_cached]. rewrite V. cbn [t_heap t_all t_top t_cached]. destruct (set_remove_in _ _ _ (c_top_nodup F t C) SR) as [_ IN]. split; [|split; [auto|eauto]].
        intros t' e X. injection X as <- <-. cbn [t_all t_heap t_top]. split; [exact DD|]. split; [reflexivity|]. split; intros i Hi; [now apply IN in Hi|].
        destruct (Nat.eq_dec i old) as [->|Ne]; [now right|]. left. now apply IN.
      + split; [|split; [auto|eauto]]. intros t' e X. injection X as <- <-. cbn [t_all t_heap t_top]. auto.
  Qed.
  Theorem C29_rejected_existing_child : forall hist p pkey name scale,
    history replacing_op new_tree hist -> let t := run_ops F new_tree hist in
    In (pkey, p) (t_all t) -> let key := (pkey ++ "." ++ name)%string in is_key t key ->
    (forall t' e, node_add_choice F t p name scale = (t', Err e) -> t_all t' = without key (t_all t) /\ t_heap t' = t_heap t /\ t_top t' = t_top t /\ e = AssertionError) /\
    ((exists t' e, node_add_choice F t p name scale = (t', Err e)) <-> ~ valid_args name scale).
  Proof.
    intros hist p pkey name scale H t Hp key K. pose proof (history_inv F hist new_tree (inv_new F) H) as I. fold t in I.
    pose proof I as [C W]. pose proof (c_keys F t C) as NK.
    destruct (name_ok name && scale_ok F scale)%bool eqn:V.
    - apply andb_true_iff in V. destruct V as [Hn Hs]. pose proof (create_child_shape F t p name scale I Hn Hs) as E. cbv zeta in E.
      unfold node_add_choice. rewrite E. split.
      + intros t' e X. discriminate.
      + split; [intros (t' & e & X); discriminate|]. intros X. exfalso. apply X. now apply valid_args_iff.
    - assert (NV : ~ valid_args name scale) by (intros X; apply valid_args_iff in X; destruct X as [X1 X2]; rewrite X1, X2 in V; discriminate).
      unfold node_add_choice, create_node. rewrite <- (c_key F t C pkey p Hp). fold key.
      assert (DM : dmem String.eqb (t_all t) key = true) by (apply (dmem_iff String.eqb string_eqb_spec); exact K). rewrite DM.
      unfold new_node. cbn [t_heap t_all t_top t_cached]. rewrite V. split; [|split; [auto|eauto]].
      intros t' e X. injection X as <- <-. cbn [t_all t_heap t_top]. split; [now apply ddel_without|]. auto.
  Qed.
End More.

(** the tree of the examples: "D" has the children "D.E" and "D.H", "D.E" has children *)
Example C28_any_hypotheses_met : In ("D", 1) (t_all ex_tree) /\ valid_args "D" (fl 1 0) /\
  In ("D.E", 5) (t_all ex_tree) /\ option_map nd_parent (nth_error (t_heap ex_tree) 5) = Some (Some 1).
Proof.
  destruct ex_run as (E & _). rewrite E. split; [cbn; auto 10|]. split; [vm_compute; repeat split; congruence|]. split; [cbn; auto 10|].
  vm_compute. reflexivity.
Qed.
Example C29_existing_hypotheses_met : is_key ex_tree "D" /\ nle FA (fl 2 0) (none_ FA) = false.
Proof. split; [destruct ex_run as (E & _); unfold is_key; rewrite E; cbn; auto|]. vm_compute. reflexivity. Qed.
Print Assumptions C28_replacing_any_choice.
Print Assumptions C28_replacing_any_child.
Print Assumptions C29_rejected_existing_name.
Print Assumptions C29_rejected_existing_child.
