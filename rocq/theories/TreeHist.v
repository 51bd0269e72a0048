(** The choice tree: histories (C24) and the probability row (C27). *)
From Coq Require Import Ascii Reals Lra.
From Verif Require Import Prelude Arith CoreModel TreeModel DictProofs TreeProofs SpecTree SpecNested TreeMore.
Local Open Scope string_scope.
Local Open Scope nat_scope.

Section TH.
  Context (F : arith).
  Notation tree := (tree F).
  Notation inv := (inv F). Notation stored := (stored F).
  Implicit Types t : tree.

  Lemma valid_args_iff name (scale : num F) :
    valid_args name scale <-> name_ok name = true /\ scale_ok F scale = true.
  Proof.
    unfold valid_args, name_ok, scale_ok. rewrite !andb_true_iff, !negb_true_iff, String.eqb_neq. tauto.
  Qed.

  Lemma key_full t p pkey : inv t -> In (pkey, p) (t_all t) -> pkey = full_name (t_heap t) p.
  Proof. intros [C W]. apply c_key; auto. Qed.

  Lemma no_child_zero t i : inv t -> stored t i -> ~ has_child t i -> n_children (t_heap t) i = 0.
  Proof.
    intros I S H. rewrite (has_child_iff F t i I S) in H. unfold is_parent in H.
    destruct (n_children (t_heap t) i); auto. exfalso. apply H. reflexivity.
  Qed.

  Lemma combine_fst_in {A B} (a : list A) (b : list B) : exists c, map fst (combine a b) = firstn c a.
  Proof.
    revert b; induction a as [|x a IH]; intros [|y b]; simpl; try (exists 0; reflexivity).
    destruct (IH b) as [c E]. exists (S c). simpl. now rewrite E.
  Qed.
  Lemma firstn_incl {A} (l : list A) c x : In x (firstn c l) -> In x l.
  Proof. revert c; induction l as [|y l IH]; intros [|c]; simpl; try tauto. intros [->|H]; eauto. Qed.
  Lemma firstn_nodup {A} (l : list A) c : NoDup l -> NoDup (firstn c l).
  Proof.
    revert c; induction l as [|y l IH]; intros [|c] N; simpl; try constructor; inversion N; subst; auto.
    intros X. apply firstn_incl in X. auto.
  Qed.

  Lemma run_op_inv t o : inv t -> replacing_op t o -> inv (run_op F t o).
  Proof.
    intros I. destruct o as [name scale|names once scales|p name scale|p scale|]; cbn [run_op replacing_op].
    - intros H. apply add_choice_inv; auto.
      + intros X. destruct (H X) as [V _]. now apply valid_args_iff.
      + intros i X. destruct H as [_ H]; [eapply in_keys; eauto|]. apply no_child_zero; auto. eapply in_vals; eauto.
    - intros [N A]. unfold add_choices.
      destruct (match scales with Some s => (names, s) | None => _ end) as [names' scales'] eqn:E.
      assert (X : incl names' names /\ NoDup names').
      { destruct scales; injection E as <- _; [split; [apply incl_refl|auto]|]. destruct once; split; auto.
        - intros x []. - constructor. - apply incl_refl. }
      destruct X as [X1 X2]. destruct (combine_fst_in names' scales') as [c Ec].
      apply add_pairs_inv.
      + now apply inv_cache.
      + rewrite Ec. now apply firstn_nodup.
      + intros n Hn. rewrite Ec in Hn. apply firstn_incl in Hn. apply A. now apply X1.
    - intros (pkey & Hp & H). pose proof (key_full t p pkey I Hp). subst pkey.
      assert (Sp : stored t p) by (eapply in_vals; eauto).
      apply node_add_inv; auto.
      + intros X. destruct (H X) as [V _]. now apply valid_args_iff.
      + intros i X. destruct H as [_ H]; [eapply in_keys; eauto|]. apply no_child_zero; auto. eapply in_vals; eauto.
    - intros _. now apply set_scale_inv.
    - intros _. now apply partial_inv.
  Qed.

  Lemma history_inv l : forall t, inv t -> history replacing_op t l -> inv (run_ops F t l).
  Proof.
    induction l as [|o l IH]; intros t I H; simpl; auto. destruct H as [H1 H2]. apply IH; auto. now apply run_op_inv.
  Qed.

  (** fresh histories: nothing is ever replaced, so every node handle stays in the model *)
  Definition all_stored t : Prop := forall i, i < length (t_heap t) -> stored t i.
  Lemma all_stored_add t h' top c key : all_stored t -> ~ In key (dkeys (t_all t)) -> length h' = S (length (t_heap t)) ->
    all_stored (Tree h' (ddel String.eqb (t_all t) key ++ [(key, length (t_heap t))])%list top c).
  Proof.
    intros A K L i Hi. unfold TreeProofs.stored, ids. cbn [t_heap t_all] in *. rewrite (ddel_absent String.eqb string_eqb_spec) by auto.
    unfold dvals. rewrite map_app, in_app_iff. simpl. destruct (Nat.eq_dec i (length (t_heap t))) as [->|]; auto.
    left. apply A. lia.
  Qed.
  Lemma add_pairs_stored l : forall t, inv t -> all_stored t -> NoDup (map fst l) ->
    (forall n, In n (map fst l) -> ~ In n (dkeys (t_all t))) -> all_stored (fst (add_pairs F t l)).
  Proof.
    induction l as [|[name scale] l IH]; intros t I S N A; [exact S|]. cbn [add_pairs map fst In] in *.
    inversion N; subst.
    destruct (name_ok name && scale_ok F scale)%bool eqn:V.
    - apply andb_true_iff in V. destruct V as [Hn Hs].
      destruct (add_top_inv F t name scale I Hn Hs) as (t' & top' & E & E1 & I').
      { intros i X. exfalso. apply (A name); auto. eapply in_keys; eauto. }
      rewrite E. assert (S' : all_stored (add_top F t' (length (t_heap t)))).
      { rewrite E1. apply all_stored_add; auto. rewrite app_length. simpl. lia. }
      specialize (IH (add_top F t' (length (t_heap t))) I' S' H2).
      assert (Hfr : forall n, In n (map fst l) -> ~ In n (dkeys (t_all (add_top F t' (length (t_heap t)))))).
      { intros n Hn1 X. rewrite E1 in X. simpl in X. unfold dkeys in X. rewrite map_app, in_app_iff in X. simpl in X.
        destruct X as [X|[<-|[]]]; [|tauto]. apply (A n); auto. apply in_keys_ex in X. destruct X as [v X].
        apply (in_ddel String.eqb string_eqb_spec) in X; [|destruct I; now apply c_keys]. eapply in_keys; apply X. }
      specialize (IH Hfr).
      destruct (add_pairs F (add_top F t' (length (t_heap t))) l) as [t2 [r|e]] eqn:E2; exact IH.
    - rewrite create_top_fail; auto.
  Qed.

  Lemma fresh_step t o : inv t -> all_stored t -> fresh_op t o ->
    replacing_op t o /\ all_stored (run_op F t o).
  Proof.
    intros I A. destruct o as [name scale|names once scales|p name scale|p scale|]; cbn [run_op replacing_op fresh_op].
    - intros H. split; [unfold is_key in *; tauto|]. unfold add_choice.
      destruct (name_ok name && scale_ok F scale)%bool eqn:V.
      + apply andb_true_iff in V. destruct V as [Hn Hs].
        destruct (add_top_inv F (drop_cache F t) name scale) as (t' & top' & E & E1 & I'); auto.
        { now apply inv_cache. }
        { intros i X. exfalso. apply H. eapply in_keys; eauto. }
        rewrite E. cbn [fst]. change (length (t_heap (drop_cache F t))) with (length (t_heap t)) in *. rewrite E1.
        apply (all_stored_add (drop_cache F t)); auto. simpl. rewrite app_length. simpl. lia.
      + rewrite create_top_fail; auto.
    - intros [N K]. split; auto. unfold add_choices.
      destruct (match scales with Some s => (names, s) | None => _ end) as [names' scales'] eqn:E.
      assert (X : incl names' names /\ NoDup names').
      { destruct scales; injection E as <- _; [split; [apply incl_refl|auto]|]. destruct once; split; auto.
        - intros x []. - constructor. - apply incl_refl. }
      destruct X as [X1 X2]. destruct (combine_fst_in names' scales') as [c Ec].
      apply add_pairs_stored; auto.
      + now apply inv_cache.
      + rewrite Ec. now apply firstn_nodup.
      + intros n Hn. rewrite Ec in Hn. apply firstn_incl in Hn. apply K. now apply X1.
    - intros [Hp K]. pose proof (A p Hp) as Sp. pose proof I as [C W]. pose proof (stored_key F t p C Sp) as Kp.
      specialize (K _ Kp). split; [eexists; split; [exact Kp|]; tauto|].
      unfold node_add_choice.
      destruct (name_ok name && scale_ok F scale)%bool eqn:V.
      + apply andb_true_iff in V. destruct V as [Hn Hs]. rewrite create_child_shape by auto. cbn [fst t_heap t_all t_top t_cached].
        apply all_stored_add; auto. rewrite set_child_length, app_length. simpl. lia.
      + unfold create_node.
        destruct (dmem String.eqb (t_all t) (full_name (t_heap t) p ++ "." ++ name)) eqn:E;
          [apply (dmem_iff String.eqb string_eqb_spec) in E; exfalso; apply K; exact E|].
        unfold new_node. rewrite V. exact A.
    - intros Hp. split; [apply in_model_stored; now apply A|]. unfold set_scale.
      destruct (scale_ok F scale); auto. destruct (nth_error (t_heap t) p); auto.
      intros i Hi. simpl in *. rewrite upd_length in Hi. apply A in Hi. exact Hi.
    - intros _. split; auto. unfold partial_utilities. destruct (validate_tree t); auto. destruct (t_cached t); auto.
      destruct (choices t); auto.
  Qed.

  Lemma fresh_history l : forall t, inv t -> all_stored t -> history fresh_op t l -> history replacing_op t l.
  Proof.
    induction l as [|o l IH]; intros t I A H; simpl in *; auto. destruct H as [H1 H2].
    destruct (fresh_step t o I A H1) as [R A']. split; auto. apply IH; auto. now apply run_op_inv.
  Qed.

  Lemma inv_consistent t : inv t -> tree_consistent t.
  Proof.
    intros I. pose proof I as [C W]. split; [now apply c_keys|]. split; [now apply ids_nodup|]. split.
    - intros i. rewrite (c_top F t C). rewrite <- in_model_stored. unfold parent_id. split.
      + intros [S P]. apply in_model_stored in S. destruct (stored_node F t i C S) as [nd E]. exists nd.
        rewrite E in P. rewrite in_model_stored. auto.
      + intros (nd & S & E & P). rewrite E. auto.
    - intros key i H. assert (S : stored t i) by (eapply in_vals; eauto).
      destruct (c_node F t C i S) as (nd & E & Sc & P). exists nd. split; auto. split; [|split; [|split; [|split; [|split; [|split]]]]].
      + rewrite (c_key F t C _ _ H). unfold full_name. rewrite path_eq, E by auto. unfold spec_key.
        destruct (nd_parent nd) as [p|] eqn:Ep; auto. destruct P as [Sp _]. exists (full_name (t_heap t) p).
        split; [now apply stored_key|]. apply join_snoc. destruct (stored_node F t p C Sp) as [np Enp]. exact (path_ne F _ W p np Enp).
      + destruct (nd_parent nd); tauto.
      + now apply children_nil_iff.
      + unfold scale_ok in Sc. apply andb_true_iff in Sc. tauto.
      + unfold scale_ok in Sc. apply andb_true_iff in Sc. tauto.
      + apply name_ok_dot. eapply hw_name; eauto.
      + pose proof (hw_name F _ W i nd E) as X. unfold name_ok in X. apply andb_true_iff in X. destruct X as [_ X].
        apply negb_true_iff in X. now apply String.eqb_neq.
  Qed.
End TH.

(** ** The effect of a successful call *)
Section Effects.
  Context (F : arith).
  Implicit Types t : tree F.

  Lemma add_choice_new t name scale :
    ~ In name (dkeys (t_all t)) -> name_ok name = true -> scale_ok F scale = true ->
    add_choice F t name scale =
      (Tree (t_heap t ++ [Node name None scale 1 []]) (t_all t ++ [(name, length (t_heap t))])%list
            (set_add (t_top t) (length (t_heap t))) None, Ok (length (t_heap t))).
  Proof.
    intros H Hn Hs. unfold add_choice, create_node. cbn [t_all drop_cache].
    pose proof H as H'. apply (dget_none String.eqb string_eqb_spec) in H'. rewrite H'.
    unfold new_node. rewrite Hn, Hs. cbn [andb t_heap t_all t_top t_cached drop_cache].
    rewrite (dset_absent String.eqb string_eqb_spec) by auto. reflexivity.
  Qed.
  Lemma node_add_new t p name scale :
    let key := (full_name (t_heap t) p ++ "." ++ name)%string in
    ~ In key (dkeys (t_all t)) -> name_ok name = true -> scale_ok F scale = true ->
    node_add_choice F t p name scale =
      (Tree (set_child F (t_heap t ++ [Node name (Some p) scale (S (level_of (t_heap t) p)) []]) p name (length (t_heap t)))
            (t_all t ++ [(key, length (t_heap t))])%list (t_top t) (t_cached t), Ok (length (t_heap t))).
  Proof.
    intros key H Hn Hs. unfold node_add_choice, create_node. fold key.
    destruct (dmem String.eqb (t_all t) key) eqn:E; [apply (dmem_iff String.eqb string_eqb_spec) in E; tauto|].
    unfold new_node. rewrite Hn, Hs. cbn [andb]. rewrite (dset_absent String.eqb string_eqb_spec) by auto. reflexivity.
  Qed.
  Lemma node_add_fail t p name scale :
    ~ In (full_name (t_heap t) p ++ "." ++ name)%string (dkeys (t_all t)) -> (name_ok name && scale_ok F scale)%bool = false ->
    node_add_choice F t p name scale = (t, Err AssertionError).
  Proof.
    intros H V. unfold node_add_choice, create_node.
    destruct (dmem String.eqb (t_all t) _) eqn:E; [apply (dmem_iff String.eqb string_eqb_spec) in E; tauto|].
    unfold new_node. rewrite V. reflexivity.
  Qed.
End Effects.
