(** Property C76: the nodes of a copied model.  copy() and copy_subset() copy the dictionary and the set of the nodes
    of the model, not the ChoiceNode objects (model.py 687-689, 733-735); each node keeps the model that created it as
    its [_root] (api.py 32), and its [add_choice] registers children there (api.py 103-106).  Here the models share one
    heap of nodes; the operations on one model are those of TreeModel.v. *)
From Verif Require Import Prelude Arith CoreModel TreeModel DictProofs TreeProofs ModelExample PropState.
Local Open Scope string_scope.
Local Open Scope nat_scope.
Local Open Scope list_scope.

Section Shared.
  Context (F : arith).
  Notation node := (node F).
  Notation tree := (tree F).
  Notation num := (num F).

  (** what a model holds of the tree: [_all_nodes], [_top_nodes], the columns of [_cached_utils] *)
  Record holding : Type := Holding { ho_all : dict string nat; ho_top : list nat; ho_cached : option (list label) }.
  (** the nodes, the [_root] of each node, the models *)
  Record sworld : Type := SWorld { s_heap : list node; s_root : list nat; s_models : list holding }.
  Definition s_start : sworld := SWorld [] [] [].
  Definition holds (w : sworld) (i : nat) : holding := nth i (s_models w) (Holding [] [] None).
  (** the tree as model [i] sees it *)
  Definition tree_of (w : sworld) (i : nat) : tree := Tree (s_heap w) (ho_all (holds w i)) (ho_top (holds w i)) (ho_cached (holds w i)).
  (** the effect of an operation executed on model [i]; nodes created by it have [i] as root *)
  Definition put (w : sworld) (i : nat) (t : tree) : sworld :=
    SWorld (t_heap t) (s_root w ++ repeat i (length (t_heap t) - length (s_heap w)))
           (upd (s_models w) i (Holding (t_all t) (t_top t) (t_cached t))).

  Inductive sop : Type :=
  | SNew                                                                          (* model.py 27-45 *)
  | SAddChoice (i : nat) (name : string) (scale : num)                            (* model.py 95-118 *)
  | SAddChoices (i : nat) (names : list string) (once : bool) (scales : option (list num))  (* model.py 120-146 *)
  | SPartial (i : nat)                                                            (* model.py 65-75 *)
  | SNodeAdd (p : nat) (name : string) (scale : num)                              (* api.py 103-106, on the node's root *)
  | SSetScale (p : nat) (scale : num)                                             (* api.py 48-51 *)
  | SCopy (i : nat).                                                              (* model.py 684-690, 730-737 *)
  Definition sstep (w : sworld) (o : sop) : sworld :=
    match o with
    | SNew => SWorld (s_heap w) (s_root w) (s_models w ++ [Holding [] [] None])
    | SAddChoice i name scale => put w i (run_op F (tree_of w i) (AddChoice name scale))
    | SAddChoices i names once scales => put w i (run_op F (tree_of w i) (AddChoices names once scales))
    | SPartial i => put w i (run_op F (tree_of w i) PartialUtilities)
    | SNodeAdd p name scale => let i := nth p (s_root w) 0 in put w i (run_op F (tree_of w i) (NodeAdd p name scale))
    | SSetScale p scale => let i := nth p (s_root w) 0 in put w i (run_op F (tree_of w i) (SetScale p scale))
    | SCopy i => SWorld (s_heap w) (s_root w) (s_models w ++ [holds w i])
    end.
  Definition srun (w : sworld) (l : list sop) : sworld := fold_left sstep l w.

  (** ** A longer heap does not change what a model sees *)
  Definition sees (w : sworld) : Prop :=
    (forall i nd p, nth_error (s_heap w) i = Some nd -> nd_parent nd = Some p -> p < i) /\
    forall i x, In x (dvals (ho_all (holds w i))) -> x < length (s_heap w).
  Definition extends (h h' : list node) : Prop := exists l, h' = h ++ l /\ forall nd, In nd l -> nd_parent nd = None.

  Lemma extends_refl h : extends h h. Proof. exists []. rewrite app_nil_r. split; auto. intros nd []. Qed.
  Lemma extends_trans a b c : extends a b -> extends b c -> extends a c.
  Proof. intros (l & -> & H) (l' & -> & H'). exists (l ++ l'). rewrite app_assoc. split; auto. intros nd I. apply in_app_or in I. destruct I; auto. Qed.
  Lemma extends_nth a b i : extends a b -> i < length a -> nth_error b i = nth_error a i.
  Proof. intros (l & -> & _) H. now apply nth_error_app1. Qed.
  Lemma extends_parent a b : extends a b -> (forall i nd p, nth_error a i = Some nd -> nd_parent nd = Some p -> p < i) -> forall i nd p, nth_error b i = Some nd -> nd_parent nd = Some p -> p < i.
  Proof.
    intros X H i nd p N P. destruct (Nat.lt_ge_cases i (length a)) as [LT|GE].
    - rewrite (extends_nth a b i X LT) in N. eauto.
    - destruct X as (l & -> & X). rewrite nth_error_app2 in N by auto. apply nth_error_In in N. rewrite (X nd N) in P. discriminate.
  Qed.
  Lemma extends_length a b : extends a b -> length a <= length b. Proof. intros (l & -> & _). rewrite app_length. lia. Qed.

  (** the operations on a whole model create top-level nodes at the end of the heap *)
  Lemma new_node_heap (t : tree) key name scale level : extends (t_heap t) (t_heap (fst (new_node F t key name scale None level))).
  Proof. unfold new_node. destruct (andb _ _); cbn; [|apply extends_refl]. eexists. split; [reflexivity|]. intros nd [<-|[]]; auto. Qed.
  Lemma create_heap (t : tree) name scale : extends (t_heap t) (t_heap (fst (create_node F t name scale None))).
  Proof.
    unfold create_node. destruct (dget String.eqb (t_all t) name) as [old|]; [|apply new_node_heap].
    destruct (set_remove (t_top t) old) as [top'|]; [|apply extends_refl]. exact (new_node_heap (Tree (t_heap t) _ top' (t_cached t)) name name scale 1).
  Qed.
  Lemma pairs_heap : forall l (t : tree), extends (t_heap t) (t_heap (fst (add_pairs F t l))).
  Proof.
    induction l as [|[name scale] l IH]; intros t; cbn [add_pairs]; [apply extends_refl|].
    pose proof (create_heap t name scale) as H. destruct (create_node F t name scale None) as [t' [id|e]]; cbn in H |- *; auto.
    specialize (IH (add_top F t' id)). destruct (add_pairs F (add_top F t' id) l) as [t'' [ids|e]]; cbn in IH |- *; eapply extends_trans; eauto.
  Qed.

  (** values of the dictionaries stay in the heap *)
  Lemma dset_vals (d : dict string nat) k v x : In x (dvals (dset String.eqb d k v)) -> x = v \/ In x (dvals d).
  Proof.
    unfold dvals. induction d as [|[k' v'] d IH]; cbn; [intuition|]. destruct (String.eqb k k'); cbn; intuition.
  Qed.
  Lemma ddel_vals (d : dict string nat) k x : In x (dvals (ddel String.eqb d k)) -> In x (dvals d).
  Proof. unfold dvals. induction d as [|[k' v'] d IH]; cbn; auto. destruct (String.eqb k k'); cbn; intuition. Qed.
  Definition held (t : tree) : Prop := forall x, In x (dvals (t_all t)) -> x < length (t_heap t).
  Lemma new_node_held (t : tree) key name scale parent level : held t -> held (fst (new_node F t key name scale parent level)).
  Proof.
    unfold new_node, held. intros H. destruct (andb _ _); cbn; auto. intros x I. rewrite app_length. cbn. apply dset_vals in I. destruct I as [->|I]; [lia|]. specialize (H x I). lia.
  Qed.
  Lemma create_held (t : tree) name scale parent : held t -> held (fst (create_node F t name scale parent)).
  Proof.
    intros H. assert (HD : forall k, held (Tree (t_heap t) (ddel String.eqb (t_all t) k) (t_top t) (t_cached t))) by (intros k x I; apply ddel_vals in I; auto).
    unfold create_node. destruct parent as [p|].
    - apply new_node_held. destruct (dmem _ _ _); auto.
    - destruct (dget String.eqb (t_all t) name) as [old|]; [|now apply new_node_held].
      destruct (set_remove (t_top t) old) as [top'|]; [|exact (HD name)]. apply new_node_held. exact (HD name).
  Qed.
  Lemma pairs_held : forall l (t : tree), held t -> held (fst (add_pairs F t l)).
  Proof.
    induction l as [|[name scale] l IH]; intros t H; cbn [add_pairs]; auto.
    pose proof (create_held t name scale None H) as H1. destruct (create_node F t name scale None) as [t' [id|e]]; cbn in H1 |- *; auto.
    specialize (IH (add_top F t' id) H1). destruct (add_pairs F (add_top F t' id) l) as [t'' [ids|e]]; auto.
  Qed.
  Lemma add_choice_held (t : tree) name scale : held t -> held (fst (add_choice F t name scale)) /\ extends (t_heap t) (t_heap (fst (add_choice F t name scale))).
  Proof.
    intros H. unfold add_choice. pose proof (create_held (drop_cache F t) name scale None H) as H1. pose proof (create_heap (drop_cache F t) name scale) as H2.
    destruct (create_node F (drop_cache F t) name scale None) as [t' [id|e]]; auto.
  Qed.
  Lemma add_choices_held (t : tree) names once scales : held t -> held (fst (add_choices F t names once scales)) /\ extends (t_heap t) (t_heap (fst (add_choices F t names once scales))).
  Proof. intros H. unfold add_choices. destruct scales; (split; [apply pairs_held; exact H|exact (pairs_heap _ (drop_cache F t))]). Qed.
  Lemma partial_held (t : tree) : t_heap (fst (partial_utilities F t)) = t_heap t /\ t_all (fst (partial_utilities F t)) = t_all t.
  Proof. unfold partial_utilities. destruct (validate_tree t); auto. destruct (t_cached t); auto. destruct (choices t); auto. Qed.

  (** a change of one node that keeps its parent, or new nodes *)
  Lemma put_sees w i (t : tree) : sees w -> length (s_heap w) <= length (t_heap t) -> held t -> (forall i nd p, nth_error (t_heap t) i = Some nd -> nd_parent nd = Some p -> p < i) -> sees (put w i t).
  Proof.
    intros [_ S] LE H P. split; [exact P|]. unfold holds. cbn. intros j x I. destruct (Nat.eq_dec i j) as [<-|N].
    - destruct (lt_dec i (length (s_models w))) as [LT|GE]; [rewrite nth_upd_eq in I by auto; apply H, I|].
      rewrite nth_overflow in I by (rewrite upd_length; lia). destruct I.
    - rewrite nth_upd_neq in I by auto. specialize (S j x I). lia.
  Qed.
  Lemma node_add_parents (t : tree) p name scale : p < length (t_heap t) -> (forall i nd q, nth_error (t_heap t) i = Some nd -> nd_parent nd = Some q -> q < i) ->
    (forall i nd q, nth_error (t_heap (fst (node_add_choice F t p name scale))) i = Some nd -> nd_parent nd = Some q -> q < i) /\
    length (t_heap t) <= length (t_heap (fst (node_add_choice F t p name scale))).
  Proof.
    intros LP H. unfold node_add_choice, create_node. set (t1 := if dmem _ _ _ then _ else _).
    assert (T1 : t_heap t1 = t_heap t) by (unfold t1; destruct (dmem _ _ _); reflexivity). unfold new_node. rewrite T1. destruct (andb _ _); cbn [fst]; [|rewrite T1; auto].
    cbn [t_heap]. unfold set_child. rewrite nth_error_app1 by auto. destruct (nth_error (t_heap t) p) as [nd0|] eqn:N0; [|apply nth_error_None in N0; lia].
    split; [|rewrite upd_length, app_length; lia].
    intros i nd q N P. destruct (Nat.eq_dec p i) as [<-|NE].
    - rewrite nth_error_upd_eq in N by (rewrite app_length; lia). injection N as <-. cbn in P. eauto.
    - rewrite nth_error_upd_neq in N by auto. destruct (Nat.lt_ge_cases i (length (t_heap t))) as [LT|GE].
      + rewrite nth_error_app1 in N by auto. eauto.
      + rewrite nth_error_app2 in N by auto. destruct (i - length (t_heap t)) as [|k] eqn:K; cbn in N; [|destruct k; discriminate]. injection N as <-. cbn in P. injection P as <-. lia.
  Qed.

  (** ** The same view over a longer heap *)
  Section View.
    Context (h h' : list node) (X : forall i, i < length h -> nth_error h' i = nth_error h i) (P : forall i nd p, nth_error h i = Some nd -> nd_parent nd = Some p -> p < i).
    Lemma same_nth i : i < length h -> nth_error h' i = nth_error h i. Proof using X. intros. now apply X. Qed.
    Lemma same_level i : i < length h -> level_of h' i = level_of h i. Proof using X. intros. unfold level_of. now rewrite same_nth. Qed.
    Lemma same_children i : i < length h -> n_children h' i = n_children h i. Proof using X. intros. unfold n_children. now rewrite same_nth. Qed.
    Lemma same_is_parent i : i < length h -> is_parent h' i = is_parent h i. Proof using X. intros. unfold is_parent. now rewrite same_children. Qed.
    Lemma same_path : forall fuel i, i < length h -> path_of F fuel h' i = path_of F fuel h i.
    Proof using X P.
      induction fuel as [|fuel IH]; intros i L; cbn; auto. rewrite same_nth by auto. destruct (nth_error h i) as [nd|] eqn:N; auto. destruct (nd_parent nd) as [p|] eqn:Q; auto.
      rewrite IH; auto. specialize (P i nd p N Q). lia.
    Qed.
    Lemma same_full i : i < length h -> full_name h' i = full_name h i. Proof using X P. intros. unfold full_name, path. now rewrite same_path. Qed.
    Lemma same_nested : forall fuel m i, i < length h -> nested_id_of F fuel h' m i = nested_id_of F fuel h m i.
    Proof using X P.
      induction fuel as [|fuel IH]; intros m i L; cbn [nested_id_of]; auto. rewrite same_nth by auto. destruct (nth_error h i) as [nd|] eqn:N; auto. destruct (nd_parent nd) as [p|] eqn:Q; auto.
      rewrite IH; auto. specialize (P i nd p N Q). lia.
    Qed.
    Lemma same_id m i : i < length h -> nested_id h' m i = nested_id h m i. Proof using X P. intros. unfold nested_id. now apply same_nested. Qed.

    Context (all : dict string nat) (top : list nat) (c c' : option (list label)) (H : forall x, In x (dvals all) -> x < length h).
    Notation t := (Tree h all top c).
    Notation t' := (Tree h' all top c').
    Lemma same_validate : validate_tree t' = validate_tree t.
    Proof using X H.
      unfold validate_tree. cbn [t_top t_heap]. destruct (negb (2 <=? length top)); auto. unfold ids. cbn [t_all].
      replace (existsb (fun id => n_children h' id =? 1) (dvals all)) with (existsb (fun id => n_children h id =? 1) (dvals all)); auto.
      clear - H X. induction (dvals all) as [|x l IH]; cbn; auto. rewrite same_children by (apply H; now left). rewrite IH; auto. intros y I. apply H. now right.
    Qed.
    Lemma same_depth : depth t' = depth t.
    Proof using X H.
      unfold depth, ids. cbn [t_all t_heap]. assert (M : map (level_of h') (dvals all) = map (level_of h) (dvals all)) by (apply map_ext_in; intros x I; apply same_level; auto).
      destruct (dvals all); auto. now rewrite M.
    Qed.
    Lemma same_choices : choices t' = choices t.
    Proof using X P H.
      unfold choices. rewrite same_validate, same_depth. destruct (validate_tree t); cbn [rbind]; auto. destruct (depth t) as [d|]; cbn [rbind]; auto. destruct (d =? 1); auto. cbn [t_heap]. f_equal.
      unfold ids. cbn [t_all]. apply map_ext_in. intros x I. now rewrite same_id by auto.
    Qed.
    Lemma same_elemental : elemental_choices t' = elemental_choices t.
    Proof using X P H.
      unfold elemental_choices. rewrite same_choices, same_depth. destruct (depth t) as [d|]; cbn [rbind]; auto. destruct (d =? 1); auto. cbn [t_heap]. f_equal.
      unfold ids. cbn [t_all]. assert (FE : filter (fun id => negb (is_parent h' id)) (dvals all) = filter (fun id => negb (is_parent h id)) (dvals all)).
      { clear - H X. induction (dvals all) as [|x l IH]; cbn; auto. rewrite same_is_parent by (apply H; now left). rewrite IH by (intros y I; apply H; now right). reflexivity. }
      rewrite FE. apply map_ext_in. intros x I. apply filter_In in I. destruct I as [I _]. now rewrite same_id by auto.
    Qed.
    Lemma same_positions : node_positions F t' = node_positions F t.
    Proof using X P H.
      unfold node_positions, ids. cbn [t_all t_heap]. generalize (@nil (string * nat)) as acc. generalize 0 as k. clear - H X P. induction (dvals all) as [|x l IH]; intros k acc; [reflexivity|]. cbn [length seq combine fold_left fst snd].
      rewrite same_full by (apply H; now left). apply IH. intros y I. apply H. now right.
    Qed.
    Lemma same_flat_node np acc x : x < length h -> flatten_node F t' np acc x = flatten_node F t np acc x.
    Proof using X P.
      intros L. unfold flatten_node. destruct acc as [[[[hh lv] sc] bt]|]; cbn [rbind]; auto. cbn [t_heap]. rewrite same_nth, same_full, same_is_parent by auto.
      destruct (nth_error h x) as [nd|] eqn:N; auto. destruct (dget String.eqb np (full_name h x)); auto. destruct (nd_parent nd) as [p|] eqn:Q; auto.
      rewrite same_full; auto. specialize (P x nd p N Q). lia.
    Qed.
    Lemma same_flatten : flatten F t' = flatten F t.
    Proof using X P H.
      unfold flatten. rewrite same_depth, same_positions. destruct (depth t) as [d|]; cbn [rbind]; auto. destruct (negb (1 <? d)); auto. cbn [t_all]. unfold ids. cbn [t_all].
      match goal with |- fold_left _ _ ?a = _ => generalize a end. generalize (node_positions F t). clear - H X P. induction (dvals all) as [|x l IH]; intros np acc; cbn; auto.
      rewrite same_flat_node by (apply H; now left). apply IH. intros y I. apply H. now right.
    Qed.
    Lemma same_row u scale check : stochastic_row F t' u scale check = stochastic_row F t u scale check.
    Proof using X P H. unfold stochastic_row, nested_frame_row. now rewrite same_depth, same_flatten, same_elemental, same_choices. Qed.
  End View.

  (** ** Histories *)
  Definition on_nodes (w : sworld) (o : sop) : Prop := match o with SNodeAdd p _ _ | SSetScale p _ => p < length (s_heap w) | _ => True end.
  Fixpoint on_nodes_all (w : sworld) (l : list sop) : Prop := match l with [] => True | o :: r => on_nodes w o /\ on_nodes_all (sstep w o) r end.
  Lemma held_of w i : sees w -> held (tree_of w i). Proof. intros [_ S] x I. exact (S i x I). Qed.
  Lemma step_sees w o : sees w -> on_nodes w o -> sees (sstep w o).
  Proof.
    intros S O. pose proof S as [S1 S2]. destruct o as [|i name scale|i names once scales|i|p name scale|p scale|i]; cbn [sstep run_op].
    - split; [exact S1|]. intros i x I. unfold holds in I. cbn in I. destruct (lt_dec i (length (s_models w))) as [LT|GE]; [rewrite app_nth1 in I by auto; apply (S2 i x I)|].
      rewrite app_nth2 in I by lia. destruct (i - length (s_models w)) as [|[|k]]; destruct I.
    - destruct (add_choice_held (tree_of w i) name scale (held_of w i S)) as [A B]. apply put_sees; auto; [apply (extends_length _ _ B)|]. eapply extends_parent; [exact B|exact S1].
    - destruct (add_choices_held (tree_of w i) names once scales (held_of w i S)) as [A B]. apply put_sees; auto; [apply (extends_length _ _ B)|]. eapply extends_parent; [exact B|exact S1].
    - destruct (partial_held (tree_of w i)) as [A B]. apply put_sees; auto; [rewrite A; auto| |rewrite A; exact S1]. unfold held. rewrite A, B. apply (held_of w i S).
    - destruct (node_add_parents (tree_of w (nth p (s_root w) 0)) p name scale O S1) as [A B]. apply put_sees; auto.
      unfold node_add_choice. pose proof (create_held (tree_of w (nth p (s_root w) 0)) name scale (Some p) (held_of w _ S)) as C.
      destruct (create_node F (tree_of w (nth p (s_root w) 0)) name scale (Some p)) as [t' [id|e]]; auto. cbn in C |- *. intros x I. cbn. unfold set_child. destruct (nth_error (t_heap t') p); [rewrite upd_length|]; apply C, I.
    - unfold set_scale. destruct (scale_ok F scale); [|apply put_sees; auto; apply (held_of w _ S)]. destruct (nth_error (t_heap (tree_of w (nth p (s_root w) 0))) p) as [nd|] eqn:N; [|apply put_sees; auto; apply (held_of w _ S)].
      apply put_sees; auto; cbn [fst t_heap]; [now rewrite upd_length| |].
      + intros x I. cbn. rewrite upd_length. exact (held_of w _ S x I).
      + intros i nd' q N' Q. destruct (Nat.eq_dec p i) as [<-|NE]; [rewrite nth_error_upd_eq in N' by auto; injection N' as <-; cbn in Q; eauto|]. rewrite nth_error_upd_neq in N' by auto. eauto.
    - split; [exact S1|]. intros j x I. unfold holds in I. cbn in I. destruct (lt_dec j (length (s_models w))) as [LT|GE]; [rewrite app_nth1 in I by auto; apply (S2 j x I)|].
      rewrite app_nth2 in I by lia. destruct (j - length (s_models w)) as [|[|k]]; [apply (S2 i x I)|destruct I|destruct I].
  Qed.
  Lemma run_sees : forall l w, sees w -> on_nodes_all w l -> sees (srun w l).
  Proof. induction l as [|o l IH]; intros w S H; auto. destruct H as [H1 H2]. cbn. apply IH; auto. now apply step_sees. Qed.

  (** calls on models other than [i], and on nodes created after the first [n] *)
  Definition elsewhere (n i : nat) (o : sop) : Prop :=
    match o with SAddChoice j _ _ | SAddChoices j _ _ _ | SPartial j => j <> i | SNodeAdd p _ _ | SSetScale p _ => n <= p | SNew | SCopy _ => True end.
  (** every node has a root; those created after the first [n] have another root than [i] *)
  Definition rooted (w : sworld) : Prop := length (s_root w) = length (s_heap w).
  Definition later_roots (n i : nat) (w : sworld) : Prop := forall p, n <= p < length (s_heap w) -> nth p (s_root w) 0 <> i.
  Lemma put_rooted w i (t : tree) : rooted w -> length (s_heap w) <= length (t_heap t) -> rooted (put w i t).
  Proof. unfold rooted, put. cbn. intros R L. rewrite app_length, repeat_length. lia. Qed.
  Lemma put_roots w n i j (t : tree) : rooted w -> later_roots n i w -> j <> i -> later_roots n i (put w j t).
  Proof.
    unfold later_roots, rooted, put. cbn. intros R H N p [L1 L2]. destruct (Nat.lt_ge_cases p (length (s_heap w))) as [LT|GE].
    - rewrite app_nth1 by lia. apply H. lia.
    - rewrite app_nth2 by lia. rewrite (nth_indep _ 0 j) by (rewrite repeat_length; lia). now rewrite nth_repeat.
  Qed.
  Lemma heap_grows w o : sees w -> on_nodes w o -> length (s_heap w) <= length (s_heap (sstep w o)).
  Proof.
    intros S O. pose proof S as [S1 S2]. destruct o as [|i name scale|i names once scales|i|p name scale|p scale|i]; cbn [sstep run_op s_heap put]; auto.
    - apply extends_length, (add_choice_held (tree_of w i) name scale (held_of w i S)).
    - apply extends_length, (add_choices_held (tree_of w i) names once scales (held_of w i S)).
    - destruct (partial_held (tree_of w i)) as [A _]. now rewrite A.
    - apply (node_add_parents (tree_of w (nth p (s_root w) 0)) p name scale O S1).
    - unfold set_scale. destruct (scale_ok F scale); auto. cbn [t_heap tree_of]. destruct (nth_error (s_heap w) p); auto. cbn [fst t_heap]. now rewrite upd_length.
  Qed.
  Lemma step_rooted w o : sees w -> on_nodes w o -> rooted w -> rooted (sstep w o).
  Proof. intros S O R. pose proof (heap_grows w o S O) as L. destruct o; cbn [sstep] in *; auto; apply put_rooted; auto. Qed.
  Lemma run_rooted : forall l w, sees w -> on_nodes_all w l -> rooted w -> rooted (srun w l).
  Proof. induction l as [|o l IH]; intros w S [] R; auto. cbn. apply IH; auto; [now apply step_sees|now apply step_rooted]. Qed.
  (** the first [n] nodes are the same *)
  Definition agree (n : nat) (h h' : list node) : Prop := forall i, i < n -> nth_error h' i = nth_error h i.
  Lemma elsewhere_step w o n i : sees w -> rooted w -> on_nodes w o -> n <= length (s_heap w) -> later_roots n i w -> elsewhere n i o -> i < length (s_models w) ->
    holds (sstep w o) i = holds w i /\ agree n (s_heap w) (s_heap (sstep w o)) /\ later_roots n i (sstep w o) /\ length (s_models w) <= length (s_models (sstep w o)).
  Proof.
    intros S R ON LN LR O LT. pose proof S as [S1 S2].
    assert (PUT : forall j (t : tree), j <> i -> agree n (s_heap w) (t_heap t) -> holds (put w j t) i = holds w i /\ agree n (s_heap w) (s_heap (put w j t)) /\ later_roots n i (put w j t) /\ length (s_models w) <= length (s_models (put w j t))).
    { intros j t N A. split; [unfold holds; cbn; now apply nth_upd_neq|]. split; [exact A|]. split; [now apply put_roots|cbn; now rewrite upd_length]. }
    assert (NEW : forall ho, let w' := SWorld (s_heap w) (s_root w) (s_models w ++ [ho]) in holds w' i = holds w i /\ agree n (s_heap w) (s_heap w') /\ later_roots n i w' /\ length (s_models w) <= length (s_models w')).
    { intros ho. cbn zeta. split; [unfold holds; cbn; now apply app_nth1|]. split; [intros k _; reflexivity|]. split; [exact LR|cbn; rewrite app_length; lia]. }
    destruct o as [|j name scale|j names once scales|j|p name scale|p scale|j]; cbn [sstep run_op elsewhere on_nodes] in *; try apply NEW; apply PUT; auto.
    - intros k Hk. apply extends_nth; [|lia]. apply (add_choice_held (tree_of w j) name scale (held_of w j S)).
    - intros k Hk. apply extends_nth; [|lia]. apply (add_choices_held (tree_of w j) names once scales (held_of w j S)).
    - destruct (partial_held (tree_of w j)) as [A _]. rewrite A. intros k _. reflexivity.
    - intros k Hk. unfold node_add_choice, create_node. set (t1 := if dmem _ _ _ then _ else _).
      assert (T1 : t_heap t1 = s_heap w) by (unfold t1; destruct (dmem _ _ _); reflexivity). unfold new_node. rewrite T1. destruct (andb _ _); cbn [fst]; [|now rewrite T1].
      cbn [t_heap]. unfold set_child. rewrite nth_error_app1 by auto. destruct (nth_error (s_heap w) p) as [nd0|]; [|apply nth_error_app1; lia].
      rewrite nth_error_upd_neq by lia. apply nth_error_app1. lia.
    - unfold set_scale. destruct (scale_ok F scale); [|intros k _; reflexivity]. cbn [t_heap tree_of]. destruct (nth_error (s_heap w) p); [|intros k _; reflexivity].
      intros k Hk. cbn [fst t_heap]. apply nth_error_upd_neq. lia.
  Qed.
  Lemma elsewhere_run : forall l w n i, sees w -> rooted w -> on_nodes_all w l -> n <= length (s_heap w) -> later_roots n i w -> Forall (elsewhere n i) l -> i < length (s_models w) ->
    holds (srun w l) i = holds w i /\ agree n (s_heap w) (s_heap (srun w l)).
  Proof.
    induction l as [|o l IH]; intros w n i S R ON LN LR H LT; [split; [auto|intros k _; reflexivity]|]. inversion H; subst. destruct ON as [ON1 ON2].
    destruct (elsewhere_step w o n i S R ON1 LN LR) as (A & B & C & E); auto. pose proof (heap_grows w o S ON1).
    destruct (IH (sstep w o) n i) as [G I]; auto; [now apply step_sees|now apply step_rooted|lia|lia|]. change (srun w (o :: l)) with (srun (sstep w o) l). split; [congruence|].
    intros k Hk. rewrite (I k Hk). now apply B.
  Qed.
  Lemma on_nodes_app : forall l l' w, on_nodes_all w (l ++ l') -> on_nodes_all w l /\ on_nodes_all (srun w l) l'.
  Proof. induction l as [|o l IH]; intros l' w H; [split; [exact I|exact H]|]. destruct H as [H1 H2]. destruct (IH l' _ H2). split; [split; auto|auto]. Qed.

  (** Whatever is done to other models (copies of this one included) and to the nodes they get after this point - choices
      added, nests under new choices at any depth, scales of new nodes, further copies - changes neither the choices of a
      model, nor its flattened tree, nor the probabilities it computes from given utilities. *)
  Theorem C76_new_nodes_isolated_partial (l l' : list sop) i :
    on_nodes_all s_start (l ++ l') -> Forall (elsewhere (length (s_heap (srun s_start l))) i) l' -> i < length (s_models (srun s_start l)) ->
    let t := tree_of (srun s_start l) i in let t' := tree_of (srun s_start (l ++ l')) i in
    validate_tree t' = validate_tree t /\ depth t' = depth t /\ choices t' = choices t /\ elemental_choices t' = elemental_choices t /\ flatten F t' = flatten F t /\
    t_cached t' = t_cached t /\
    forall u scale check, stochastic_row F t' u scale check = stochastic_row F t u scale check.
  Proof.
    intros H H' LT. cbv zeta. destruct (on_nodes_app _ _ _ H) as [H0 H1]. unfold srun. rewrite fold_left_app. fold (srun s_start l). set (w := srun s_start l) in *.
    assert (S0 : sees s_start) by (split; [intros k nd p N; destruct k; discriminate|intros [|k] x []]).
    assert (S : sees w) by (apply run_sees; auto).
    destruct (elsewhere_run l' w (length (s_heap w)) i S) as [A B]; auto; [apply run_rooted; auto; reflexivity|intros p; lia|]. unfold srun in A, B. unfold tree_of. rewrite A. destruct S as [S1 S2]. specialize (S2 i).
    repeat split; intros; first [apply same_validate|apply same_depth|apply same_choices|apply same_elemental|apply same_flatten|apply same_row]; auto.
  Qed.
End Shared.
Unset Default Proof Using.
Arguments SNew {F}. Arguments SAddChoice {F}. Arguments SAddChoices {F}. Arguments SPartial {F}. Arguments SNodeAdd {F}. Arguments SSetScale {F}. Arguments SCopy {F}.
Print Assumptions C76_new_nodes_isolated_partial.

(** ** Through the nodes a copy changes its original *)
Notation idF := (B64 (fun x => x) (fun x => x)).
(** node 0 is the choice A of the original; the copy (model 1) holds the same node *)
Theorem C76_nest_in_copy_refuted : exists l : list (sop idF),
  let w := srun idF (s_start idF) l in let w' := srun idF w [SNodeAdd (F:=idF) 0 "C" (flz 1); SNodeAdd (F:=idF) 0 "D" (flz 1)] in
  In ("A", 0) (t_all (tree_of idF w 1)) /\
  choices (tree_of idF w 0) = Ok [Flat "A"; Flat "B"] /\
  choices (tree_of idF w' 0) = Ok [Tup ["A"; "."]; Tup ["B"; "."]; Tup ["A"; "C"]; Tup ["A"; "D"]] /\
  choices (tree_of idF w' 1) = Ok [Flat "A"; Flat "B"].
Proof. exists [SNew (F:=idF); SAddChoices 0 ["A"; "B"] false None; SCopy 0]. vm_compute. auto. Qed.
(** a logsum scale set on a node of the copy (model 1) is the scale in the original (model 0) *)
Definition half : float64 := BinarySingleNaN.Bldexp BinarySingleNaN.mode_NE (flz 1) (-1).
Definition exact_scales (r : res (flat idF)) : res (list SpecFloat.spec_float) := rmap (fun f : flat idF => let '(_, _, sc, _) := f in map (@BinarySingleNaN.B2SF 53 1024) sc) r.
Theorem C76_scale_in_copy_refuted : exists l : list (sop idF),
  let w := srun idF (s_start idF) l in let w' := srun idF w [SSetScale (F:=idF) 0 half] in
  In ("A", 0) (t_all (tree_of idF w 1)) /\
  exact_scales (flatten idF (tree_of idF w 0)) = Ok [sfz 1; sfz 1; sfz 1; sfz 1] /\
  exact_scales (flatten idF (tree_of idF w' 0)) = Ok [BinarySingleNaN.B2SF half; sfz 1; sfz 1; sfz 1].
Proof. exists [SNew (F:=idF); SAddChoices 0 ["A"; "B"] false None; SNodeAdd (F:=idF) 0 "C" (flz 1); SNodeAdd (F:=idF) 0 "D" (flz 1); SCopy 0]. vm_compute. auto. Qed.
Print Assumptions C76_nest_in_copy_refuted.
Print Assumptions C76_scale_in_copy_refuted.
(** the hypotheses of the partial theorem: a nested model; its copy gets a choice E (node 4), nested in its turn *)
Definition c76_before : list (sop idF) := [SNew (F:=idF); SAddChoices 0 ["A"; "B"] false None; SNodeAdd (F:=idF) 0 "C" (flz 1); SNodeAdd (F:=idF) 0 "D" (flz 1); SCopy 0].
Definition c76_after : list (sop idF) := [SAddChoice (F:=idF) 1 "E" (flz 1); SNodeAdd (F:=idF) 4 "F" (flz 1); SNodeAdd (F:=idF) 4 "G" (flz 1); SSetScale (F:=idF) 4 half; SCopy 1].
Example C76_hypotheses_met :
  on_nodes_all idF (s_start idF) (c76_before ++ c76_after) /\ Forall (elsewhere idF (length (s_heap idF (srun idF (s_start idF) c76_before))) 0) c76_after /\ 0 < length (s_models idF (srun idF (s_start idF) c76_before)) /\
  choices (tree_of idF (srun idF (srun idF (s_start idF) c76_before) c76_after) 1) = Ok [Tup ["A"; "."]; Tup ["B"; "."]; Tup ["A"; "C"]; Tup ["A"; "D"]; Tup ["E"; "."]; Tup ["E"; "F"]; Tup ["E"; "G"]].
Proof. split; [vm_compute; repeat split; lia|]. split; [|split; [vm_compute; lia|vm_compute; reflexivity]].
  replace (length (s_heap idF (srun idF (s_start idF) c76_before))) with 4 by (vm_compute; reflexivity). unfold c76_after.
  repeat (apply Forall_cons; [cbn [elsewhere]; first [exact I|lia]|]). apply Forall_nil.
Qed.
