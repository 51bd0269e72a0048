(** C24-C31, C75: the choice tree (cheval/api.py 24-109, cheval/model.py 77-215, 341-349, 597-620). *)
From Coq Require Import Ascii Reals Lra.
From Flocq Require Import Core.Core IEEE754.BinarySingleNaN.
From Verif Require Import Prelude Arith CoreModel SpecSampling SpecLogit SpecNested SpecTree
  SamplingProofs MnlProofs PropMultinomial PropNested
  TreeModel DictProofs TreeProofs TreeMore TreeHist TreeRow.
Local Open Scope string_scope.
Local Open Scope nat_scope.

(** ** The histories used in the examples, in binary64: A (nest: B, C), D (nest: E (nest: F, G), H),
    I, then a rejected name, a rejected scale; [ex_hist2] also replaces the childless D.H *)
Definition FA : arith := B64 (fun x => x) (fun x => x).
Definition fl (m e : Z) : num FA := binary_normalize 53 1024 _ _ mode_NE m e false.
Definition ex_hist : list (op FA) :=
  [ AddChoice "A" (fl 1 (-1)); @AddChoices FA ["D"; "I"] false None;
    NodeAdd 0 "B" (fl 1 0); NodeAdd 0 "C" (fl 1 0);
    NodeAdd 1 "E" (fl 1 (-2)); NodeAdd 1 "H" (fl 1 0);
    NodeAdd 5 "F" (fl 1 0); NodeAdd 5 "G" (fl 1 0);
    AddChoice "x.y" (fl 1 0); NodeAdd 0 "J" (fl 2 0); SetScale 1 (fl 1 0); PartialUtilities ].
Definition ex_hist2 : list (op FA) := (ex_hist ++ [NodeAdd 1 "H" (fl 1 (-1))])%list.
Notation ex_tree := (run_ops FA new_tree ex_hist).

Definition ex_keys : dict string nat :=
  [("A", 0); ("D", 1); ("I", 2); ("A.B", 3); ("A.C", 4); ("D.E", 5); ("D.H", 6); ("D.E.F", 7); ("D.E.G", 8)].
Definition ex_labels : list label :=
  [Tup ["A"; "."; "."]; Tup ["D"; "."; "."]; Tup ["I"; "."; "."]; Tup ["A"; "B"; "."]; Tup ["A"; "C"; "."];
   Tup ["D"; "E"; "."]; Tup ["D"; "H"; "."]; Tup ["D"; "E"; "F"]; Tup ["D"; "E"; "G"]].

Example ex_run : t_all ex_tree = ex_keys /\ t_top ex_tree = [0; 1; 2] /\ choices ex_tree = Ok ex_labels.
Proof. vm_compute. auto. Qed.

Ltac in_solve := repeat match goal with
  | H : _ \/ _ |- _ => destruct H
  | H : False |- _ => destruct H
  | H : (_, _) = (_, _) |- _ => first [discriminate H | injection H as H; subst; cbn in *]
  | H : _ = ?v |- _ => is_var v; subst v
  | H : _ = _ |- _ => discriminate H
  end.
Ltac hist_solve := vm_compute; repeat split; intros; try intro;
  try (repeat constructor; cbv; intros; in_solve; fail); in_solve.
Example ex_fresh : history fresh_op new_tree ex_hist.
Proof. hist_solve. Qed.

(** ** C24 *)

Theorem C24_tree_stays_consistent :
  forall (F : arith) (hist : list (op F)),
  history fresh_op new_tree hist -> tree_consistent (run_ops F new_tree hist).
Proof.
  intros F hist H. apply inv_consistent. apply history_inv; [apply inv_new|].
  apply fresh_history; auto; [apply inv_new|]. intros i Hi. simpl in Hi. lia.
Qed.
Print Assumptions C24_tree_stays_consistent.

(** also when childless choices are replaced *)
Theorem C24_consistent_with_replacement :
  forall (F : arith) (hist : list (op F)),
  history replacing_op new_tree hist -> tree_consistent (run_ops F new_tree hist).
Proof. intros F hist H. apply inv_consistent. apply history_inv; auto. apply inv_new. Qed.
Print Assumptions C24_consistent_with_replacement.

(** a call with a new name and valid arguments succeeds, appends exactly that choice and
    leaves every other entry in place *)
Theorem C24_add_choice_effect :
  forall (F : arith) (t : tree F) name scale, ~ is_key t name -> valid_args name scale ->
  exists t' id, add_choice F t name scale = (t', Ok id) /\
    t_all t' = (t_all t ++ [(name, id)])%list /\ In id (t_top t') /\ incl (t_top t) (t_top t') /\
    nth_error (t_heap t') id = Some (Node name None scale 1 []) /\
    forall i nd, nth_error (t_heap t) i = Some nd -> nth_error (t_heap t') i = Some nd.
Proof.
  intros F t name scale H V. apply valid_args_iff in V. destruct V as [Hn Hs].
  do 2 eexists. split; [now apply add_choice_new|]. cbn [t_all t_top t_heap]. split; auto.
  assert (X : In (length (t_heap t)) (set_add (t_top t) (length (t_heap t)))).
  { unfold set_add. destruct (existsb _ _) eqn:E; [|apply in_or_app; simpl; auto].
    apply existsb_exists in E. destruct E as (y & Hy & E). apply Nat.eqb_eq in E. now subst. }
  split; [exact X|]. split.
  - intros y Hy. unfold set_add. destruct (existsb _ _); auto. apply in_or_app. auto.
  - split; [now rewrite nth_error_app2, Nat.sub_diag by lia|].
    intros i nd E. rewrite nth_error_app1; auto. apply nth_error_Some. congruence.
Qed.
Print Assumptions C24_add_choice_effect.

Theorem C24_node_add_choice_effect :
  forall (F : arith) hist p pkey np name scale,
  history replacing_op new_tree hist -> let t := run_ops F new_tree hist in
  In (pkey, p) (t_all t) -> nth_error (t_heap t) p = Some np ->
  ~ is_key t (pkey ++ "." ++ name)%string -> valid_args name scale ->
  exists t' id np', node_add_choice F t p name scale = (t', Ok id) /\
    t_all t' = (t_all t ++ [((pkey ++ "." ++ name)%string, id)])%list /\ t_top t' = t_top t /\
    nth_error (t_heap t') id = Some (Node name (Some p) scale (S (nd_level np)) []) /\
    nth_error (t_heap t') p = Some np' /\ In (name, id) (nd_children np') /\ nd_scale np' = nd_scale np /\
    forall i nd, i <> p -> nth_error (t_heap t) i = Some nd -> nth_error (t_heap t') i = Some nd.
Proof.
  intros F hist p pkey np name scale HH t Hp Ep H V. pose proof (history_inv F hist new_tree (inv_new F) HH) as I. fold t in I.
  pose proof (key_full F t p pkey I Hp) as EK. apply valid_args_iff in V. destruct V as [Hn Hs].
  subst pkey. assert (Hlt : p < length (t_heap t)) by (apply nth_error_Some; congruence).
  set (nn := Node name (Some p) scale (S (level_of (t_heap t) p)) []).
  assert (Ep' : nth_error (t_heap t ++ [nn])%list p = Some np) by (rewrite nth_error_app1; auto).
  exists (fst (node_add_choice F t p name scale)), (length (t_heap t)).
  exists (Node (nd_name np) (nd_parent np) (nd_scale np) (nd_level np) (dset String.eqb (nd_children np) name (length (t_heap t)))).
  rewrite (node_add_new F t p name scale H Hn Hs). cbn [fst t_all t_top t_heap]. fold nn.
  split; auto. split; auto. split; auto. unfold set_child. rewrite Ep'. split; [|split; [|split; [|split]]].
  - rewrite nth_error_upd_neq by lia. rewrite nth_error_app2, Nat.sub_diag by lia. unfold nn, level_of. now rewrite Ep.
  - apply nth_error_upd_eq. rewrite app_length. lia.
  - simpl. clear. induction (nd_children np) as [|[k v] l IH]; simpl; auto.
    destruct (String.eqb name k) eqn:E; simpl; auto. apply String.eqb_eq in E. subst. auto.
  - reflexivity.
  - intros i nd Hi E. rewrite nth_error_upd_neq by auto. rewrite nth_error_app1; auto. apply nth_error_Some. congruence.
Qed.
Print Assumptions C24_node_add_choice_effect.

Lemma history_app {F} (A : tree F -> op F -> Prop) l1 l2 : forall t,
  history A t (l1 ++ l2) <-> history A t l1 /\ history A (run_ops F t l1) l2.
Proof. induction l1 as [|o l IH]; intros t; simpl; [tauto|]. rewrite IH. tauto. Qed.

Lemma ex_inv : history replacing_op new_tree ex_hist /\ inv FA ex_tree.
Proof.
  assert (H1 : history replacing_op new_tree ex_hist).
  { apply fresh_history; [apply inv_new| |exact ex_fresh]. intros i Hi. simpl in Hi. lia. }
  split; auto. exact (history_inv FA ex_hist new_tree (inv_new FA) H1).
Qed.
Lemma ex_replace_op : replacing_op ex_tree (NodeAdd 1 "H" (fl 1 (-1))).
Proof.
  destruct ex_inv as [_ I]. destruct ex_run as (E & _).
  assert (P6 : is_parent (t_heap ex_tree) 6 = false) by (vm_compute; reflexivity).
  revert I E P6. generalize ex_tree. intros t I E P6.
  exists "D". split; [rewrite E; simpl; auto|].
  intros _. split; [vm_compute; repeat split; congruence|].
  intros i Hi. rewrite E in Hi. cbn in Hi. assert (i = 6) as -> by (in_solve; auto). intros X.
  apply (has_child_iff FA t 6 I) in X; [congruence|].
  unfold stored, ids. rewrite E. simpl. tauto.
Qed.
Lemma history_snoc {F} (A : tree F -> op F -> Prop) l o t t' :
  history A t l -> run_ops F t l = t' -> A t' o -> history A t (l ++ [o]).
Proof. intros H <- Ho. apply history_app. simpl. auto. Qed.
Example ex_replacing : history replacing_op new_tree ex_hist2.
Proof. exact (history_snoc replacing_op ex_hist _ new_tree ex_tree (proj1 ex_inv) eq_refl ex_replace_op). Qed.

(** ** C25 *)

(** labels are listed in insertion order, one per choice, spell the path, and are distinct *)
Theorem C25_labels :
  forall (F : arith) (hist : list (op F)),
  history replacing_op new_tree hist -> let t := run_ops F new_tree hist in
  validate_tree t = Ok tt ->
  exists d labels, depth t = Ok d /\ choices t = Ok labels /\ NoDup labels /\
    Forall2 (label_spec t d) (map snd (t_all t)) labels.
Proof.
  intros F hist H t V. pose proof (history_inv F hist new_tree (inv_new F) H) as I. fold t in I.
  assert (D : exists d, depth t = Ok d).
  { unfold depth. apply (validate_iff F) in V. destruct V as [V _]. destruct (ids t) eqn:E; [|eauto].
    exfalso. destruct (t_top t) as [|a l] eqn:Et; [simpl in V; lia|]. destruct I as [C W].
    assert (X : In a (t_top t)) by (rewrite Et; simpl; auto). apply (c_top F t C) in X. destruct X as [X _].
    unfold stored in X. rewrite E in X. destruct X. }
  destruct D as [d D]. exists d, (map (label_of F t d) (ids t)). split; auto. split; [now apply choices_eq|].
  split; [now apply labels_nodup|].
  assert (S : forall i, In i (ids t) -> stored F t i) by auto. unfold ids, dvals in *.
  induction (map snd (t_all t)) as [|i l IH]; simpl; constructor.
  - apply label_of_spec; auto. apply S; simpl; auto.
  - apply IH. intros; apply S; simpl; auto.
Qed.
Print Assumptions C25_labels.

(** the depth used for padding is the length of the longest path *)
Theorem C25_depth :
  forall (F : arith) (hist : list (op F)) d,
  history replacing_op new_tree hist -> let t := run_ops F new_tree hist in depth t = Ok d ->
  (forall i parts, in_model t i -> spells (t_heap t) i parts -> length parts <= d) /\
  (exists i parts, in_model t i /\ spells (t_heap t) i parts /\ length parts = d).
Proof.
  intros F hist d H t D. pose proof (history_inv F hist new_tree (inv_new F) H) as I. fold t in I. split.
  - intros i parts Hi Hs. apply in_model_stored in Hi. rewrite (spells_unique F t i parts I Hs), <- (level_length F t i I Hi).
    now apply (depth_ok F t d D).
  - assert (X : exists i, stored F t i /\ level_of (t_heap t) i = d).
    { unfold depth in D. unfold stored. destruct (ids t) as [|a l] eqn:E; [discriminate|].
      assert (D' : fold_left Nat.max (map (level_of (t_heap t)) l) (level_of (t_heap t) a) = d) by (injection D as D; exact D). clear D. rewrite <- D'.
      assert (Y : forall m x, In (fold_left Nat.max m x) (x :: m)).
      { clear. induction m as [|y m IH]; intros x; simpl; auto. destruct (IH (Nat.max x y)) as [Z|Z]; simpl in *; auto.
        rewrite <- Z. destruct (Nat.max_spec x y) as [[_ ->]|[_ ->]]; auto. }
      specialize (Y (map (level_of (t_heap t)) l) (level_of (t_heap t) a)). destruct Y as [Y|Y].
      - exists a. rewrite <- Y. simpl. auto.
      - apply in_map_iff in Y. destruct Y as (i & Ei & Hi). exists i. rewrite <- Ei. simpl. auto. }
    destruct X as (i & Si & Li). exists i, (path (t_heap t) i). split; [now apply in_model_stored|].
    split; [now apply spells_path|]. rewrite <- (level_length F t i I Si). exact Li.
Qed.
Print Assumptions C25_depth.

Example C25_hypotheses_met : history replacing_op new_tree ex_hist2 /\ validate_tree (run_ops FA new_tree ex_hist2) = Ok tt.
Proof. split; [exact ex_replacing|vm_compute; reflexivity]. Qed.

(** ** C26 *)

Theorem C26_flatten_encodes_tree :
  forall (F : arith) (hist : list (op F)) d,
  history replacing_op new_tree hist -> let t := run_ops F new_tree hist in
  depth t = Ok d -> 1 < d ->
  exists h lv sc bt, flatten F t = Ok (h, lv, sc, bt) /\
    let n := length (t_all t) in wf_table n h lv bt /\ length sc = n /\
    forall k key i nd, nth_error (t_all t) k = Some (key, i) -> nth_error (t_heap t) i = Some nd ->
      match nd_parent nd with
      | None => nth k h 0%Z = (-1)%Z
      | Some p => exists q pkey, nth_error (t_all t) q = Some (pkey, p) /\ nth k h (-1)%Z = Z.of_nat q
      end /\
      (exists parts, spells (t_heap t) i parts /\ S (nth k lv 0) = length parts) /\
      (has_child t i -> nth k sc (nzero F) = nd_scale nd /\ nth k bt true = false) /\
      (~ has_child t i -> nth k sc (nzero F) = none_ F /\ nth k bt false = true).
Proof.
  intros F hist d H t D Hd. pose proof (history_inv F hist new_tree (inv_new F) H) as I. fold t in I.
  assert (LI : length (t_all t) = length (ids t)) by (unfold ids, dvals; now rewrite map_length).
  do 4 eexists. split; [now apply (flatten_eq F t d)|]. cbn zeta. rewrite LI.
  split; [now apply (flatten_wf F t d)|]. split; [now rewrite map_length|].
  intros k key i nd Ek En.
  assert (Ei : nth_error (ids t) k = Some i) by (unfold ids, dvals; rewrite nth_error_map, Ek; reflexivity).
  assert (S : stored F t i) by (eapply nth_error_In; eauto).
  assert (NT : forall A (f : nat -> A) dflt, nth k (map f (ids t)) dflt = f i)
    by (intros; apply nth_error_nth; rewrite nth_error_map, Ei; reflexivity).
  rewrite !NT. split; [|split; [|split]].
  - pose proof (exp_h_parent F t k i nd I Ei En) as X. destruct (nd_parent nd) as [p|]; auto.
    destruct X as (q & Eq & X). unfold ids, dvals in Eq. rewrite nth_error_map in Eq.
    destruct (nth_error (t_all t) q) as [[pkey p']|] eqn:E; simpl in Eq; [|discriminate]. injection Eq as ->.
    exists q, pkey. split; auto.
  - exists (path (t_heap t) i). split; [now apply spells_path|]. rewrite (level_length F t i I S).
    destruct I as [C W]. pose proof (path_ne F _ W i nd En). destruct (path (t_heap t) i); [congruence|]. simpl. lia.
  - intros HC. apply (has_child_iff F t i I S) in HC. unfold exp_sc. rewrite En, HC. auto.
  - intros HC. rewrite (has_child_iff F t i I S) in HC. apply not_true_is_false in HC. unfold exp_sc. rewrite En, HC. auto.
Qed.
Print Assumptions C26_flatten_encodes_tree.

Example C26_hypotheses_met : depth (run_ops FA new_tree ex_hist2) = Ok 3.
Proof. vm_compute. reflexivity. Qed.

(** ** C27 *)

Theorem C27_rows_list_elemental_choices_and_sum_to_one :
  forall (hist : list (op XR)) (us : list (option R)) scaled chk,
  history replacing_op new_tree hist -> let t := run_ops XR new_tree hist in
  validate_tree t = Ok tt -> length us = length (t_all t) ->
  (exists i, In i (t_top t) /\ choice_feasible t us i) ->
  exists d labels (ps : list R),
    depth t = Ok d /\ elemental_choices t = Ok labels /\
    stochastic_row XR t (map as_x us) scaled chk = Ok (combine labels (map (fun r => Fin r : num XR) ps)) /\
    Forall2 (label_spec t d) (elemental_ids t) labels /\
    (forall i, In i (elemental_ids t) <-> in_model t i /\ ~ has_child t i) /\
    length ps = length labels /\ Rsum ps = 1%R /\ Forall (fun p => 0 <= p <= 1)%R ps.
Proof.
  intros hist us scaled chk H t V L Hf. pose proof (history_inv XR hist new_tree (inv_new XR) H) as I. fold t in I.
  destruct (C25_labels XR hist H V) as (d & labels0 & D & _). fold t in D.
  destruct (row_result t I d us scaled chk V D L Hf) as (labels & ps & E & EL & EC & LP & SP & BP).
  exists d, labels, ps. split; auto. split; auto. split; auto.
  assert (Hin : forall i, In i (elemental_ids t) <-> in_model t i /\ ~ has_child t i).
  { intros i. unfold elemental_ids. rewrite filter_In, in_model_stored. unfold stored, ids, dvals.
    split; intros [A B]; (split; [exact A|]); rewrite (childless_negb t) in *.
    - rewrite (has_child_iff XR t i I A). destruct (is_parent (t_heap t) i); [discriminate|congruence].
    - rewrite (has_child_iff XR t i I A) in B. destruct (is_parent (t_heap t) i); [congruence|reflexivity]. }
  split; [|repeat split; auto; apply Hin; auto].
  rewrite EL. assert (S : forall i, In i (elemental_ids t) -> stored XR t i) by (intros i Hi; apply Hin in Hi; apply in_model_stored; tauto).
  clear -S D I. induction (elemental_ids t) as [|i l IH]; simpl; constructor.
  - apply label_of_spec; auto. apply S; simpl; auto.
  - apply IH. intros; apply S; simpl; auto.
Qed.
Print Assumptions C27_rows_list_elemental_choices_and_sum_to_one.

(** a model with a nest A = {C, D} and a choice B: the hypotheses of C27 hold when D is infeasible *)
Definition fr (r : R) : num XR := Fin r.
Lemma sc_ok r : (0 < r <= 1)%R -> scale_ok XR (fr r) = true.
Proof.
  intros H. unfold scale_ok, fr; simpl. unfold Rltb, Rleb.
  destruct (Rlt_dec 0 r), (Rle_dec r 1); auto; lra.
Qed.
Definition ex_row_hist : list (op XR) :=
  [ AddChoice "A" (fr (1/2)); AddChoice "B" (fr 1); NodeAdd 0 "C" (fr 1); NodeAdd 0 "D" (fr 1) ].
Definition ex_row_tree : tree XR :=
  Tree [ Node "A" None (fr (1/2)) 1 [("C", 2); ("D", 3)]; Node "B" None (fr 1) 1 [];
         Node "C" (Some 0) (fr 1) 2 []; Node "D" (Some 0) (fr 1) 2 [] ]
       [("A", 0); ("B", 1); ("A.C", 2); ("A.D", 3)] [0; 1] None.
Ltac notin := cbn; intros X; repeat destruct X as [X|X]; try discriminate X; try exact X.
Example C27_hypotheses_met :
  history replacing_op new_tree ex_row_hist /\ run_ops XR new_tree ex_row_hist = ex_row_tree /\
  validate_tree ex_row_tree = Ok tt /\
  exists i, In i (t_top ex_row_tree) /\ choice_feasible ex_row_tree [Some 0; None; Some 1; None]%R i.
Proof.
  set (t1 := Tree [Node "A" None (fr (1/2)) 1 []] [("A", 0)] [0] None : tree XR).
  set (t2 := Tree [Node "A" None (fr (1/2)) 1 []; Node "B" None (fr 1) 1 []] [("A", 0); ("B", 1)] [0; 1] None : tree XR).
  set (t3 := Tree [Node "A" None (fr (1/2)) 1 [("C", 2)]; Node "B" None (fr 1) 1 []; Node "C" (Some 0) (fr 1) 2 []]
                  [("A", 0); ("B", 1); ("A.C", 2)] [0; 1] None : tree XR).
  assert (S1 : run_op XR new_tree (AddChoice "A" (fr (1/2))) = t1).
  { unfold run_op. rewrite add_choice_new; [reflexivity|notin|reflexivity|apply sc_ok; lra]. }
  assert (S2 : run_op XR t1 (AddChoice "B" (fr 1)) = t2).
  { unfold run_op. rewrite add_choice_new; [reflexivity|notin|reflexivity|apply sc_ok; lra]. }
  assert (S3 : run_op XR t2 (NodeAdd 0 "C" (fr 1)) = t3).
  { unfold run_op. rewrite node_add_new; [reflexivity|notin|reflexivity|apply sc_ok; lra]. }
  assert (S4 : run_op XR t3 (NodeAdd 0 "D" (fr 1)) = ex_row_tree).
  { unfold run_op. rewrite node_add_new; [reflexivity|notin|reflexivity|apply sc_ok; lra]. }
  split; [|split; [|split]].
  - apply fresh_history; [apply inv_new|intros i Hi; simpl in Hi; lia|].
    unfold ex_row_hist. cbn [history]. rewrite S1, S2, S3.
    split; [notin|]. split; [notin|]. split; [|split; [|exact Logic.I]].
    + split; [cbn; lia|]. intros pk Hp. cbn in Hp. in_solve. notin.
    + split; [cbn; lia|]. intros pk Hp. cbn in Hp. in_solve. notin.
  - unfold ex_row_hist, run_ops. cbn [fold_left]. now rewrite S1, S2, S3, S4.
  - reflexivity.
  - exists 0. split; [simpl; auto|].
    eapply (cf_nest ex_row_tree _ 0 0 2); [reflexivity|simpl; discriminate|reflexivity|reflexivity|].
    apply (cf_leaf ex_row_tree _ 2 2); [reflexivity|simpl; discriminate|].
    intros (c & nd & _ & En & P). destruct c as [|[|[|[|[|c]]]]]; simpl in En; try discriminate En; injection En as <-; discriminate P.
Qed.

(** ** C28 *)

(** the claim fails for a nest: its old children stay in the model, below a node that is gone *)
Theorem C28_replacing_a_nest_refuted :
  ~ (forall (F : arith) hist name scale t' id,
       history fresh_op new_tree hist ->
       add_choice F (run_ops F new_tree hist) name scale = (t', Ok id) ->
       forall key c nd, In (key, c) (t_all t') -> nth_error (t_heap t') c = Some nd ->
         match nd_parent nd with Some p => in_model t' p | None => True end).
Proof.
  intros H. specialize (H FA ex_hist "A" (fl 1 0)).
  destruct (add_choice FA (run_ops FA new_tree ex_hist) "A" (fl 1 0)) as [t' r] eqn:E.
  assert (R : r = Ok 9 /\ map snd (t_all t') = [1; 2; 3; 4; 5; 6; 7; 8; 9] /\
              option_map (fun nd => (nd_name nd, nd_parent nd)) (nth_error (t_heap t') 3) = Some ("B", Some 0)).
  { assert (X : (snd (add_choice FA (run_ops FA new_tree ex_hist) "A" (fl 1 0)),
      map snd (t_all (fst (add_choice FA (run_ops FA new_tree ex_hist) "A" (fl 1 0)))),
      option_map (fun nd => (nd_name nd, nd_parent nd)) (nth_error (t_heap (fst (add_choice FA (run_ops FA new_tree ex_hist) "A" (fl 1 0)))) 3))
      = (Ok 9, [1; 2; 3; 4; 5; 6; 7; 8; 9], Some ("B", Some 0))) by (vm_compute; reflexivity).
    rewrite E in X. cbn [fst snd] in X. injection X as X1 X2 X3. split; [exact X1|split; [exact X2|exact X3]]. }
  destruct R as (-> & Rk & Rn). specialize (H t' 9 ex_fresh eq_refl).
  assert (M : in_model t' 3) by (apply in_vals_ex; unfold dvals; rewrite Rk; simpl; auto).
  destruct M as [key M]. destruct (nth_error (t_heap t') 3) as [nd|] eqn:En; [|discriminate].
  simpl in Rn. injection Rn as Rn1 Rn2. specialize (H key 3 nd M En). rewrite Rn2 in H. destruct H as [k H].
  apply in_vals in H. unfold dvals in H. rewrite Rk in H. simpl in H. clear -H. in_solve.
Qed.
Print Assumptions C28_replacing_a_nest_refuted.

(** and the flattened arrays are then not a well-formed node table: the new node is marked
    childless although nodes name it as parent *)
Theorem C28_flatten_broken_refuted :
  ~ (forall (F : arith) hist name scale t' id h lv sc bt,
       history fresh_op new_tree hist ->
       add_choice F (run_ops F new_tree hist) name scale = (t', Ok id) ->
       flatten F t' = Ok (h, lv, sc, bt) -> wf_table (length (t_all t')) h lv bt).
Proof.
  intros H. specialize (H FA ex_hist "A" (fl 1 0)).
  destruct (add_choice FA (run_ops FA new_tree ex_hist) "A" (fl 1 0)) as [t' r] eqn:E.
  assert (R : r = Ok 9 /\ length (t_all t') = 9 /\
     match flatten FA t' with
     | Ok (h, lv, sc, bt) => (h, lv, bt) = ([-1; -1; 8; 8; 0; 0; 4; 4; -1]%Z, [0; 0; 1; 1; 1; 1; 2; 2; 0],
                                            [false; true; true; true; false; true; true; true; true])
     | Err _ => False end).
  { assert (X : let tr := add_choice FA (run_ops FA new_tree ex_hist) "A" (fl 1 0) in
      snd tr = Ok 9 /\ length (t_all (fst tr)) = 9 /\
      match flatten FA (fst tr) with
      | Ok (h, lv, sc, bt) => (h, lv, bt) = ([-1; -1; 8; 8; 0; 0; 4; 4; -1]%Z, [0; 0; 1; 1; 1; 1; 2; 2; 0],
                                             [false; true; true; true; false; true; true; true; true])
      | Err _ => False end) by (vm_compute; auto).
    rewrite E in X. exact X. }
  destruct R as (-> & RL & RF). destruct (flatten FA t') as [[[[h lv] sc] bt]|e] eqn:EF; [|destruct RF].
  injection RF as -> -> ->. specialize (H t' 9 _ _ _ _ ex_fresh eq_refl EF). rewrite RL in H. clear -H.
  destruct H as (_ & _ & _ & _ & _ & W). specialize (W 8 ltac:(lia)).
  destruct W as [W1 _]. specialize (W1 eq_refl). vm_compute in W1. discriminate.
Qed.
Print Assumptions C28_flatten_broken_refuted.

(** what holds: replacing a childless choice moves it to the end, as a fresh childless node *)
Theorem C28_replacing_a_childless_choice_partial :
  forall (F : arith) hist name scale old,
  history replacing_op new_tree hist -> let t := run_ops F new_tree hist in
  In (name, old) (t_all t) -> ~ has_child t old -> valid_args name scale ->
  exists t' id, add_choice F t name scale = (t', Ok id) /\ ~ in_model t id /\
    t_all t' = (filter (fun kv => negb (String.eqb name (fst kv))) (t_all t) ++ [(name, id)])%list /\
    nth_error (t_heap t') id = Some (Node name None scale 1 []) /\ ~ has_child t' id /\
    tree_consistent t'.
Proof.
  intros F hist name scale old H t Ho Hc V. pose proof V as V0. apply valid_args_iff in V. destruct V as [Hn Hs].
  pose proof (history_inv F hist new_tree (inv_new F) H) as I. fold t in I.
  destruct (add_top_inv F (drop_cache F t) name scale) as (t' & top' & E & E1 & I'); auto.
  { now apply inv_cache. }
  { intros i Hi. assert (i = old) as -> by (destruct I as [C W]; exact (nodup_fun (t_all t) name i old (c_keys F t C) Hi Ho)).
    apply (no_child_zero F t); auto. eapply in_vals; eauto. }
  change (length (t_heap (drop_cache F t))) with (length (t_heap t)) in *.
  exists (add_top F t' (length (t_heap t))), (length (t_heap t)).
  unfold add_choice. rewrite E. split; [reflexivity|]. split; [|split; [|split; [|split]]].
  - rewrite in_model_stored. intros X. destruct I as [C W]. apply stored_lt in X; auto. lia.
  - rewrite E1. cbn [t_all drop_cache]. f_equal. destruct I as [C W]. pose proof (c_keys F t C) as N.
    clear -N. unfold dkeys in N. induction (t_all t) as [|[k v] l IH]; simpl in *; auto. inversion N; subst.
    destruct (String.eqb name k) eqn:E; simpl; [|now rewrite IH].
    apply String.eqb_eq in E. subst k. clear -H1. induction l as [|[k v] l IH]; simpl in *; auto.
    destruct (String.eqb_spec name k); [subst; tauto|]. simpl. f_equal. apply IH. tauto.
  - rewrite E1. cbn [t_heap drop_cache]. now rewrite nth_error_app2, Nat.sub_diag by lia.
  - assert (S : stored F (add_top F t' (length (t_heap t))) (length (t_heap t))).
    { rewrite E1. unfold stored, ids, dvals. cbn [t_all]. rewrite map_app, in_app_iff. simpl. auto. }
    rewrite (has_child_iff F _ _ I' S). rewrite E1. unfold is_parent, n_children. cbn [t_heap drop_cache].
    rewrite nth_error_app2, Nat.sub_diag by lia. simpl. discriminate.
  - now apply inv_consistent.
Qed.
Print Assumptions C28_replacing_a_childless_choice_partial.

(** ** C29 *)

Definition same_choices {F} (t t' : tree F) : Prop :=
  t_heap t' = t_heap t /\ t_all t' = t_all t /\ t_top t' = t_top t.

(** a rejected re-addition (bad scale, or the full name of a nested node) removes the choice *)
Theorem C29_rejected_readd_refuted :
  ~ (forall (F : arith) hist name scale t' e, history fresh_op new_tree hist ->
       add_choice F (run_ops F new_tree hist) name scale = (t', Err e) ->
       map fst (t_all t') = map fst (t_all (run_ops F new_tree hist))).
Proof.
  intros H. specialize (H FA ex_hist "I" (fl 2 0)).
  destruct (add_choice FA (run_ops FA new_tree ex_hist) "I" (fl 2 0)) as [t' r] eqn:E.
  assert (X : let tr := add_choice FA (run_ops FA new_tree ex_hist) "I" (fl 2 0) in
    snd tr = Err AssertionError /\ map fst (t_all (fst tr)) = ["A"; "D"; "A.B"; "A.C"; "D.E"; "D.H"; "D.E.F"; "D.E.G"]) by (vm_compute; auto).
  rewrite E in X. cbn [fst snd] in X. destruct X as [-> X]. specialize (H t' AssertionError ex_fresh eq_refl).
  rewrite X in H. destruct ex_run as (K & _). apply (f_equal (map fst)) in K. pose proof (eq_trans H K) as Y. clear -Y. discriminate Y.
Qed.
Print Assumptions C29_rejected_readd_refuted.
Theorem C29_rejected_dotted_name_refuted :
  ~ (forall (F : arith) hist name scale t' e, history fresh_op new_tree hist ->
       add_choice F (run_ops F new_tree hist) name scale = (t', Err e) ->
       map fst (t_all t') = map fst (t_all (run_ops F new_tree hist))).
Proof.
  intros H. specialize (H FA ex_hist "A.B" (fl 1 0)).
  destruct (add_choice FA (run_ops FA new_tree ex_hist) "A.B" (fl 1 0)) as [t' r] eqn:E.
  assert (X : let tr := add_choice FA (run_ops FA new_tree ex_hist) "A.B" (fl 1 0) in
    snd tr = Err KeyError /\ map fst (t_all (fst tr)) = ["A"; "D"; "I"; "A.C"; "D.E"; "D.H"; "D.E.F"; "D.E.G"]) by (vm_compute; auto).
  rewrite E in X. cbn [fst snd] in X. destruct X as [-> X]. specialize (H t' KeyError ex_fresh eq_refl).
  rewrite X in H. destruct ex_run as (K & _). apply (f_equal (map fst)) in K. pose proof (eq_trans H K) as Y. clear -Y. discriminate Y.
Qed.
Print Assumptions C29_rejected_dotted_name_refuted.

(** what holds: when the full name is new, a rejected call leaves the choices unchanged and the
    call is rejected exactly for bad arguments *)
Theorem C29_rejected_new_name_partial :
  forall (F : arith) (t : tree F) name scale, ~ is_key t name ->
  (forall t' e, add_choice F t name scale = (t', Err e) -> same_choices t t' /\ e = AssertionError) /\
  ((exists t' e, add_choice F t name scale = (t', Err e)) <-> ~ valid_args name scale).
Proof.
  intros F t name scale H.
  destruct (name_ok name && scale_ok F scale)%bool eqn:V.
  - apply andb_true_iff in V. destruct V as [Hn Hs]. rewrite (add_choice_new F t name scale H Hn Hs). split.
    + intros t' e X. discriminate.
    + split; [intros (t' & e & X); discriminate|]. intros X. exfalso. apply X. now apply valid_args_iff.
  - unfold add_choice. rewrite create_top_fail by auto. split.
    + intros t' e X. injection X as <- <-. repeat split; auto.
    + split; [|eauto]. intros _ X. apply valid_args_iff in X. destruct X as [X1 X2]. rewrite X1, X2 in V. discriminate.
Qed.
Print Assumptions C29_rejected_new_name_partial.

Theorem C29_rejected_new_child_partial :
  forall (F : arith) (t : tree F) p name scale,
  ~ is_key t (full_name (t_heap t) p ++ "." ++ name)%string ->
  (forall t' e, node_add_choice F t p name scale = (t', Err e) -> t' = t /\ e = AssertionError) /\
  ((exists t' e, node_add_choice F t p name scale = (t', Err e)) <-> ~ valid_args name scale).
Proof.
  intros F t p name scale H.
  destruct (name_ok name && scale_ok F scale)%bool eqn:V.
  - apply andb_true_iff in V. destruct V as [Hn Hs]. rewrite (node_add_new F t p name scale H Hn Hs). split.
    + intros t' e X. discriminate.
    + split; [intros (t' & e & X); discriminate|]. intros X. exfalso. apply X. now apply valid_args_iff.
  - rewrite (node_add_fail F t p name scale H V). split.
    + intros t' e X. injection X as <- <-. auto.
    + split; [|eauto]. intros _ X. apply valid_args_iff in X. destruct X as [X1 X2]. rewrite X1, X2 in V. discriminate.
Qed.
Print Assumptions C29_rejected_new_child_partial.

Example C29_hypotheses_met :
  ~ is_key ex_tree "x.y" /\ ~ valid_args "x.y" (fl 1 0) /\ ~ is_key ex_tree "Z" /\ valid_args "Z" (fl 1 0).
Proof.
  destruct ex_run as (E & _). unfold is_key. rewrite E. split; [notin|]. split; [intros [Y _]; discriminate Y|].
  split; [notin|]. vm_compute. repeat split; congruence.
Qed.

(** ** C30 *)

(** a choice added under a node leaves the cached table in place, with the old columns *)
Theorem C30_nested_add_refuted :
  ~ (forall (F : arith) hist p name scale t' id cols cols', history fresh_op new_tree hist ->
       node_add_choice F (run_ops F new_tree hist) p name scale = (t', Ok id) ->
       snd (partial_utilities F t') = Ok cols -> choices t' = Ok cols' -> cols = cols').
Proof.
  intros H. specialize (H FA ex_hist 0 "K" (fl 1 0)).
  destruct (node_add_choice FA (run_ops FA new_tree ex_hist) 0 "K" (fl 1 0)) as [t' r] eqn:E.
  assert (X : let tr := node_add_choice FA (run_ops FA new_tree ex_hist) 0 "K" (fl 1 0) in
    snd tr = Ok 9 /\ snd (partial_utilities FA (fst tr)) = Ok ex_labels /\
    choices (fst tr) = Ok (ex_labels ++ [Tup ["A"; "K"; "."]])%list) by (vm_compute; auto).
  rewrite E in X. cbn [fst snd] in X. destruct X as (-> & X1 & X2).
  specialize (H t' 9 _ _ ex_fresh eq_refl X1 X2). discriminate H.
Qed.
Print Assumptions C30_nested_add_refuted.

(** what holds: top-level additions, successful or not, drop the cached table, and the next
    table has the columns of the new choices *)
Theorem C30_top_level_add_partial :
  forall (F : arith) (t : tree F) name scale names once scales,
  t_cached (fst (add_choice F t name scale)) = None /\
  t_cached (fst (add_choices F t names once scales)) = None.
Proof.
  assert (CN : forall F (t : tree F) name scale, t_cached t = None -> t_cached (fst (create_node F t name scale None)) = None).
  { intros F t name scale H. unfold create_node. destruct (dget _ _ _); [destruct (set_remove _ _)|]; unfold new_node;
      try destruct (_ && _)%bool; simpl; auto. }
  intros F t name scale names once scales. split.
  - unfold add_choice. pose proof (CN F (drop_cache F t) name scale eq_refl).
    destruct (create_node F (drop_cache F t) name scale None) as [t' [i|e]]; exact H.
  - unfold add_choices. destruct (match scales with Some s => (names, s) | None => _ end) as [n' s'].
    assert (AP : forall l (t : tree F), t_cached t = None -> t_cached (fst (add_pairs F t l)) = None).
    { induction l as [|[n s] l IH]; intros u Hu; [exact Hu|]. cbn [add_pairs].
      pose proof (CN F u n s Hu). destruct (create_node F u n s None) as [u' [i|e]]; [|exact H].
      assert (X : t_cached (add_top F u' i) = None) by exact H. specialize (IH _ X).
      destruct (add_pairs F (add_top F u' i) l) as [u'' [r|e]]; exact IH. }
    now apply AP.
Qed.
Print Assumptions C30_top_level_add_partial.

Theorem C30_fresh_table_has_current_choices_partial :
  forall (F : arith) (t : tree F), t_cached t = None ->
  snd (partial_utilities F t) = choices t /\
  (forall cols, choices t = Ok cols -> t_cached (fst (partial_utilities F t)) = Some cols).
Proof.
  intros F t H. unfold partial_utilities. rewrite H.
  destruct (validate_tree t) as [[]|e] eqn:V.
  - destruct (choices t) as [c|e]; simpl; split; auto; intros cols X; [injection X as <-; auto|discriminate X].
  - unfold choices. rewrite V. simpl. split; auto. intros cols X. discriminate X.
Qed.
Print Assumptions C30_fresh_table_has_current_choices_partial.

(** ** C31 *)

Theorem C31_validation_exact :
  forall (F : arith) hist, history replacing_op new_tree hist -> let t := run_ops F new_tree hist in
  let child c i := in_model t c /\ exists nd, nth_error (t_heap t) c = Some nd /\ nd_parent nd = Some i in
  let top i := in_model t i /\ exists nd, nth_error (t_heap t) i = Some nd /\ nd_parent nd = None in
  (validate_tree t = Ok tt <->
     (exists i j, i <> j /\ top i /\ top j) /\
     ~ exists i c, in_model t i /\ child c i /\ forall c', child c' i -> c' = c) /\
  (validate_tree t = Ok tt \/ validate_tree t = Err ModelNotReady).
Proof.
  intros F hist H t child top. pose proof (history_inv F hist new_tree (inv_new F) H) as I. fold t in I.
  split; [|unfold validate_tree; destruct (negb _); auto; destruct (existsb _ _); auto].
  pose proof I as [C W]. rewrite (validate_iff F).
  assert (TT : forall i, In i (t_top t) <-> top i).
  { intros i. pose proof (inv_consistent F t I) as (_ & _ & X & _). rewrite X. unfold top. split.
    - intros (nd & A & B & D). eauto. - intros (A & nd & B & D). eauto. }
  assert (CC : forall i c, in_model t i -> (In c (child_ids F (t_heap t) i) <-> child c i)).
  { intros i c Hi. apply in_model_stored in Hi. rewrite (c_child F t C i c Hi), <- in_model_stored. unfold child, parent_id. split.
    - intros [A B]. split; auto. destruct (nth_error (t_heap t) c) as [nd|]; [eauto|discriminate].
    - intros (A & nd & E & P). rewrite E. auto. }
  assert (NC : forall i, in_model t i -> n_children (t_heap t) i = length (child_ids F (t_heap t) i) /\ NoDup (child_ids F (t_heap t) i)).
  { intros i Hi. apply in_model_stored in Hi. destruct (stored_node F t i C Hi) as [nd E]. unfold n_children, child_ids. rewrite E.
    split; [unfold dvals; now rewrite map_length|]. eapply child_ids_nodup; eauto. }
  split.
  - intros [T N]. split.
    + pose proof (c_top_nodup F t C) as ND. destruct (t_top t) as [|i [|j l]] eqn:Et; simpl in T; try lia.
      inversion ND; subst. exists i, j. split; [intros ->; simpl in *; tauto|]. split; apply TT; simpl; auto.
    + intros (i & c & Hi & Hc & U). apply (N i); [now apply in_model_stored|].
      destruct (NC i Hi) as [-> ND]. apply CC in Hc; auto.
      assert (U' : forall c', In c' (child_ids F (t_heap t) i) -> c' = c) by (intros c' X; apply U; apply CC; auto).
      destruct (child_ids F (t_heap t) i) as [|a [|b l]]; simpl in *; [tauto|auto|].
      exfalso. inversion ND as [|x y Nab ND']; subst. apply Nab. rewrite (U' a), (U' b) by auto. simpl; auto.
  - intros [(i & j & Ne & Ti & Tj) N]. split.
    + apply TT in Ti, Tj. destruct (t_top t) as [|a [|b l]]; simpl in *; try tauto; lia.
    + intros k Hk X. apply N. apply in_model_stored in Hk. destruct (NC k Hk) as [E _]. rewrite X in E.
      assert (CK := CC k). destruct (child_ids F (t_heap t) k) as [|c [|b l]]; simpl in *; try lia.
      exists k, c. split; auto. split; [apply CK; auto|]. intros c' Y. apply CK in Y; auto. destruct Y as [Y|[]]; auto.
Qed.
Print Assumptions C31_validation_exact.

Example C31_both_cases :
  validate_tree ex_tree = Ok tt /\
  validate_tree (run_ops FA new_tree [AddChoice "A" (fl 1 0); AddChoice "B" (fl 1 0); NodeAdd 0 "C" (fl 1 0)]) = Err ModelNotReady.
Proof. split; vm_compute; reflexivity. Qed.

(** ** C75 *)

(** a generator of names without explicit scales adds nothing *)
Theorem C75_generator_refuted :
  ~ (forall (F : arith) (t : tree F) names t' ids', NoDup names ->
       (forall n, In n names -> ~ is_key t n /\ valid_args n (none_ F)) ->
       add_choices F t names true None = (t', Ok ids') -> map fst (t_all t') = (map fst (t_all t) ++ names)%list).
Proof.
  intros H. specialize (H FA new_tree ["A"; "B"] new_tree []).
  assert (X : map fst (t_all (@new_tree FA)) = (map fst (t_all (@new_tree FA)) ++ ["A"; "B"])%list).
  { apply H; [repeat constructor; simpl; intuition discriminate| |reflexivity].
    intros n Hn. split; [intros []|]. destruct Hn as [<-|[<-|[]]]; vm_compute; repeat split; congruence. }
  discriminate.
Qed.
Print Assumptions C75_generator_refuted.

(** for a re-iterable collection every name is added, in order, with its scale (1 by default);
    surplus names beyond the given scales are dropped *)
Theorem C75_add_choices_partial :
  forall (F : arith) names scales (t : tree F),
  NoDup names -> (forall n, In n names -> ~ is_key t n) ->
  let given := match scales with Some s => s | None => repeat (none_ F) (length names) end in
  let pairs := combine names given in
  (forall n s, In (n, s) pairs -> valid_args n s) ->
  let base := length (t_heap t) in
  exists t', add_choices F t names false scales = (t', Ok (seq base (length pairs))) /\
    t_all t' = (t_all t ++ combine (map fst pairs) (seq base (length pairs)))%list /\
    t_heap t' = (t_heap t ++ map (fun ns => Node (fst ns) None (snd ns) 1 []) pairs)%list.
Proof.
  intros F names scales t N Fr given pairs V base.
  assert (E : add_choices F t names false scales = add_pairs F (drop_cache F t) pairs).
  { unfold add_choices, pairs, given. destruct scales; auto. f_equal. f_equal.
    clear. induction names as [|n l IH]; simpl; auto. now rewrite IH. }
  rewrite E. assert (Np : NoDup (map fst pairs)).
  { unfold pairs. destruct (combine_fst_in names given) as [c ->]. now apply firstn_nodup. }
  assert (Fp : forall n, In n (map fst pairs) -> ~ In n (dkeys (t_all (drop_cache F t)))).
  { intros n Hn. apply Fr. unfold pairs in Hn. destruct (combine_fst_in names given) as [c Ec]. rewrite Ec in Hn.
    eapply firstn_incl; eauto. }
  clearbody pairs. clear E given N Fr.
  assert (G : forall l (u : tree F), NoDup (map fst l) -> (forall n, In n (map fst l) -> ~ In n (dkeys (t_all u))) ->
    (forall n s, In (n, s) l -> valid_args n s) ->
    exists t', add_pairs F u l = (t', Ok (seq (length (t_heap u)) (length l))) /\
      t_all t' = (t_all u ++ combine (map fst l) (seq (length (t_heap u)) (length l)))%list /\
      t_heap t' = (t_heap u ++ map (fun ns => Node (fst ns) None (snd ns) 1 []) l)%list).
  { induction l as [|[n s] l IH]; intros u Nl Fl Vl.
    - exists u. simpl. rewrite !app_nil_r. auto.
    - cbn [add_pairs map fst snd] in *. inversion Nl; subst. specialize (Vl n s) as V0. cbn in V0.
      destruct (proj1 (valid_args_iff F n s) (V0 (or_introl eq_refl))) as [Hn Hs].
      assert (K : ~ In n (dkeys (t_all u))) by (apply Fl; simpl; auto).
      assert (CE : create_node F u n s None = (Tree (t_heap u ++ [Node n None s 1 []]) (t_all u ++ [(n, length (t_heap u))])%list (t_top u) (t_cached u), Ok (length (t_heap u)))).
      { unfold create_node. apply (dget_none String.eqb string_eqb_spec) in K as K'. rewrite K'. unfold new_node. rewrite Hn, Hs. cbn [andb].
        rewrite (dset_absent String.eqb string_eqb_spec) by auto. reflexivity. }
      rewrite CE. set (u' := add_top F _ _). destruct (IH u') as (t' & E1 & E2 & E3); auto.
      { intros m Hm X. unfold u', dkeys in X. cbn [t_all add_top] in X. rewrite map_app, in_app_iff in X. simpl in X.
        destruct X as [X|[X|[]]]; [apply (Fl m); simpl; auto|subst; tauto]. }
      { intros; apply Vl; simpl; auto. }
      rewrite E1. exists t'. split; [|split].
      + unfold u'. cbn [t_heap add_top]. rewrite app_length. simpl. replace (length (t_heap u) + 1) with (S (length (t_heap u))) by lia. reflexivity.
      + rewrite E2. unfold u'. cbn [t_heap t_all add_top]. rewrite app_length. simpl.
        replace (length (t_heap u) + 1) with (S (length (t_heap u))) by lia. rewrite <- app_assoc. reflexivity.
      + rewrite E3. unfold u'. cbn [t_heap add_top]. rewrite <- app_assoc. reflexivity. }
  destruct (G pairs (drop_cache F t) Np Fp V) as (t' & E1 & E2 & E3). exists t'. auto.
Qed.
Print Assumptions C75_add_choices_partial.

Example C75_hypotheses_met : forall n s, In (n, s) (combine ["K"; "L"] [fl 1 0; fl 1 (-1)]) -> valid_args n s.
Proof. intros n s [E|[E|[]]]; injection E as <- <-; vm_compute; repeat split; congruence. Qed.
