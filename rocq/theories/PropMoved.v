(** C30: adding again a choice that exists under a node, when utilities are cached. *)
From Verif Require Import Prelude Arith CoreModel TreeModel DictProofs TreeProofs SpecTree TreeMore TreeHist TreeMoved ParModel ExprModel SpecExpr ExprWorld ScopeModel SpecScope ScopeProofs ModelModel ModelProofs SpecModel KernelProofs EvalProofs ModelExample PropState ModelWorld ModelTrees ModelHist ModelTabs RunProofs PropUtility PropRerun PropStale.
Local Open Scope string_scope.
Local Open Scope nat_scope.
Local Open Scope list_scope.

Section Moved.
  Context {L : Type} {F : arith} {D cell : Type} (E : env L F D cell).
  Notation num := (num F).
  Notation mop := (mop E).
  Notation start := (new_mworld E).

  Lemma orderly_trees : forall ops w, orderly_history E w ops -> tree_history E w ops.
  Proof.
    induction ops as [|o ops IH]; intros w H; [exact I|]. destruct H as [H1 H2]. split; [|now apply IH].
    destruct o; cbn in *; try exact I. now destruct H1.
  Qed.
  Lemma tree_history_app : forall a w b, tree_history E w (a ++ b) <-> tree_history E w a /\ tree_history E (mrun E w a) b.
  Proof.
    induction a as [|o a IH]; intros w b; cbn; [tauto|]. rewrite IH. tauto.
  Qed.

  (** In every history: the choice moves to the last column; the cached table keeps its columns and its cells. *)
  Theorem C30_readding_moves_the_choice (ops : list mop) i p pkey name sc old q cols :
    let w := mrun E start ops in let m := model E w i in
    let w' := mstep E w (MTree E i (NodeAdd p name sc)) in
    i < length (mw_models w) -> tree_history E start ops ->
    In (pkey, p) (t_all (m_tree m)) -> nth_error (t_all (m_tree m)) q = Some ((pkey ++ "." ++ name)%string, old) ->
    ~ has_child (m_tree m) old -> valid_args name sc -> choices (m_tree m) = Ok cols -> m_utils m <> None ->
    choices (m_tree (model E w' i)) = Ok (moved_last q cols) /\ depth (m_tree (model E w' i)) = depth (m_tree m) /\
    m_utils (model E w' i) = m_utils m /\ mw_tabs w' = mw_tabs w /\ m_du (model E w' i) = m_du m.
  Proof.
    intros w m w' LT TH Hp Hq NC V CH U. apply valid_args_iff in V. destruct V as [Hn Hs].
    pose proof (reachable_sound E ops i TH) as I. fold w m in I.
    set (t0 := set_cached (F:=F) (m_tree m) (option_map u_cols (m_utils m))).
    assert (I0 : inv F t0) by (destruct I as [C W]; split; [now apply consistent_cache|exact W]).
    assert (So : stored F (m_tree m) old) by (eapply in_vals, nth_error_In; eauto).
    assert (N0 : n_children (t_heap (m_tree m)) old = 0).
    { rewrite (has_child_iff F _ _ I So) in NC. unfold is_parent in NC. destruct (n_children (t_heap (m_tree m)) old); auto. destruct NC. reflexivity. }
    destruct (readd_moves F t0 p pkey name sc old q cols I0 Hp Hq N0 Hn Hs CH) as (_ & DD & C' & _).
    assert (M' : model E w' i = tree_op E m (NodeAdd p name sc)) by (unfold w'; cbn [mstep]; unfold model, set_model; cbn [mw_models]; apply nth_upd_eq; exact LT).
    rewrite M'. unfold tree_op. fold t0. cbn [m_tree m_utils m_du run_op].
    split; [exact C'|]. split; [exact DD|]. split; [|split; reflexivity].
    assert (K : t_cached (fst (node_add_choice F t0 p name sc)) = t_cached t0).
    { unfold node_add_choice. rewrite (create_child_shape F t0 p name sc I0 Hn Hs). reflexivity. }
    rewrite K. unfold t0. cbn. destruct (m_utils m); [reflexivity|congruence].
  Qed.

  (** So every choice that stood after it takes over the utilities of the choice before it: in a later run the cells of
      the choice of column [S c] (now column [c]) start from the cached ones of the choice of column [c]. *)
  Theorem C30_readding_shifts_utilities (NL : numexpr_local E) (FL : frame_laws E) (ops : list mop) i p pkey name sc old q cols u d nl group clear ts2 m2 t2 simple xs :
    let w := mrun E start ops in let m := model E w i in
    let w' := mstep E w (MTree E i (NodeAdd p name sc)) in
    i < length (mw_models w) -> orderly_history E start (ops ++ [MTree E i (NodeAdd p name sc)]) ->
    In (pkey, p) (t_all (m_tree m)) -> nth_error (t_all (m_tree m)) q = Some ((pkey ++ "." ++ name)%string, old) ->
    ~ has_child (m_tree m) old -> valid_args name sc -> choices (m_tree m) = Ok cols ->
    m_utils m = Some u -> m_du m = Some d -> depth (m_tree m) = Ok nl ->
    run_utilities E (mheap E w') (mcont E w' i) (mw_tabs w') (model E w' i) group clear = (ts2, m2, Ok t2) ->
    selection (mheap E w') (mcont E w' i) group = Ok (simple, xs) -> (forall x, In x xs -> plain_names simple x) ->
    forall r c l, r < length d -> q <= c -> nth_error cols (S c) = Some l ->
      forall rho, (forall x acc, In x xs -> meaning E (m_scope (model E w' i)) nl (moved_last q cols) simple x acc r c (rho x acc)) ->
        total (applies nl l) (fun x acc => ev_ne E (e_trans x) (rho x acc)) xs (tcell (nth (u_ref u) (mw_tabs w) []) r c) = Some (tcell t2 r c).
  Proof.
    intros w m w' LT OH Hp Hq NC V CH MU DU DP R S PN r c l Hr Hc Hl rho M.
    pose proof (orderly_trees _ _ OH) as TH. apply tree_history_app in TH. destruct TH as [TH _].
    destruct (C30_readding_moves_the_choice ops i p pkey name sc old q cols LT TH Hp Hq NC V CH) as (C' & D' & U' & T' & DU'); [fold w; fold m; congruence|].
    fold w in C', D', U', T', DU'. fold m in D', U', DU'. fold w' in C', D', U', T', DU'.
    set (ops' := ops ++ [MTree E i (NodeAdd p name sc)]) in *.
    assert (W' : mrun E start ops' = w') by (unfold ops'; now rewrite mrun_app).
    pose proof (C50_starts_from_cached E NL FL ops' i group clear ts2 m2 t2 simple xs d (moved_last q cols) nl u) as T. cbv zeta in T. rewrite W' in T.
    rewrite T' in T, R. destruct T as [_ T]; auto; try congruence.
    assert (Q : q < length cols) by (assert (X : nth_error cols (Datatypes.S c) <> None) by congruence; apply nth_error_Some in X; lia).
    apply (T r c l Hr); auto. destruct (moved_nth q cols Q) as (_ & A & _). rewrite A; auto. apply nth_error_Some. congruence.
  Qed.
End Moved.

(** C30 for existing names: the utilities that a run returns for a choice do not depend on a choice being added again. *)
Definition nested_ran : list (mop idE) :=
  [MNew idE; MTree idE 0 (@AddChoices (B64 _ _) ["A"; "B"] false None); MTree idE 0 (NodeAdd (F:=B64 _ _) 0 "C" (flz 1)); MTree idE 0 (NodeAdd (F:=B64 _ _) 0 "D" (flz 1));
   MUnits idE 0 ["h1"]; MAppend idE 0 "1 @ A.C" (Some "g"); MAppend idE 0 "2 @ A.D" (Some "g"); MAppend idE 0 "2" None; MPreval idE 0 "g" true false].
Definition nested_world := mrun idE (new_mworld idE) nested_ran.
(** the utility of unit [r] for each choice *)
Definition by_choice (w : mworld idE) : res (list (list string * SpecFloat.spec_float)) :=
  do cols <- choices (m_tree (model idE w 0)); do t <- futilities _ _ w None; Ok (combine (map label_parts cols) (nth 0 t [])).
Theorem C30_readding_refuted : ~ forall (ops : list (mop idE)) name sc l l' x v v',
  let w := mrun idE (new_mworld idE) ops in let w' := mstep idE w (MTree idE 0 (NodeAdd (F:=B64 _ _) 0 name sc)) in
  by_choice w = Ok l -> by_choice w' = Ok l' -> In (x, v) l -> In (x, v') l' -> v' = v.
Proof.
  intros H. assert (X : by_choice nested_world = Ok [(["A"; "."], sfz 2); (["B"; "."], sfz 2); (["A"; "C"], sfz 3); (["A"; "D"], sfz 4)] /\
    by_choice (mstep idE nested_world (MTree idE 0 (NodeAdd (F:=B64 _ _) 0 "C" (flz 1)))) = Ok [(["A"; "."], sfz 2); (["B"; "."], sfz 2); (["A"; "D"], sfz 3); (["A"; "C"], sfz 4)])
    by (vm_compute; exact (conj eq_refl eq_refl)).
  destruct X as [X1 X2]. specialize (H nested_ran "C" (flz 1) _ _ ["A"; "C"] (sfz 3) (sfz 4) X1 X2).
  assert (Q : sfz 4 = sfz 3) by (apply H; cbn; tauto). vm_compute in Q. inversion Q.
Qed.

(** the same history meets the hypotheses of the theorems above *)
Example moved_hypotheses_met :
  let m := model idE nested_world 0 in let t := m_tree m in
  length (mw_models nested_world) = 1 /\ t_all t = [("A", 0); ("B", 1); ("A.C", 2); ("A.D", 3)] /\
  map (fun id => n_children (t_heap t) id) [2; 3] = [0; 0] /\
  (has_dot "C", nlt (B64 (fun x => x) (fun x => x)) (nzero _) (flz 1), nle (B64 (fun x => x) (fun x => x)) (flz 1) (none_ _)) = (false, true, true) /\
  rmap (map label_parts) (choices t) = Ok [["A"; "."]; ["B"; "."]; ["A"; "C"]; ["A"; "D"]] /\
  match m_utils m with Some u => exact_table (nth (u_ref u) (mw_tabs nested_world) []) | None => [] end = [[sfz 0; sfz 0; sfz 1; sfz 2]] /\
  moved_last 2 [["A"; "."]; ["B"; "."]; ["A"; "C"]; ["A"; "D"]] = [["A"; "."]; ["B"; "."]; ["A"; "D"]; ["A"; "C"]].
Proof. vm_compute. exact (conj eq_refl (conj eq_refl (conj eq_refl (conj eq_refl (conj eq_refl (conj eq_refl eq_refl)))))). Qed.
Lemma nodup_two (a b : string) : a <> b -> NoDup [a; b].
Proof. intros H. constructor; [intros [X|[]]; congruence|]. constructor; [intros []|constructor]. Qed.
Lemma add_top_new {F : arith} (t : tree F) names once scales : t_all t = [] -> NoDup names -> replacing_op t (AddChoices names once scales).
Proof. intros H N. split; auto. intros name _ K. unfold is_key in K. rewrite H in K. destruct K. Qed.
Lemma add_new {F : arith} (t : tree F) p pkey name scale l : t_all t = l -> In (pkey, p) l -> ~ In (pkey ++ "." ++ name)%string (map fst l) -> replacing_op t (NodeAdd p name scale).
Proof. intros <- H N. exists pkey. split; auto. intros K. destruct (N K). Qed.
Lemma add_again {F : arith} (t : tree F) p pkey name scale l old : t_all t = l -> In (pkey, p) l -> valid_args name scale ->
  (forall i, In ((pkey ++ "." ++ name)%string, i) l -> i = old) -> map (fun e => option_map nd_parent (nth_error (t_heap t) (snd e))) l = map (fun e => if Nat.eqb (snd e) 2 then Some (Some 0) else if Nat.eqb (snd e) 3 then Some (Some 0) else Some None) l ->
  old <> 0 -> replacing_op t (NodeAdd p name scale).
Proof.
  intros <- H V O M N. exists pkey. split; auto. intros _. split; auto. intros i Hi. apply O in Hi. subst i. intros (c & nd & [k Hc] & Ec & P).
  assert (X : option_map nd_parent (nth_error (t_heap t) c) = if Nat.eqb c 2 then Some (Some 0) else if Nat.eqb c 3 then Some (Some 0) else Some None).
  { clear -M Hc. induction (t_all t) as [|e l IH]; [destruct Hc|]. injection M as M1 M2. destruct Hc as [->|Hc]; auto. }
  rewrite Ec in X. cbn in X. rewrite P in X. destruct (c =? 2); [congruence|]. destruct (c =? 3); congruence.
Qed.
Lemma orderly_tree {L F D cell} (E : env L F D cell) w i o rest l : t_all (m_tree (model E w i)) = l -> length (m_scope (model E w i)) = 0 ->
  (forall t, t_all t = l -> replacing_op t o) -> orderly_history E (mstep E w (MTree E i o)) rest -> orderly_history E w (MTree E i o :: rest).
Proof. intros A H R T. split; [split; [now apply R|]|exact T]. intros name s I. destruct (m_scope (model E w i)); [destruct I|discriminate H]. Qed.
Lemma orderly_tree' {L F D cell} (E : env L F D cell) w i o rest l ps : t_all (m_tree (model E w i)) = l -> length (m_scope (model E w i)) = 0 ->
  map (fun e => option_map nd_parent (nth_error (t_heap (m_tree (model E w i))) (snd e))) l = ps ->
  (forall t, t_all t = l -> map (fun e => option_map nd_parent (nth_error (t_heap t) (snd e))) l = ps -> replacing_op t o) -> orderly_history E (mstep E w (MTree E i o)) rest -> orderly_history E w (MTree E i o :: rest).
Proof. intros A H P R T. split; [split; [now apply R|]|exact T]. intros name s I. destruct (m_scope (model E w i)); [destruct I|discriminate H]. Qed.
Example moved_orderly : orderly_history idE (new_mworld idE) (nested_ran ++ [MTree idE 0 (NodeAdd (F:=B64 _ _) 0 "C" (flz 1))]).
Proof.
  unfold nested_ran. cbn [app]. split; [exact I|].
  apply (orderly_tree idE _ _ _ _ []); [vm_compute; reflexivity|vm_compute; reflexivity|intros t T; apply (add_top_new _ _ _ _ T); exact (nodup_two "A" "B" ltac:(congruence))|].
  apply (orderly_tree idE _ _ _ _ [("A", 0); ("B", 1)]); [vm_compute; reflexivity|vm_compute; reflexivity| |].
  { intros t T. apply (add_new _ 0 "A" "C" _ _ T); [left; reflexivity|intros X; cbn in X; destruct X as [X|[X|[]]]; discriminate X]. }
  apply (orderly_tree idE _ _ _ _ [("A", 0); ("B", 1); ("A.C", 2)]); [vm_compute; reflexivity|vm_compute; reflexivity| |].
  { intros t T. apply (add_new _ 0 "A" "D" _ _ T); [left; reflexivity|intros X; cbn in X; destruct X as [X|[X|[X|[]]]]; discriminate X]. }
  split; [exact I|]. split; [exact I|]. split; [exact I|]. split; [exact I|]. split; [exact I|].
  apply (orderly_tree' idE _ _ _ _ [("A", 0); ("B", 1); ("A.C", 2); ("A.D", 3)] [Some None; Some None; Some (Some 0); Some (Some 0)]);
    [vm_compute; reflexivity|vm_compute; reflexivity|vm_compute; reflexivity| |exact I].
  intros t T P. apply (add_again t 0 "A" "C" _ _ 2 T); [left; reflexivity| |intros i X; cbn in X; destruct X as [X|[X|[X|[X|[]]]]]; try discriminate X; now injection X as <-|exact P|lia].
  split; [reflexivity|]. split; [intros X; inversion X|]. split; vm_compute; reflexivity.
Qed.

Print Assumptions C30_readding_moves_the_choice.
Print Assumptions C30_readding_shifts_utilities.
Print Assumptions C30_readding_refuted.
