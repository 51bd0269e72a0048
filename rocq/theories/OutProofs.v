(** Whole runs: the outputs (lemmas behind C83, C84). *)
From Coq Require Import Sorted.
From Verif Require Import Prelude Arith CoreModel SpecSampling SpecNested SpecTree NestedProofs PropNested SamplingProofs TreeModel DictProofs TreeProofs TreeMore TreeHist TreeRow ParModel SpecDraws ParProofs ExprModel SpecExpr ScopeModel SpecScope ScopeProofs ModelModel ModelProofs SpecModel RunOut SpecEnd.
Local Open Scope string_scope.
Local Open Scope nat_scope.
Local Open Scope list_scope.

Lemma combine_seq {A B} (da : A) (db : B) : forall l p, length l = length p -> combine l p = map (fun k => (nth k l da, nth k p db)) (seq 0 (length l)).
Proof.
  intros l. induction l as [|a l IH]; intros [|b p] H; try discriminate; auto. cbn [combine length seq map nth]. f_equal. rewrite IH by (cbn in H; lia).
  rewrite <- seq_shift, map_map. reflexivity.
Qed.
Lemma filter_sorted (g : nat -> bool) : forall n s, StronglySorted lt (filter g (seq s n)).
Proof.
  induction n as [|n IH]; intros s; cbn; [constructor|]. destruct (g s); [|apply IH]. constructor; [apply IH|]. apply Forall_forall. intros x I.
  apply filter_In in I. destruct I as [I _]. apply in_seq in I. lia.
Qed.

Section Tree.
  Context (F : arith) (t : tree F) (INV : inv F t) (nl : nat) (DP : depth t = Ok nl).
  Notation num := (num F).

  Lemma all_ids : length (t_all t) = length (ids t).
  Proof using Type. unfold ids, dvals. now rewrite map_length. Qed.
  Lemma all_nth k i : nth_error (ids t) k = Some i <-> exists key, nth_error (t_all t) k = Some (key, i).
  Proof using Type.
    unfold ids, dvals. rewrite nth_error_map. destruct (nth_error (t_all t) k) as [[key j]|]; cbn; split; intros H; try (injection H as ->; eauto); try discriminate.
    - destruct H as (key' & H). injection H as -> ->. reflexivity.
    - destruct H as (? & ?). discriminate.
  Qed.
  Lemma flatten_encodes : 1 < nl -> exists h lv sc bt, flatten F t = Ok (h, lv, sc, bt) /\ wf_table (length (t_all t)) h lv bt /\ encodes F t h sc.
  Proof.
    intros Hd. do 4 eexists. split; [now apply (flatten_eq F t nl)|]. rewrite all_ids. split; [now apply (flatten_wf F t nl)|]. unfold encodes. rewrite all_ids, !map_length.
    split; auto. split; auto. intros k key i nd Ek En. assert (Ei : nth_error (ids t) k = Some i) by (apply all_nth; eauto).
    assert (S : stored F t i) by (eapply nth_error_In; eauto).
    assert (NT : forall A (f : nat -> A) dflt, nth k (map f (ids t)) dflt = f i) by (intros; apply nth_error_nth; rewrite nth_error_map, Ei; reflexivity).
    rewrite !NT. split.
    - pose proof (exp_h_parent F t k i nd INV Ei En) as X. destruct (nd_parent nd) as [p|]; auto. destruct X as (q & Eq & X). apply all_nth in Eq. destruct Eq as [pkey Eq]. eauto.
    - intros HC. apply (has_child_iff F t i INV S) in HC. unfold exp_sc. rewrite En, HC. auto.
  Qed.
  Lemma row_outputs_solution us scaled chk P top terms : length us = length (t_all t) -> row_outputs t us scaled chk = Ok (P, top, terms) ->
    logit_solution F t nl scaled us P top terms /\ length P = length us /\ length terms = length us.
  Proof.
    intros LU H. unfold row_outputs in H. rewrite DP in H. cbn [rbind] in H. unfold logit_solution. destruct (Nat.ltb_spec 1 nl) as [Hd|Hd].
    - destruct (flatten_encodes Hd) as (h & lv & sc & bt & FE & WF & EN). rewrite FE in H. cbn [rbind] in H. rewrite <- LU in WF.
      pose proof (C13_nested_logit_equations F (length us) h lv bt sc us scaled chk P top terms WF eq_refl H) as S. split; [eauto|]. destruct S as ((S1 & _) & _ & S2 & _). auto.
    - unfold multinomial_probabilities in H. fold (nsum F (map (nexp F) us)) in H. unfold mnl_solution. fold (nsum F (map (nexp F) us)) in *.
      destruct (nle F (nsum F (map (nexp F) us)) (nzero F)) eqn:Q; [destruct chk; [discriminate|]|]; injection H as <- <- <-; rewrite !map_length; fold (nsum F (map (nexp F) us)); rewrite Q; auto.
  Qed.

  Context (VT : validate_tree t = Ok tt).
  Lemma end_nodes k : end_node F t k <-> k < length (ids t) /\ negb (is_parent (t_heap t) (nth k (ids t) 0)) = true.
  Proof.
    unfold end_node. split.
    - intros (key & i & E & NC). assert (Ei : nth_error (ids t) k = Some i) by (apply all_nth; eauto). split; [apply nth_error_Some; congruence|].
      rewrite (nth_error_nth _ _ _ Ei). apply negb_true_iff, not_true_iff_false. intros Q. apply NC. apply has_child_iff; auto. eapply nth_error_In; eauto.
    - intros [Hk Q]. destruct (nth_error (ids t) k) as [i|] eqn:Ei; [|apply nth_error_None in Ei; lia]. rewrite (nth_error_nth _ _ _ Ei) in Q.
      pose proof (proj1 (all_nth k i) Ei) as [key Ek]. exists key, i. split; auto. intros HC. apply has_child_iff in HC; auto; [|eapply nth_error_In; eauto]. rewrite HC in Q. discriminate.
  Qed.
  Lemma flat_no_children i : ~ 1 < nl -> stored F t i -> is_parent (t_heap t) i = false.
  Proof.
    intros Hd S. destruct (is_parent (t_heap t) i) eqn:X; auto. exfalso. pose proof INV as [C W].
    apply (has_child_iff F t i INV S) in X. destruct X as (c & nc & Hc & Ec & Pc). apply in_model_stored in Hc.
    pose proof (depth_ok F t nl DP c Hc) as Y. destruct (c_node F t C c Hc) as (nc' & Ec' & _ & P). rewrite Ec in Ec'. injection Ec' as <-.
    rewrite Pc in P. destruct P as [P1 P2]. pose proof (depth_ok F t nl DP i S) as Z. unfold level_of in Y, Z, P2. rewrite Ec in Y. destruct (nth_error (t_heap t) i) as [ni|] eqn:Ei; [|destruct (stored_node F t i C S); congruence].
    destruct (c_node F t C i S) as (ni' & Ei' & _ & Q). rewrite Ei in Ei'. injection Ei' as <-. destruct (nd_parent ni); lia.
  Qed.
  Lemma frame_row_ends P cols : choices t = Ok cols -> length P = length (t_all t) ->
    exists row, (if 1 <? nl then nested_frame_row F t P else do cols <- choices t; Ok (combine cols P)) = Ok row /\ end_row F t cols P row.
  Proof.
    intros CH LP. rewrite CH. rewrite all_ids in LP. pose proof (choices_eq F t nl INV VT DP) as CE. rewrite CE in CH. injection CH as <-.
    set (g := fun i => negb (is_parent (t_heap t) i)). set (ks := filter (fun k => g (nth k (ids t) 0)) (seq 0 (length (ids t)))).
    assert (KS : StronglySorted lt ks /\ forall k, In k ks <-> end_node F t k).
    { split; [apply filter_sorted|]. intros k. unfold ks. rewrite filter_In, in_seq, end_nodes. unfold g. cbn. intuition lia. }
    assert (LBL : forall k, In k ks -> nth k (map (label_of F t nl) (ids t)) (Flat "") = label_of F t nl (nth k (ids t) 0)).
    { intros k I. unfold ks in I. apply filter_In in I. destruct I as [I _]. apply in_seq in I. rewrite (nth_indep _ _ (label_of F t nl 0)) by (rewrite map_length; lia). apply map_nth. }
    exists (map (fun k => (nth k (map (label_of F t nl) (ids t)) (Flat ""), nth k P (nzero F))) ks). split; [|exists ks; intuition].
    destruct (Nat.ltb_spec 1 nl) as [Hd|Hd].
    - assert (EL : elemental_choices t = Ok (map (label_of F t nl) (filter g (ids t)))).
      { unfold elemental_choices. rewrite DP. cbn [rbind]. destruct (Nat.eqb_spec nl 1); [lia|]. f_equal.
        apply map_ext_in. intros j Hj. apply filter_In in Hj. destruct Hj as [Hj _]. unfold label_of.
        destruct (Nat.eqb_spec nl 1); [lia|]. f_equal. apply (nested_id_spec F); auto; intros; apply (depth_ok F t nl DP); auto. }
      unfold nested_frame_row. rewrite EL, CE. cbn [rbind]. f_equal.
      rewrite (filter_select (label_of F t nl) label_eqb g (ids t) P label_eqb_spec) by (intros a b Ha Hb; apply (label_of_inj F t nl); auto).
      rewrite (combine_seq 0 (nzero F)) by auto. rewrite filter_map_comm, map_map. cbn [fst snd]. fold ks. apply map_ext_in. intros k I. now rewrite LBL.
    - cbn [rbind]. f_equal. assert (KA : ks = seq 0 (length (ids t))).
      { unfold ks. apply filter_all. intros k I. apply in_seq in I. unfold g. rewrite flat_no_children; auto; [lia|]. apply nth_In. lia. }
      rewrite KA. rewrite (combine_seq (Flat "") (nzero F)) by (rewrite map_length; auto). now rewrite map_length.
  Qed.
  Lemma stochastic_outputs_ok us scaled chk cols out : choices t = Ok cols -> length us = length (t_all t) -> stochastic_outputs t us scaled chk = Ok out ->
    exists P top terms row, logit_solution F t nl scaled us P top terms /\ end_row F t cols P row /\ length P = length us /\ length terms = length us /\ out = (row, top, combine cols terms).
  Proof.
    intros CH LU H. unfold stochastic_outputs in H. apply rbind_ok in H. destruct H as ([[P top] terms] & RO & H). rewrite DP in H. cbn [rbind] in H.
    destruct (row_outputs_solution us scaled chk P top terms LU RO) as (S & L1 & L2). destruct (frame_row_ends P cols CH) as (row & FR & ER); [congruence|].
    rewrite FR in H. cbn [rbind] in H. rewrite CH in H. cbn [rbind] in H. injection H as <-. eauto 10.
  Qed.
End Tree.

(** the first output is the one of [run_stochastic] *)
Lemma outputs_row F (t : tree F) us scaled chk : stochastic_row F t us scaled chk = do (row, _, _) <- stochastic_outputs t us scaled chk; Ok row.
Proof.
  unfold stochastic_row, stochastic_outputs, row_outputs. destruct (depth t) as [d|]; [|reflexivity]. cbn [rbind]. destruct (1 <? d).
  - destruct (flatten F t) as [[[[h lv] sc] bt]|]; [|reflexivity]. cbn [rbind]. destruct (nested_probabilities F h lv sc bt scaled us chk) as [[[p top] terms]|]; [|reflexivity]. cbn [rbind].
    unfold nested_frame_row. destruct (elemental_choices t) as [el|]; [|reflexivity]. cbn [rbind]. destruct (choices t) as [cols|]; reflexivity.
  - destruct (multinomial_probabilities F us chk) as [[[p top] terms]|]; [|reflexivity]. cbn [rbind]. destruct (choices t) as [cols|]; reflexivity.
Qed.

Lemma running_rd F (P : list (num F)) k : k < length P -> rd (nbf_cumsum F P) k = running F P k.
Proof.
  intros H. unfold nbf_cumsum, running, rd. assert (G : forall P k acc, k < length P -> nth k (cumsum_from F acc P) (nzero F) = fold_left (nadd F) (firstn (S k) P) acc); [|now apply G].
  clear. induction P as [|x P IH]; intros k acc H; [cbn in H; lia|]. cbn [cumsum_from]. destruct k as [|k]; [reflexivity|].
  cbn [nth]. rewrite IH by (cbn in H; lia). reflexivity.
Qed.
Lemma first_reaching_ext f g n i : (forall k, k < n -> f k = g k) -> first_reaching f n i -> first_reaching g n i.
Proof. intros H [A B]. split; auto. destruct B as [[B1 B2]|[B1 B2]]; [left|right]; split; auto; try (rewrite <- H; auto; fail); intros j Hj; rewrite <- H; auto; lia. Qed.

Section Sample.
  Context (F : arith) (G : generator F) (t : tree F) (nl : nat) (DP : depth t = Ok nl).
  Notation num := (num F).

  Lemma sampling_task_unified us n seed scaled task : sampling_task G t us n seed scaled = Ok task ->
    exists f fs, task = discrete_task F G f fs us n seed /\ (forall u, f u = row_outputs t u scaled true) /\
      (forall u x, fs u x = do (p, ls, _) <- row_outputs t u scaled true; Ok (sample_once F p x, ls)).
  Proof.
    unfold sampling_task, row_outputs. rewrite DP. cbn [rbind]. destruct (1 <? nl).
    - destruct (flatten F t) as [[[[h lv] sc] bt]|]; [|discriminate]. cbn [rbind]. intros H. injection H as <-. do 2 eexists. split; [reflexivity|]. split; reflexivity.
    - intros H. injection H as <-. do 2 eexists. split; [reflexivity|]. split; reflexivity.
  Qed.
  Lemma search_all_nth cps : forall draws zs, search_all F draws cps = Some zs ->
    length zs = length draws /\ forall j, j < length draws -> logarithmic_search F (nth j draws (nzero F)) cps = Some (nth j zs 0%Z).
  Proof using Type.
    induction draws as [|x draws IH]; intros zs H; cbn in H; [injection H as <-; split; auto; cbn; intros; lia|].
    destruct (logarithmic_search F x cps) as [z|] eqn:LS; [|discriminate]. destruct (search_all F draws cps) as [l|] eqn:SA; [|discriminate]. injection H as <-.
    destruct (IH l eq_refl) as [L N]. split; [cbn; lia|]. intros [|j] Hj; [exact LS|]. cbn. apply N. cbn in Hj. lia.
  Qed.
  Lemma uniforms_length : forall n (g : gstate G), length (uniforms F G g n) = n.
  Proof using Type. induction n as [|n IH]; intros g; cbn; auto. destruct (guniform G g). cbn. now rewrite IH. Qed.

  Lemma discrete_rows us n seed scaled task r0 m0 mem : inv F t -> sampling_task G t us n seed scaled = Ok task -> 1 <= n ->
    (forall u, In u us -> length u = length (t_all t)) ->
    parallel_for F G (length us) task r0 m0 mem false ->
    forall r, r < length us -> exists P top terms, row_outputs t (nth r us []) scaled true = Ok (P, top, terms) /\ mem (CLs r) = VN top /\
      forall j, j < n -> exists i, mem (CRes r j) = VI (Z.of_nat i) /\ i < length P /\ chosen F n P (random_number F G seed (length us) n r j) i.
  Proof.
    intros INV ST Hn LU PF r Hr. destruct (sampling_task_unified us n seed scaled task ST) as (f & fs & -> & F1 & F2).
    assert (NP : 0 < length (t_all t)).
    { rewrite all_ids. unfold depth in DP. destruct (ids t); [discriminate|cbn; lia]. }
    assert (LP : forall u p ls te, row_outputs t u scaled true = Ok (p, ls, te) -> In u us -> p <> []).
    { intros u p ls te RO I Q. destruct (row_outputs_solution F t INV nl DP u scaled true p ls te (LU u I) RO) as (_ & L1 & _). rewrite (LU u I), Q in L1. cbn in L1. lia. }
    assert (IR : In (nth r us []) us) by (apply nth_In; auto). unfold random_number, chosen. destruct (Nat.eqb_spec n 1) as [->|N1].
    all: try rewrite <- (uniforms_nth F G (gseed G seed) (length us) r (nzero F) Hr); try rewrite <- (randints_nth F G (gseed G seed) (length us) r 0%Z Hr).
    - destruct (discrete_values_one F G f fs us seed r0 m0 mem false 1 (le_n 1) PF) as [A B]. unfold generate_rand_floats_for_parallel in *.
      set (x := nth r (uniforms F G (gseed G seed) (length us)) (nzero F)) in *.
      destruct (row_outputs t (nth r us []) scaled true) as [[[P top] terms]|e] eqn:RO.
      + exists P, top, terms. split; auto. destruct (B r (sample_once F P x) top Hr) as [B1 B2]; [rewrite F2, RO; reflexivity|]. split; auto. intros j Hj. assert (j = 0) by lia. subst j.
        destruct (sample_once_first F P x) as (i & E1 & E2); [eapply LP; eauto|]. exists i. split; [congruence|]. split; [apply E2|]. cbn. unfold pymax in E2. eapply first_reaching_ext; [|exact E2].
        intros k Hk. cbn. now rewrite running_rd.
      + exfalso. assert (false = true); [|discriminate]. apply A. exists r, e. split; auto. fold x. rewrite F2, RO. reflexivity.
    - edestruct (discrete_values_many F G f fs us seed r0 m0 mem false n) as [A B]; [lia| | |exact PF|].
      + intros u p ls te Q I. rewrite F1 in Q. eapply LP; eauto.
      + intros cps x Hc. destruct (log_search_in_range F x cps Hc) as (i & Q & _). eauto.
      + unfold generate_rand_ints_for_parallel in *. destruct (row_outputs t (nth r us []) scaled true) as [[[P top] terms]|e] eqn:RO.
        * exists P, top, terms. split; auto. destruct (B r P top terms Hr) as (B1 & zs & SA & LZ & BZ); [now rewrite F1|]. split; auto. intros j Hj.
          set (s := nth r (randints F G (gseed G seed) (length us)) 0%Z) in *. apply search_all_nth in SA. destruct SA as [_ SA]. rewrite uniforms_length in SA. specialize (SA j Hj).
          rewrite <- (uniforms_nth F G (gseed G s) n j (nzero F) Hj). set (x := nth j (uniforms F G (gseed G s) n) (nzero F)) in *. cbn zeta. assert (PN : P <> []) by (eapply LP; eauto).
          assert (CN : nbf_cumsum F P <> []) by (destruct P; [congruence|discriminate]). assert (CL : length (nbf_cumsum F P) = length P) by apply cumsum_length.
          destruct (log_search_in_range F x _ CN) as (i & LS & Hi). rewrite CL in Hi. rewrite LS in SA. injection SA as SA. exists i. split; [rewrite BZ by auto; now rewrite <- SA|]. split; auto. split; auto.
          intros MO. destruct (log_search_first F x _ CN) as (i' & LS' & FR).
          { rewrite CL. intros a b Hab Q. rewrite running_rd in * by lia. eapply MO; eauto. }
          rewrite LS in LS'. injection LS' as LS'. apply Nat2Z.inj in LS'. subst i'. rewrite CL in FR. eapply first_reaching_ext; [|exact FR]. intros k Hk. cbn. now rewrite running_rd.
        * exfalso. assert (false = true); [|discriminate]. apply A. exists (nth r us []), e. split; auto. rewrite F1. exact RO.
  Qed.
End Sample.

Section Sample2.
  Context (F : arith) (G : generator F) (t : tree F) (nl : nat) (DP : depth t = Ok nl).
  Lemma discrete_no_error us n seed scaled task r0 m0 mem e : inv F t -> sampling_task G t us n seed scaled = Ok task -> 1 <= n ->
    (forall u, In u us -> length u = length (t_all t)) ->
    parallel_for F G (length us) task r0 m0 mem e ->
    (e = true <-> exists u x, In u us /\ row_outputs t u scaled true = Err x).
  Proof.
    intros INV ST Hn LU PF. destruct (sampling_task_unified F G t nl DP us n seed scaled task ST) as (f & fs & -> & F1 & F2).
    assert (NP : 0 < length (t_all t)).
    { rewrite all_ids. unfold depth in DP. destruct (ids t); [discriminate|cbn; lia]. }
    assert (LP : forall u p ls te, row_outputs t u scaled true = Ok (p, ls, te) -> In u us -> p <> []).
    { intros u p ls te RO I Q. destruct (row_outputs_solution F t INV nl DP u scaled true p ls te (LU u I) RO) as (_ & L1 & _). rewrite (LU u I), Q in L1. cbn in L1. lia. }
    destruct (Nat.eq_dec n 1) as [->|N1].
    - destruct (discrete_values_one F G f fs us seed r0 m0 mem e 1 (le_n 1) PF) as [A _]. rewrite A. split.
      + intros (i & x & Hi & Q). rewrite F2 in Q. destruct (row_outputs t (nth i us []) scaled true) as [[[P top] terms]|y] eqn:RO; [discriminate|]. exists (nth i us []), y. split; auto. now apply nth_In.
      + intros (u & x & I & Q). apply In_nth_error in I. destruct I as [i I]. exists i, x. split; [apply nth_error_Some; congruence|]. rewrite F2, (nth_error_nth _ _ _ I), Q. reflexivity.
    - edestruct (discrete_values_many F G f fs us seed r0 m0 mem e n) as [A _]; [lia| | |exact PF|].
      + intros u p ls te Q I. rewrite F1 in Q. eapply LP; eauto.
      + intros cps x Hc. destruct (log_search_in_range F x cps Hc) as (i & Q & _). eauto.
      + rewrite A. split; intros (u & x & I & Q); exists u, x; split; auto; [rewrite <- F1|rewrite F1]; exact Q.
  Qed.
  Lemma sampling_task_ok us n seed scaled : inv F t -> exists task, sampling_task G t us n seed scaled = Ok task.
  Proof.
    intros INV. unfold sampling_task. rewrite DP. cbn [rbind]. destruct (Nat.ltb_spec 1 nl) as [Hd|Hd]; [|eauto].
    destruct (flatten_encodes F t INV nl DP Hd) as (h & lv & sc & bt & -> & _). cbn [rbind]. eauto.
  Qed.
End Sample2.
Lemma first_reaching_fun f n i j : first_reaching f n i -> first_reaching f n j -> i = j.
Proof.
  intros [A1 [[A2 A3]|[A2 A3]]] [B1 [[B2 B3]|[B2 B3]]]; try lia.
  - destruct (lt_eq_lt_dec i j) as [[H|H]|H]; auto; [specialize (B3 i H)|specialize (A3 j H)]; congruence.
  - specialize (B3 i A1). congruence.
  - specialize (A3 j B1). congruence.
Qed.
