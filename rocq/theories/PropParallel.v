(** C19-C23: the parallel workers. *)
From Coq Require Import Reals Lra Permutation.
From Verif Require Import Prelude Arith CoreModel SamplingProofs ParModel SpecDraws ParProofs.
Local Open Scope nat_scope.

Definition f64_half : float64 := f64_div f64_one (f64_add f64_one f64_one).

(** the row of a table, as written by a worker *)
Definition row_of {F} (m : mem F) (i : nat) (p : list (num F)) (ls : num F) (terms : list (num F)) : Prop :=
  m (CLs i) = VN ls /\
  (forall j x, nth_error p j = Some x -> m (CRes i j) = VN x) /\
  (forall j x, nth_error terms j = Some x -> m (CTerm i j) = VN x).

(** ** C19: probability workers *)

Lemma prob_rows F G f us r0 m0 m e :
  parallel_for F G (length us) (prob_task F f us) r0 m0 m e ->
  (e = true <-> exists u x, In u us /\ f u = Err x) /\
  (forall i u p ls terms, nth_error us i = Some u -> f u = Ok (p, ls, terms) -> row_of m i p ls terms).
Proof.
  intros H. destruct (prob_worker F G f us r0 m0 m e (length us) eq_refl H) as [A B]. split.
  - rewrite A. split.
    + intros (i & Hi & x & Hx). exists (nth i us []), x. split; auto. now apply nth_In.
    + intros (u & x & Hu & Hx). destruct (In_nth us u [] Hu) as (i & Hi & Ei). exists i. split; auto.
      exists x. now rewrite Ei.
  - intros i u p ls terms Hu Hf.
    assert (Hi : i < length us) by (apply nth_error_Some; congruence).
    rewrite <- (nth_error_nth us i [] Hu) in Hf.
    destruct (B i p ls terms Hi Hf) as (X & Y & Z). split; [auto|].
    split; intros j x Hx; [rewrite (Y j (nzero F))|rewrite (Z j (nzero F))];
      try (apply nth_error_Some; congruence); f_equal; now apply nth_error_nth.
Qed.

Theorem C19_multinomial_rows : forall F (G : generator F) us check r0 m0 m e,
  parallel_for F G (length us) (worker_multinomial_probabilities F us check) r0 m0 m e ->
  (e = true <-> exists u x, In u us /\ multinomial_probabilities F u check = Err x) /\
  (forall i u p ls terms, nth_error us i = Some u ->
     multinomial_probabilities F u check = Ok (p, ls, terms) -> row_of m i p ls terms).
Proof. intros F G us check r0 m0 m e H. exact (prob_rows F G _ us r0 m0 m e H). Qed.
Print Assumptions C19_multinomial_rows.

Theorem C19_nested_rows : forall F (G : generator F) us parents levels scales flags scaled check r0 m0 m e,
  parallel_for F G (length us) (worker_nested_probabilities F us parents levels scales flags scaled check) r0 m0 m e ->
  (e = true <-> exists u x, In u us /\ nested_probabilities F parents levels scales flags scaled u check = Err x) /\
  (forall i u p ls terms, nth_error us i = Some u ->
     nested_probabilities F parents levels scales flags scaled u check = Ok (p, ls, terms) ->
     row_of m i p ls terms).
Proof. intros. exact (prob_rows F G _ us r0 m0 m e H). Qed.
Print Assumptions C19_nested_rows.

(** Cells belonging to no row of the table keep their value. *)
Theorem C19_nothing_else_written : forall F (G : generator F) f us r0 m0 m e a,
  parallel_for F G (length us) (prob_task F f us) r0 m0 m e ->
  (forall i j, i < length us -> a <> CRes i j /\ a <> CLs i /\ a <> CTerm i j) -> m a = m0 a.
Proof.
  intros F G f us r0 m0 m e a H Ha.
  destruct (machine_result F G (length us) (prob_task F f us) row_cells m0
              (fun i _ => prob_task_owns F f us i) (fun i j a _ _ => row_cells_disj i j a) (r0 0)
              (fun i _ => no_draw_indep F G _ (prob_task_no_draw F f us i)) r0 m e H) as (_ & B & _).
  apply B. intros i Hi. destruct a as [i' j|i'|i' j|i' j|i']; simpl; auto; intros ->.
  - destruct (Ha i j Hi) as [X _]; auto.
  - destruct (Ha i 0 Hi) as (_ & X & _); auto.
  - destruct (Ha i j Hi) as (_ & _ & X); auto.
Qed.
Print Assumptions C19_nothing_else_written.

(** Completed runs exist for every table, and no reachable configuration is stuck before
    every iteration has finished. *)
Theorem C19_runs_exist : forall F (G : generator F) n task r0 m0,
  exists m e, parallel_for F G n task r0 m0 m e.
Proof. exact parallel_for_exists. Qed.

Theorem C19_no_deadlock : forall F (G : generator F) n task r0 m0 c,
  steps F G n task (Config m0 false r0 (fun _ => Waiting)) c ->
  (exists i, i < n /\ c_st c i <> Finished) -> exists d, step F G n task c d.
Proof.
  intros F G n task r0 m0 c H Hi. apply machine_progress; auto.
  assert (X : forall c d, steps F G n task c d -> (forall i t p, c_st c i = Running t p -> i < n) ->
                     forall i t p, c_st d i = Running t p -> i < n).
  { clear. induction 1 as [|c d f H1 H2 IH]; auto. intros Hc. apply IH. intros i t p.
    destruct H1; simpl in *;
      match goal with |- fupd ?s ?k ?x ?j = _ -> _ =>
        destruct (fupd_cases s k x j) as [[<- ->]|[? ->]]; eauto end; try discriminate. }
  apply (X _ _ H). simpl. discriminate.
Qed.
Print Assumptions C19_no_deadlock.

(** two rows, two threads, interleaved writes: an actual run of the machine *)
Example C19_example : forall F (G : generator F) r0 m0, exists m e,
  parallel_for F G 2 (worker_multinomial_probabilities F [[nzero F]; [none_ F; nzero F]] false) r0 m0 m e /\ e = false.
Proof.
  intros F G r0 m0.
  destruct (C19_runs_exist F G 2 (worker_multinomial_probabilities F [[nzero F]; [none_ F; nzero F]] false) r0 m0) as (m & e & H).
  exists m, e. split; auto. destruct (C19_multinomial_rows F G [[nzero F]; [none_ F; nzero F]] _ _ _ _ _ H) as [A _].
  destruct e; auto. destruct (proj1 A eq_refl) as (u & x & _ & E).
  unfold multinomial_probabilities in E. destruct (nle F _ _); discriminate.
Qed.

(** ** C20: discrete workers *)

Theorem C20_multinomial_reproducible : forall F (G : generator F) us n seed r0 r0' m0 m m' e e',
  parallel_for F G (length us) (worker_multinomial_sample F G us n seed) r0 m0 m e ->
  parallel_for F G (length us) (worker_multinomial_sample F G us n seed) r0' m0 m' e' ->
  e = e' /\ forall a, m a = m' a.
Proof. intros. eapply discrete_deterministic; eauto. Qed.
Print Assumptions C20_multinomial_reproducible.

Theorem C20_nested_reproducible : forall F (G : generator F) us parents levels scales flags n seed scaled r0 r0' m0 m m' e e',
  parallel_for F G (length us) (worker_nested_sample F G us parents levels scales flags n seed scaled) r0 m0 m e ->
  parallel_for F G (length us) (worker_nested_sample F G us parents levels scales flags n seed scaled) r0' m0 m' e' ->
  e = e' /\ forall a, m a = m' a.
Proof. intros. eapply discrete_deterministic; eauto. Qed.
Print Assumptions C20_nested_reproducible.

(** What the one-draw workers return: row [i] is sampled with the [i]-th uniform number of the
    sequence that the seed alone determines. *)
Theorem C20_multinomial_one_draw : forall F (G : generator F) us seed r0 m0 m e,
  parallel_for F G (length us) (worker_multinomial_sample F G us 1 seed) r0 m0 m e ->
  forall i u r z ls, nth_error us i = Some u ->
    r = kth_uniform G (gseed G seed) i ->
    multinomial_sample F u r = Ok (z, ls) -> m (CRes i 0) = VI z /\ m (CLs i) = VN ls.
Proof.
  intros F G us seed r0 m0 m e H i u r z ls Hu Hr E.
  destruct (discrete_values_one F G (fun u => multinomial_probabilities F u true) (multinomial_sample F) us seed r0 m0 m e 1 (le_n 1) H) as [_ B].
  apply B; [apply nth_error_Some; congruence|]. unfold generate_rand_floats_for_parallel.
  rewrite (nth_error_nth _ _ _ Hu), uniforms_nth, <- Hr by (apply nth_error_Some; congruence). exact E.
Qed.
Print Assumptions C20_multinomial_one_draw.

Theorem C20_nested_one_draw : forall F (G : generator F) us parents levels scales flags seed scaled r0 m0 m e,
  parallel_for F G (length us) (worker_nested_sample F G us parents levels scales flags 1 seed scaled) r0 m0 m e ->
  forall i u r z ls, nth_error us i = Some u ->
    r = kth_uniform G (gseed G seed) i ->
    nested_sample F u r parents levels scales flags scaled = Ok (z, ls) -> m (CRes i 0) = VI z /\ m (CLs i) = VN ls.
Proof.
  intros F G us parents levels scales flags seed scaled r0 m0 m e H i u r z ls Hu Hr E.
  destruct (discrete_values_one F G (fun u => nested_probabilities F parents levels scales flags scaled u true)
    (fun u r => nested_sample F u r parents levels scales flags scaled) us seed r0 m0 m e 1 (le_n 1) H) as [_ B].
  apply B; [apply nth_error_Some; congruence|]. unfold generate_rand_floats_for_parallel.
  rewrite (nth_error_nth _ _ _ Hu), uniforms_nth, <- Hr by (apply nth_error_Some; congruence). exact E.
Qed.
Print Assumptions C20_nested_one_draw.

(** Several draws: row [i] is multi-sampled with the uniform numbers of its own seed, the
    [i]-th integer of the sequence that the master seed determines. *)
Theorem C20_multinomial_many_draws : forall F (G : generator F) us n seed r0 m0 m e,
  1 < n -> (forall u, In u us -> u <> []) ->
  parallel_for F G (length us) (worker_multinomial_sample F G us n seed) r0 m0 m e ->
  (e = true <-> exists u x, In u us /\ multinomial_probabilities F u true = Err x) /\
  forall i u s, nth_error us i = Some u ->
    s = kth_integer G (gseed G seed) i ->
    is_ok (multinomial_probabilities F u true) = true ->
    exists zs ls,
      multinomial_multisample F u (first_uniforms G (gseed G s) n) = Ok (Some zs, ls) /\ length zs = n /\
      m (CLs i) = VN ls /\ forall j z, nth_error zs j = Some z -> m (CRes i j) = VI z.
Proof.
  intros F G us n seed r0 m0 m e Hn Hne H.
  edestruct (discrete_values_many F G (fun u => multinomial_probabilities F u true) (multinomial_sample F)
              us seed r0 m0 m e n Hn) as [A B]; [| |exact H|].
  - intros u p ls t E Hu. intros ->. apply (Hne u Hu).
    unfold multinomial_probabilities in E. destruct (nle F _ _); [discriminate|]. injection E as E _ _.
    apply map_eq_nil in E. now apply map_eq_nil in E.
  - intros cps r Hc. destruct (log_search_in_range F r cps Hc) as (k & Hk & _). eauto.
  - split; auto. intros i u s Hu Hs Hok.
    destruct (multinomial_probabilities F u true) as [[[p ls] t]|] eqn:E; [|discriminate].
    assert (Hi : i < length us) by (apply nth_error_Some; congruence).
    destruct (B i p ls t Hi) as (X & zs & Y & Z & W); [now rewrite (nth_error_nth _ _ _ Hu)|].
    unfold generate_rand_ints_for_parallel in Y. rewrite randints_nth, <- Hs, uniforms_spec in Y by auto.
    exists zs, ls. unfold multinomial_multisample. rewrite E. cbn [rbind sample_multi snd]. rewrite Y.
    repeat split; auto. intros j z Hj. rewrite W by (rewrite <- Z; apply nth_error_Some; congruence).
    f_equal. now apply nth_error_nth.
Qed.
Print Assumptions C20_multinomial_many_draws.

Lemma s1_node_len F h sc bt sb (st : s1 F) i :
  length (s1_prob (s1_node F h sc bt sb st i)) = length (s1_prob st).
Proof. unfold s1_node. cbn [s1_prob]. apply upd_length. Qed.
Lemma fold_len {A B} (g : A -> nat) (f : A -> B -> A) l a : (forall a b, g (f a b) = g a) -> g (fold_left f l a) = g a.
Proof. intros H. revert a; induction l as [|x l IH]; intros a; simpl; auto. now rewrite IH. Qed.
Lemma nested_len F h lv sc bt sb u ck p ls t :
  nested_probabilities F h lv sc bt sb u ck = Ok (p, ls, t) -> length p = length u.
Proof.
  unfold nested_probabilities. destruct lv as [|l0 lv]; [discriminate|]. destruct (andb _ _); [discriminate|].
  intros E. injection E as <- _ _. unfold step4, step3, step2, step1.
  rewrite (fold_len (@length _)) by (intros a b; destruct (b <? 0)%Z; auto using upd_length).
  rewrite (fold_len (@length _)).
  2:{ intros a b. unfold s3_sweep. apply (fold_len (@length _)). intros x y.
      destruct (Nat.eqb _ _); auto. apply upd_length. }
  rewrite (fold_len (@length _)) by (intros a b; apply upd_length).
  rewrite (fold_len (fun st => length (s1_prob st))); auto.
  intros a b. unfold s1_sweep. apply (fold_len (fun st => length (s1_prob st))). intros x y.
  destruct (Nat.eqb _ _); auto using s1_node_len.
Qed.

Theorem C20_nested_many_draws : forall F (G : generator F) us parents levels scales flags n seed scaled r0 m0 m e,
  1 < n -> (forall u, In u us -> u <> []) ->
  parallel_for F G (length us) (worker_nested_sample F G us parents levels scales flags n seed scaled) r0 m0 m e ->
  (e = true <-> exists u x, In u us /\ nested_probabilities F parents levels scales flags scaled u true = Err x) /\
  forall i u s, nth_error us i = Some u ->
    s = kth_integer G (gseed G seed) i ->
    is_ok (nested_probabilities F parents levels scales flags scaled u true) = true ->
    exists zs ls,
      nested_multisample F u parents levels scales flags (first_uniforms G (gseed G s) n) scaled = Ok (Some zs, ls) /\ length zs = n /\
      m (CLs i) = VN ls /\ forall j z, nth_error zs j = Some z -> m (CRes i j) = VI z.
Proof.
  intros F G us parents levels scales flags n seed scaled r0 m0 m e Hn Hne H.
  edestruct (discrete_values_many F G (fun u => nested_probabilities F parents levels scales flags scaled u true)
              (fun u r => nested_sample F u r parents levels scales flags scaled)
              us seed r0 m0 m e n Hn) as [A B]; [| |exact H|].
  - intros u p ls t E Hu. intros ->. apply (Hne u Hu). apply nested_len in E. destruct u; auto; discriminate.
  - intros cps r Hc. destruct (log_search_in_range F r cps Hc) as (k & Hk & _). eauto.
  - split; auto. intros i u s Hu Hs Hok.
    destruct (nested_probabilities F parents levels scales flags scaled u true) as [[[p ls] t]|] eqn:E; [|discriminate].
    assert (Hi : i < length us) by (apply nth_error_Some; congruence).
    destruct (B i p ls t Hi) as (X & zs & Y & Z & W); [now rewrite (nth_error_nth _ _ _ Hu)|].
    unfold generate_rand_ints_for_parallel in Y. rewrite randints_nth, <- Hs, uniforms_spec in Y by auto.
    exists zs, ls. unfold nested_multisample. rewrite E. cbn [rbind sample_multi snd]. rewrite Y.
    repeat split; auto. intros j z Hj. rewrite W by (rewrite <- Z; apply nth_error_Some; congruence).
    f_equal. now apply nth_error_nth.
Qed.
Print Assumptions C20_nested_many_draws.

(** A generator of the kind used by the hypotheses, and a run. *)
Definition counter (F : arith) : generator F :=
  Generator F Z (fun s => s) (fun s => (none_ F, (s + 1)%Z)) (fun s => (s, (s + 1)%Z)).
Example C20_example : forall F r0 m0, exists m e,
  parallel_for F (counter F) 3 (worker_multinomial_sample F (counter F) (repeat [none_ F; none_ F] 3) 5 42%Z) r0 m0 m e.
Proof. intros. apply (C19_runs_exist F (counter F) 3). Qed.

(** ** C21: the weighted-sample worker *)

(** generator whose state is the next number *)
Definition tape fexp flog : generator (B64 fexp flog) :=
  Generator (B64 fexp flog) float64 (fun _ => f64_half) (fun s => (s, s)) (fun s => (0%Z, s)).

Ltac start i t := eapply steps_step; [eapply (st_start _ _ _ _ _ _ _ _ i t); [cbn; lia|reflexivity|]|].
Ltac idle := let j := fresh in let p := fresh in intros j p; destruct j as [|[|j]]; simpl; discriminate.
Ltac draw i := eapply steps_step; [eapply (st_draw _ _ _ _ _ _ _ _ i); reflexivity|].
Ltac write i := eapply steps_step; [eapply (st_write _ _ _ _ _ _ _ _ i); reflexivity|].
Ltac read i := eapply steps_step; [eapply (st_read _ _ _ _ _ _ _ _ i); reflexivity|].
Ltac done i := eapply steps_step; [eapply (st_done _ _ _ _ _ _ _ _ i); reflexivity|].

(** Two rows of two equal weights, the same seed, row 1 executed by thread 1 both times: the
    choice of row 1 is whatever the unseeded generator of thread 1 says. *)
Theorem C21_not_reproducible_refuted : forall fexp flog,
  let F := B64 fexp flog in let G := tape fexp flog in
  let weights := [[f64_one; f64_one]; [f64_one; f64_one]] in
  exists r0 r0' m0 m m',
    weighted_sample_once F G weights 7%Z r0 m0 m false /\
    weighted_sample_once F G weights 7%Z r0' m0 m' false /\
    m (CRes 1 0) = VI 0%Z /\ m' (CRes 1 0) = VI 1%Z.
Proof.
  intros fexp flog F G weights.
  assert (X : forall x : float64, exists m,
    weighted_sample_once F G weights 7%Z (fun _ => x) (fun _ => VI 0%Z) m false /\
    m (CRes 1 0) = VI (simple_sample F [f64_one; f64_one] x)).
  { intros x. eexists. split.
    - unfold weighted_sample_once. do 6 eexists. split; [|split; [|split]].
      + start 0 0; [idle|]. start 1 1; [idle|].
        draw 0. draw 1. write 1. write 0. done 0. done 1. apply steps_refl.
      + intros [|[|i]] Hi; simpl in *; auto; lia.
      + start 0 0; [idle|]. start 1 1; [idle|].
        read 0. read 1. write 0. write 1. done 0. done 1. apply steps_refl.
      + intros [|[|i]] Hi; simpl in *; auto; lia.
    - reflexivity. }
  destruct (X f64_half) as (m & Hm & E), (X f64_one) as (m' & Hm' & E').
  exists (fun _ => f64_half), (fun _ => f64_one), (fun _ => VI 0%Z), m, m'.
  split; [exact Hm|]. split; [exact Hm'|]. rewrite E, E'. split; f_equal; vm_compute; reflexivity.
Qed.
Print Assumptions C21_not_reproducible_refuted.

(** With three draws or more per row the worker always raises. *)
Theorem C21_many_draws_raise_refuted : forall F (G : generator F) weights n seeds r0 m0 m e,
  2 < n -> weights <> [] ->
  parallel_for F G (length weights) (weighted_multi_task F weights n seeds) r0 m0 m e -> e = true.
Proof.
  intros F G weights n seeds r0 m0 m e Hn Hw H.
  assert (Ho : forall i, i < length weights -> owns F (row_cells i) (weighted_multi_task F weights n seeds i)).
  { intros i _. unfold weighted_multi_task. cbn [owns]. apply multi_loop_owns. destruct (n =? 2); simpl; auto. }
  destruct (machine_result F G _ _ row_cells m0 Ho (fun i j a _ _ => row_cells_disj i j a) (r0 0)
      (fun i _ => no_draw_indep F G (weighted_multi_task F weights n seeds i) I) r0 m e H) as (_ & _ & C).
  apply C. exists 0. split; [destruct weights; [congruence|simpl; lia]|].
  unfold raises, weighted_multi_task. cbn [exec].
  assert (Hx : (n =? 2) = false) by (apply Nat.eqb_neq; lia). rewrite Hx. clear.
  generalize (gseed G (nth 0 seeds 0%Z)) as g. generalize m0 as m. generalize 0 at 3 as j.
  induction n as [|n IH]; intros j m g; simpl; auto.
  destruct (logarithmic_search _ _ _); simpl; auto.
Qed.
Print Assumptions C21_many_draws_raise_refuted.

(** What does hold: a one-draw call never fails, and its choices are positions of the row. *)
Theorem C21_one_draw_in_range_partial : forall F (G : generator F) weights seed r0 m0 m e,
  (forall w, In w weights -> w <> []) ->
  weighted_sample_once F G weights seed r0 m0 m e ->
  e = false /\
  forall i w, nth_error weights i = Some w -> exists k, m (CRes i 0) = VI (Z.of_nat k) /\ k < length w.
Proof.
  intros F G weights seed r0 m0 m e Hne (m1 & e1 & r1 & s1 & r2 & s2 & A & B & C & D).
  pose (S1 := fun i a => a = CRand i).
  edestruct (machine_result_gen F G (length weights) (fill_task F) S1 m0) as (gs & X & _ & Y);
    [| |exists r1, s1; split; [exact A|exact B]|].
  - intros i _. unfold fill_task, S1. cbn [owns]. auto.
  - unfold S1. intros i j a _ _ -> E. congruence.
  - assert (Hr : forall i, i < length weights -> exists x, m1 (CRand i) = VN x).
    { intros i Hi. rewrite (X i (CRand i) Hi eq_refl). unfold expected, fill_task. cbn [exec fst].
      rewrite wr_eq. eauto. }
    assert (e1 = false) as ->.
    { destruct e1; auto. destruct (proj1 Y eq_refl) as (i & _ & Z). discriminate. }
    pose (S2 := fun i a => a = CRand i \/ a = CRes i 0).
    edestruct (machine_result_gen F G (length weights) (weighted_task F weights) S2 m1) as (gs2 & X2 & _ & Y2);
      [| |exists r2, s2; split; [exact C|exact D]|].
    + intros i _. unfold weighted_task, S2. cbn [owns]. split; auto. intros [z|x]; cbn [owns]; auto.
    + unfold S2. intros i j a _ _ [->| ->] [E|E]; congruence.
    + split.
      * destruct e; auto. destruct (proj1 Y2 eq_refl) as (i & Hi & Z). destruct (Hr i Hi) as [x Hx].
        unfold raises, weighted_task in Z. cbn [exec] in Z. rewrite Hx in Z. discriminate.
      * intros i w Hw. assert (Hi : i < length weights) by (apply nth_error_Some; congruence).
        destruct (Hr i Hi) as [x Hx].
        rewrite (X2 i (CRes i 0) Hi) by (unfold S2; auto). unfold expected, weighted_task. cbn [exec].
        rewrite Hx. cbn [exec fst]. rewrite wr_eq.
        rewrite (nth_error_nth _ _ _ Hw). unfold simple_sample.
        destruct (sample_once_first F (simple_probabilities F w) x) as (k & -> & Hk & _).
        { unfold simple_probabilities. intros E. apply map_eq_nil in E. apply (Hne w); auto. eapply nth_error_In; eauto. }
        exists k. split; auto. unfold simple_probabilities in Hk. now rewrite map_length in Hk.
Qed.
Print Assumptions C21_one_draw_in_range_partial.

(** ** C22: indexed addition without repeated positions *)

(** positions written: row [i] of the addition goes to row [tr i] of the output *)
Definition indexer_ok (n_add n_out : nat) (index : option (list Z)) : Prop :=
  match index with
  | None => n_add = n_out
  | Some l => length l = n_add /\ l <> [] /\ forall x, In x l -> (0 <= x < Z.of_nat n_out)%Z
  end.
Definition distinct (index : option (list Z)) : Prop :=
  match index with None => True | Some l => NoDup l end.
Definition goes_to (index : option (list Z)) (i tr : nat) : Prop :=
  match index with None => tr = i | Some l => nth_error l i = Some (Z.of_nat tr) end.

(** The call starts its loop exactly when the shapes and indexers fit; otherwise it raises
    before touching the output. *)
Theorem C22_rejected_before_writing : forall F rows_o cols_o (addition : list (list (num F))) cols_a ri ci,
  is_ok (fast_indexed_add F rows_o cols_o addition cols_a ri ci) = true <->
  indexer_ok (length addition) rows_o ri /\ indexer_ok cols_a cols_o ci.
Proof.
  intros F rows_o cols_o addition cols_a ri ci.
  assert (A : forall n o idx, is_ok (check_axis n o idx) = true <-> indexer_ok n o idx).
  { intros n o idx. pose proof (check_axis_ok n o idx) as H. unfold indexer_ok.
    destruct (check_axis n o idx) as [[]|x]; simpl in *.
    - destruct idx; intuition.
    - split; [discriminate|]. intros X. assert (Err x = Ok tt); [|discriminate]. apply H. destruct idx; intuition. }
  rewrite <- !A. unfold fast_indexed_add.
  destruct (check_axis (length addition) rows_o ri); cbn [rbind is_ok]; [|intuition discriminate].
  destruct (check_axis cols_a cols_o ci); cbn [rbind is_ok]; intuition discriminate.
Qed.
Print Assumptions C22_rejected_before_writing.

Theorem C22_adds_in_every_schedule : forall F (G : generator F) rows_o cols_o addition cols_a ri ci n task r0 m0 m e,
  fast_indexed_add F rows_o cols_o addition cols_a ri ci = Ok (n, task) ->
  distinct ri -> distinct ci ->
  (forall i j, exists x, m0 (COut i j) = VN x) ->
  parallel_for F G n task r0 m0 m e ->
  e = false /\
  (forall i j tr tc row a x, nth_error addition i = Some row -> nth_error row j = Some a -> j < cols_a ->
     goes_to ri i tr -> goes_to ci j tc -> m0 (COut tr tc) = VN x ->
     m (COut tr tc) = VN (nadd F x a)) /\
  (forall c, (forall i j tr tc, i < length addition -> j < cols_a -> goes_to ri i tr -> goes_to ci j tc ->
               c <> COut tr tc) -> m c = m0 c).
Proof.
  intros F G rows_o cols_o addition cols_a ri ci n task r0 m0 m e E Dr Dc Hm0 H.
  assert (Hok : is_ok (fast_indexed_add F rows_o cols_o addition cols_a ri ci) = true) by (rewrite E; reflexivity).
  apply C22_rejected_before_writing in Hok. destruct Hok as [Or Oc].
  assert (En : n = length addition * cols_a /\ task = add_task F addition cols_a ri ci).
  { unfold fast_indexed_add in E. destruct (check_axis _ _ ri); [|discriminate]. cbn [rbind] in E.
    destruct (check_axis _ _ ci); [|discriminate]. cbn [rbind] in E. injection E as <- <-. auto. }
  destruct En as [-> ->].
  assert (K : forall k o idx, indexer_ok k o idx -> distinct idx ->
     forall l, idx = Some l -> NoDup l /\ length l = k /\ forall x, In x l -> (0 <= x)%Z).
  { intros k o idx X Y l ->. destruct X as (X1 & X2 & X3). split; auto. split; auto. intros x Hx. apply X3 in Hx. lia. }
  destruct (add_result F G addition cols_a ri ci r0 m0 m e (K _ _ _ Or Dr) (K _ _ _ Oc Dc) Hm0 H) as (A & B & C).
  assert (T : forall idx i tr, goes_to idx i tr -> target idx i = tr).
  { intros idx i tr. destruct idx as [l|]; simpl; auto. intros Hl. rewrite (nth_error_nth _ _ _ Hl). apply Nat2Z.id. }
  assert (T' : forall k o idx i, indexer_ok k o idx -> i < k -> goes_to idx i (target idx i)).
  { intros k o idx i X Hi. destruct idx as [l|]; simpl in *; auto. destruct X as (XL & _ & Xr).
    rewrite Z2Nat.id by (apply Xr, nth_In; lia). apply nth_error_nth'. lia. }
  split; auto. split.
  - intros i j tr tc row a x Hrow Ha Hj Hr Hc Hx. apply T in Hr. apply T in Hc. subst tr tc.
    rewrite (B i j x) by (auto; apply nth_error_Some; congruence).
    rewrite (nth_error_nth _ _ _ Hrow), (nth_error_nth _ _ _ Ha). reflexivity.
  - intros c Hc. apply C. intros i j Hi Hj. apply (Hc i j); eauto.
Qed.
Print Assumptions C22_adds_in_every_schedule.

Example C22_hypotheses_met : forall F,
  exists n task, fast_indexed_add F 3 2 [[none_ F]; [nzero F]] 1 (Some [2; 0]%Z) (Some [1%Z]) = Ok (n, task) /\
    distinct (Some [2; 0]%Z) /\ distinct (Some [1%Z]) /\
    exists m0 : mem F, forall i j, exists x, m0 (COut i j) = VN x.
Proof.
  intros F. do 2 eexists. split; [reflexivity|]. split; [|split].
  - repeat constructor; simpl; intuition discriminate.
  - repeat constructor; simpl; tauto.
  - exists (fun _ => VN (nzero F)). eauto.
Qed.

(** ** C23: repeated positions lose updates *)

(** Two rows labelled like row 0 of the output: in some schedule only the second is added. *)
Theorem C23_lost_update_refuted : forall F (G : generator F) (r0 : nat -> gstate G) (x a b : num F) m0,
  m0 (COut 0 0) = VN x ->
  exists n task, fast_indexed_add F 1 1 [[a]; [b]] 1 (Some [0; 0]%Z) (Some [0%Z]) = Ok (n, task) /\
  exists m, parallel_for F G n task r0 m0 m false /\ m (COut 0 0) = VN (nadd F x b).
Proof.
  intros F G r0 x a b m0 Hx. do 2 eexists. split; [reflexivity|].
  eexists. split.
  - do 2 eexists. split.
    + start 0 0; [idle|]. start 1 1; [idle|]. read 0. read 1.
      eapply steps_step; [eapply (st_write _ _ _ _ _ _ _ _ 0); cbn; rewrite Hx; reflexivity|].
      eapply steps_step; [eapply (st_write _ _ _ _ _ _ _ _ 1); cbn; rewrite Hx; reflexivity|].
      done 0. done 1. apply steps_refl.
    + intros [|[|i]] Hi; simpl in *; auto; lia.
  - reflexivity.
Qed.
Print Assumptions C23_lost_update_refuted.

Corollary C23_lost_one_refuted : forall (G : generator XR) (r0 : nat -> gstate G), exists n task (m0 m : mem XR),
  fast_indexed_add XR 1 1 [[Fin 1]; [Fin 1]] 1 (Some [0; 0]%Z) None = Ok (n, task) /\
  m0 (COut 0 0) = @VN XR (Fin 0) /\
  parallel_for XR G n task r0 m0 m false /\ m (COut 0 0) = @VN XR (Fin 1) /\ m (COut 0 0) <> @VN XR (Fin 2).
Proof.
  intros G r0.
  do 4 eexists. split; [reflexivity|]. split; [instantiate (1 := fun _ => @VN XR (Fin 0)); reflexivity|].
  split.
  - do 2 eexists. split.
    + start 0 0; [idle|]. start 1 1; [idle|]. read 0. read 1. write 0. write 1.
      done 0. done 1. apply steps_refl.
    + intros [|[|i]] Hi; simpl in *; auto; lia.
  - cbn. rewrite Rplus_0_l. split; auto. intros E. injection E. lra.
Qed.
Print Assumptions C23_lost_one_refuted.

(** With a single thread every contribution is added, whatever the order of the iterations
    (exact arithmetic).  [one_thread]: runs in which only thread 0 executes iterations. *)
Inductive one_thread {F} {G : generator F} (n : nat) (task : nat -> prog F) : config F G -> config F G -> Prop :=
| ot_refl c : one_thread n task c c
| ot_step c d f : step F G n task c d -> (forall i t p, c_st d i = Running t p -> t = 0) ->
    one_thread n task d f -> one_thread n task c f.

Section Serial.
  Context (G : generator XR) (addition : list (list R)) (cols_a : nat) (ri ci : option (list Z)) (x0 : nat -> nat -> R).
  Let n := length addition * cols_a.
  Let task := add_task XR (map (map Fin) addition) cols_a ri ci.
  Definition amount (off : nat) : R := nth (off mod cols_a) (nth (off / cols_a) addition []) 0%R.
  Definition hits (off tr tc : nat) : bool :=
    andb (Nat.eqb (target ri (off / cols_a)) tr) (Nat.eqb (target ci (off mod cols_a)) tc).
  Definition wrote (st : status XR) : bool :=
    match st with Finished => true | Running _ Done => true | _ => false end.
  Definition added (s : nat -> status XR) (tr tc : nat) : R :=
    fold_right (fun off acc => ((if andb (wrote (s off)) (hits off tr tc) then amount off else 0) + acc)%R) 0%R (seq 0 n).
  Definition cellof (off : nat) : cell := COut (target ri (off / cols_a)) (target ci (off mod cols_a)).

  Record sinv (c : config XR G) : Prop := {
    q_mem : forall tr tc, c_mem c (COut tr tc) = @VN XR (Fin (x0 tr tc + added (c_st c) tr tc));
    q_err : c_err c = false;
    q_run : forall i t p, c_st c i = Running t p -> i < n /\
       (p = task i \/
        (exists y, c_mem c (cellof i) = @VN XR (Fin y) /\ p = @Write XR (cellof i) (@VN XR (Fin (y + amount i))) Done) \/
        p = Done)
  }.

  Lemma amount_nth off : nth (off mod cols_a) (nth (off / cols_a) (map (map Fin) addition) []) (nzero XR) = Fin (amount off).
  Proof.
    unfold amount. change (@nil xr) with (map Fin []) at 1. rewrite map_nth.
    change (nzero XR) with (Fin 0). apply map_nth.
  Qed.

  Lemma sum_ext (f g : nat -> R) l : (forall i, In i l -> f i = g i) ->
    fold_right (fun off acc => (f off + acc)%R) 0%R l = fold_right (fun off acc => (g off + acc)%R) 0%R l.
  Proof. induction l as [|x l IH]; intros H; simpl; auto. rewrite H, IH by (simpl; auto; intros; apply H; simpl; auto). auto. Qed.
  Lemma sum_one (f g : nat -> R) l k d : NoDup l -> In k l -> (forall i, i <> k -> f i = g i) -> (g k = f k + d)%R ->
    fold_right (fun off acc => (g off + acc)%R) 0%R l = (fold_right (fun off acc => (f off + acc)%R) 0%R l + d)%R.
  Proof.
    intros ND Hk Hf Hg. induction l as [|x l IH]; simpl in *; [tauto|]. inversion ND; subst.
    destruct Hk as [->|Hk].
    - rewrite Hg. rewrite (sum_ext g f l); [lra|]. intros i Hi. symmetry. apply Hf. intros ->. auto.
    - rewrite IH by auto. rewrite (Hf x); [lra|]. intros ->. auto.
  Qed.

  Lemma added_same s i st tr tc : wrote (s i) = wrote st -> added (fupd s i st) tr tc = added s tr tc.
  Proof.
    intros H. unfold added. apply sum_ext. intros off _.
    destruct (fupd_cases s i st off) as [[<- ->]|[_ ->]]; auto. now rewrite H.
  Qed.
  Lemma added_new s i st tr tc : i < n -> wrote (s i) = false -> wrote st = true ->
    added (fupd s i st) tr tc = (added s tr tc + if hits i tr tc then amount i else 0)%R.
  Proof.
    intros Hi H1 H2. unfold added. apply sum_one with (k := i); auto using seq_NoDup.
    - apply in_seq. lia.
    - intros j Hj. rewrite fupd_neq by auto. auto.
    - rewrite fupd_eq, H1, H2. simpl. lra.
  Qed.

  Lemma sinv_step c d : sinv c -> step XR G n task c d ->
    (forall i t p, c_st c i = Running t p -> t = 0) -> 
    (forall i j p q, c_st c i = Running 0 p -> c_st c j = Running 0 q -> i = j) -> sinv d.
  Proof.
    intros [M E Q] H One Uniq.
    destruct H as [m e r s i t Hi Hs Ht|m e r s i t Hs|m e r s i t x Hs|m e r s i t z k Hs
                  |m e r s i t k Hs|m e r s i t a k Hs|m e r s i t a v k Hs]; simpl in *.
    - constructor; simpl; auto.
      + intros tr tc. rewrite added_same; auto. rewrite Hs. reflexivity.
      + intros j t' p. destruct (fupd_cases s i (Running t (task i)) j) as [[<- ->]|[_ ->]]; eauto.
        intros X. injection X as <- <-. auto.
    - constructor; simpl; auto.
      + intros tr tc. rewrite added_same; auto. rewrite Hs. reflexivity.
      + intros j t' p. destruct (fupd_cases s i Finished j) as [[<- ->]|[_ ->]]; eauto. discriminate.
    - exfalso. destruct (Q i t _ Hs) as (_ & [X|[(y & _ & X)|X]]); discriminate.
    - exfalso. destruct (Q i t _ Hs) as (_ & [X|[(y & _ & X)|X]]); discriminate.
    - exfalso. destruct (Q i t _ Hs) as (_ & [X|[(y & _ & X)|X]]); discriminate.
    - destruct (Q i t _ Hs) as (Hi & [X|[(y & _ & X)|X]]); try discriminate.
      unfold task, add_task in X. fold (cellof i) in X. injection X as -> ->.
      rewrite amount_nth. unfold cellof at 1. rewrite M. cbn [nadd XR xadd].
      set (y := (x0 (target ri (i / cols_a)) (target ci (i mod cols_a)) + added s (target ri (i / cols_a)) (target ci (i mod cols_a)))%R).
      constructor; simpl; auto.
      + intros tr tc. rewrite added_same; auto. rewrite Hs. reflexivity.
      + intros j t' p.
        match goal with |- fupd _ _ ?st _ = _ -> _ => destruct (fupd_cases s i st j) as [[<- ->]|[_ ->]] end; eauto.
        intros X. injection X as <- <-. split; auto. right; left. exists y. split; [apply M|reflexivity].
    - destruct (Q i t _ Hs) as (Hi & [X|[(y & Hy & X)|X]]); try discriminate.
      injection X as -> -> ->.
      constructor; simpl; auto.
      + intros tr tc. rewrite added_new; auto; [|rewrite Hs; reflexivity].
        pose proof Hy as Hy'. unfold cellof in Hy'. rewrite M in Hy'. injection Hy' as Hy'.
        unfold cellof. unfold wr. simpl. unfold hits.
        destruct (Nat.eqb_spec (target ri (i / cols_a)) tr) as [<-|N1]; simpl.
        * destruct (Nat.eqb_spec (target ci (i mod cols_a)) tc) as [<-|N2]; simpl.
          -- rewrite <- Hy'. do 2 f_equal. lra.
          -- rewrite M. do 2 f_equal. lra.
        * rewrite M. do 2 f_equal. lra.
      + intros j t' p. destruct (fupd_cases s i (Running t Done) j) as [[<- ->]|[Ne ->]].
        * intros X. injection X as <- <-. auto.
        * intros Hj. exfalso. apply Ne. rewrite (One i t _ Hs) in Hs. rewrite (One j t' _ Hj) in Hj. eapply Uniq; eauto.
  Qed.

  Lemma uniq_step c d : step XR G n task c d ->
    (forall i j t p q, c_st c i = Running t p -> c_st c j = Running t q -> i = j) ->
    (forall i j t p q, c_st d i = Running t p -> c_st d j = Running t q -> i = j).
  Proof.
    intros H U. destruct H as [m e r s i t Hi Hs Ht|m e r s i t Hs|m e r s i t x Hs|m e r s i t z k Hs
                  |m e r s i t k Hs|m e r s i t a k Hs|m e r s i t a v k Hs]; simpl in *;
      intros j1 j2 t' p q;
      match goal with |- fupd ?s ?i ?st _ = _ -> _ =>
        destruct (fupd_cases s i st j1) as [[<- ->]|[N1 ->]], (fupd_cases s i st j2) as [[E2 ->]|[N2 ->]] end;
      intros A B; try congruence; eauto.
    all: try (injection A as <- _; try (exfalso; eapply Ht; eassumption); eauto; fail).
    all: try (injection B as <- _; try (exfalso; eapply Ht; eassumption); subst; eauto).
  Qed.

  Lemma sinv_run c d : one_thread n task c d -> sinv c ->
    (forall i t p, c_st c i = Running t p -> t = 0) ->
    (forall i j t p q, c_st c i = Running t p -> c_st c j = Running t q -> i = j) -> sinv d.
  Proof.
    induction 1 as [|c d f H1 H2 H3 IH]; auto. intros I T U. apply IH; auto.
    - eapply sinv_step; eauto.
    - eapply uniq_step; eauto.
  Qed.
End Serial.

Theorem C23_single_thread_partial : forall (G : generator XR) addition cols_a ri ci rows_o cols_o n task
    (x0 : nat -> nat -> R) r0 m0 m e r s,
  fast_indexed_add XR rows_o cols_o (map (map Fin) addition) cols_a ri ci = Ok (n, task) ->
  (forall i j, m0 (COut i j) = @VN XR (Fin (x0 i j))) ->
  one_thread n task (Config m0 false r0 (fun _ => Waiting) : config XR G) (Config m e r s) ->
  (forall i, i < n -> s i = Finished) ->
  e = false /\
  forall tr tc, m (COut tr tc) = @VN XR (Fin (x0 tr tc +
    fold_right Rplus 0%R (map (fun off =>
       if andb (Nat.eqb (target ri (off / cols_a)) tr) (Nat.eqb (target ci (off mod cols_a)) tc)
       then nth (off mod cols_a) (nth (off / cols_a) addition []) 0%R else 0%R) (seq 0 n)))%R).
Proof.
  intros G addition cols_a ri ci rows_o cols_o n task x0 r0 m0 m e r s E Hm0 H Hf.
  assert (En : n = length addition * cols_a /\ task = add_task XR (map (map Fin) addition) cols_a ri ci).
  { unfold fast_indexed_add in E. rewrite map_length in E. destruct (check_axis _ _ ri); [|discriminate]. cbn [rbind] in E.
    destruct (check_axis _ _ ci); [|discriminate]. cbn [rbind] in E. injection E as <- <-. auto. }
  destruct En as [-> ->].
  assert (I : sinv G addition cols_a ri ci x0 (Config m e r s)).
  { eapply sinv_run; [exact H| | |]; simpl; try discriminate.
    constructor; simpl; auto; try discriminate. intros tr tc. rewrite Hm0. do 2 f_equal. unfold added.
    rewrite <- (Rplus_0_r (x0 tr tc)) at 1. f_equal. simpl. induction (seq 0 _) as [|k l IH]; simpl; auto. rewrite <- IH. lra. }
  destruct I as [M Er _]. simpl in *. split; auto. intros tr tc. rewrite M. do 3 f_equal.
  unfold added. assert (X : forall l, (forall k, In k l -> k < length addition * cols_a) ->
    fold_right (fun off acc => ((if andb (wrote (s off)) (hits cols_a ri ci off tr tc) then amount addition cols_a off else 0) + acc)%R) 0%R l =
    fold_right Rplus 0%R (map (fun off => if andb (Nat.eqb (target ri (off / cols_a)) tr) (Nat.eqb (target ci (off mod cols_a)) tc)
       then nth (off mod cols_a) (nth (off / cols_a) addition []) 0%R else 0%R) l)).
  { induction l as [|k l IH]; intros Hl; simpl; auto. rewrite IH by (intros; apply Hl; simpl; auto).
    rewrite Hf by (apply Hl; simpl; auto). reflexivity. }
  apply X. intros k Hk. apply in_seq in Hk. lia.
Qed.
Print Assumptions C23_single_thread_partial.

Example C23_partial_hypotheses_met : forall (G : generator XR) (r0 : nat -> gstate G), exists n task m0 m r s,
  fast_indexed_add XR 1 1 (map (map Fin) [[1%R]; [1%R]]) 1 (Some [0; 0]%Z) None = Ok (n, task) /\
  (forall i j, m0 (COut i j) = @VN XR (Fin 0)) /\
  one_thread n task (Config m0 false r0 (fun _ => Waiting) : config XR G) (Config m false r s) /\
  (forall i, i < n -> s i = Finished).
Proof.
  intros G r0. do 6 eexists. split; [reflexivity|].
  split; [instantiate (1 := fun _ => @VN XR (Fin 0)); reflexivity|].
  split.
  - eapply ot_step; [eapply (st_start _ _ _ _ _ _ _ _ 1 0); [cbn; lia|reflexivity|discriminate]| |].
    { intros [|[|i]] t p; cbn; intros X; congruence. }
    eapply ot_step; [eapply (st_read _ _ _ _ _ _ _ _ 1); reflexivity| |].
    { intros [|[|i]] t p; cbn; intros X; congruence. }
    eapply ot_step; [eapply (st_write _ _ _ _ _ _ _ _ 1); reflexivity| |].
    { intros [|[|i]] t p; cbn; intros X; congruence. }
    eapply ot_step; [eapply (st_done _ _ _ _ _ _ _ _ 1); reflexivity| |].
    { intros [|[|i]] t p; cbn; intros X; congruence. }
    eapply ot_step; [eapply (st_start _ _ _ _ _ _ _ _ 0 0); [cbn; lia|reflexivity|idle]| |].
    { intros [|[|i]] t p; cbn; intros X; congruence. }
    eapply ot_step; [eapply (st_read _ _ _ _ _ _ _ _ 0); reflexivity| |].
    { intros [|[|i]] t p; cbn; intros X; congruence. }
    eapply ot_step; [eapply (st_write _ _ _ _ _ _ _ _ 0); reflexivity| |].
    { intros [|[|i]] t p; cbn; intros X; congruence. }
    eapply ot_step; [eapply (st_done _ _ _ _ _ _ _ _ 0); reflexivity| |].
    { intros [|[|i]] t p; cbn; intros X; congruence. }
    apply ot_refl.
  - intros [|[|i]] Hi; cbn in *; auto; lia.
Qed.
