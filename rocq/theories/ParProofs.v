(** The parallel machine: iterations with disjoint footprints give the sequential result
    under every schedule (C19-C23). *)
From Verif Require Import Prelude Arith CoreModel ParModel.
Local Open Scope nat_scope.

Lemma fupd_eq {A} (f : nat -> A) i x : fupd f i x i = x.
Proof. unfold fupd. now rewrite Nat.eqb_refl. Qed.
Lemma fupd_neq {A} (f : nat -> A) i j x : i <> j -> fupd f i x j = f j.
Proof. unfold fupd. intros H. destruct (Nat.eqb_spec i j); congruence. Qed.
Lemma fupd_cases {A} (f : nat -> A) i x j : (i = j /\ fupd f i x j = x) \/ (i <> j /\ fupd f i x j = f j).
Proof. destruct (Nat.eq_dec i j) as [<-|N]; [left|right]; split; auto using fupd_eq, fupd_neq. Qed.

Lemma cell_eqb_spec a b : cell_eqb a b = true <-> a = b.
Proof.
  destruct a, b; simpl; rewrite ?Bool.andb_true_iff, ?Nat.eqb_eq; split; intros H;
    try discriminate; try congruence; try (destruct H; congruence); injection H; auto.
Qed.

Section Machine.
  Context (F : arith) (G : generator F).
  Notation mem := (mem F).
  Notation prog := (prog F).

  Lemma wr_eq (m : mem) a v : wr F m a v a = v.
  Proof. unfold wr. now rewrite (proj2 (cell_eqb_spec a a) eq_refl). Qed.
  Lemma wr_neq (m : mem) a v b : a <> b -> wr F m a v b = m b.
  Proof. unfold wr. intros H. destruct (cell_eqb a b) eqn:E; auto. apply cell_eqb_spec in E. congruence. Qed.

  (** sequential execution of one iteration *)
  Fixpoint exec (g : gstate G) (m : mem) (p : prog) : mem * bool :=
    match p with
    | Done => (m, false)
    | Raise _ => (m, true)
    | Seed s k => exec (gseed G s) m k
    | Draw k => exec (snd (guniform G g)) m (k (fst (guniform G g)))
    | Read a k => exec g m (k (m a))
    | Write a v k => exec g (wr F m a v) k
    end.

  (** all accesses within the footprint [S] *)
  Fixpoint owns (S : cell -> Prop) (p : prog) : Prop :=
    match p with
    | Done | Raise _ => True
    | Seed _ k => owns S k
    | Draw k => forall x, owns S (k x)
    | Read a k => S a /\ forall v, owns S (k v)
    | Write a _ k => S a /\ owns S k
    end.

  (** the outcome does not depend on the generator state of the executing thread *)
  Definition indep (p : prog) : Prop := forall g g' m,
    (forall a, fst (exec g m p) a = fst (exec g' m p) a) /\ snd (exec g m p) = snd (exec g' m p).

  Lemma exec_outside S p : forall g m a, owns S p -> ~ S a -> fst (exec g m p) a = m a.
  Proof.
    induction p as [|e|s k IH|k IH|a' k IH|a' v k IH]; intros g m a HO Ha; simpl in *; auto.
    - apply IH; auto. apply HO.
    - rewrite IH by tauto. apply wr_neq. intros ->. tauto.
  Qed.

  Lemma exec_frame S p : forall g m m', owns S p -> (forall a, S a -> m a = m' a) ->
    (forall a, S a -> fst (exec g m p) a = fst (exec g m' p) a) /\ snd (exec g m p) = snd (exec g m' p).
  Proof.
    induction p as [|e|s k IH|k IH|a' k IH|a' v k IH]; intros g m m' HO Hm; simpl in *; auto.
    - destruct HO as [Ha HO]. rewrite (Hm a' Ha). apply IH; auto.
    - destruct HO as [Ha HO]. apply IH; auto. intros a Hs. unfold wr. destruct (cell_eqb a' a); auto.
  Qed.

  Context (n : nat) (task : nat -> prog) (S : nat -> cell -> Prop) (m0 : mem).
  Hypothesis Hown : forall i, i < n -> owns (S i) (task i).
  Hypothesis Hdisj : forall i j a, i < n -> j < n -> S i a -> S j a -> i = j.

  Notation config := (config F G).
  (** [gs i]: generator state of the thread that picks iteration [i], at that moment *)
  Definition expected (gs : nat -> gstate G) (i : nat) (a : cell) : val F := fst (exec (gs i) m0 (task i)) a.
  Definition raises (gs : nat -> gstate G) (i : nat) : bool := snd (exec (gs i) m0 (task i)).

  Record minv (gs : nat -> gstate G) (c : config) : Prop := {
    v_wait : forall i a, i < n -> c_st c i = Waiting -> S i a -> c_mem c a = m0 a;
    v_run : forall i t p, c_st c i = Running t p ->
        i < n /\ owns (S i) p /\
        (forall a, S i a -> fst (exec (c_rng c t) (c_mem c) p) a = expected gs i a) /\
        snd (exec (c_rng c t) (c_mem c) p) = raises gs i;
    v_fin : forall i, c_st c i = Finished -> i < n /\ forall a, S i a -> c_mem c a = expected gs i a;
    v_out : forall a, (forall i, i < n -> ~ S i a) -> c_mem c a = m0 a;
    v_err : c_err c = true <-> exists i, c_st c i = Finished /\ raises gs i = true;
    v_excl : forall i j t p q, c_st c i = Running t p -> c_st c j = Running t q -> i = j
  }.

  Lemma minv_init gs r0 : minv gs (Config m0 false r0 (fun _ => Waiting)).
  Proof.
    constructor; simpl; auto; try discriminate.
    split; [discriminate|]. intros (i & H & _). discriminate.
  Qed.

  (** an action of iteration [i] on thread [t] that changes neither other cells nor other threads *)
  Lemma minv_local gs m e r s i t p m' r' p' :
    minv gs (Config m e r s) -> s i = Running t p ->
    (forall a, ~ S i a -> m' a = m a) -> (forall t', t' <> t -> r' t' = r t') ->
    owns (S i) p' ->
    (forall a, S i a -> fst (exec (r' t) m' p') a = fst (exec (r t) m p) a) ->
    snd (exec (r' t) m' p') = snd (exec (r t) m p) ->
    minv gs (Config m' e r' (fupd s i (Running t p'))).
  Proof.
    intros [W R Fi O E X] Hs Hm Hr Ho Hx Hy. simpl in *.
    destruct (R i t p Hs) as (Hi & _ & Hex & Hsn).
    constructor; simpl.
    - intros j a Hj Hw Ha. destruct (fupd_cases s i (Running t p') j) as [[<- Ej]|[Ne Ej]]; rewrite Ej in Hw; [discriminate|].
      rewrite Hm; [eapply W; eauto|]. intros H. apply Ne. eapply Hdisj; eauto.
    - intros j t' q Hq. destruct (fupd_cases s i (Running t p') j) as [[<- Ej]|[Ne Ej]]; rewrite Ej in Hq.
      + injection Hq as <- <-. split; auto. split; auto. split; [|congruence].
        intros a Ha. rewrite Hx by auto. now apply Hex.
      + destruct (R j t' q Hq) as (Hj & Hoj & Hexj & Hsnj).
        assert (Ht : t' <> t) by (intros ->; apply Ne; eapply X; eauto).
        rewrite (Hr t' Ht).
        assert (Hagree : forall a, S j a -> m' a = m a).
        { intros a Ha. apply Hm. intros H. apply Ne. eapply Hdisj; eauto. }
        destruct (exec_frame (S j) q (r t') m' m Hoj Hagree) as [A B].
        split; auto. split; auto. split; [|congruence]. intros a Ha. rewrite A by auto. now apply Hexj.
    - intros j Hf. destruct (fupd_cases s i (Running t p') j) as [[<- Ej]|[Ne Ej]]; rewrite Ej in Hf; [discriminate|].
      destruct (Fi j Hf) as [Hj Hfj]. split; auto. intros a Ha. rewrite Hm; [now apply Hfj|].
      intros H. apply Ne. eapply Hdisj; eauto.
    - intros a Ha. rewrite Hm; [now apply O|]. now apply Ha.
    - rewrite E. split; intros (j & Hf & Hj); exists j; split; auto.
      + destruct (fupd_cases s i (Running t p') j) as [[<- Ej]|[Ne Ej]]; congruence.
      + destruct (fupd_cases s i (Running t p') j) as [[<- Ej]|[Ne Ej]]; congruence.
    - intros j k t' q q' Hj Hk.
      destruct (fupd_cases s i (Running t p') j) as [[Nj Ej]|[Nj Ej]]; rewrite Ej in Hj;
        destruct (fupd_cases s i (Running t p') k) as [[Nk Ek]|[Nk Ek]]; rewrite Ek in Hk.
      + congruence.
      + injection Hj as -> _. subst j. eapply X; eauto.
      + injection Hk as -> _. subst k. eapply X; eauto.
      + eapply X; eauto.
  Qed.

  (** iteration [i] ends *)
  Lemma minv_end gs m e r s i t p e' :
    minv gs (Config m e r s) -> s i = Running t p ->
    fst (exec (r t) m p) = m -> (e' = true <-> e = true \/ snd (exec (r t) m p) = true) ->
    minv gs (Config m e' r (fupd s i Finished)).
  Proof.
    intros [W R Fi O E X] Hs Hm He. simpl in *.
    destruct (R i t p Hs) as (Hi & _ & Hex & Hsn). rewrite Hm in Hex. rewrite Hsn in He.
    constructor; simpl; auto.
    - intros j a Hj Hw Ha. destruct (fupd_cases s i Finished j) as [[<- Ej]|[Ne Ej]]; rewrite Ej in Hw; [discriminate|].
      eapply W; eauto.
    - intros j t' q Hq. destruct (fupd_cases s i Finished j) as [[<- Ej]|[Ne Ej]]; rewrite Ej in Hq; [discriminate|].
      now apply R.
    - intros j Hf. destruct (fupd_cases s i Finished j) as [[<- Ej]|[Ne Ej]]; rewrite Ej in Hf; [|now apply Fi].
      split; auto.
    - rewrite He, E. split.
      + intros [(j & Hf & Hj)|H].
        * exists j. split; auto. destruct (fupd_cases s i Finished j) as [[<- Ej]|[Ne Ej]]; congruence.
        * exists i. split; auto. apply fupd_eq.
      + intros (j & Hf & Hj). destruct (fupd_cases s i Finished j) as [[<- Ej]|[Ne Ej]]; [auto|].
        left. exists j. split; congruence.
    - intros j k t' q q' Hj Hk.
      destruct (fupd_cases s i Finished j) as [[Nj Ej]|[Nj Ej]]; rewrite Ej in Hj; [discriminate|].
      destruct (fupd_cases s i Finished k) as [[Nk Ek]|[Nk Ek]]; rewrite Ek in Hk; [discriminate|].
      eapply X; eauto.
  Qed.

  Lemma minv_step gs c d : minv gs c -> step F G n task c d -> exists gs', minv gs' d.
  Proof.
    intros I H. destruct H as [m e r s i t Hi Hs Ht|m e r s i t Hs|m e r s i t x Hs|m e r s i t z k Hs
                              |m e r s i t k Hs|m e r s i t a k Hs|m e r s i t a v k Hs].
    - destruct I as [W R Fi O E X]. simpl in *.
      assert (Hgs : forall j, s j <> Waiting -> fupd gs i (r t) j = gs j).
      { intros j Hj. apply fupd_neq. intros <-. congruence. }
      assert (Hex : forall j a, s j <> Waiting -> expected (fupd gs i (r t)) j a = expected gs j a).
      { intros j a Hj. unfold expected. now rewrite Hgs by auto. }
      assert (Hra : forall j, s j <> Waiting -> raises (fupd gs i (r t)) j = raises gs j).
      { intros j Hj. unfold raises. now rewrite Hgs by auto. }
      exists (fupd gs i (r t)). constructor; simpl; auto.
      + intros j a Hj Hw Ha. destruct (fupd_cases s i (Running t (task i)) j) as [[<- Ej]|[Ne Ej]]; rewrite Ej in Hw; [discriminate|].
        eapply W; eauto.
      + intros j t' q Hq. destruct (fupd_cases s i (Running t (task i)) j) as [[<- Ej]|[Ne Ej]]; rewrite Ej in Hq.
        * injection Hq as <- <-. split; auto. split; [now apply Hown|].
          destruct (exec_frame (S i) (task i) (r t) m m0 (Hown i Hi)) as [A B].
          { intros a Ha. eapply W; eauto. }
          unfold expected, raises. rewrite fupd_eq. auto.
        * destruct (R j t' q Hq) as (? & ? & Hj & ?). rewrite Hra by congruence.
          repeat split; auto. intros a Ha. rewrite Hex by congruence. auto.
      + intros j Hf. destruct (fupd_cases s i (Running t (task i)) j) as [[<- Ej]|[Ne Ej]]; rewrite Ej in Hf; [discriminate|].
        destruct (Fi j Hf). split; auto. intros a Ha. rewrite Hex by congruence. auto.
      + rewrite E. split; intros (j & Hf & Hj); exists j;
          (destruct (fupd_cases s i (Running t (task i)) j) as [[<- Ej]|[Ne Ej]]; [congruence|]).
        * rewrite Hra by congruence. split; congruence.
        * rewrite Hra in Hj by congruence. split; congruence.
      + intros j k t' q q' Hj Hk.
        destruct (fupd_cases s i (Running t (task i)) j) as [[Nj Ej]|[Nj Ej]]; rewrite Ej in Hj;
          destruct (fupd_cases s i (Running t (task i)) k) as [[Nk Ek]|[Nk Ek]]; rewrite Ek in Hk.
        * congruence.
        * injection Hj as -> _. destruct (Ht k q' Hk).
        * injection Hk as -> _. destruct (Ht j q Hj).
        * eapply X; eauto.
    - exists gs. eapply minv_end; eauto. simpl. intuition congruence.
    - exists gs. eapply minv_end; eauto. simpl. intuition congruence.
    - exists gs. destruct (v_run _ _ I i t _ Hs) as (Hi & Ho & _). simpl in Ho.
      eapply minv_local; eauto; simpl; rewrite ?fupd_eq; auto. intros t' Ht'. now rewrite fupd_neq by auto.
    - exists gs. destruct (v_run _ _ I i t _ Hs) as (Hi & Ho & _). simpl in Ho.
      eapply minv_local; eauto; simpl; rewrite ?fupd_eq; auto. intros t' Ht'. now rewrite fupd_neq by auto.
    - exists gs. destruct (v_run _ _ I i t _ Hs) as (Hi & Ho & _). simpl in Ho. destruct Ho as [Ha Ho].
      eapply minv_local; eauto; simpl; auto.
    - exists gs. destruct (v_run _ _ I i t _ Hs) as (Hi & Ho & _). simpl in Ho. destruct Ho as [Ha Ho].
      eapply minv_local; eauto; simpl; auto. intros b Hb. apply wr_neq. intros ->. tauto.
  Qed.

  Lemma minv_steps c d : steps F G n task c d -> forall gs, minv gs c -> exists gs', minv gs' d.
  Proof.
    induction 1 as [|c d f H1 H2 IH]; eauto. intros gs I.
    destruct (minv_step gs c d I H1) as [gs' I']. eauto.
  Qed.

  (** every completed run gives, in each footprint, the outcome of executing the iteration
      alone on some generator state *)
  Theorem machine_result_gen r0 m e :
    parallel_for F G n task r0 m0 m e ->
    exists gs,
    (forall i a, i < n -> S i a -> m a = expected gs i a) /\
    (forall a, (forall i, i < n -> ~ S i a) -> m a = m0 a) /\
    (e = true <-> exists i, i < n /\ raises gs i = true).
  Proof.
    intros (r & s & Hst & Hf).
    destruct (minv_steps _ _ Hst r0 (minv_init r0 r0)) as [gs [W R Fi O E X]]. simpl in *.
    exists gs. split; [|split]; auto.
    - intros i a Hi Ha. now apply Fi; auto.
    - rewrite E. split; intros (i & A & B); exists i; split; auto. now apply Fi.
  Qed.

  Context (g0 : gstate G).
  Hypothesis Hindep : forall i, i < n -> indep (task i).
  Theorem machine_result r0 m e :
    parallel_for F G n task r0 m0 m e ->
    (forall i a, i < n -> S i a -> m a = expected (fun _ => g0) i a) /\
    (forall a, (forall i, i < n -> ~ S i a) -> m a = m0 a) /\
    (e = true <-> exists i, i < n /\ raises (fun _ => g0) i = true).
  Proof.
    intros H. destruct (machine_result_gen r0 m e H) as (gs & A & B & C).
    split; [|split]; auto.
    - intros i a Hi Ha. rewrite (A i) by auto. apply (Hindep i Hi (gs i) g0 m0).
    - rewrite C. unfold raises. split; intros (i & Hi & X); exists i; split; auto;
        rewrite <- X; [apply (Hindep i Hi g0 (gs i) m0)|apply (Hindep i Hi (gs i) g0 m0)].
  Qed.
End Machine.

(** no deadlock *)
Lemma machine_progress F G n task (c : config F G) :
  (exists i, i < n /\ c_st c i <> Finished) ->
  (forall i t p, c_st c i = Running t p -> i < n) ->
  exists d, step F G n task c d.
Proof.
  destruct c as [m e r s]; simpl. intros (i & Hi & Hn) Hlt.
  assert (Hrun : forall j t p, s j = Running t p -> exists d, step F G n task (Config m e r s) d).
  { intros j t p Hj. destruct p; eexists; [eapply st_done|eapply st_raise|eapply st_seed|eapply st_draw|eapply st_read|eapply st_write]; eauto. }
  destruct (s i) as [|t p|] eqn:Es; [|eapply Hrun; eauto|congruence].
  (* either some iteration runs, or every thread is idle *)
  assert (D : (exists j t p, s j = Running t p) \/ (forall j, j < n -> forall t p, s j <> Running t p)).
  { clear -n. induction n as [|k IH]; [right; intros; lia|].
    destruct (s k) as [|t p|] eqn:E.
    - destruct IH as [(j & t & p & Hj)|IH]; [left; eauto|]. right. intros j Hj t p.
      destruct (Nat.eq_dec j k) as [->|]; [congruence|apply IH; lia].
    - left; eauto.
    - destruct IH as [(j & t & p & Hj)|IH]; [left; eauto|]. right. intros j Hj t p.
      destruct (Nat.eq_dec j k) as [->|]; [congruence|apply IH; lia]. }
  destruct D as [(j & t & p & Hj)|D]; [eapply Hrun; eauto|].
  eexists. apply st_start with (t := 0); eauto. intros j p Hj.
  destruct (D j (Hlt j 0 p Hj) 0 p Hj).
Qed.

Section Tasks.
  Context (F : arith) (G : generator F).

  (** programs without a draw before a seed are independent of the generator state *)
  Fixpoint no_draw (p : prog F) : Prop :=
    match p with
    | Done | Raise _ | Seed _ _ => True
    | Draw _ => False
    | Read _ k => forall v, no_draw (k v)
    | Write _ _ k => no_draw k
    end.
  Lemma no_draw_indep p : no_draw p -> indep F G p.
  Proof.
    intros H g g' m. revert g g' m.
    assert (X : forall g g' m, exec F G g m p = exec F G g' m p).
    { induction p as [|e|s k IH|k IH|a k IH|a v k IH]; intros g g' m; simpl in *; auto; try tauto.
      all: apply IH; auto. }
    intros g g' m. rewrite (X g g' m). auto.
  Qed.

  Lemma write_row_no_draw (mk : nat -> cell) (vals : list (num F)) j (k : prog F) : no_draw k -> no_draw (write_row F mk vals j k).
  Proof. revert j; induction vals as [|v t IH]; intros j H; simpl; auto. Qed.
  Lemma write_row_owns (S : cell -> Prop) (mk : nat -> cell) (vals : list (num F)) j (k : prog F) : (forall j', j <= j' < j + length vals -> S (mk j')) -> owns F S k ->
    owns F S (write_row F mk vals j k).
  Proof.
    revert j; induction vals as [|v t IH]; intros j HS HK; simpl; auto.
    split; [apply HS; simpl; lia|]. apply IH; auto. intros j' Hj'. apply HS. simpl. lia.
  Qed.

  Lemma exec_write_row g (m : mem F) (mk : nat -> cell) (vals : list (num F)) j (k : prog F) :
    exec F G g m (write_row F mk vals j k) =
    exec F G g (fold_left (fun m (jv : nat * num F) => wr F m (mk (fst jv)) (VN (snd jv)))
                          (combine (seq j (length vals)) vals) m) k.
  Proof. revert m j; induction vals as [|v t IH]; intros m j; simpl; auto. Qed.

  Lemma fold_wr_other (mk : nat -> cell) (l : list (nat * num F)) (m : mem F) a :
    (forall j v, In (j, v) l -> mk j <> a) ->
    fold_left (fun m (jv : nat * num F) => wr F m (mk (fst jv)) (VN (snd jv))) l m a = m a.
  Proof.
    revert m; induction l as [|[j v] t IH]; intros m H; simpl; auto.
    rewrite IH by (intros; apply H with v0; right; auto). apply wr_neq. apply (H j v). now left.
  Qed.
  Lemma fold_wr_nth (mk : nat -> cell) (vals : list (num F)) (m : mem F) j0 j d :
    (forall x y, mk x = mk y -> x = y) -> j < length vals ->
    fold_left (fun m (jv : nat * num F) => wr F m (mk (fst jv)) (VN (snd jv)))
              (combine (seq j0 (length vals)) vals) m (mk (j0 + j)) = VN (nth j vals d).
  Proof.
    intros Hinj. revert m j0 j; induction vals as [|v t IH]; intros m j0 j Hj; simpl in *; [lia|].
    destruct j as [|j].
    - rewrite Nat.add_0_r. rewrite fold_wr_other; [apply wr_eq|].
      intros j' v' H E. apply in_combine_l, in_seq in H. apply Hinj in E. lia.
    - replace (j0 + S j) with (S j0 + j) by lia. apply IH. lia.
  Qed.

  (** *** probability workers *)
  Definition row_cells (i : nat) (a : cell) : Prop :=
    match a with CRes i' _ | CLs i' | CTerm i' _ => i' = i | _ => False end.

  Lemma row_cells_disj i j a : row_cells i a -> row_cells j a -> i = j.
  Proof. destruct a; simpl; intuition congruence. Qed.

  Lemma prob_task_owns f us i : owns F (row_cells i) (prob_task F f us i).
  Proof.
    unfold prob_task. destruct (f (nth i us [])) as [[[p ls] terms]|e]; simpl; auto.
    apply write_row_owns; [simpl; auto|]. simpl. split; auto. apply write_row_owns; simpl; auto.
  Qed.
  Lemma prob_task_no_draw f us i : no_draw (prob_task F f us i).
  Proof.
    unfold prob_task. destruct (f (nth i us [])) as [[[p ls] terms]|e]; simpl; auto.
    apply write_row_no_draw. simpl. apply write_row_no_draw. simpl; auto.
  Qed.
  Lemma prob_task_exec f us i g m p ls terms :
    f (nth i us []) = Ok (p, ls, terms) ->
    snd (exec F G g m (prob_task F f us i)) = false /\
    fst (exec F G g m (prob_task F f us i)) (CLs i) = VN ls /\
    (forall j d, j < length p -> fst (exec F G g m (prob_task F f us i)) (CRes i j) = VN (nth j p d)) /\
    (forall j d, j < length terms -> fst (exec F G g m (prob_task F f us i)) (CTerm i j) = VN (nth j terms d)).
  Proof.
    intros E. unfold prob_task. rewrite E. rewrite exec_write_row. cbn [exec]. rewrite exec_write_row. cbn [exec fst snd].
    split; auto. split; [|split].
    - rewrite fold_wr_other by (intros; congruence). apply wr_eq.
    - intros j d Hj. rewrite fold_wr_other by (intros; congruence). rewrite wr_neq by congruence.
      apply (fold_wr_nth (CRes i) p m 0 j d); [intros x y H; injection H; auto|auto].
    - intros j d Hj. apply (fold_wr_nth (CTerm i) terms _ 0 j d); [intros x y H; injection H; auto|auto].
  Qed.

  Lemma prob_worker f us r0 m0 m e n :
    n = length us ->
    parallel_for F G n (prob_task F f us) r0 m0 m e ->
    (e = true <-> exists i, i < n /\ exists x, f (nth i us []) = Err x) /\
    (forall i p ls terms, i < n -> f (nth i us []) = Ok (p, ls, terms) ->
       m (CLs i) = VN ls /\
       (forall j d, j < length p -> m (CRes i j) = VN (nth j p d)) /\
       (forall j d, j < length terms -> m (CTerm i j) = VN (nth j terms d))).
  Proof.
    intros Hn H.
    assert (g0 : gstate G) by exact (r0 0).
    destruct (machine_result F G n (prob_task F f us) row_cells m0
                (fun i _ => prob_task_owns f us i)
                (fun i j a _ _ => row_cells_disj i j a) g0
                (fun i _ => no_draw_indep _ (prob_task_no_draw f us i)) r0 m e H) as (A & B & C).
    split.
    - rewrite C. unfold raises. split; intros (i & Hi & Hx); exists i; split; auto.
      + destruct (f (nth i us [])) as [[[p ls] terms]|x] eqn:E; eauto.
          destruct (prob_task_exec f us i g0 m0 p ls terms E) as [D _]. congruence.
      + destruct Hx as [x Hx]. unfold prob_task. rewrite Hx. reflexivity.
    - intros i p ls terms Hi E. destruct (prob_task_exec f us i g0 m0 p ls terms E) as (_ & X & Y & Z).
        unfold expected in A. split; [rewrite (A i) by (simpl; auto); auto|].
        split; intros j d Hj; rewrite (A i) by (simpl; auto); auto.
  Qed.

  (** *** discrete workers *)
  Lemma sample_task_owns f us ra i : owns F (row_cells i) (sample_task F f us ra i).
  Proof. unfold sample_task. destruct (f _ _) as [[z ls]|]; simpl; auto. Qed.
  Lemma sample_task_no_draw f us ra i : no_draw (sample_task F f us ra i).
  Proof. unfold sample_task. destruct (f _ _) as [[z ls]|]; simpl; auto. Qed.

  Lemma multi_loop_owns i cps n j k : owns F (row_cells i) k -> owns F (row_cells i) (multi_loop F i cps n j k).
  Proof.
    intros Hk. revert j; induction n as [|n IH]; intros j; simpl; auto.
    intros x. destruct (logarithmic_search F x cps); simpl; auto.
  Qed.
  Lemma multisample_task_owns f us n seeds i : owns F (row_cells i) (multisample_task F f us n seeds i).
  Proof.
    unfold multisample_task. destruct (f _) as [[[p ls] terms]|]; simpl; auto.
    apply multi_loop_owns. simpl; auto.
  Qed.
  Lemma multisample_task_no_draw f us n seeds i : no_draw (multisample_task F f us n seeds i).
  Proof. unfold multisample_task. destruct (f _) as [[[p ls] terms]|]; simpl; auto. Qed.

  Lemma discrete_task_owns f fs us n seed i : owns F (row_cells i) (discrete_task F G f fs us n seed i).
  Proof. unfold discrete_task. destruct (n <=? 1); [apply sample_task_owns|apply multisample_task_owns]. Qed.
  Lemma discrete_task_no_draw f fs us n seed i : no_draw (discrete_task F G f fs us n seed i).
  Proof. unfold discrete_task. destruct (n <=? 1); [apply sample_task_no_draw|apply multisample_task_no_draw]. Qed.

  (** what [multi_loop] writes *)
  Lemma exec_multi_loop i cps k : cps <> [] -> forall n j g m,
    (forall cps r, cps <> [] -> exists z, logarithmic_search F r cps = Some z) ->
    exists g' m' zs,
      exec F G g m (multi_loop F i cps n j k) = exec F G g' m' k /\
      search_all F (uniforms F G g n) cps = Some zs /\ length zs = n /\
      (forall q, q < n -> m' (CRes i (j + q)) = VI (nth q zs 0%Z)) /\
      (forall a, (forall q, j <= q < j + n -> a <> CRes i q) -> m' a = m a).
  Proof.
    intros Hne n. induction n as [|n IH]; intros j g m Hls.
    - exists g, m, []. simpl. repeat split; auto; intros; lia.
    - simpl. destruct (guniform G g) as [x g1] eqn:Eg. cbn [fst snd].
      destruct (Hls cps x Hne) as [z Hz]. rewrite Hz. cbn [exec].
      destruct (IH (S j) g1 (wr F m (CRes i j) (VI z)) Hls) as (g' & m' & zs & A & B & C & D & E).
      exists g', m', (z :: zs). cbn [search_all]. rewrite Hz, B. simpl. repeat split; auto.
      + intros [|q] Hq; simpl.
        * rewrite Nat.add_0_r. rewrite E; [apply wr_eq|]. intros q Hq' X. injection X. lia.
        * replace (j + S q) with (S j + q) by lia. apply D. lia.
      + intros a Ha. rewrite E; [apply wr_neq; apply not_eq_sym, Ha; lia|]. intros q Hq. apply Ha. lia.
  Qed.
End Tasks.

(** ** fast_indexed_add *)
Section Add.
  Context (F : arith) (G : generator F).

  Lemma zmin_le (l : list Z) a : zmin l = Some a -> forall x, In x l -> (a <= x)%Z.
  Proof.
    destruct l as [|y t]; simpl; [discriminate|]. intros E. injection E as <-.
    assert (H : forall t y, (fold_left Z.min t y <= y)%Z /\ forall x, In x t -> (fold_left Z.min t y <= x)%Z).
    { induction t0 as [|z t0 IH]; intros y0; simpl; [split; [lia|tauto]|].
      destruct (IH (Z.min y0 z)) as [A B]. split; [lia|]. intros x [<-|Hx]; [lia|auto]. }
    destruct (H t y) as [A B]. intros x [<-|Hx]; auto.
  Qed.
  Lemma zmax_ge (l : list Z) a : zmax l = Some a -> forall x, In x l -> (x <= a)%Z.
  Proof.
    destruct l as [|y t]; simpl; [discriminate|]. intros E. injection E as <-.
    assert (H : forall t y, (y <= fold_left Z.max t y)%Z /\ forall x, In x t -> (x <= fold_left Z.max t y)%Z).
    { induction t0 as [|z t0 IH]; intros y0; simpl; [split; [lia|tauto]|].
      destruct (IH (Z.max y0 z)) as [A B]. split; [lia|]. intros x [<-|Hx]; [lia|auto]. }
    destruct (H t y) as [A B]. intros x [<-|Hx]; auto.
  Qed.
  Lemma zmin_in (l : list Z) a : zmin l = Some a -> In a l.
  Proof.
    destruct l as [|y t]; simpl; [discriminate|]. intros E. injection E as <-.
    assert (H : forall t y, fold_left Z.min t y = y \/ In (fold_left Z.min t y) t).
    { induction t0 as [|z t0 IH]; intros y0; simpl; auto.
      destruct (IH (Z.min y0 z)) as [A|A]; auto. rewrite A. destruct (Z.min_spec y0 z) as [[_ ->]|[_ ->]]; auto. }
    destruct (H t y) as [->|]; auto.
  Qed.
  Lemma zmax_in (l : list Z) a : zmax l = Some a -> In a l.
  Proof.
    destruct l as [|y t]; simpl; [discriminate|]. intros E. injection E as <-.
    assert (H : forall t y, fold_left Z.max t y = y \/ In (fold_left Z.max t y) t).
    { induction t0 as [|z t0 IH]; intros y0; simpl; auto.
      destruct (IH (Z.max y0 z)) as [A|A]; auto. rewrite A. destruct (Z.max_spec y0 z) as [[_ ->]|[_ ->]]; auto. }
    destruct (H t y) as [->|]; auto.
  Qed.

  Lemma target_inj n ri i j :
    (forall l, ri = Some l -> NoDup l /\ length l = n /\ forall x, In x l -> (0 <= x)%Z) ->
    i < n -> j < n -> target ri i = target ri j -> i = j.
  Proof.
    intros H Hi Hj E. destruct ri as [l|]; simpl in E; auto.
    destruct (H l eq_refl) as (Hd & HL & Hp).
    apply (NoDup_nth l 0%Z); auto; try lia.
    assert (0 <= nth i l 0%Z)%Z by (apply Hp, nth_In; lia).
    assert (0 <= nth j l 0%Z)%Z by (apply Hp, nth_In; lia). lia.
  Qed.

  Lemma add_result addition cols_a ri ci r0 m0 m e :
    (forall l, ri = Some l -> NoDup l /\ length l = length addition /\ forall x, In x l -> (0 <= x)%Z) ->
    (forall l, ci = Some l -> NoDup l /\ length l = cols_a /\ forall x, In x l -> (0 <= x)%Z) ->
    (forall i j, exists x, m0 (COut i j) = VN x) ->
    parallel_for F G (length addition * cols_a) (add_task F addition cols_a ri ci) r0 m0 m e ->
    e = false /\
    (forall i j x, i < length addition -> j < cols_a -> m0 (COut (target ri i) (target ci j)) = VN x ->
       m (COut (target ri i) (target ci j)) = VN (nadd F x (nth j (nth i addition []) (nzero F)))) /\
    (forall a, (forall i j, i < length addition -> j < cols_a -> a <> COut (target ri i) (target ci j)) ->
       m a = m0 a).
  Proof.
    intros HR HC Hm0 H.
    pose (S := fun off a => a = COut (target ri (off / cols_a)) (target ci (off mod cols_a))).
    assert (g0 : gstate G) by exact (r0 0).
    assert (Hrow : forall off, off < length addition * cols_a -> off / cols_a < length addition /\ off mod cols_a < cols_a).
    { intros off Ho. assert (cols_a <> 0) by (intros ->; lia). split.
      - apply Nat.div_lt_upper_bound; auto. lia.
      - now apply Nat.mod_upper_bound. }
    assert (H1 : forall i, i < length addition * cols_a -> owns F (S i) (add_task F addition cols_a ri ci i)).
    { intros off _. unfold add_task, S. cbn [owns]. split; auto. intros [z|x]; cbn [owns]; auto. }
    assert (H2 : forall i, i < length addition * cols_a -> indep F G (add_task F addition cols_a ri ci i)).
    { intros off _. apply no_draw_indep. unfold add_task. cbn [no_draw]. intros [z|x]; simpl; auto. }
    assert (H3 : forall i j a, i < length addition * cols_a -> j < length addition * cols_a -> S i a -> S j a -> i = j).
    { unfold S. intros i j a Hi Hj -> E. injection E as E1 E2.
      destruct (Hrow i Hi), (Hrow j Hj).
      apply (target_inj (length addition)) in E1; auto. apply (target_inj cols_a) in E2; auto.
      rewrite (Nat.div_mod_eq i cols_a), (Nat.div_mod_eq j cols_a). congruence. }
    destruct (machine_result F G (length addition * cols_a) (add_task F addition cols_a ri ci) S m0
                H1 H3 g0 H2 r0 m e H) as (A & B & C).
    - assert (Hex : forall off x, m0 (COut (target ri (off / cols_a)) (target ci (off mod cols_a))) = VN x ->
                exec F G g0 m0 (add_task F addition cols_a ri ci off) =
                (wr F m0 (COut (target ri (off / cols_a)) (target ci (off mod cols_a)))
                   (VN (nadd F x (nth (off mod cols_a) (nth (off / cols_a) addition []) (nzero F)))), false)).
      { intros off x Hx. unfold add_task. cbn [exec]. rewrite Hx. reflexivity. }
      split; [|split].
      + destruct e; auto. destruct (proj1 C eq_refl) as (off & Ho & Hr). unfold raises in Hr.
        destruct (Hm0 (target ri (off / cols_a)) (target ci (off mod cols_a))) as [x Hx].
        rewrite (Hex off x Hx) in Hr. discriminate.
      + intros i j x Hi Hj Hx.
        assert (Hd : (i * cols_a + j) / cols_a = i).
        { rewrite Nat.add_comm, Nat.div_add by lia. rewrite Nat.div_small by auto. lia. }
        assert (Hmd : (i * cols_a + j) mod cols_a = j).
        { rewrite Nat.add_comm, Nat.mod_add by lia. now apply Nat.mod_small. }
        assert (Ho : i * cols_a + j < length addition * cols_a) by nia.
        rewrite (A (i * cols_a + j)); auto.
        * unfold expected. rewrite (Hex _ x) by (rewrite Hd, Hmd; auto). cbn [fst]. rewrite Hd, Hmd. apply wr_eq.
        * unfold S. now rewrite Hd, Hmd.
      + intros a Ha. apply B. intros off Ho. unfold S. destruct (Hrow off Ho). now apply Ha.
  Qed.

  Lemma check_axis_ok n_add n_out idx :
    check_axis n_add n_out idx = Ok tt <->
    match idx with
    | None => n_add = n_out
    | Some l => l <> [] /\ length l = n_add /\ forall x, In x l -> (0 <= x < Z.of_nat n_out)%Z
    end.
  Proof.
    unfold check_axis. destruct idx as [l|].
    - destruct (Nat.eqb_spec (length l) n_add) as [HL|HL]; simpl.
      + destruct (zmin l) as [a|] eqn:Ea, (zmax l) as [b|] eqn:Eb;
          try (split; [discriminate|]; intros [X _]; destruct l; simpl in *; congruence).
        destruct (Z.leb_spec 0 a), (Z.ltb_spec b (Z.of_nat n_out)); simpl; split; intros X; try discriminate; auto.
        * split; [intros ->; discriminate|]. split; auto. intros x Hx.
          pose proof (zmin_le l a Ea x Hx). pose proof (zmax_ge l b Eb x Hx). lia.
        * destruct X as (_ & _ & X). specialize (X b (zmax_in l b Eb)). lia.
        * destruct X as (_ & _ & X). specialize (X a (zmin_in l a Ea)). lia.
        * destruct X as (_ & _ & X). specialize (X a (zmin_in l a Ea)). lia.
      + split; [discriminate|]. intros (_ & X & _). congruence.
    - destruct (Nat.eqb_spec n_add n_out); split; auto; try discriminate; congruence.
  Qed.
End Add.

(** ** Runs exist *)
Section Runs.
  Context (F : arith) (G : generator F) (n : nat) (task : nat -> prog F).

  Lemma steps_trans c d f : steps F G n task c d -> steps F G n task d f -> steps F G n task c f.
  Proof. induction 1; auto. intros. econstructor; eauto. Qed.

  (** thread [t] runs the remaining program of iteration [i] to its end *)
  Lemma run_one i t p : forall m e r s, s i = Running t p ->
    exists r' s', steps F G n task (Config m e r s)
       (Config (fst (exec F G (r t) m p)) (orb e (snd (exec F G (r t) m p))) r' s') /\
      s' i = Finished /\ (forall j, j <> i -> s' j = s j) /\ (forall t', t' <> t -> r' t' = r t').
  Proof.
    induction p as [|x|z k IH|k IH|a k IH|a v k IH]; intros m e r s Hs; cbn [exec].
    - do 2 eexists. split; [eapply steps_step; [eapply st_done; eauto|]|].
      + cbn. rewrite orb_false_r. apply steps_refl.
      + split; [apply fupd_eq|]. split; auto. intros j Hj. apply fupd_neq; auto.
    - do 2 eexists. split; [eapply steps_step; [eapply st_raise; eauto|]|].
      + cbn. rewrite orb_true_r. apply steps_refl.
      + split; [apply fupd_eq|]. split; auto. intros j Hj. apply fupd_neq; auto.
    - destruct (IH m e (fupd r t (gseed G z)) (fupd s i (Running t k))) as (r' & s' & A & B & C & D); [apply fupd_eq|].
      rewrite fupd_eq in A. exists r', s'. split; [eapply steps_step; [eapply st_seed; eauto|exact A]|].
      split; auto. split; intros j Hj; [rewrite C|rewrite D]; auto; apply fupd_neq; auto.
    - destruct (IH (fst (guniform G (r t))) m e (fupd r t (snd (guniform G (r t)))) (fupd s i (Running t (k (fst (guniform G (r t)))))))
        as (r' & s' & A & B & C & D); [apply fupd_eq|].
      rewrite fupd_eq in A. exists r', s'. split; [eapply steps_step; [eapply st_draw; eauto|exact A]|].
      split; auto. split; intros j Hj; [rewrite C|rewrite D]; auto; apply fupd_neq; auto.
    - destruct (IH (m a) m e r (fupd s i (Running t (k (m a))))) as (r' & s' & A & B & C & D); [apply fupd_eq|].
      exists r', s'. split; [eapply steps_step; [eapply st_read; eauto|exact A]|].
      split; auto. split; intros j Hj; [rewrite C|rewrite D]; auto; apply fupd_neq; auto.
    - destruct (IH (wr F m a v) e r (fupd s i (Running t k))) as (r' & s' & A & B & C & D); [apply fupd_eq|].
      exists r', s'. split; [eapply steps_step; [eapply st_write; eauto|exact A]|].
      split; auto. split; intros j Hj; [rewrite C|rewrite D]; auto; apply fupd_neq; auto.
  Qed.

  (** iterations run one after the other, [who i] executing iteration [i] *)
  Lemma run_seq (who : nat -> nat) : forall k m e r s, k <= n ->
    (forall i, i < k -> s i = Waiting) -> (forall j t p, s j <> Running t p) ->
    exists m' e' r' s', steps F G n task (Config m e r s) (Config m' e' r' s') /\
      (forall i, i < k -> s' i = Finished) /\ (forall j, k <= j -> s' j = s j).
  Proof.
    induction k as [|k IH]; intros m e r s Hk Hw Hr.
    - exists m, e, r, s. split; [apply steps_refl|]. split; auto. intros; lia.
    - destruct (IH m e r s) as (m1 & e1 & r1 & s1 & A & B & C); auto; [lia|].
      destruct (run_one k (who k) (task k) m1 e1 r1 (fupd s1 k (Running (who k) (task k)))) as (r' & s' & D & E & H & _); [apply fupd_eq|].
      do 4 eexists. split.
      + eapply steps_trans; [exact A|]. eapply steps_step; [|exact D]. apply st_start; auto.
        * rewrite C by lia. apply Hw. lia.
        * intros j p. destruct (Nat.lt_ge_cases j k) as [Hj|Hj]; [rewrite B by auto; discriminate|].
          rewrite C by lia. apply Hr.
      + split.
        * intros i Hi. destruct (Nat.eq_dec i k) as [->|]; auto. rewrite H, fupd_neq by lia. apply B. lia.
        * intros j Hj. rewrite H, fupd_neq by lia. apply C. lia.
  Qed.

  Lemma parallel_for_exists r0 m0 : exists m e, parallel_for F G n task r0 m0 m e.
  Proof.
    destruct (run_seq (fun _ => 0) n m0 false r0 (fun _ => Waiting)) as (m & e & r & s & A & B & _); auto; try discriminate.
    exists m, e, r, s. auto.
  Qed.
End Runs.

Section Discrete.
  Context (F : arith) (G : generator F).

  Lemma discrete_deterministic f fs us n seed r0 r0' m0 m0' m m' e e' :
    parallel_for F G (length us) (discrete_task F G f fs us n seed) r0 m0 m e ->
    parallel_for F G (length us) (discrete_task F G f fs us n seed) r0' m0' m' e' ->
    (forall a, m0 a = m0' a) ->
    e = e' /\ forall a, m a = m' a.
  Proof.
    intros H H' Hm0.
    assert (Ho : forall i, i < length us -> owns F (row_cells i) (discrete_task F G f fs us n seed i))
      by (intros; apply discrete_task_owns).
    assert (Hi : forall i, i < length us -> indep F G (discrete_task F G f fs us n seed i))
      by (intros; apply no_draw_indep, discrete_task_no_draw).
    assert (Hd : forall i j a, i < length us -> j < length us -> row_cells i a -> row_cells j a -> i = j)
      by (intros i j a _ _; apply row_cells_disj).
    destruct (machine_result F G _ _ row_cells m0 Ho Hd (r0 0) Hi r0 m e H) as (A & B & C).
    destruct (machine_result F G _ _ row_cells m0' Ho Hd (r0 0) Hi r0' m' e' H') as (A' & B' & C').
    assert (X : forall i, i < length us ->
       (forall a, row_cells i a -> expected F G (discrete_task F G f fs us n seed) m0 (fun _ => r0 0) i a
                                  = expected F G (discrete_task F G f fs us n seed) m0' (fun _ => r0 0) i a) /\
       raises F G (discrete_task F G f fs us n seed) m0 (fun _ => r0 0) i =
       raises F G (discrete_task F G f fs us n seed) m0' (fun _ => r0 0) i).
    { intros i Hi'. apply exec_frame; auto. }
    split.
    - apply Bool.eq_iff_eq_true. rewrite C, C'.
      split; intros (i & Hl & Hr); exists i; split; auto; destruct (X i Hl); congruence.
    - intros a.
      assert (D : (exists i, i < length us /\ row_cells i a) \/ forall i, i < length us -> ~ row_cells i a).
      { destruct a as [i j|i|i j|i j|i]; simpl;
          try (right; tauto);
          (destruct (Nat.lt_ge_cases i (length us)); [left; exists i; auto|right; intros k Hk E; lia]). }
      destruct D as [(i & Hl & Ha)|D].
      + rewrite (A i), (A' i) by auto. now apply X.
      + rewrite B, B' by auto. apply Hm0.
  Qed.

  Lemma discrete_values_one f fs us seed r0 m0 m e n :
    n <= 1 ->
    parallel_for F G (length us) (discrete_task F G f fs us n seed) r0 m0 m e ->
    (e = true <-> exists i x, i < length us /\ fs (nth i us []) (nth i (generate_rand_floats_for_parallel F G seed (length us)) (nzero F)) = Err x) /\
    (forall i z ls, i < length us ->
       fs (nth i us []) (nth i (generate_rand_floats_for_parallel F G seed (length us)) (nzero F)) = Ok (z, ls) ->
       m (CRes i 0) = VI z /\ m (CLs i) = VN ls).
  Proof.
    intros Hn H. assert (Hle : (n <=? 1) = true) by (now apply Nat.leb_le).
    destruct (machine_result F G _ _ row_cells m0 (fun i _ => discrete_task_owns F G f fs us n seed i)
      (fun i j a _ _ => row_cells_disj i j a) (r0 0)
      (fun i _ => no_draw_indep F G _ (discrete_task_no_draw F G f fs us n seed i)) r0 m e H) as (A & B & C).
    unfold expected, raises, discrete_task in *. rewrite Hle in *. unfold sample_task in *. split.
    - rewrite C. split.
      + intros (i & Hi & Hr). exists i. destruct (fs _ _) as [[z ls]|x] eqn:E; [discriminate|]. eauto.
      + intros (i & x & Hi & Hx). exists i. rewrite Hx. auto.
    - intros i z ls Hi E. split; rewrite (A i) by (simpl; auto); rewrite E; simpl; [rewrite wr_neq by congruence|]; apply wr_eq.
  Qed.

  Lemma discrete_values_many f fs us seed r0 m0 m e n :
    1 < n ->
    (forall u p ls t, f u = Ok (p, ls, t) -> In u us -> p <> []) ->
    (forall cps r, cps <> [] -> exists z, logarithmic_search F r cps = Some z) ->
    parallel_for F G (length us) (discrete_task F G f fs us n seed) r0 m0 m e ->
    (e = true <-> exists u x, In u us /\ f u = Err x) /\
    (forall i p ls t, i < length us -> f (nth i us []) = Ok (p, ls, t) ->
       m (CLs i) = VN ls /\
       exists zs, search_all F (uniforms F G (gseed G (nth i (generate_rand_ints_for_parallel F G seed (length us)) 0%Z)) n)
                    (nbf_cumsum F p) = Some zs /\ length zs = n /\
                  forall j, j < n -> m (CRes i j) = VI (nth j zs 0%Z)).
  Proof.
    intros Hn Hne Hls H. assert (Hle : (n <=? 1) = false) by (apply Nat.leb_gt; lia).
    destruct (machine_result F G _ _ row_cells m0 (fun i _ => discrete_task_owns F G f fs us n seed i)
      (fun i j a _ _ => row_cells_disj i j a) (r0 0)
      (fun i _ => no_draw_indep F G _ (discrete_task_no_draw F G f fs us n seed i)) r0 m e H) as (A & B & C).
    unfold expected, raises, discrete_task in *. rewrite Hle in *. unfold multisample_task in *.
    assert (Hc : forall p, p <> [] -> nbf_cumsum F p <> []) by (intros [|x p] Hp; [congruence|discriminate]).
    assert (Hr : forall i p ls t, i < length us -> f (nth i us []) = Ok (p, ls, t) ->
       exists m' zs,
         exec F G (r0 0) m0 (Seed (nth i (generate_rand_ints_for_parallel F G seed (length us)) 0%Z)
           (multi_loop F i (nbf_cumsum F p) n 0 (Write (CLs i) (VN ls) Done))) = (wr F m' (CLs i) (VN ls), false) /\
         search_all F (uniforms F G (gseed G (nth i (generate_rand_ints_for_parallel F G seed (length us)) 0%Z)) n)
                    (nbf_cumsum F p) = Some zs /\ length zs = n /\
         forall j, j < n -> m' (CRes i j) = VI (nth j zs 0%Z)).
    { intros i p ls t Hi E. cbn [exec].
      destruct (exec_multi_loop F G i (nbf_cumsum F p) (Write (CLs i) (VN ls) Done)
        (Hc p (Hne _ _ _ _ E (nth_In us [] Hi))) n 0 (gseed G (nth i (generate_rand_ints_for_parallel F G seed (length us)) 0%Z)) m0 Hls)
        as (g' & m' & zs & X & Y & Z & W & _).
      exists m', zs. rewrite X. cbn [exec]. auto. }
    split.
    - rewrite C. split.
      + intros (i & Hi & X). destruct (f (nth i us [])) as [[[p ls] t]|x] eqn:E.
        * destruct (Hr i p ls t Hi E) as (m' & zs & D & _). rewrite D in X. discriminate.
        * exists (nth i us []), x. split; auto. now apply nth_In.
      + intros (u & x & Hu & E). destruct (In_nth us u [] Hu) as (i & Hi & Ei).
        exists i. split; auto. rewrite Ei, E. reflexivity.
    - intros i p ls t Hi E. destruct (Hr i p ls t Hi E) as (m' & zs & D & X & Y & Z).
      split; [|exists zs; split; auto; split; auto; intros j Hj]; rewrite (A i) by (simpl; auto); rewrite E, D; simpl.
      + apply wr_eq.
      + rewrite wr_neq by congruence. auto.
  Qed.
End Discrete.
