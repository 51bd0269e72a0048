(** C23: what fast_indexed_add leaves in the output, in every schedule and for every arithmetic. *)
From Coq Require Import Reals.
From Verif Require Import Prelude Arith CoreModel DictProofs ParModel ParProofs PropParallel.
Local Open Scope nat_scope.

Section Lost.
  Context (F : arith) (G : generator F) (addition : list (list (num F))) (cols_a : nat) (ri ci : option (list Z)) (x0 : nat -> nat -> num F).
  Let n := length addition * cols_a.
  Let task := add_task F addition cols_a ri ci.
  Definition cell_amount (off : nat) : num F := nth (off mod cols_a) (nth (off / cols_a) addition []) (nzero F).
  Definition aimed (tr tc off : nat) : Prop := target ri (off / cols_a) = tr /\ target ci (off mod cols_a) = tc.
  Definition sum_of (tr tc : nat) (l : list nat) : num F := fold_left (fun a off => nadd F a (cell_amount off)) l (x0 tr tc).
  Definition has_written (st : status F) : bool := match st with Finished => true | Running _ Done => true | _ => false end.
  Definition contributors (s : nat -> status F) (tr tc : nat) (l : list nat) : Prop :=
    NoDup l /\ forall off, In off l -> off < n /\ aimed tr tc off /\ has_written (s off) = true.
  Definition own_cell (off : nat) : cell := COut (target ri (off / cols_a)) (target ci (off mod cols_a)).

  Record linv (c : config F G) : Prop := {
    li_mem : forall tr tc, exists l, contributors (c_st c) tr tc l /\ c_mem c (COut tr tc) = VN (sum_of tr tc l) /\
               (forall off, off < n -> aimed tr tc off -> has_written (c_st c off) = true -> l <> []);
    li_err : c_err c = false;
    li_run : forall i t p, c_st c i = Running t p -> i < n /\
       (p = task i \/
        (exists l, contributors (c_st c) (target ri (i / cols_a)) (target ci (i mod cols_a)) l /\
                   p = Write (own_cell i) (VN (nadd F (sum_of (target ri (i / cols_a)) (target ci (i mod cols_a)) l) (cell_amount i))) Done) \/
        p = Done)
  }.

  Lemma contributors_more s i st tr tc l : (has_written (s i) = true -> has_written st = true) -> contributors s tr tc l -> contributors (fupd s i st) tr tc l.
  Proof.
    intros H [ND A]. split; auto. intros off Ho. destruct (A off Ho) as (A1 & A2 & A3). split; auto. split; auto.
    destruct (fupd_cases s i st off) as [[<- ->]|[_ ->]]; auto.
  Qed.

  (** a step that writes nothing *)
  Lemma linv_quiet m e r s i st r' : linv (Config m e r s) -> has_written st = has_written (s i) ->
    (forall t p, st = Running t p -> i < n /\
       (p = task i \/
        (exists l, contributors s (target ri (i / cols_a)) (target ci (i mod cols_a)) l /\
                   p = Write (own_cell i) (VN (nadd F (sum_of (target ri (i / cols_a)) (target ci (i mod cols_a)) l) (cell_amount i))) Done) \/
        p = Done)) ->
    linv (Config m e r' (fupd s i st)).
  Proof.
    intros [M E Q] W R. cbn in *. constructor; cbn; auto.
    - intros tr tc. destruct (M tr tc) as (l & C & V & N). exists l. split; [apply contributors_more; auto; congruence|]. split; auto.
      intros off Ho Ha Hw. apply (N off); auto. destruct (fupd_cases s i st off) as [[<- X]|[_ X]]; rewrite X in Hw; congruence.
    - intros j t p Hj. destruct (fupd_cases s i st j) as [[<- X]|[_ X]]; rewrite X in Hj.
      + destruct (R t p Hj) as (A & [B|[(l & C & B)|B]]); split; auto. right; left. exists l. split; auto. apply contributors_more; auto. congruence.
      + destruct (Q j t p Hj) as (A & [B|[(l & C & B)|B]]); split; auto. right; left. exists l. split; auto. apply contributors_more; auto. congruence.
  Qed.

  Lemma linv_step c d : linv c -> step F G n task c d -> linv d.
  Proof.
    intros I H. destruct H as [m e r s i t Hi Hs Ht|m e r s i t Hs|m e r s i t x Hs|m e r s i t z k Hs
                  |m e r s i t k Hs|m e r s i t a k Hs|m e r s i t a v k Hs].
    - eapply linv_quiet; eauto; [rewrite Hs; reflexivity|]. intros t' p X. injection X as <- <-. auto.
    - eapply linv_quiet; eauto; [rewrite Hs; reflexivity|]. discriminate.
    - exfalso. destruct (li_run _ I i t _ Hs) as (_ & [X|[(y & _ & X)|X]]); discriminate.
    - exfalso. destruct (li_run _ I i t _ Hs) as (_ & [X|[(y & _ & X)|X]]); discriminate.
    - exfalso. destruct (li_run _ I i t _ Hs) as (_ & [X|[(y & _ & X)|X]]); discriminate.
    - destruct (li_run _ I i t _ Hs) as (Hi & [X|[(y & _ & X)|X]]); try discriminate.
      unfold task, add_task in X. injection X as -> ->.
      destruct (li_mem _ I (target ri (i / cols_a)) (target ci (i mod cols_a))) as (l & C & V & _). cbn [c_mem c_st] in *. rewrite V.
      eapply linv_quiet; eauto; [cbn [c_st] in Hs; rewrite Hs; reflexivity|].
      intros t' p X. injection X as <- <-. split; auto. right; left. exists l. split; auto.
    - destruct (li_run _ I i t _ Hs) as (Hi & [X|[(l & [ND C] & X)|X]]); try discriminate. injection X as -> -> ->.
      cbn [c_st] in *. destruct I as [M E Q]. cbn in M, E, Q.
      assert (NI : ~ In i l) by (intros Ii; apply C in Ii; rewrite Hs in Ii; cbn in Ii; destruct Ii as (_ & _ & ?); discriminate).
      assert (LE : forall tr tc l, contributors s tr tc l -> contributors (fupd s i (Running t Done)) tr tc l) by (intros; apply contributors_more; auto).
      constructor; cbn; auto.
      + intros tr tc. unfold own_cell. destruct (M tr tc) as (l' & C' & V' & N').
        destruct (Nat.eq_dec (target ri (i / cols_a)) tr) as [<-|N1]; [destruct (Nat.eq_dec (target ci (i mod cols_a)) tc) as [<-|N2]|].
        * exists (l ++ [i]). split; [|split].
          -- split.
             ++ apply NoDup_app_one; auto.
             ++ intros off Ho. apply in_app_or in Ho. destruct Ho as [Ho|[<-|[]]].
                ** now apply (LE _ _ l (conj ND C)).
                ** split; auto. split; [split; reflexivity|]. rewrite fupd_eq. reflexivity.
          -- unfold wr. cbn. rewrite !Nat.eqb_refl. cbn. unfold sum_of. now rewrite fold_left_app.
          -- intros _ _ _ _. destruct l; discriminate.
        * exists l'. split; [now apply LE|]. split.
          -- unfold wr. cbn. rewrite (proj2 (Nat.eqb_neq _ _) N2), andb_false_r. auto.
          -- intros off Ho Ha Hw. apply (N' off); auto. destruct (fupd_cases s i (Running t Done) off) as [[<- X]|[_ X]]; rewrite X in Hw; auto. destruct Ha; congruence.
        * exists l'. split; [now apply LE|]. split.
          -- unfold wr. cbn. rewrite (proj2 (Nat.eqb_neq _ _) N1). auto.
          -- intros off Ho Ha Hw. apply (N' off); auto. destruct (fupd_cases s i (Running t Done) off) as [[<- X]|[_ X]]; rewrite X in Hw; auto. destruct Ha; congruence.
      + intros j t' p Hj. destruct (fupd_cases s i (Running t Done) j) as [[<- X]|[_ X]]; rewrite X in Hj; [injection Hj as <- <-; auto|].
        destruct (Q j t' p Hj) as (A & [B|[(l1 & C1 & B)|B]]); split; auto. right; left. exists l1. auto.
  Qed.
  Lemma linv_steps c d : steps F G n task c d -> linv c -> linv d.
  Proof. induction 1 as [|c d f S1 S2 IH]; auto. intros I. apply IH. eapply linv_step; eauto. Qed.
End Lost.

(** Whatever the number of threads and the schedule: every cell ends with its old value plus the contributions of
    some of the iterations aimed at it, each counted at most once and added one after the other; if there are such
    iterations, at least one is counted. *)
Theorem C23_any_schedule : forall F (G : generator F) rows_o cols_o addition cols_a ri ci n task (x0 : nat -> nat -> num F) r0 m0 m e,
  fast_indexed_add F rows_o cols_o addition cols_a ri ci = Ok (n, task) ->
  (forall i j, m0 (COut i j) = VN (x0 i j)) ->
  parallel_for F G n task r0 m0 m e ->
  e = false /\
  forall tr tc, exists l : list nat,
    NoDup l /\
    (forall off, In off l -> off < n /\ target ri (off / cols_a) = tr /\ target ci (off mod cols_a) = tc) /\
    (l = [] -> forall off, off < n -> ~ (target ri (off / cols_a) = tr /\ target ci (off mod cols_a) = tc)) /\
    m (COut tr tc) = VN (fold_left (fun a off => nadd F a (nth (off mod cols_a) (nth (off / cols_a) addition []) (nzero F))) l (x0 tr tc)).
Proof.
  intros F G rows_o cols_o addition cols_a ri ci n task x0 r0 m0 m e E Hm0 (r & s & H & Hf).
  assert (En : n = length addition * cols_a /\ task = add_task F addition cols_a ri ci).
  { unfold fast_indexed_add in E. destruct (check_axis _ _ ri); [|discriminate]. cbn [rbind] in E.
    destruct (check_axis _ _ ci); [|discriminate]. cbn [rbind] in E. injection E as <- <-. auto. }
  destruct En as [-> ->].
  assert (I : linv F G addition cols_a ri ci x0 (Config m e r s)).
  { eapply linv_steps; [exact H|]. constructor; cbn; auto; try discriminate. intros tr tc. exists []. split; [|split].
    - split; [constructor|]. intros off [].
    - cbn. apply Hm0.
    - intros off _ _ X. discriminate. }
  destruct I as [M Er _]. cbn in *. split; auto. intros tr tc. destruct (M tr tc) as (l & [ND C] & V & N).
  exists l. split; auto. split; [|split; [|exact V]].
  - intros off Ho. destruct (C off Ho) as (A & B & _). auto.
  - intros L0 off Ho Ha. apply (N off); auto. rewrite Hf by auto. reflexivity.
Qed.

(** ** All these results are possible with enough threads *)
Section Possible.
  Context (F : arith) (G : generator F) (addition : list (list (num F))) (cols_a : nat) (ri ci : option (list Z)) (x0 : nat -> nat -> num F).
  Let n := length addition * cols_a.
  Let task := add_task F addition cols_a ri ci.
  Notation amount := (cell_amount F addition cols_a).
  Notation own := (own_cell cols_a ri ci).
  Notation cfg := (config F G).
  Notation steps := (steps F G n task).

  Lemma steps_app c d f : steps c d -> steps d f -> steps c f.
  Proof. induction 1; auto. intros. eapply steps_step; eauto. Qed.
  Definition upd_all (s : nat -> status F) (L : list nat) (g : nat -> status F) := fold_left (fun s i => fupd s i (g i)) L s.
  Lemma upd_all_out g j : forall L s, ~ In j L -> upd_all s L g j = s j.
  Proof. induction L as [|i L IH]; intros s H; auto. cbn. unfold upd_all in IH. rewrite IH by (cbn in H; tauto). apply fupd_neq. cbn in H. tauto. Qed.
  Lemma upd_all_in g j : forall L s, In j L -> upd_all s L g j = g j.
  Proof.
    induction L as [|i L IH]; intros s H; [destruct H|]. cbn. destruct (in_dec Nat.eq_dec j L) as [I|I]; [now apply IH|].
    destruct H as [->|H]; [|tauto]. change (upd_all (fupd s j (g j)) L g j = g j). rewrite upd_all_out by auto. apply fupd_eq.
  Qed.

  (** steps of the iterations of [L], one after the other, that change no memory *)
  Lemma batch m e r (P Q : nat -> status F) :
    (forall s i, s i = P i -> step F G n task (Config m e r s) (Config m e r (fupd s i (Q i)))) ->
    forall L s, NoDup L -> (forall i, In i L -> s i = P i) -> steps (Config m e r s) (Config m e r (upd_all s L Q)).
  Proof.
    intros ST. induction L as [|i L IH]; intros s ND H; [apply steps_refl|]. inversion ND; subst. eapply steps_step; [apply ST, H; now left|].
    apply IH; auto. intros j Hj. rewrite fupd_neq by (intros ->; auto). apply H. now right.
  Qed.
  (** all iterations start, each on a thread of its own *)
  Lemma batch_start m e r : forall L s, NoDup L -> (forall i, In i L -> i < n) -> (forall i, In i L -> s i = Waiting) -> (forall j t p, s j = Running t p -> t = j) ->
    steps (Config m e r s) (Config m e r (upd_all s L (fun i => Running i (task i)))).
  Proof.
    induction L as [|i L IH]; intros s ND Hn W T; [apply steps_refl|]. inversion ND; subst. eapply steps_step.
    - apply (st_start _ _ _ _ _ _ _ _ i i); [apply Hn; now left|apply W; now left|]. intros j p X. assert (i = j) by (eapply T; eauto). subst j. rewrite W in X by now left. discriminate.
    - apply IH; auto; [intros; apply Hn; now right| |].
      + intros j Hj. rewrite fupd_neq by (intros ->; auto). apply W. now right.
      + intros j t p. destruct (fupd_cases s i (Running i (task i)) j) as [[<- ->]|[_ ->]]; eauto. intros X. injection X as <- _. reflexivity.
  Qed.
  Definition numeric (m : mem F) : Prop := forall tr tc, exists y, m (COut tr tc) = VN y.
  Lemma batch_write e r (v : nat -> num F) : forall L m s, NoDup L -> (forall i, In i L -> s i = Running i (Write (own i) (VN (v i)) Done)) -> numeric m ->
    exists m', numeric m' /\ steps (Config m e r s) (Config m' e r (upd_all s L (fun i => Running i Done))).
  Proof.
    induction L as [|i L IH]; intros m s ND H N; [exists m; split; auto; apply steps_refl|]. inversion ND; subst.
    destruct (IH (wr F m (own i) (VN (v i))) (fupd s i (Running i Done))) as (m' & N' & ST); auto.
    - intros j Hj. rewrite fupd_neq by (intros ->; auto). apply H. now right.
    - intros tr tc. destruct (N tr tc) as [y Y]. unfold wr, own_cell. cbn. destruct (_ && _)%bool; eauto.
    - exists m'. split; auto. eapply steps_step; [|exact ST]. apply st_write. apply H. now left.
  Qed.

  Definition pending (x : num F) (i : nat) : status F := Running i (Write (own i) (VN (nadd F x (amount i))) Done).

  Lemma read_step m e r s i y : s i = Running i (task i) -> m (own i) = VN y -> step F G n task (Config m e r s) (Config m e r (fupd s i (pending y i))).
  Proof.
    intros Hs V. pose proof (st_read F G n task m e r s i i (own i) (fun v => match v with VN y => Write (own i) (VN (nadd F y (amount i))) Done | VI _ => Raise TypeError end) Hs) as X.
    cbv beta in X. rewrite V in X. exact X.
  Qed.

  (** the iterations of [l], all aimed at one cell, one after the other *)
  Lemma one_by_one e r tr tc : forall l m s x, NoDup l -> (forall i, In i l -> s i = Running i (task i)) -> (forall i, In i l -> aimed cols_a ri ci tr tc i) ->
    m (COut tr tc) = VN x ->
    exists m' s', m' (COut tr tc) = VN (fold_left (fun a off => nadd F a (amount off)) l x) /\ steps (Config m e r s) (Config m' e r s') /\
      (forall i, In i l -> s' i = Finished) /\ forall i, ~ In i l -> s' i = s i.
  Proof.
    induction l as [|i l IH]; intros m s x ND H A V; [exists m, s; split; auto; split; [apply steps_refl|]; split; auto; intros i []|]. inversion ND as [|? ? NI ND']; subst.
    destruct (A i (or_introl eq_refl)) as [A1 A2]. assert (OI : own i = COut tr tc) by (unfold own_cell; now rewrite A1, A2).
    destruct (IH (wr F m (own i) (VN (nadd F x (amount i)))) (fupd (fupd (fupd s i (pending x i)) i (Running i Done)) i Finished) (nadd F x (amount i))) as (m' & s' & V' & ST & S1 & S2); auto.
    - intros j Hj. rewrite !fupd_neq by (intros ->; auto). apply H. now right.
    - intros j Hj. apply A. now right.
    - rewrite OI. unfold wr. cbn. now rewrite !Nat.eqb_refl.
    - exists m', s'. split; [exact V'|]. split; [|split].
      + assert (RD : step F G n task (Config m e r s) (Config m e r (fupd s i (pending x i)))).
        { apply read_step; [apply H; now left|now rewrite OI]. }
        eapply steps_step; [exact RD|].
        eapply steps_step; [apply (st_write _ _ _ _ _ _ _ _ i i); apply fupd_eq|].
        eapply steps_step; [apply (st_done _ _ _ _ _ _ _ _ i i); apply fupd_eq|]. exact ST.
      + intros j [<-|Hj]; auto. rewrite S2 by auto. apply fupd_eq.
      + intros j Hj. cbn in Hj. rewrite S2 by tauto. now rewrite !fupd_neq by tauto.
  Qed.

  Lemma possible (r0 : nat -> gstate G) m0 tr tc l : (forall i j, m0 (COut i j) = VN (x0 i j)) ->
    NoDup l -> (forall off, In off l -> off < n /\ aimed cols_a ri ci tr tc off) ->
    (l = [] -> forall off, off < n -> ~ aimed cols_a ri ci tr tc off) ->
    exists m, parallel_for F G n task r0 m0 m false /\ m (COut tr tc) = VN (sum_of F addition cols_a x0 tr tc l).
  Proof.
    intros M0 ND HL HE. set (all := seq 0 n).
    assert (NDa : NoDup all) by apply seq_NoDup. assert (INa : forall i, In i all <-> i < n) by (intros i; unfold all; rewrite in_seq; lia).
    destruct l as [|a l].
    { (* nothing is aimed at the cell: any schedule; one iteration after the other *)
      assert (SEQ : forall L, NoDup L -> (forall i, In i L -> i < n) -> forall m s, (forall i, In i L -> s i = Waiting) -> (forall j t p, s j <> Running t p) -> numeric m -> m (COut tr tc) = VN (x0 tr tc) ->
        exists m' s', steps (Config m false r0 s) (Config m' false r0 s') /\ m' (COut tr tc) = VN (x0 tr tc) /\ (forall i, In i L -> s' i = Finished) /\ forall i, ~ In i L -> s' i = s i).
      { induction L as [|i L IH]; intros NDL HLn m s W NR N V; [exists m, s; split; [apply steps_refl|]; split; auto; split; auto; intros i []|].
        inversion NDL as [|? ? NI NDL']; subst. destruct (N (target ri (i / cols_a)) (target ci (i mod cols_a))) as [y Y].
        set (s3 := fupd (fupd (fupd (fupd s i (Running i (task i))) i (pending y i)) i (Running i Done)) i Finished).
        destruct (IH NDL' (fun j Hj => HLn j (or_intror Hj)) (wr F m (own i) (VN (nadd F y (amount i)))) s3) as (m' & s' & ST & V' & S1 & S2).
        - intros j Hj. unfold s3. rewrite !fupd_neq by (intros ->; auto). apply W. now right.
        - intros j t p X. unfold s3 in X. destruct (Nat.eq_dec i j) as [<-|Ne]; [rewrite fupd_eq in X; discriminate|]. rewrite !fupd_neq in X by auto. eapply NR; eauto.
        - intros ar ac. destruct (N ar ac) as [z Z]. unfold wr, own_cell. cbn. destruct (_ && _)%bool; eauto.
        - unfold wr, own_cell. cbn. destruct (Nat.eqb_spec (target ri (i / cols_a)) tr) as [E1|]; [destruct (Nat.eqb_spec (target ci (i mod cols_a)) tc) as [E2|]|]; cbn; auto.
          exfalso. apply (HE eq_refl i); [apply HLn; now left|]. split; auto.
        - exists m', s'. split; [|split; [exact V'|split]].
          + eapply steps_step; [apply (st_start _ _ _ _ _ _ _ _ i i); [apply HLn; now left|apply W; now left|intros j p; apply NR]|].
            assert (RD : step F G n task (Config m false r0 (fupd s i (Running i (task i)))) (Config m false r0 (fupd (fupd s i (Running i (task i))) i (pending y i)))).
            { apply read_step; [apply fupd_eq|exact Y]. }
            eapply steps_step; [exact RD|].
            eapply steps_step; [apply (st_write _ _ _ _ _ _ _ _ i i); apply fupd_eq|].
            eapply steps_step; [apply (st_done _ _ _ _ _ _ _ _ i i); apply fupd_eq|]. exact ST.
          + intros j [<-|Hj]; auto. rewrite S2 by auto. apply fupd_eq.
          + intros j Hj. cbn in Hj. rewrite S2 by tauto. unfold s3. now rewrite !fupd_neq by tauto. }
      destruct (SEQ all NDa (fun i Hi => proj1 (INa i) Hi) m0 (fun _ => Waiting)) as (m' & s' & ST & V & S1 & _); auto; try discriminate.
      - intros ar ac. eauto.
      - exists m'. split; [|exact V]. exists r0, s'. split; auto. intros i Hi. apply S1. now apply INa. }
    inversion ND as [|? ? NI ND']; subst. destruct (HL a (or_introl eq_refl)) as [Ha Aa].
    set (rest := filter (fun i => negb (existsb (Nat.eqb i) (a :: l))) all).
    assert (INr : forall i, In i rest <-> i < n /\ ~ In i (a :: l)).
    { intros i. unfold rest. rewrite filter_In, INa, negb_true_iff. split; intros [H1 H2]; split; auto.
      - intros X. apply not_true_iff_false in H2. apply H2. apply existsb_exists. exists i. split; auto. apply Nat.eqb_refl.
      - apply not_true_iff_false. intros X. apply existsb_exists in X. destruct X as (j & Hj & E). apply Nat.eqb_eq in E. subst j. auto. }
    assert (NDr : NoDup rest) by (apply NoDup_filter; auto).
    (* 1: all start *)
    pose proof (batch_start m0 false r0 all (fun _ => Waiting) NDa (fun i Hi => proj1 (INa i) Hi) (fun _ _ => eq_refl) ltac:(discriminate)) as ST1.
    set (s1 := upd_all (fun _ => Waiting) all (fun i => Running i (task i))) in *.
    assert (S1 : forall i, i < n -> s1 i = Running i (task i)) by (intros i Hi; unfold s1; now rewrite upd_all_in by now apply INa).
    (* 2: all but l read *)
    set (val := fun i => x0 (target ri (i / cols_a)) (target ci (i mod cols_a))).
    assert (ST2 : steps (Config m0 false r0 s1) (Config m0 false r0 (upd_all s1 (a :: rest) (fun i => pending (val i) i)))).
    { apply batch with (P := fun i => Running i (task i)).
      - intros s i Hs. apply read_step; [exact Hs|apply M0].
      - constructor; auto. rewrite INr. cbn. tauto.
      - intros i [<-|Hi]; apply S1; auto. now apply INr. }
    set (s2 := upd_all s1 (a :: rest) (fun i => pending (val i) i)) in *.
    (* 3: the rest write *)
    destruct (batch_write false r0 (fun i => nadd F (val i) (amount i)) rest m0 s2 NDr) as (m3 & N3 & ST3).
    { intros i Hi. unfold s2. rewrite upd_all_in by now right. reflexivity. }
    { intros ar ac. eauto. }
    set (s3 := upd_all s2 rest (fun i => Running i Done)) in *.
    (* 4: and end *)
    assert (ST4 : steps (Config m3 false r0 s3) (Config m3 false r0 (upd_all s3 rest (fun _ => Finished)))).
    { apply batch with (P := fun i => Running i Done); auto.
      - intros s i Hs. apply (st_done _ _ _ _ _ _ _ _ i i). exact Hs.
      - intros i Hi. unfold s3. now rewrite upd_all_in. }
    set (s4 := upd_all s3 rest (fun _ => Finished)) in *.
    assert (Sa : s4 a = pending (val a) a).
    { unfold s4. rewrite upd_all_out by (rewrite INr; cbn; tauto). unfold s3. rewrite upd_all_out by (rewrite INr; cbn; tauto). unfold s2. now rewrite upd_all_in by now left. }
    assert (OA : own a = COut tr tc) by (unfold own_cell; destruct Aa as [-> ->]; reflexivity).
    assert (VA : val a = x0 tr tc) by (unfold val; destruct Aa as [-> ->]; reflexivity).
    (* 5: the first of l writes, then the others one by one *)
    destruct (one_by_one false r0 tr tc l (wr F m3 (own a) (VN (nadd F (val a) (amount a)))) (fupd (fupd s4 a (Running a Done)) a Finished) (nadd F (x0 tr tc) (amount a)) ND') as (m6 & s6 & V6 & ST6 & S61 & S62).
    { intros i Hi. assert (Ne : a <> i) by (intros ->; auto). rewrite !fupd_neq by auto. assert (NR : ~ In i rest) by (rewrite INr; cbn; tauto).
      unfold s4. rewrite upd_all_out by auto. unfold s3. rewrite upd_all_out by auto. unfold s2. rewrite upd_all_out by (cbn; intuition congruence). apply S1. now apply HL; right. }
    { intros i Hi. apply HL. now right. }
    { rewrite OA, VA. unfold wr. cbn. now rewrite !Nat.eqb_refl. }
    exists m6. split; [|exact V6]. exists r0, s6. split.
    - eapply steps_app; [exact ST1|]. eapply steps_app; [exact ST2|]. eapply steps_app; [exact ST3|]. eapply steps_app; [exact ST4|].
      eapply steps_step; [apply (st_write _ _ _ _ _ _ _ _ a a); exact Sa|].
      eapply steps_step; [apply (st_done _ _ _ _ _ _ _ _ a a); apply fupd_eq|]. exact ST6.
    - intros i Hi. destruct (in_dec Nat.eq_dec i l) as [I|I]; [now apply S61|]. rewrite S62 by auto.
      destruct (Nat.eq_dec a i) as [<-|Ne]; [apply fupd_eq|]. rewrite !fupd_neq by auto. unfold s4. apply upd_all_in. apply INr. split; auto. cbn. tauto.
  Qed.
End Possible.

(** ... and each of these results can happen. *)
Theorem C23_every_subset_possible : forall F (G : generator F) rows_o cols_o addition cols_a ri ci n task (x0 : nat -> nat -> num F) r0 m0 tr tc l,
  fast_indexed_add F rows_o cols_o addition cols_a ri ci = Ok (n, task) ->
  (forall i j, m0 (COut i j) = VN (x0 i j)) ->
  NoDup l ->
  (forall off, In off l -> off < n /\ target ri (off / cols_a) = tr /\ target ci (off mod cols_a) = tc) ->
  (l = [] -> forall off, off < n -> ~ (target ri (off / cols_a) = tr /\ target ci (off mod cols_a) = tc)) ->
  exists m, parallel_for F G n task r0 m0 m false /\
    m (COut tr tc) = VN (fold_left (fun a off => nadd F a (nth (off mod cols_a) (nth (off / cols_a) addition []) (nzero F))) l (x0 tr tc)).
Proof.
  intros F G rows_o cols_o addition cols_a ri ci n task x0 r0 m0 tr tc l E Hm0 ND HL HE.
  assert (En : n = length addition * cols_a /\ task = add_task F addition cols_a ri ci).
  { unfold fast_indexed_add in E. destruct (check_axis _ _ ri); [|discriminate]. cbn [rbind] in E.
    destruct (check_axis _ _ ci); [|discriminate]. cbn [rbind] in E. injection E as <- <-. auto. }
  destruct En as [-> ->]. exact (possible F G addition cols_a ri ci x0 r0 m0 tr tc l Hm0 ND HL HE).
Qed.

(** three rows aimed at row 0 of the output *)
Example C23_any_schedule_met : exists n task, fast_indexed_add XR 1 1 [[Fin 1]; [Fin 2]; [Fin 4]] 1 (Some [0; 0; 0]%Z) None = Ok (n, task) /\
  NoDup [2; 0] /\ forall off, In off [2; 0] -> off < n /\ target (Some [0; 0; 0]%Z) (off / 1) = 0 /\ target None (off mod 1) = 0.
Proof.
  do 2 eexists. split; [reflexivity|]. split; [repeat constructor; cbn; intuition congruence|]. intros off [<-|[<-|[]]]; cbn; repeat split; lia.
Qed.
Print Assumptions C23_any_schedule.
Print Assumptions C23_every_subset_possible.
