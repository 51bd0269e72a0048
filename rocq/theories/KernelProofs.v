(** Lemmas about the evaluation of expressions (ModelModel.v: kernel, eval_one, eval_all). *)
From Verif Require Import Prelude Arith CoreModel TreeModel DictProofs ExprModel SpecExpr ScopeModel SpecScope ScopeProofs ModelModel ModelProofs SpecModel.
Local Open Scope string_scope.
Local Open Scope nat_scope.
Local Open Scope list_scope.

Lemma sequence_some {A} : forall (l : list (option A)) xs, sequence l = Some xs -> l = map Some xs.
Proof.
  induction l as [|o l IH]; intros xs H; simpl in H; [injection H as <-; reflexivity|].
  destruct o as [x|]; [|discriminate]. destruct (sequence l) as [ys|]; [|discriminate]. injection H as <-. simpl. f_equal. now apply IH.
Qed.
Lemma sequence_map {A} (xs : list A) : sequence (map Some xs) = Some xs.
Proof. induction xs as [|x xs IH]; simpl; auto. now rewrite IH. Qed.
Lemma sequence_nth {A B} (f : A -> option B) l xs : sequence (map f l) = Some xs ->
  length xs = length l /\ forall i a, nth_error l i = Some a -> exists b, f a = Some b /\ nth_error xs i = Some b.
Proof.
  intros H. apply sequence_some in H. split.
  - rewrite <- (map_length Some xs), <- H. now rewrite map_length.
  - intros i a N. assert (Q : nth_error (map f l) i = Some (f a)) by (now rewrite nth_error_map, N).
    rewrite H, nth_error_map in Q. destruct (nth_error xs i) as [b|]; [|discriminate]. injection Q as Q. exists b. auto.
Qed.
Lemma sequence_total {A B} (f : A -> option B) l : (forall a, In a l -> exists b, f a = Some b) -> exists xs, sequence (map f l) = Some xs.
Proof.
  induction l as [|a l IH]; intros H; simpl; [eauto|]. destruct (H a (or_introl eq_refl)) as [b ->].
  destruct IH as [xs ->]; [intros; apply H; simpl; auto|]. eauto.
Qed.
Lemma nth_error_seq0 n i : i < n -> nth_error (seq 0 n) i = Some i.
Proof. intros H. rewrite (nth_error_nth' _ 0) by (now rewrite seq_length). now rewrite seq_nth. Qed.
Lemma map_res_ok {A B} (f : A -> res B) : forall l ys, map_res f l = Ok ys ->
  length ys = length l /\ forall i a, nth_error l i = Some a -> exists b, f a = Ok b /\ nth_error ys i = Some b.
Proof.
  induction l as [|a l IH]; intros ys H; simpl in H.
  - injection H as <-. split; auto. intros [|i] a N; discriminate.
  - apply rbind_ok in H. destruct H as (b & B1 & H). apply rbind_ok in H. destruct H as (bs & B2 & H). injection H as <-.
    apply IH in B2. destruct B2 as [L B2]. split; [simpl; congruence|]. intros [|i] a0 N; simpl in *; [injection N as <-; eauto|eauto].
Qed.
Lemma map_res_total {A B} (f : A -> res B) l : (forall a, In a l -> exists b, f a = Ok b) -> exists ys, map_res f l = Ok ys.
Proof.
  induction l as [|a l IH]; intros H; simpl; [eauto|]. destruct (H a (or_introl eq_refl)) as [b ->]. cbn [rbind].
  destruct IH as [ys ->]; [intros; apply H; simpl; auto|]. cbn [rbind]. eauto.
Qed.

Section Kernel.
  Context {L : Type} {F : arith} {D cell : Type} (E : env L F D cell).
  Notation num := (num F).
  Notation FR := (ev_frames E).
  Notation symbol := (symbol (num:=num) FR).
  Notation data := (data (cell:=cell) (num:=num)).
  Notation table := (list (list num)).
  Notation locals := (dict string data).

  Lemma tcell_nth (u : table) r c row x : nth_error u r = Some row -> nth_error row c = Some x -> tcell u r c = x.
  Proof. intros H1 H2. unfold tcell. rewrite (nth_error_nth u r [] H1). now apply nth_error_nth. Qed.

  Lemma check_names_ok (l : locals) n k names : check_names l n k names = Ok tt <->
    forall x, In x names -> exists d, dget String.eqb l x = Some d /\ fits n k d = Ok tt.
  Proof.
    induction names as [|x names IH]; cbn [check_names]; [split; auto; intros _ x []|].
    destruct (dget String.eqb l x) as [d|] eqn:G.
    - destruct (fits n k d) as [[]|e] eqn:FT; cbn [rbind].
      + rewrite IH. split; intros H y; [intros [<-|I]; eauto|intros I; apply H; simpl; auto].
      + split; [discriminate|]. intros H. destruct (H x (or_introl eq_refl)) as (d' & G' & FT'). congruence.
    - split; [discriminate|]. intros H. destruct (H x (or_introl eq_refl)) as (d' & G' & _). congruence.
  Qed.

  Lemma select_get c (l l' : locals) x : select_locals E c l = Ok l' ->
    match dget String.eqb l x with
    | Some d => exists d', dget String.eqb l' x = Some d' /\ select_column E c d = Ok d'
    | None => dget String.eqb l' x = None
    end.
  Proof.
    revert l'. unfold select_locals. induction l as [|[k d] l IH]; intros l' H; simpl in H.
    - injection H as <-. reflexivity.
    - apply rbind_ok in H. destruct H as ([k' d'] & H1 & H). apply rbind_ok in H. destruct H as (t' & H2 & H). injection H as <-.
      apply rbind_ok in H1. destruct H1 as (d1 & S1 & H1). cbn [fst snd] in *. injection H1 as <- <-. apply IH in H2. simpl.
      destruct (String.eqb x k); [eauto|exact H2].
  Qed.

  (** selecting a column and reading it is reading the cell of that column *)
  Lemma select_operand n k0 c d d' r : select_column E c d = Ok d' -> fits n k0 d' = Ok tt -> k0 = 1 -> r < n ->
    operand E d' r 0 = operand E d r c.
  Proof.
    destruct d as [x|rows cols cells|]; cbn [select_column]; try (intros H; injection H as <-; reflexivity).
    destruct (1 <? cols) eqn:C1.
    - destruct (c <? cols) eqn:C2; [|discriminate]. intros H; injection H as <-. cbn [fits]. intros FT -> Hr.
      apply guard_ok in FT. apply andb_true_iff in FT. destruct FT as [FT _]. apply orb_true_iff in FT. apply Nat.ltb_lt in C1.
      unfold operand. replace (1 =? 1) with true by reflexivity. replace (cols =? 1) with false by (symmetry; apply Nat.eqb_neq; lia).
      unfold cell_at at 1. f_equal. destruct (rows =? 1) eqn:R1.
      + apply Nat.eqb_eq in R1. subst rows. reflexivity.
      + destruct FT as [FT|FT]; [apply Nat.eqb_eq in FT; subst rows|discriminate]. now rewrite nth_map_seq.
    - intros H; injection H as <-. cbn [fits]. intros FT -> Hr. apply guard_ok in FT. apply andb_true_iff in FT. destruct FT as [_ FT].
      unfold operand. destruct (cols =? 1) eqn:C2; [reflexivity|]. discriminate.
  Qed.

  (** ** one evaluation *)
  Definition in_column (col : option nat) (c : nat) : bool := match col with None => true | Some c0 => c =? c0 end.

  Lemma upd_row_at (u : table) k r c c0 v row : nth_error u r = Some row -> length row = k -> c < k ->
    nth_error (upd (nth r u []) c0 v) c = Some (if c =? c0 then v else tcell u r c).
  Proof.
    intros H LR HC. unfold tcell. rewrite (nth_error_nth u r [] H). destruct (Nat.eqb_spec c c0) as [->|N].
    - apply nth_error_upd_eq. lia.
    - rewrite nth_error_upd_neq by auto. apply nth_error_nth'. lia.
  Qed.

  Lemma kernel_cell (NL : numexpr_local E) e (l : locals) u k col u' : kernel E e l u k col = Ok u' -> rectangle (length u) k u ->
    rectangle (length u) k u' /\
    (forall x, In x ("OUT" :: free_names e) -> exists d, dget String.eqb l x = Some d) /\
    (forall c0, col = Some c0 -> c0 < k) /\
    forall r c, r < length u -> c < k ->
      if in_column col c
      then exists v, ev_ne E e (cell_env E l r c) = Some v /\ tcell u' r c = nadd F (tcell u r c) v
      else tcell u' r c = tcell u r c.
  Proof.
    intros H RU. unfold kernel in H. destruct col as [c0|].
    - apply rbind_ok in H. destruct H as (l' & SL & H). apply rbind_ok in H. destruct H as ([] & GC & H).
      apply rbind_ok in H. destruct H as ([] & CN & H). apply guard_ok in GC. apply Nat.ltb_lt in GC.
      destruct (sequence _) as [u''|] eqn:SQ; [|discriminate]. injection H as ->.
      apply sequence_nth in SQ. destruct SQ as [LU SQ]. rewrite seq_length in LU.
      pose proof (proj1 (check_names_ok l' (length u) 1 ("OUT" :: free_names e)) CN) as CN'.
      assert (ROW : forall r, r < length u -> exists v row, ev_ne E e (cell_env E l' r 0) = Some v /\ nth_error u r = Some row /\ length row = k /\
                      nth_error u' r = Some (upd (nth r u []) c0 (nadd F (tcell u r c0) v))).
      { intros r Hr. destruct (SQ r r (nth_error_seq0 _ _ Hr)) as (row' & Q1 & Q2). destruct (ev_ne E e (cell_env E l' r 0)) as [v|]; [|discriminate].
        destruct (rectangle_row _ _ u r RU Hr) as (row & R1 & R2). exists v, row. repeat split; auto. rewrite Q2. f_equal. injection Q1 as <-. reflexivity. }
      split; [|split; [|split]].
      + split; auto. apply Forall_forall. intros row' I. apply In_nth_error in I. destruct I as [r I].
        assert (Hr : r < length u) by (rewrite <- LU; apply nth_error_Some; congruence).
        destruct (ROW r Hr) as (v & row & _ & R1 & R2 & R3). rewrite I in R3. injection R3 as ->. rewrite upd_length.
        rewrite (nth_error_nth u r [] R1). exact R2.
      + intros x I. destruct (CN' x I) as (d' & G & _). pose proof (select_get c0 l l' x SL) as S.
        destruct (dget String.eqb l x) as [d|]; [eauto|congruence].
      + congruence.
      + intros r c Hr Hc. destruct (ROW r Hr) as (v & row & V & R1 & R2 & R3). cbn [in_column].
        assert (T : tcell u' r c = if c =? c0 then nadd F (tcell u r c0) v else tcell u r c).
        { eapply tcell_nth; [exact R3|]. apply (upd_row_at u k r c c0 _ row); auto. }
        rewrite T. destruct (Nat.eqb_spec c c0) as [->|]; auto. exists v. split; auto. rewrite <- V. apply NL. intros x I.
        unfold cell_env. pose proof (select_get c0 l l' x SL) as S. destruct (CN' x (or_intror I)) as (d' & G & FT).
        destruct (dget String.eqb l x) as [d|]; [|congruence]. destruct S as (d1 & G1 & S1). rewrite G1. assert (d1 = d') by congruence. subst d1.
        symmetry. eapply select_operand; eauto.
    - apply rbind_ok in H. destruct H as ([] & CN & H).
      destruct (sequence _) as [u''|] eqn:SQ; [|discriminate]. injection H as ->.
      apply sequence_nth in SQ. destruct SQ as [LU SQ]. rewrite seq_length in LU.
      assert (ROW : forall r, r < length u -> exists row', nth_error u' r = Some row' /\ length row' = k /\
                forall c, c < k -> exists v, ev_ne E e (cell_env E l r c) = Some v /\ nth_error row' c = Some (nadd F (tcell u r c) v)).
      { intros r Hr. destruct (SQ r r (nth_error_seq0 _ _ Hr)) as (row' & Q1 & Q2). exists row'. apply sequence_nth in Q1. destruct Q1 as [L1 Q1].
        rewrite seq_length in L1. repeat split; auto. intros c Hc. destruct (Q1 c c (nth_error_seq0 _ _ Hc)) as (x & X1 & X2).
        destruct (ev_ne E e (cell_env E l r c)) as [v|]; [|discriminate]. exists v. split; auto. rewrite X2. injection X1 as <-. reflexivity. }
      split; [|split; [|split]].
      + split; auto. apply Forall_forall. intros row' I. apply In_nth_error in I. destruct I as [r I].
        assert (Hr : r < length u) by (rewrite <- LU; apply nth_error_Some; congruence).
        destruct (ROW r Hr) as (row & R1 & R2 & _). congruence.
      + intros x I. destruct (proj1 (check_names_ok _ _ _ _) CN x I) as (d & G & _). eauto.
      + discriminate.
      + intros r c Hr Hc. destruct (ROW r Hr) as (row & R1 & _ & R3). destruct (R3 c Hc) as (v & V & X). exists v. split; auto.
        eapply tcell_nth; eauto.
  Qed.

  (** and conversely: when the names are known and fit, and every value is defined, the evaluation succeeds *)
  Lemma kernel_total (NL : numexpr_local E) e (l : locals) u k col :
    (forall x, In x ("OUT" :: free_names e) -> exists d, dget String.eqb l x = Some d) ->
    (forall x d, In (x, d) l -> fits (length u) k d = Ok tt) ->
    (forall c0, col = Some c0 -> c0 < k) ->
    (forall r c, r < length u -> c < k -> in_column col c = true -> exists v, ev_ne E e (cell_env E l r c) = Some v) ->
    exists u', kernel E e l u k col = Ok u'.
  Proof.
    intros NA FT CO VA. unfold kernel. destruct col as [c0|].
    - pose proof (CO c0 eq_refl) as C0.
      destruct (map_res_total (fun kv : string * data => do d <- select_column E c0 (snd kv); Ok (fst kv, d)) l) as [l' SL].
      { intros [x d] I. cbn [fst snd]. apply FT in I. destruct d as [y|rows cols cells|]; cbn [select_column rbind]; eauto.
        destruct (1 <? cols) eqn:C1; [|cbn [rbind]; eauto]. apply Nat.ltb_lt in C1. cbn [fits] in I. apply guard_ok in I. apply andb_true_iff in I.
        destruct I as [_ I]. apply orb_true_iff in I. replace (c0 <? cols) with true; [cbn [rbind]; eauto|]. symmetry. apply Nat.ltb_lt.
        destruct I as [I|I]; apply Nat.eqb_eq in I; lia. }
      assert (SL' : select_locals E c0 l = Ok l') by exact SL. rewrite SL'. cbn [rbind].
      replace (c0 <? k) with true by (symmetry; now apply Nat.ltb_lt). cbn [guard rbind].
      assert (FIT : forall x d', dget String.eqb l' x = Some d' -> fits (length u) 1 d' = Ok tt).
      { intros x d' G. pose proof (select_get c0 l l' x SL') as S. destruct (dget String.eqb l x) as [d|] eqn:GD; [|congruence].
        destruct S as (d1 & G1 & S1). assert (d1 = d') by congruence. subst d1.
        apply (dget_in String.eqb String.eqb_eq) in GD. apply FT in GD.
        destruct d as [y|rows cols cells|]; cbn [select_column] in S1; try (injection S1 as <-; exact GD).
        cbn [fits] in GD. apply guard_ok in GD. apply andb_true_iff in GD. destruct GD as [GR GC]. destruct (1 <? cols) eqn:C1.
        - destruct (c0 <? cols); [|discriminate]. injection S1 as <-. cbn [fits]. rewrite GR. reflexivity.
        - injection S1 as <-. cbn [fits]. rewrite GR. cbn [andb]. apply Nat.ltb_ge in C1. apply orb_true_iff in GC.
          replace (cols =? 1) with true; [reflexivity|]. symmetry. apply Nat.eqb_eq. destruct GC as [GC|GC]; apply Nat.eqb_eq in GC; lia. }
      assert (GET : forall x, In x ("OUT" :: free_names e) -> exists d d', dget String.eqb l x = Some d /\ dget String.eqb l' x = Some d' /\ select_column E c0 d = Ok d').
      { intros x I. destruct (NA x I) as [d G]. pose proof (select_get c0 l l' x SL') as S. rewrite G in S. destruct S as (d' & G' & S). exists d, d'. auto. }
      rewrite (proj2 (check_names_ok l' (length u) 1 ("OUT" :: free_names e))); [cbn [rbind]|intros x I; destruct (GET x I) as (d & d' & _ & G & _); eauto].
      destruct (sequence_total (fun r => option_map (fun v => upd (nth r u []) c0 (nadd F (nth c0 (nth r u []) (nzero F)) v)) (ev_ne E e (cell_env E l' r 0)))
                  (seq 0 (length u))) as [u' ->]; [|eauto].
      intros r I. apply in_seq in I. destruct (VA r c0) as [v V]; [lia|auto|cbn; apply Nat.eqb_refl|].
      replace (ev_ne E e (cell_env E l' r 0)) with (Some v); [simpl; eauto|]. rewrite <- V. apply NL. intros x J.
      destruct (GET x (or_intror J)) as (d & d' & G & G' & S). unfold cell_env. rewrite G, G'.
      symmetry. eapply select_operand; eauto. lia.
    - rewrite (proj2 (check_names_ok l (length u) k ("OUT" :: free_names e))); [cbn [rbind]|].
      2:{ intros x I. destruct (NA x I) as [d G]. exists d. split; auto. apply (FT x). now apply (dget_in String.eqb String.eqb_eq) in G. }
      destruct (sequence_total (fun r => sequence (map (fun c => option_map (nadd F (nth c (nth r u []) (nzero F))) (ev_ne E e (cell_env E l r c))) (seq 0 k))) (seq 0 (length u)))
        as [u' ->]; [|eauto].
      intros r I. apply in_seq in I. apply sequence_total. intros c J. apply in_seq in J.
      destruct (VA r c) as [v ->]; [lia|lia|reflexivity|]. simpl. eauto.
  Qed.
End Kernel.

(** ** The local dictionary *)
Section Locals.
  Context {L : Type} {F : arith} {D cell : Type} (E : env L F D cell).
  Notation num := (num F).
  Notation FR := (ev_frames E).
  Notation symbol := (symbol (num:=num) FR).
  Notation data := (data (cell:=cell) (num:=num)).
  Notation table := (list (list num)).
  Notation locals := (dict string data).
  Notation expression := (@expression L).
  Notation dget := (dget String.eqb).
  Notation dset := (dset String.eqb).

  Lemma dget_dset_s {V} (d : dict string V) k v k' : dget (dset d k v) k' = if String.eqb k' k then Some v else dget d k'.
  Proof. apply (DictProofs.dget_dset String.eqb String.eqb_eq). Qed.

  Lemma shared_get (scope : dict string symbol) : forall names (acc sh : locals), shared_locals E scope names acc = Ok sh ->
    forall x, match dget acc x with
              | Some d => dget sh x = Some d
              | None => if mem x names
                        then exists s d, dget scope x = Some s /\ get_simple FR s = Ok d /\ dget sh x = Some d
                        else dget sh x = None
              end.
  Proof.
    induction names as [|y names IH]; intros acc sh H x; cbn [shared_locals] in H.
    - injection H as <-. cbn. destruct (dget acc x); reflexivity.
    - unfold dmem in H. cbn [mem existsb]. destruct (dget acc y) as [dy|] eqn:Gy.
      + specialize (IH acc sh H x). destruct (dget acc x) as [d|] eqn:Gx; auto.
        destruct (String.eqb_spec x y) as [->|N]; [congruence|]. exact IH.
      + destruct (dget scope y) as [s|] eqn:Sy; [|discriminate]. apply rbind_ok in H. destruct H as (d & Gd & H).
        specialize (IH _ sh H x). rewrite dget_dset_s in IH. destruct (String.eqb_spec x y) as [EQ|N].
        * subst x. rewrite Gy. cbn [orb]. exists s, d. auto.
        * destruct (dget acc x); auto.
  Qed.

  Lemma literal_get nl cols : forall dls (acc l : locals), literal_locals E nl cols dls acc = Ok l -> NoDup (dkeys dls) ->
    (forall sub lit, In (sub, lit) dls -> exists arr, expand_literal (nzero F) (ev_f32 E) nl (map label_parts cols) lit = Ok arr /\
        dget l sub = Some (DArr 1 (length arr) [map (ev_num E) arr])) /\
    (forall x, ~ In x (dkeys dls) -> dget l x = dget acc x).
  Proof.
    induction dls as [|[sub lit] dls IH]; intros acc l H N; cbn [literal_locals] in H.
    - injection H as <-. split; auto. intros sub lit [].
    - apply rbind_ok in H. destruct H as (arr & EX & H). inversion N as [|? ? N1 N2]; subst. apply IH in H; auto. destruct H as [H1 H2]. split.
      + intros sub' lit' [Q|I]; [|eauto]. injection Q as <- <-. exists arr. split; auto. rewrite H2 by exact N1. rewrite dget_dset_s, String.eqb_refl. reflexivity.
      + intros x NI. simpl in NI. rewrite H2 by tauto. rewrite dget_dset_s. destruct (String.eqb_spec x sub) as [->|]; tauto.
  Qed.
  Lemma usage_get (s : symbol) : forall us (acc l : locals), usage_locals E s us acc = Ok l -> NoDup (dkeys us) ->
    (forall sub ct, In (sub, ct) us -> exists d, get_chain FR s ct = Ok d /\ dget l sub = Some d) /\
    (forall x, ~ In x (dkeys us) -> dget l x = dget acc x).
  Proof.
    induction us as [|[sub ct] us IH]; intros acc l H N; cbn [usage_locals] in H.
    - injection H as <-. split; auto. intros sub ct [].
    - apply rbind_ok in H. destruct H as (d & GC & H). inversion N as [|? ? N1 N2]; subst. apply IH in H; auto. destruct H as [H1 H2]. split.
      + intros sub' ct' [Q|I]; [|eauto]. injection Q as <- <-. exists d. split; auto. rewrite H2 by exact N1. rewrite dget_dset_s, String.eqb_refl. reflexivity.
      + intros x NI. simpl in NI. rewrite H2 by tauto. rewrite dget_dset_s. destruct (String.eqb_spec x sub) as [->|]; tauto.
  Qed.
  Definition chain_subs (chains : dict string (dict string (@chaint L))) : list string := concat (map (fun p => dkeys (snd p)) chains).
  Lemma nodup_app_inv {A} (a b : list A) : NoDup (a ++ b) -> NoDup a /\ NoDup b /\ forall x, In x a -> ~ In x b.
  Proof.
    induction a as [|x a IH]; simpl; intros N; [repeat split; auto; constructor|]. inversion N as [|? ? N1 N2]; subst. apply IH in N2.
    destruct N2 as (A1 & A2 & A3). rewrite in_app_iff in N1. repeat split; auto; [constructor; tauto|]. intros y [<-|I]; auto.
  Qed.
  Lemma chain_get (scope : dict string symbol) : forall chains (acc l : locals), chain_locals E scope chains acc = Ok l -> NoDup (chain_subs chains) ->
    (forall name us, In (name, us) chains -> exists s, dget scope name = Some s /\
        forall sub ct, In (sub, ct) us -> exists d, get_chain FR s ct = Ok d /\ dget l sub = Some d) /\
    (forall x, ~ In x (chain_subs chains) -> dget l x = dget acc x).
  Proof.
    unfold chain_subs. induction chains as [|[name us] chains IH]; intros acc l H N; cbn [chain_locals] in H.
    - injection H as <-. split; auto. intros name us [].
    - destruct (dget scope name) as [s|] eqn:G; [|discriminate]. apply rbind_ok in H. destruct H as (acc' & UL & H).
      cbn [map concat snd] in N. apply nodup_app_inv in N. destruct N as (N1 & N2 & N3).
      apply usage_get in UL; auto. destruct UL as [U1 U2]. apply IH in H; auto. destruct H as [H1 H2]. split.
      + intros name' us' [Q|I]; [|eauto]. injection Q as <- <-. exists s. split; auto. intros sub ct I.
        destruct (U1 sub ct I) as (d & GC & GD). exists d. split; auto. rewrite H2; auto. apply N3. eapply in_keys; eauto.
      + intros x NI. cbn [map concat snd] in NI. rewrite in_app_iff in NI. rewrite H2, U2 by tauto. reflexivity.
  Qed.

  Lemma expand_length nl index (lit : @literal L) arr : expand_literal (nzero F) (ev_f32 E) nl index lit = Ok arr -> length arr = length index.
  Proof.
    unfold expand_literal. assert (G : forall lit a0, insert_all (nzero F) (ev_f32 E) nl index lit a0 = Ok arr -> length arr = length a0).
    { clear lit. induction lit as [|[key [ng n]] lit IH]; intros a0 H; cbn [insert_all] in H; [injection H as <-; reflexivity|].
      apply rbind_ok in H. destruct H as (a1 & H1 & H). apply IH in H. rewrite H. clear -H1. unfold insert_dict_val in H1.
      assert (FL : forall ls a v, length (fold_left (fun (a : list num) i => upd a i v) ls a) = length a).
      { induction ls as [|i ls IH]; intros a v; simpl; auto. now rewrite IH, upd_length. }
      destruct (nl =? 1).
      - destruct (_ =? 1); [|discriminate]. destruct (loc index key); [|discriminate]. injection H1 as <-. apply upd_length.
      - destruct (before_underscore key) as [key' p]. destruct p.
        + destruct (locs index key') eqn:LS; [discriminate|]. destruct (loc index (pad nl key')); [|discriminate]. injection H1 as <-.
          rewrite upd_length. cbn [fold_left]. now rewrite FL, upd_length.
        + destruct (loc index (pad nl key')); [|discriminate]. injection H1 as <-. apply upd_length. }
    intros H. apply G in H. rewrite H. apply repeat_length.
  Qed.

  (** *** reading the operands *)
  Lemma nth_error_nth_some {A} (l : list A) i d : i < length l -> Some (nth i l d) = nth_error l i.
  Proof. intros H. symmetry. now apply nth_error_nth'. Qed.
  Lemma operand_column (v : list cell) r c : r < length v -> operand E (as_array (num:=num) false v) r c = nth_error v r.
  Proof.
    intros H. unfold as_array, operand, cell_at. replace (1 =? 1) with true by reflexivity.
    rewrite <- (nth_error_nth_some v r (ev_num E (ev_nan E)) H). f_equal.
    assert (G : forall i, i < length v -> nth 0 (nth i (map (fun x => [x]) v) []) (ev_num E (ev_nan E)) = nth i v (ev_num E (ev_nan E))).
    { intros i Hi. rewrite (nth_map_lt _ v i (ev_num E (ev_nan E))) by auto. reflexivity. }
    destruct (length v =? 1) eqn:Q; [apply Nat.eqb_eq in Q; replace r with 0 by lia|]; apply G; lia.
  Qed.
  Lemma operand_row (v : list cell) r c : c < length v -> operand E (as_array (num:=num) true v) r c = nth_error v c.
  Proof.
    intros H. unfold as_array, operand, cell_at. replace (1 =? 1) with true by reflexivity. cbn [nth].
    rewrite <- (nth_error_nth_some v c (ev_num E (ev_nan E)) H). f_equal.
    destruct (length v =? 1) eqn:Q; [apply Nat.eqb_eq in Q; replace c with 0 by lia|]; auto.
  Qed.
  Lemma operand_matrix n k (m : list (list cell)) r c : rectangle n k m -> r < n -> c < k -> operand E (DArr n k m : data) r c = at2 m r c.
  Proof.
    intros RM Hr Hc. destruct (rectangle_row _ _ _ _ RM Hr) as (row & R1 & R2). unfold operand, cell_at, at2. rewrite R1.
    replace (if n =? 1 then 0 else r) with r by (destruct (Nat.eqb_spec n 1); lia).
    replace (if k =? 1 then 0 else c) with c by (destruct (Nat.eqb_spec k 1); lia).
    rewrite (nth_error_nth m r [] R1). apply nth_error_nth_some. lia.
  Qed.

  Lemma simple_operand n k (s : symbol) d r c : aligned_symbol E n k s -> get_simple FR s = Ok d -> r < n -> c < k ->
    filled FR s = true -> operand E d r c = symbol_cell E s r c.
  Proof.
    destruct s as [[x|]|[|] [v|]|o ma al t|o rc rr f [[j m]|]]; cbn [aligned_symbol get_simple symbol_cell filled]; intros A G Hr Hc FI; try discriminate; injection G as <-.
    - reflexivity.
    - apply operand_row. lia.
    - apply operand_column. lia.
    - destruct A as [-> A]. destruct A as [A1 A2]. rewrite A1. apply operand_matrix; auto. split; auto.
  Qed.
  Lemma chain_operand n k (s : symbol) ct d r c : aligned_symbol E n k s -> get_chain FR s ct = Ok d -> r < n -> c < k ->
    operand E d r c = attribute_cell E s ct r c.
  Proof.
    destruct s as [x|o v|o ma al t|o rc rr f m]; cbn [get_chain]; try discriminate. intros A G Hr Hc.
    apply rbind_ok in G. destruct G as (v & G & Q). injection Q as <-. cbn [attribute_cell].
    assert (V : exists t0, t = Some t0 /\ (match ch_chain ct with [a] => fr_col FR t0 a | p => fr_walk FR t0 p (ch_func ct) end) = Ok v).
    { destruct (ch_chain ct) as [|a [|b p]]; [discriminate| |]; (destruct t as [t0|]; [|discriminate]); exists t0; split; auto.
      apply rbind_ok in G. destruct G as (_ & _ & G). exact G. }
    destruct V as (t0 & -> & V). rewrite V. cbn [aligned_symbol] in A. destruct A as [A [W1 W2]].
    assert (LV : length v = length (fr_index FR t0)) by (destruct (ch_chain ct) as [|a [|b p]]; eauto).
    destruct o; [apply operand_row|apply operand_column]; lia.
  Qed.

  (** *** what the local dictionary means *)
  Lemma in_aligned n k (scope : dict string symbol) name s : aligned E n k scope -> dget scope name = Some s -> aligned_symbol E n k s.
  Proof. intros A G. apply (A name). now apply (dget_in String.eqb String.eqb_eq) in G. Qed.

  Lemma reserved_cases x : reserved x = true <-> x = "NAN" \/ x = "OUT" \/ x = "NEG_INF".
  Proof.
    unfold reserved, mem. cbn [existsb]. rewrite !orb_true_iff, !String.eqb_eq. intuition discriminate.
  Qed.
  Lemma base_get x : dget (base_locals E) x =
    if String.eqb x "NAN" then Some (DNum (ev_nan E)) else if String.eqb x "OUT" then Some DNone else if String.eqb x "NEG_INF" then Some (DNum (ev_ninf E)) else None.
  Proof. unfold base_locals. cbn [Prelude.dget]. reflexivity. Qed.

  (** the entries of the local dictionary of an expression *)
  Inductive local_of (scope : dict string symbol) (nl : nat) (cols : list label) (simple : list string) (u : table) (x : expression) : string -> data -> Prop :=
  | lo_out : local_of scope nl cols simple u x "OUT" (DArr (length u) (length cols) (map (map (ev_num E)) u))
  | lo_nan : local_of scope nl cols simple u x "NAN" (DNum (ev_nan E))
  | lo_ninf : local_of scope nl cols simple u x "NEG_INF" (DNum (ev_ninf E))
  | lo_simple name s d : In name simple -> reserved name = false -> dget scope name = Some s -> get_simple FR s = Ok d ->
      local_of scope nl cols simple u x name d
  | lo_literal sub lit arr : In (sub, lit) (e_dl x) -> expand_literal (nzero F) (ev_f32 E) nl (map label_parts cols) lit = Ok arr ->
      local_of scope nl cols simple u x sub (DArr 1 (length arr) [map (ev_num E) arr])
  | lo_chain name us sub ct s d : In (name, us) (e_chains x) -> In (sub, ct) us -> dget scope name = Some s -> get_chain FR s ct = Ok d ->
      local_of scope nl cols simple u x sub d.

  Lemma mem_in x l : mem x l = true <-> In x l.
  Proof. unfold mem. rewrite existsb_exists. split; [intros (y & I & Q); apply String.eqb_eq in Q; now subst|]. intros I. exists x. split; auto. apply String.eqb_refl. Qed.

  Lemma in_chain_subs chains x : In x (chain_subs chains) -> exists name us ct, In (name, us) chains /\ In (x, ct) us.
  Proof.
    unfold chain_subs. intros I. apply in_concat in I. destruct I as (l & I & J). apply in_map_iff in I. destruct I as ([name us] & <- & I).
    apply in_keys_ex in J. destruct J as [ct J]. exists name, us, ct. auto.
  Qed.

  Lemma locals_get scope nl cols simple sh u x l :
    shared_locals E scope simple (base_locals E) = Ok sh ->
    locals_for E scope nl cols sh u (length cols) x = Ok l -> names_apart simple x ->
    forall y d, dget l y = Some d <-> local_of scope nl cols simple u x y d.
  Proof.
    intros SH LF [NA1 NA2 NA3] y d. unfold substitutions in *. fold (chain_subs (e_chains x)) in *. unfold locals_for in LF.
    apply rbind_ok in LF. destruct LF as (l1 & LL & CL). pose proof (nodup_app_inv _ _ NA1) as (N1 & N2 & N3).
    apply literal_get in LL; auto. destruct LL as [LL1 LL2]. apply chain_get in CL; auto. destruct CL as [CL1 CL2].
    pose proof (shared_get scope simple (base_locals E) sh SH) as SG.
    (* the value for names that are not substituted *)
    assert (OLD : forall z, ~ In z (chain_subs (e_chains x) ++ dkeys (e_dl x)) ->
      dget l z = if String.eqb z "OUT" then Some (DArr (length u) (length cols) (map (map (ev_num E)) u)) else dget sh z).
    { intros z NI. rewrite in_app_iff in NI. rewrite CL2, LL2 by tauto. apply dget_dset_s. }
    assert (NR : forall z, reserved z = true -> ~ In z (chain_subs (e_chains x) ++ dkeys (e_dl x))).
    { intros z R I. apply NA2 in I. congruence. }
    split.
    - intros G. destruct (in_dec string_dec y (chain_subs (e_chains x))) as [I|NI].
      + apply in_chain_subs in I. destruct I as (name & us & ct & I & J). destruct (CL1 name us I) as (s & S1 & S2).
        destruct (S2 y ct J) as (d' & C1 & C2). assert (d' = d) by congruence. subst. eapply lo_chain; eauto.
      + destruct (in_dec string_dec y (dkeys (e_dl x))) as [I|NI2].
        * apply in_keys_ex in I. destruct I as [lit I]. destruct (LL1 y lit I) as (arr & A1 & A2).
          rewrite CL2 in G by auto. rewrite A2 in G. injection G as <-. eapply lo_literal; eauto.
        * rewrite OLD in G by (rewrite in_app_iff; tauto). destruct (String.eqb_spec y "OUT") as [->|NO]; [injection G as <-; constructor|].
          specialize (SG y). rewrite base_get in SG. destruct (String.eqb_spec y "NAN") as [->|NN]; [rewrite SG in G; injection G as <-; constructor|].
          destruct (String.eqb_spec y "OUT") as [->|_]; [congruence|]. destruct (String.eqb_spec y "NEG_INF") as [->|NI3]; [rewrite SG in G; injection G as <-; constructor|].
          destruct (mem y simple) eqn:M; [|congruence]. destruct SG as (s & d' & S1 & S2 & S3). assert (d' = d) by congruence. subst.
          eapply lo_simple; eauto; [now apply mem_in|]. apply not_true_iff_false. rewrite reserved_cases. tauto.
    - intros LO. destruct LO as [| | |name s d I R S1 S2|sub lit arr I EX|name us sub ct s d I J S1 S2].
      + rewrite OLD by (apply NR; reflexivity). reflexivity.
      + rewrite OLD by (apply NR; reflexivity). cbn. specialize (SG "NAN"). rewrite base_get in SG. exact SG.
      + rewrite OLD by (apply NR; reflexivity). cbn. specialize (SG "NEG_INF"). rewrite base_get in SG. exact SG.
      + rewrite OLD by (intros X; apply NA3 in X; tauto). specialize (SG name). rewrite base_get in SG.
        assert (Q : name <> "NAN" /\ name <> "OUT" /\ name <> "NEG_INF") by (rewrite <- not_true_iff_false, reserved_cases in R; tauto).
        destruct Q as (Q1 & Q2 & Q3). apply String.eqb_neq in Q1, Q2, Q3. rewrite Q1, Q2, Q3 in SG. rewrite Q2.
        apply mem_in in I. rewrite I in SG. destruct SG as (s' & d' & T1 & T2 & T3). congruence.
      + destruct (LL1 sub lit I) as (arr' & A1 & A2). rewrite CL2; [|intros X; apply (N3 sub X); eapply in_keys; eauto]. congruence.
      + destruct (CL1 name us I) as (s' & T1 & T2). destruct (T2 sub ct J) as (d' & C1 & C2). congruence.
  Qed.

  (** In a cell, the entries of the local dictionary are the meanings of the names. *)
  Lemma local_meaning scope nl cols simple u x r c rho y d :
    aligned E (length u) (length cols) scope ->
    (forall name s, In name simple -> reserved name = false -> dget scope name = Some s -> filled FR s = true) ->
    rectangle (length u) (length cols) u -> r < length u -> c < length cols ->
    meaning E scope nl cols simple x (tcell u r c) r c rho ->
    local_of scope nl cols simple u x y d -> operand E d r c = rho y.
  Proof.
    intros AL FI RU Hr Hc [M1 M2 M3 M4 M5 M6] LO. destruct LO as [| | |name s d I R S1 S2|sub lit arr I EX|name us sub ct s d I J S1 S2].
    - rewrite M1. rewrite (operand_matrix (length u) (length cols)); auto.
      + destruct (rectangle_row _ _ _ _ RU Hr) as (row & R1 & R2). unfold at2. rewrite nth_error_map, R1. cbn [option_map]. rewrite nth_error_map.
        unfold tcell. rewrite (nth_error_nth u r [] R1). rewrite <- (nth_error_nth_some row c (nzero F)) by lia. reflexivity.
      + destruct RU as [R1 R2]. split; [now rewrite map_length|]. apply Forall_forall. intros row I. apply in_map_iff in I. destruct I as (row0 & <- & I).
        rewrite map_length. rewrite Forall_forall in R2. now apply R2.
    - now rewrite M2.
    - now rewrite M3.
    - rewrite (M4 name s I R S1). eapply simple_operand; eauto. eapply in_aligned; eauto.
    - rewrite (M5 sub lit arr I EX). pose proof (expand_length _ _ _ _ EX) as LA. rewrite map_length in LA.
      rewrite <- (map_length (ev_num E) arr). change (DArr 1 (length (map (ev_num E) arr)) [map (ev_num E) arr] : data) with (as_array (num:=num) true (map (ev_num E) arr)).
      rewrite operand_row by (rewrite map_length; lia). now rewrite nth_error_map.
    - rewrite (M6 name us sub ct s I J S1). eapply chain_operand; eauto. eapply in_aligned; eauto.
  Qed.
End Locals.
