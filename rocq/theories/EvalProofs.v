(** The evaluated table is the sum of the contributions of the expressions. *)
From Verif Require Import Prelude Arith CoreModel TreeModel DictProofs ExprModel SpecExpr ScopeModel SpecScope ScopeProofs ModelModel ModelProofs SpecModel KernelProofs.
Local Open Scope string_scope.
Local Open Scope nat_scope.
Local Open Scope list_scope.

Lemma eq_strs_spec a b : eq_strs a b = true <-> a = b.
Proof. unfold eq_strs. destruct (list_eq_dec string_dec a b); split; congruence. Qed.
Lemma loc_some : forall index key i, loc index key = Some i -> nth_error index i = Some key.
Proof.
  induction index as [|k index IH]; intros key i H; simpl in H; [discriminate|]. destruct (eq_strs k key) eqn:Q.
  - injection H as <-. apply eq_strs_spec in Q. now subst.
  - destruct (loc index key) as [j|] eqn:LJ; [|discriminate]. injection H as <-. simpl. now apply IH.
Qed.

Lemma column_mask_spec {L} nl cols (x : @expression L) col : NoDup (map label_parts cols) -> column_mask nl cols (e_filter x) = Ok col ->
  (forall c0, col = Some c0 -> c0 < length cols) /\
  forall c l, nth_error cols c = Some l -> in_column col c = applies nl l x.
Proof.
  intros N H. unfold column_mask in H. unfold applies. destruct (e_filter x) as [f|].
  2:{ injection H as <-. split; [discriminate|reflexivity]. }
  apply rbind_ok in H. destruct H as (key & HK & H). destruct (loc _ key) as [i|] eqn:LO; [|discriminate]. injection H as <-. apply loc_some in LO.
  assert (KEY : key = if nl =? 1 then split_dot f else pad nl (split_dot f)).
  { destruct (nl =? 1); apply rbind_ok in HK; destruct HK as (_ & _ & HK); injection HK as <-; reflexivity. }
  split.
  - intros c0 Q. injection Q as <-. rewrite <- (map_length label_parts). apply nth_error_Some. congruence.
  - intros c l HC. cbn [in_column]. rewrite <- KEY. assert (Q : nth_error (map label_parts cols) c = Some (label_parts l)) by (now rewrite nth_error_map, HC).
    destruct (Nat.eqb_spec c i) as [->|NE].
    + symmetry. apply eq_strs_spec. congruence.
    + symmetry. apply not_true_iff_false. rewrite eq_strs_spec. intros EQ. apply NE.
      apply (proj1 (NoDup_nth_error _) N); [apply nth_error_Some; congruence|congruence].
Qed.

Section Eval.
  Context {L : Type} {F : arith} {D cell : Type} (E : env L F D cell).
  Notation num := (num F).
  Notation FR := (ev_frames E).
  Notation symbol := (symbol (num:=num) FR).
  Notation data := (data (cell:=cell) (num:=num)).
  Notation table := (list (list num)).
  Notation locals := (dict string data).
  Notation expression := (@expression L).
  Context (NL : numexpr_local E).
  Context (scope : dict string symbol) (nl : nat) (cols : list label) (simple : list string).
  Context (ND : NoDup (map label_parts cols)).
  (** every symbol used by itself has been given data *)
  Context (FI : forall name s, In name simple -> reserved name = false -> dget String.eqb scope name = Some s -> filled FR s = true).
  Notation k := (length cols).
  Set Default Proof Using "Type*".

  Lemma eval_one_cell sh u x u' : aligned E (length u) k scope ->
    shared_locals E scope simple (base_locals E) = Ok sh -> eval_one E scope nl cols sh k u x = Ok u' ->
    names_apart simple x -> rectangle (length u) k u ->
    rectangle (length u) k u' /\
    forall r c l, r < length u -> nth_error cols c = Some l ->
      if applies nl l x
      then forall rho, meaning E scope nl cols simple x (tcell u r c) r c rho ->
             exists v, ev_ne E (e_trans x) rho = Some v /\ tcell u' r c = nadd F (tcell u r c) v
      else tcell u' r c = tcell u r c.
  Proof.
    intros AL SH EV NA RU. unfold eval_one in EV. apply rbind_ok in EV. destruct EV as (col & CM & EV).
    apply rbind_ok in EV. destruct EV as (lc & LF & EV). apply column_mask_spec in CM; auto. destruct CM as [CM1 CM2].
    destruct (kernel_cell E NL _ _ _ _ _ _ EV RU) as (R' & KN & _ & KC). split; auto.
    intros r c l Hr Hc. assert (HC : c < k) by (apply nth_error_Some; congruence). specialize (KC r c Hr HC). rewrite (CM2 c l Hc) in KC.
    destruct (applies nl l x); auto. intros rho M. destruct KC as (v & V & T). exists v. split; auto. rewrite <- V. apply NL.
    intros y I. destruct (KN y (or_intror I)) as [d G]. unfold cell_env. rewrite G.
    symmetry. eapply local_meaning; eauto. apply (proj1 (locals_get E scope nl cols simple sh u x lc SH LF NA y d) G).
  Qed.

  Lemma eval_all_total sh : forall xs u t, aligned E (length u) k scope ->
    shared_locals E scope simple (base_locals E) = Ok sh -> eval_all E scope nl cols sh k u xs = (t, Ok tt) ->
    (forall x, In x xs -> names_apart simple x) -> rectangle (length u) k u ->
    rectangle (length u) k t /\
    forall r c l, r < length u -> nth_error cols c = Some l ->
      forall rho, (forall x acc, In x xs -> meaning E scope nl cols simple x acc r c (rho x acc)) ->
        total (applies nl l) (fun x acc => ev_ne E (e_trans x) (rho x acc)) xs (tcell u r c) = Some (tcell t r c).
  Proof.
    induction xs as [|x xs IH]; intros u t AL SH EV NA RU; cbn [eval_all] in EV.
    - injection EV as <-. split; auto.
    - destruct (eval_one E scope nl cols sh k u x) as [u'|e] eqn:E1; [|discriminate].
      destruct (eval_one_cell sh u x u' AL SH E1 (NA x (or_introl eq_refl)) RU) as [R1 C1].
      assert (LU : length u' = length u) by apply R1.
      rewrite <- LU in AL, R1. destruct (IH u' t AL SH EV) as [R2 C2]; [intros; apply NA; simpl; auto|auto|].
      rewrite LU in *. split; auto. intros r c l Hr Hc rho M. cbn [total]. specialize (C1 r c l Hr Hc). specialize (C2 r c l Hr Hc rho).
      destruct (applies nl l x).
      + destruct (C1 (rho x (tcell u r c))) as (v & -> & T); [apply M; simpl; auto|]. rewrite <- T. apply C2. intros; apply M; simpl; auto.
      + rewrite <- C1. apply C2. intros; apply M; simpl; auto.
  Qed.
End Eval.

(** The meanings exist, so that the theorems below are not about nothing. *)
Section Exists.
  Context {L : Type} {F : arith} {D cell : Type} (E : env L F D cell).
  Notation num := (num F).
  Notation FR := (ev_frames E).
  Notation symbol := (symbol (num:=num) FR).
  Notation expression := (@expression L).

  Definition find_chain (chains : dict string (dict string (@chaint L))) (y : string) : option (string * (@chaint L)) :=
    match find (fun p => mem y (dkeys (snd p))) chains with
    | Some (name, us) => option_map (fun ct => (name, ct)) (dget String.eqb us y)
    | None => None
    end.
  Definition cell_meaning (scope : dict string symbol) (nl : nat) (cols : list label) (x : expression) (acc : num) (r c : nat) : string -> option cell :=
    fun y =>
      if String.eqb y "OUT" then Some (ev_num E acc)
      else if String.eqb y "NAN" then Some (ev_num E (ev_nan E))
      else if String.eqb y "NEG_INF" then Some (ev_num E (ev_ninf E))
      else match find_chain (e_chains x) y with
           | Some (name, ct) => match dget String.eqb scope name with Some s => attribute_cell E s ct r c | None => None end
           | None =>
               match dget String.eqb (e_dl x) y with
               | Some lit => match expand_literal (nzero F) (ev_f32 E) nl (map label_parts cols) lit with
                             | Ok arr => option_map (ev_num E) (nth_error arr c) | Err _ => None end
               | None => match dget String.eqb scope y with Some s => symbol_cell E s r c | None => None end
               end
           end.

  Lemma find_chain_some chains name us y ct : NoDup (chain_subs chains) -> In (name, us) chains -> In (y, ct) us ->
    find_chain chains y = Some (name, ct).
  Proof.
    unfold chain_subs, find_chain. induction chains as [|[n0 us0] t IH]; intros N I J; [destruct I|].
    cbn [map concat snd] in N. apply nodup_app_inv in N. destruct N as (N1 & N2 & N3). cbn [find snd]. destruct I as [Q|I].
    - injection Q as -> ->. assert (M : mem y (dkeys us) = true) by (apply mem_in; eapply in_keys; eauto). rewrite M.
      now rewrite (in_dget String.eqb String.eqb_eq us y ct N1 J).
    - assert (M : mem y (dkeys us0) = false).
      { apply not_true_iff_false. rewrite mem_in. intros X. apply (N3 y X). apply in_concat. exists (dkeys us). split; [|eapply in_keys; eauto].
        apply in_map_iff. exists (name, us). auto. }
      rewrite M. now apply IH.
  Qed.
  Lemma find_chain_none chains y : ~ In y (chain_subs chains) -> find_chain chains y = None.
  Proof.
    unfold chain_subs, find_chain. intros N. replace (find _ chains) with (@None (string * dict string (@chaint L))); auto.
    symmetry. destruct (find _ chains) as [[name us]|] eqn:Q; auto. apply find_some in Q. destruct Q as [Q1 Q2]. apply mem_in in Q2.
    exfalso. apply N. apply in_concat. exists (dkeys us). split; auto. apply in_map_iff. exists (name, us). auto.
  Qed.

  Lemma meaning_exists scope nl cols simple x acc r c : names_apart simple x ->
    meaning E scope nl cols simple x acc r c (cell_meaning scope nl cols x acc r c).
  Proof.
    intros [N1 N2 N3]. unfold substitutions in *. fold (chain_subs (e_chains x)) in *. pose proof (nodup_app_inv _ _ N1) as (A1 & A2 & A3).
    assert (NR : forall y, reserved y = false -> String.eqb y "OUT" = false /\ String.eqb y "NAN" = false /\ String.eqb y "NEG_INF" = false).
    { intros y R. rewrite <- not_true_iff_false, reserved_cases in R. rewrite !String.eqb_neq. tauto. }
    constructor; auto.
    - intros name s I R G. unfold cell_meaning. destruct (NR name R) as (-> & -> & ->).
      rewrite find_chain_none by (intros X; apply (N3 name); [apply in_or_app; auto|auto]).
      replace (dget String.eqb (e_dl x) name) with (@None (@literal L)); [now rewrite G|]. symmetry. apply (dget_none String.eqb String.eqb_eq).
      intros X; apply (N3 name); [apply in_or_app; auto|auto].
    - intros sub lit values I EX. unfold cell_meaning.
      assert (IN : In sub (dkeys (e_dl x))) by (eapply in_keys; eauto).
      destruct (NR sub) as (-> & -> & ->); [apply N2, in_or_app; auto|].
      rewrite find_chain_none by (intros X; apply (A3 sub X IN)).
      rewrite (in_dget String.eqb String.eqb_eq _ _ _ A2 I), EX. reflexivity.
    - intros name us sub ct s I J G. unfold cell_meaning.
      assert (IN : In sub (chain_subs (e_chains x))).
      { apply in_concat. exists (dkeys us). split; [|eapply in_keys; eauto]. apply in_map_iff. exists (name, us). auto. }
      destruct (NR sub) as (-> & -> & ->); [apply N2, in_or_app; auto|].
      rewrite (find_chain_some _ _ _ _ _ A1 I J), G. reflexivity.
  Qed.
End Exists.
