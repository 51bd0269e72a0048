(** Lemmas about linked frames: stored indexers do not change what is read; what one lookup does. *)
From Verif Require Import Prelude DictProofs ExprModel ScopeModel ScopeProofs LdfModel SpecLdf.
Local Open Scope string_scope.
Local Open Scope nat_scope.
Local Open Scope list_scope.

Notation sspec := string_eqb_spec.

(** * numpy *)
Lemma np_at_nat {A} (l : list A) (i : nat) : np_at l (Z.of_nat i) = match nth_error l i with Some x => Ok x | None => Err IndexError end.
Proof.
  unfold np_at. assert ((Z.of_nat i <? 0)%Z = false) as -> by (apply Z.ltb_ge; lia).
  assert ((Z.of_nat i <? 0)%Z = false) as -> by (apply Z.ltb_ge; lia). now rewrite Nat2Z.id.
Qed.
Lemma np_at_last {A} (l : list A) x : np_at (l ++ [x]) (-1) = Ok x.
Proof.
  unfold np_at. change (-1 <? 0)%Z with true. cbv iota zeta. rewrite app_length. change (length [x]) with 1.
  assert ((-1 + Z.of_nat (length l + 1) <? 0)%Z = false) as -> by (apply Z.ltb_ge; lia).
  replace (Z.to_nat (-1 + Z.of_nat (length l + 1))) with (length l) by lia.
  rewrite nth_error_app2, Nat.sub_diag by lia. reflexivity.
Qed.
Lemma np_at_m1 {A} (l : list A) : l <> [] -> exists x, np_at l (-1) = Ok x.
Proof. intros N. destruct (exists_last N) as (l' & x & ->). exists x. apply np_at_last. Qed.

Lemma np_take_nth {A} (l : list A) : forall ix r, np_take l ix = Ok r <->
  length r = length ix /\ forall i z, nth_error ix i = Some z -> exists x, np_at l z = Ok x /\ nth_error r i = Some x.
Proof.
  induction ix as [|z ix IH]; intros r; simpl.
  - split; [intros H; injection H as <-; split; auto; intros [|i] z H; discriminate|].
    intros [HL _]. destruct r; [auto|discriminate].
  - split.
    + destruct (np_at l z) as [x|] eqn:Ex; simpl; [|discriminate]. destruct (np_take l ix) as [r'|] eqn:Er; simpl; [|discriminate].
      intros H. injection H as <-. destruct (proj1 (IH r') eq_refl) as [HL H]. split; [simpl; auto|].
      intros [|i] z' Hz; simpl in *; [injection Hz as <-; eauto|auto].
    + intros [HL H]. destruct (H 0 z eq_refl) as (x & Ex & Hr). rewrite Ex. simpl. destruct r as [|x' r]; [discriminate|].
      simpl in Hr. injection Hr as ->. simpl in HL.
      assert (np_take l ix = Ok r) as ->; [|reflexivity]. apply IH. split; [lia|]. intros i z' Hz. exact (H (S i) z' Hz).
Qed.
Lemma np_take_length {A} (l : list A) ix r : np_take l ix = Ok r -> length r = length ix.
Proof. intros H. now apply np_take_nth in H. Qed.
Lemma np_take_app_one {A} (l : list A) z x : np_at l z = Ok x -> forall ix r, np_take l ix = Ok r -> np_take l (z :: ix) = Ok (x :: r).
Proof. intros Ex ix r Er. simpl. now rewrite Ex, Er. Qed.
Lemma np_take_map {A B} (f : A -> B) l : forall ix r, np_take l ix = Ok r -> np_take (map f l) ix = Ok (map f r).
Proof.
  induction ix as [|z ix IH]; simpl; intros r H; [injection H as <-; auto|].
  assert (HA : np_at (map f l) z = match np_at l z with Ok x => Ok (f x) | Err e => Err e end).
  { unfold np_at. rewrite map_length. cbv zeta. set (i := if (z <? 0)%Z then _ else _). destruct (i <? 0)%Z; auto.
    rewrite nth_error_map. destruct (nth_error l (Z.to_nat i)); auto. }
  rewrite HA. destruct (np_at l z) as [x|]; simpl in *; [|discriminate]. destruct (np_take l ix) as [r'|]; simpl in *; [|discriminate].
  injection H as <-. now rewrite (IH _ eq_refl).
Qed.
Lemma rows_at_nth {A} (ps : list nat) (l r : list A) : rows_at ps l = Ok r <->
  length r = length ps /\ forall i p, nth_error ps i = Some p -> exists x, nth_error l p = Some x /\ nth_error r i = Some x.
Proof.
  unfold rows_at. rewrite np_take_nth, map_length. split; intros [HL H]; split; auto.
  - intros i p Hp. destruct (H i (Z.of_nat p)) as (x & Hx & Hr); [rewrite nth_error_map, Hp; reflexivity|].
    rewrite np_at_nat in Hx. destruct (nth_error l p) as [y|] eqn:Ey; [|discriminate]. injection Hx as ->. eauto.
  - intros i z Hz. rewrite nth_error_map in Hz. destruct (nth_error ps i) as [p|] eqn:Ep; [|discriminate]. injection Hz as <-.
    destruct (H i p Ep) as (x & Hx & Hr). exists x. now rewrite np_at_nat, Hx.
Qed.

Lemma nonzero_from_spec : forall l k i, In i (nonzero_from k l) <-> k <= i /\ nth_error l (i - k) = Some true.
Proof.
  induction l as [|b l IH]; simpl; intros k i.
  - split; [tauto|]. intros [_ H]. destruct (i - k); discriminate.
  - assert (HI : In i (nonzero_from (S k) l) <-> k < i /\ nth_error (b :: l) (i - k) = Some true).
    { rewrite IH. split; intros [H1 H2]; split; try lia.
      - destruct (i - k) as [|m] eqn:Em; [lia|]. simpl. now replace (i - S k) with m in H2 by lia.
      - destruct (i - k) as [|m] eqn:Em; [lia|]. simpl in H2. now replace (i - S k) with m by lia. }
    destruct b; simpl; rewrite HI; split.
    + intros [<-|[H1 H2]]; [rewrite Nat.sub_diag|]; auto with arith.
    + intros [H1 H2]. destruct (Nat.eq_dec k i) as [->|N]; [auto|right]. split; [lia|auto].
    + intros [H1 H2]. auto with arith.
    + intros [H1 H2]. split; auto. destruct (Nat.eq_dec k i) as [->|N]; [|lia]. rewrite Nat.sub_diag in H2. discriminate.
Qed.
Lemma nonzero_spec l i : In i (nonzero l) <-> nth_error l i = Some true.
Proof. unfold nonzero. rewrite nonzero_from_spec, Nat.sub_0_r. split; [tauto|intros H; split; auto with arith]. Qed.

Lemma fold_upd_length {A} (x : A) : forall miss l, length (fold_left (fun l i => upd l i x) miss l) = length l.
Proof. induction miss as [|m miss IH]; simpl; intros l; auto. now rewrite IH, upd_length. Qed.
Lemma fold_upd_nth {A} (x : A) : forall miss l i, i < length l ->
  nth_error (fold_left (fun l i => upd l i x) miss l) i = if existsb (Nat.eqb i) miss then Some x else nth_error l i.
Proof.
  induction miss as [|m miss IH]; simpl; intros l i Hi; auto.
  rewrite IH by (now rewrite upd_length). destruct (Nat.eqb_spec i m) as [->|N]; simpl.
  - destruct (existsb (Nat.eqb m) miss); auto. apply nth_error_upd_eq; auto.
  - destruct (existsb (Nat.eqb i) miss); auto. apply nth_error_upd_neq; auto.
Qed.

Lemma rmapl_ok {A B} (f : A -> res B) : forall l r, rmapl f l = Ok r <-> Forall2 (fun a b => f a = Ok b) l r.
Proof.
  induction l as [|a l IH]; simpl; intros r.
  - split; [intros H; injection H as <-; constructor|intros H; now inversion H].
  - split.
    + destruct (f a) as [b|] eqn:Ef; simpl; [|discriminate]. destruct (rmapl f l) as [t|] eqn:Et; simpl; [|discriminate].
      intros H. injection H as <-. constructor; auto. now apply IH.
    + intros H. inversion H as [|? b ? t Hb Ht]; subst. rewrite Hb. simpl. apply IH in Ht. now rewrite Ht.
Qed.

Lemma F2_impl {A B} (P Q : A -> B -> Prop) l m : (forall a b, P a b -> Q a b) -> Forall2 P l m -> Forall2 Q l m.
Proof. intros H. induction 1; constructor; auto. Qed.

Section Proofs.
  Context {L V : Type} (E : venv L V) (veq_spec : forall a b, v_eq E a b = true <-> a = b).
  Notation key := (list V).
  Notation frame := (@frame V).
  Notation lworld := (@lworld V).
  Notation column := (prod dtype (list V)).

  Lemma keq_spec a b : keq E a b = true <-> a = b.
  Proof using veq_spec. apply index_equals_spec, veq_spec. Qed.

  (** * Stored indexers *)
  Lemma dget_map {K A B : Type} (eqb : K -> K -> bool) (f : A -> B) (d : dict K A) k :
    dget eqb (map (fun p => (fst p, f (snd p))) d) k = match dget eqb d k with Some x => Some (f x) | None => None end.
  Proof. induction d as [|[k' x] d IH]; simpl; auto. destruct (eqb k k'); auto. Qed.
  Lemma dkeys_map {K A B : Type} (f : A -> B) (d : dict K A) : dkeys (map (fun p => (fst p, f (snd p))) d) = dkeys d.
  Proof. unfold dkeys. rewrite map_map. apply map_ext. auto. Qed.

  Lemma same_refl (w : lworld) : same_data w w. Proof. split; auto. Qed.
  Lemma same_sym (w w' : lworld) : same_data w w' -> same_data w' w. Proof. intros [A B]; split; auto. Qed.
  Lemma same_trans (w1 w2 w3 : lworld) : same_data w1 w2 -> same_data w2 w3 -> same_data w1 w3.
  Proof. intros [A B] [A' B']; split; congruence. Qed.
  Lemma same_frame (w w' : lworld) f fr : same_data w w' -> is_frame w f fr ->
    exists fr', is_frame w' f fr' /\ drop_caches fr = drop_caches fr'.
  Proof.
    intros [H _] Hf. unfold is_frame in *. pose proof (f_equal (fun l => nth_error l f) H) as X. simpl in X.
    rewrite !nth_error_map, Hf in X. destruct (nth_error (lw_frames w') f) as [fr'|]; simpl in X; [|discriminate].
    injection X as X1 X2 X3 X4 X5 X6 X7. exists fr'. split; auto. unfold drop_caches, with_links. congruence.
  Qed.
  Lemma same_length (w w' : lworld) : same_data w w' -> length (lw_frames w) = length (lw_frames w').
  Proof. intros [H _]. apply (f_equal (@length _)) in H. now rewrite !map_length in H. Qed.
  Lemma same_none (w w' : lworld) f : same_data w w' -> nth_error (lw_frames w) f = None -> nth_error (lw_frames w') f = None.
  Proof. intros H Hf. apply nth_error_None in Hf. apply nth_error_None. rewrite <- (same_length _ _ H). auto. Qed.

  Lemma drop_dmem (fr fr' : frame) s : drop_caches fr = drop_caches fr' -> dmem String.eqb (f_links fr) s = dmem String.eqb (f_links fr') s.
  Proof.
    intros H. unfold drop_caches, with_links in H. injection H as _ _ _ _ H _ _.
    pose proof (f_equal (fun d => dmem String.eqb d s) H) as X. simpl in X. unfold dmem in *. rewrite !dget_map in X.
    destruct (dget _ _ s), (dget _ _ s); auto.
  Qed.
  Lemma get_keys_drop m (fr fr' : frame) : drop_caches fr = drop_caches fr' -> get_keys E m fr = get_keys E m fr'.
  Proof.
    intros H. pose proof (fun s => drop_dmem fr fr' s H) as HD.
    unfold drop_caches, with_links in H. injection H as H1 H2 H3 H4 _ H6 H7.
    unfold get_keys, nrows, level_values. destruct (me_labels m) as [ls|]; [|congruence].
    rewrite H2, H3. assert (HR : rmapl (column_values fr) ls = rmapl (column_values fr') ls).
    { induction ls as [|l ls IH]; simpl; auto. rewrite IH. assert (column_values fr l = column_values fr' l) as ->; auto.
      unfold column_values. destruct l; auto. now rewrite H4, HD. }
    rewrite HR. reflexivity.
  Qed.
  Lemma precompute_same (w w' : lworld) lk : same_data w w' -> precompute E w lk = precompute E w' lk.
  Proof.
    intros H. unfold precompute, get_frame.
    destruct (nth_error (lw_frames w) (lk_owner lk)) as [fr|] eqn:Ef.
    - destruct (same_frame _ _ _ _ H Ef) as (fr' & -> & D). simpl. rewrite (get_keys_drop _ _ _ D).
      destruct (get_keys E (lk_self lk) fr') as [sk|]; simpl; auto.
      destruct (nth_error (lw_frames w) (lk_other lk)) as [gr|] eqn:Eg.
      + destruct (same_frame _ _ _ _ H Eg) as (gr' & -> & D'). simpl. now rewrite (get_keys_drop _ _ _ D').
      + now rewrite (same_none _ _ _ H Eg).
    - now rewrite (same_none _ _ _ H Ef).
  Qed.

  (** what a link gives: the positions in the target and the rows without one *)
  Definition fresh (w : lworld) (lk : link) : res link := match lk_flat lk with Some _ => Ok lk | None => precompute E w lk end.
  Definition view (w : lworld) (f : nat) (name : string) : res (list Z * list nat) :=
    do lk0 <- get_link w f name;
    do lk <- fresh w lk0;
    match lk_flat lk with
    | None => Err TypeError
    | Some flat => Ok (flat, match lk_missing lk with Some m => m | None => nonzero (map (fun z => (z =? -1)%Z) flat) end)
    end.
  (** grouping codes of a link *)
  Definition gview (w : lworld) (f : nat) (name : string) : option (list Z) :=
    match get_link w f name with Ok lk => lk_grouper lk | Err _ => None end.

  Lemma make_indexer_static lk sk ok lk' : make_indexer E lk sk ok = Ok lk' -> copy_meta lk' = copy_meta lk /\ lk_missing lk' = lk_missing lk.
  Proof.
    unfold make_indexer. destruct (lk_agg lk) eqn:Ea.
    - destruct (factorize E ok) as [codes order]. destruct (get_indexer _ _ _); simpl; [|discriminate].
      intros H. injection H as <-. unfold copy_meta. simpl. now rewrite Ea.
    - destruct (if index_equals _ _ _ then _ else _); simpl; [|discriminate]. intros H. injection H as <-. unfold copy_meta. simpl. now rewrite Ea.
  Qed.
  Lemma precompute_static w lk lk' : precompute E w lk = Ok lk' -> copy_meta lk' = copy_meta lk /\ lk_missing lk' = lk_missing lk.
  Proof.
    unfold precompute. destruct (get_frame w (lk_owner lk)); simpl; [|discriminate]. destruct (get_keys _ _ _); simpl; [|discriminate].
    destruct (get_frame w (lk_other lk)); simpl; [|discriminate]. destruct (get_keys _ _ _); simpl; [|discriminate]. apply make_indexer_static.
  Qed.
  Lemma fresh_static w lk lk' : fresh w lk = Ok lk' -> copy_meta lk' = copy_meta lk /\ lk_missing lk' = lk_missing lk.
  Proof. unfold fresh. destruct (lk_flat lk); [intros H; injection H as <-; auto|apply precompute_static]. Qed.

  Lemma get_link_is (w : lworld) f name lk : get_link w f name = Ok lk <-> is_link w f name lk.
  Proof.
    unfold get_link, get_frame, is_link, is_frame. split.
    - destruct (nth_error (lw_frames w) f) as [fr|]; simpl; [|discriminate].
      destruct (dget _ _ name) eqn:Ed; [|discriminate]. intros H. injection H as <-. exists fr. auto.
    - intros (fr & -> & H). simpl. now rewrite H.
  Qed.
  Lemma is_link_unique (w : lworld) f name lk lk' : is_link w f name lk -> is_link w f name lk' -> lk = lk'.
  Proof. intros H H'. apply get_link_is in H, H'. congruence. Qed.

  Lemma set_link_get (w : lworld) f name lk0 lk f' name' : is_link w f name lk0 ->
    get_link (set_link w f name lk) f' name' = if andb (Nat.eqb f' f) (String.eqb name' name) then Ok lk else get_link w f' name'.
  Proof.
    intros (fr & Hf & Hd). unfold set_link, get_link, get_frame, set_frame, is_frame in *. rewrite Hf. simpl.
    assert (Hl : f < length (lw_frames w)) by (apply nth_error_Some; congruence).
    destruct (Nat.eqb_spec f' f) as [->|N]; simpl.
    - rewrite nth_error_upd_eq by auto. simpl. rewrite (dget_dset _ sspec), Hf. simpl. destruct (String.eqb name' name); auto.
    - rewrite nth_error_upd_neq by auto. reflexivity.
  Qed.
  Lemma upd_map_same {A B} (f : A -> B) : forall l i x y, nth_error l i = Some y -> f x = f y -> map f (upd l i x) = map f l.
  Proof. induction l as [|h t IH]; intros [|i] x y H Hf; simpl in *; auto; try discriminate; [injection H as ->; congruence|f_equal; eauto]. Qed.
  Lemma dset_map_same {A B : Type} (f : A -> B) (d : dict string A) s x y : dget String.eqb d s = Some y -> f x = f y ->
    map (fun p => (fst p, f (snd p))) (dset String.eqb d s x) = map (fun p => (fst p, f (snd p))) d.
  Proof.
    induction d as [|[k z] d IH]; simpl; [discriminate|]. destruct (String.eqb s k) eqn:Es; simpl; intros H Hf.
    - injection H as ->. now rewrite Hf.
    - f_equal. auto.
  Qed.
  Lemma set_link_same (w : lworld) f name lk0 lk : is_link w f name lk0 -> copy_meta lk = copy_meta lk0 -> same_data w (set_link w f name lk).
  Proof.
    intros (fr & Hf & Hd) HC. unfold set_link. unfold is_frame in Hf. rewrite Hf. split; [|reflexivity]. simpl. symmetry.
    eapply upd_map_same; eauto. unfold drop_caches, with_links. simpl. f_equal. eapply dset_map_same; eauto.
  Qed.

  Lemma indexer_view (w : lworld) f name w' r : indexer_and_missing E w f name = (w', r) ->
    r = view w f name /\ same_data w w' /\ forall f' name', view w' f' name' = view w f' name'.
  Proof.
    unfold indexer_and_missing, view. destruct (get_link w f name) as [lk0|x] eqn:El; simpl.
    2:{ intros H. injection H as <- <-. auto using same_refl. }
    fold (fresh w lk0). destruct (fresh w lk0) as [lk|x] eqn:Ef; simpl.
    2:{ intros H. injection H as <- <-. auto using same_refl. }
    destruct (lk_flat lk) as [flat|] eqn:Efl.
    2:{ intros H. injection H as <- <-. auto using same_refl. }
    intros H. injection H as <- <-. destruct (fresh_static _ _ _ Ef) as [HC HM].
    apply get_link_is in El. set (lk1 := Link _ _ _ _ _ _ _ _ _).
    assert (HC1 : copy_meta lk1 = copy_meta lk0) by (rewrite <- HC; reflexivity).
    pose proof (set_link_same w f name lk0 lk1 El HC1) as HS. split; [auto|]. split; [auto|].
    intros f' name'. rewrite (set_link_get _ _ _ _ _ _ _ El).
    destruct (Nat.eqb_spec f' f) as [->|N]; simpl.
    - destruct (String.eqb name' name) eqn:En.
      + apply sspec in En. subst name'. unfold fresh at 1. simpl. rewrite ?Efl. simpl. rewrite ?Efl.
        apply get_link_is in El. rewrite El. simpl. rewrite Ef. simpl. rewrite Efl. reflexivity.
      + destruct (get_link w f name') as [lk2|]; simpl; auto. unfold fresh. destruct (lk_flat lk2); auto. now rewrite (precompute_same _ _ _ HS).
    - destruct (get_link w f' name') as [lk2|]; simpl; auto. unfold fresh. destruct (lk_flat lk2); auto. now rewrite (precompute_same _ _ _ HS).
  Qed.

  (** * Following a history of links *)
  Fixpoint presolve (vw : nat -> string -> res (list Z * list nat)) (hist : list (nat * string)) (d : dtype) (vals : list V) (fill : V) : res (list V) :=
    match hist with
    | [] => Ok vals
    | (f, name) :: h =>
        do (ix, miss) <- vw f name;
        do vs <- (do vs <- np_take vals ix; fill_at E d vs miss fill);
        presolve vw h d vs fill
    end.
  Lemma presolve_ext vw vw' : (forall f s, vw f s = vw' f s) -> forall hist d vals fill, presolve vw hist d vals fill = presolve vw' hist d vals fill.
  Proof. intros H. induction hist as [|[f s] h IH]; intros; simpl; auto. rewrite H. destruct (vw' f s) as [[ix miss]|]; simpl; auto. match goal with |- rbind ?x _ = _ => destruct x; simpl; auto end. Qed.
  Lemma resolve_pure : forall hist w d vals fill w' r, resolve E w hist d vals fill = (w', r) ->
    r = presolve (view w) hist d vals fill /\ same_data w w' /\ forall f name, view w' f name = view w f name.
  Proof.
    induction hist as [|[f name] h IH]; simpl; intros w d vals fill w' r H.
    - injection H as <- <-. auto using same_refl.
    - destruct (indexer_and_missing E w f name) as [w1 r1] eqn:Ei. destruct (indexer_view _ _ _ _ _ Ei) as (H1 & H2 & H3).
      rewrite <- H1. destruct r1 as [[ix miss]|x]; simpl.
      + destruct (rbind _ _) as [vs|x] eqn:Eb.
        * destruct (IH _ _ _ _ _ _ H) as (I1 & I2 & I3). rewrite I1. simpl. repeat split; eauto using same_trans.
          -- now apply presolve_ext.
          -- destruct (same_trans _ _ _ H2 I2); auto.
          -- destruct (same_trans _ _ _ H2 I2); auto.
          -- intros f' n'. now rewrite I3.
        * injection H as <- <-. repeat split; try (destruct H2; auto); auto.
      + injection H as <- <-. repeat split; try (destruct H2; auto); auto.
  Qed.

  (** * One lookup *)
  (** row [i] goes to the given row of the target, if there is one *)
  Definition code (o : option nat) : Z := match o with Some j => Z.of_nat j | None => (-1)%Z end.
  (** a link whose row [i] goes to [nth i ts] *)
  Definition goes (w : lworld) (f : nat) (name : string) (ts : list (option nat)) : Prop :=
    exists miss, view w f name = Ok (map code ts, miss) /\ forall i, In i miss <-> nth_error ts i = Some None.

  Lemma code_m1 o : (code o =? -1)%Z = match o with None => true | Some _ => false end.
  Proof. destruct o; simpl; auto. apply Z.eqb_neq. lia. Qed.
  Lemma missing_codes ts i : In i (nonzero (map (fun z => (z =? -1)%Z) (map code ts))) <-> nth_error ts i = Some None.
  Proof.
    rewrite nonzero_spec, map_map, nth_error_map. destruct (nth_error ts i) as [o|]; simpl; [|split; discriminate].
    rewrite code_m1. destruct o; split; try discriminate; auto.
  Qed.

  Definition step_vals (ts : list (option nat)) (vals : list V) (y : V) (vs : list V) : Prop :=
    length vs = length ts /\ forall i o, nth_error ts i = Some o ->
      match o with Some j => nth_error vs i = nth_error vals j | None => nth_error vs i = Some y end.

  Lemma one_step ts miss vals d fill y :
    (forall i, In i miss <-> nth_error ts i = Some None) ->
    (forall j, In (Some j) ts -> j < length vals) ->
    (In None ts -> vals <> []) ->
    v_store E d fill = Ok y ->
    exists vs, (do vs <- np_take vals (map code ts); fill_at E d vs miss fill) = Ok vs /\ step_vals ts vals y vs.
  Proof.
    intros HM HB HN HS.
    assert (HT : exists vs, np_take vals (map code ts) = Ok vs).
    { clear HM. induction ts as [|o ts IH]; [exists []; reflexivity|].
      destruct IH as (vs & Hv); [intros; apply HB; simpl; auto|intros; apply HN; simpl; auto|].
      assert (exists x, np_at vals (code o) = Ok x) as (x & Hx).
      { destruct o as [j|].
        - simpl. rewrite np_at_nat. destruct (nth_error vals j) eqn:Ej; eauto. apply nth_error_None in Ej. specialize (HB j (or_introl eq_refl)). lia.
        - apply np_at_m1, HN. simpl. auto. }
      exists (x :: vs). simpl. now rewrite Hx, Hv. }
    destruct HT as (vs & Hv). rewrite Hv. unfold rbind at 1. unfold fill_at. rewrite HS. simpl.
    apply np_take_nth in Hv. destruct Hv as [HL HV]. rewrite map_length in HL.
    assert (forallb (fun i => i <? length vs) miss = true) as ->.
    { apply forallb_forall. intros i Hi. apply Nat.ltb_lt. apply HM in Hi. rewrite HL. apply nth_error_Some. congruence. }
    simpl. eexists. split; [reflexivity|]. split; [now rewrite fold_upd_length|].
    intros i o Ho. assert (Hi : i < length vs) by (rewrite HL; apply nth_error_Some; congruence).
    rewrite fold_upd_nth by auto. destruct o as [j|].
    - destruct (existsb (Nat.eqb i) miss) eqn:Ex.
      + apply existsb_exists in Ex. destruct Ex as (i' & I & Ei). apply Nat.eqb_eq in Ei. subst i'. apply HM in I. congruence.
      + destruct (HV i (Z.of_nat j)) as (x & Hx & Hr); [rewrite nth_error_map, Ho; reflexivity|].
        rewrite np_at_nat in Hx. destruct (nth_error vals j); [|discriminate]. congruence.
    - assert (existsb (Nat.eqb i) miss = true) as ->; auto. apply existsb_exists. exists i. split; [now apply HM|apply Nat.eqb_refl].
  Qed.

  (** a chain of links: [hist] with the links' targets, the last link first; [n] the number of rows of
      the frame whose column is read *)
  Inductive chain (w : lworld) : list (nat * string) -> nat -> list (option nat) -> Prop :=
  | chain_nil n : chain w [] n (map Some (seq 0 n))
  | chain_cons f name h n ts rest : goes w f name ts ->
      (forall j, In (Some j) ts -> j < n) -> (In None ts -> n <> 0) ->
      chain w h (length ts) rest ->
      chain w ((f, name) :: h) n (map (fun o => match o with Some i => match nth_error ts i with Some o' => o' | None => None end | None => None end) rest).

  Lemma chain_bound w hist n ts : chain w hist n ts -> forall j, In (Some j) ts -> j < n.
  Proof.
    induction 1 as [n|f name h n ts rest HG HB HN HC IH]; intros j Hj.
    - apply in_map_iff in Hj. destruct Hj as (x & Hx & I). injection Hx as ->. apply in_seq in I. lia.
    - apply in_map_iff in Hj. destruct Hj as (o & Ho & I). destruct o as [i|]; [|discriminate].
      destruct (nth_error ts i) as [o'|] eqn:Ei; [|discriminate]. subst o'. apply HB. eapply nth_error_In; eauto.
  Qed.

  Lemma presolve_chain w hist n ts : chain w hist n ts -> forall d vals fill y, length vals = n -> v_store E d fill = Ok y ->
    exists vs, presolve (view w) hist d vals fill = Ok vs /\ step_vals ts vals y vs.
  Proof.
    induction 1 as [n|f name h n ts rest HG HB HN HC IH]; intros d vals fill y HL HS.
    - exists vals. split; [reflexivity|]. split; [now rewrite map_length, seq_length|].
      intros i o Ho. rewrite nth_error_map in Ho. destruct (nth_error (seq 0 n) i) as [j|] eqn:Ej; [|discriminate].
      injection Ho as <-. pose proof (nth_error_nth _ _ 0 Ej) as X. assert (i < n) by (rewrite <- (seq_length n 0); apply nth_error_Some; congruence).
      rewrite seq_nth in X by auto. simpl in X. now subst j.
    - destruct HG as (miss & Hv & HM). simpl. rewrite Hv. simpl.
      destruct (one_step ts miss vals d fill y HM) as (vs & E1 & [L1 S1]); [intros; rewrite HL; auto|intros I X; subst; apply (HN I); reflexivity|auto|].
      unfold rbind in E1 |- *. rewrite E1. destruct (IH d vs fill y L1 HS) as (vs' & E2 & [L2 S2]). unfold rbind in E2. exists vs'. split; [exact E2|].
      split; [now rewrite map_length|]. intros i o Ho. rewrite nth_error_map in Ho. destruct (nth_error rest i) as [r|] eqn:Er; [|discriminate].
      specialize (S2 i r Er). simpl in Ho. injection Ho as <-. destruct r as [i'|]; [|auto].
      assert (i' < length ts) by (eapply chain_bound; [exact HC|eapply nth_error_In; eauto]).
      destruct (nth_error ts i') as [o'|] eqn:Eo; [|apply nth_error_None in Eo; lia].
      specialize (S1 i' o' Eo). rewrite S2. destruct o'; auto.
  Qed.
End Proofs.
