(** The keys of a frame: what the code computes and the specification [row_key]. *)
From Verif Require Import Prelude DictProofs ExprModel ScopeModel ScopeProofs LdfModel SpecLdf LdfProofs.
Local Open Scope string_scope.
Local Open Scope nat_scope.
Local Open Scope list_scope.

Section Keys.
  Context {L V : Type} (E : venv L V) (veq_spec : forall a b, v_eq E a b = true <-> a = b).
  Notation key := (list V).
  Notation frame := (@frame V).
  Notation lworld := (@lworld V).
  Notation column := (prod dtype (list V)).

  Record frame_ok (fr : frame) : Prop := FrameOk {
    fo_levels : f_levels fr <> [];
    fo_index : forall k, In k (f_index fr) -> length k = length (f_levels fr);
    fo_cols : forall s d vals, dget String.eqb (f_cols fr) s = Some (d, vals) -> length vals = nrows fr
  }.

  (** keys, whatever the names of the links are *)
  Definition ikeys (m : meta) (fr : frame) : res (list key) := get_keys E m (with_links fr []).

  Lemma same_level_spec s o : same_level (Some s) o = true <-> o = Some s.
  Proof. destruct o as [x|]; simpl; [|split; discriminate]. rewrite sspec. split; [now intros ->|intros X; now injection X]. Qed.
  Lemma position_level s : forall ls n, position same_level ls (Some s) = Some n -> nth_error ls n = Some (Some s).
  Proof.
    induction ls as [|o ls IH]; intros n Hn; [discriminate|]. cbn [position] in Hn. destruct (same_level (Some s) o) eqn:Eo.
    - injection Hn as <-. apply same_level_spec in Eo. now subst o.
    - destruct (position same_level ls (Some s)) as [j|] eqn:Ej; [|discriminate]. injection Hn as <-. simpl. auto.
  Qed.
  Lemma position_level_none s : forall ls n, position same_level ls (Some s) = None -> nth_error ls n <> Some (Some s).
  Proof.
    induction ls as [|o ls IH]; intros n Hn X; [destruct n; discriminate|]. cbn [position] in Hn. destruct (same_level (Some s) o) eqn:Eo; [discriminate|].
    destruct (position same_level ls (Some s)) as [j|] eqn:Ej; [discriminate|]. destruct n as [|n]; simpl in X; [|exact (IH n eq_refl X)]. injection X as ->. simpl in Eo. now rewrite String.eqb_refl in Eo.
  Qed.
  Lemma filter_none {A} (p : A -> bool) l : length (filter p l) = 0 -> forall n x, nth_error l n = Some x -> p x = false.
  Proof.
    intros H n x Hn. destruct (p x) eqn:Ep; auto. exfalso. apply nth_error_In in Hn. assert (In x (filter p l)) as I by (apply filter_In; auto). apply length_zero_iff_nil in H. rewrite H in I. destruct I.
  Qed.
  Lemma filter_one {A} (p : A -> bool) : forall l, length (filter p l) = 1 <-> exists n x, nth_error l n = Some x /\ p x = true /\ forall m y, nth_error l m = Some y -> p y = true -> m = n.
  Proof.
    induction l as [|a l IH]; simpl.
    - split; [discriminate|]. intros (n & x & H & _). destruct n; discriminate.
    - destruct (p a) eqn:Ea; simpl.
      + split.
        * intros H. injection H as H. exists 0, a. repeat split; auto. intros [|m] y Hm Hy; auto. simpl in Hm. rewrite (filter_none p l H m y Hm) in Hy. discriminate.
        * intros (n & x & H1 & H2 & H3). pose proof (H3 0 a eq_refl Ea) as <-. f_equal. destruct (filter p l) as [|y t] eqn:Ef; auto. exfalso.
          assert (In y (filter p l)) as I by (rewrite Ef; left; auto). apply filter_In in I. destruct I as [I Hy]. apply In_nth_error in I. destruct I as (m & Hm).
          specialize (H3 (S m) y Hm Hy). discriminate.
      + rewrite IH. split; intros (n & x & H1 & H2 & H3).
        * exists (S n), x. repeat split; auto. intros [|m] y Hm Hy; simpl in Hm; [congruence|]. f_equal. eauto.
        * destruct n as [|n]; simpl in H1; [congruence|]. exists n, x. repeat split; auto. intros m y Hm Hy. specialize (H3 (S m) y Hm Hy). congruence.
  Qed.
  (** a level can be read iff the label names exactly one *)
  Lemma level_values_total (fr : frame) l : (exists arr, level_values E fr l = Ok arr) <-> exists n, level_number fr l n.
  Proof.
    unfold level_values. cbv zeta. destruct l as [s|z].
    - split.
      + intros (arr & H). destruct (position same_level (f_levels fr) (Some s)) as [n|] eqn:En; [|discriminate].
        destruct (Nat.eqb_spec (length (filter (same_level (Some s)) (f_levels fr))) 1) as [E1|]; [|discriminate]. apply position_level in En. exists n. split; [apply nth_error_Some; congruence|].
        split; auto. apply filter_one in E1. destruct E1 as (n' & x & H1 & H2 & H3). intros m Hm. rewrite (H3 m (Some s) Hm); [|simpl; apply String.eqb_refl].
        symmetry. apply (H3 n (Some s) En). simpl. apply String.eqb_refl.
      + intros (n & HL & Hn & HU). destruct (position same_level (f_levels fr) (Some s)) as [j|] eqn:En; [|exfalso; exact (position_level_none _ _ _ En Hn)].
        assert (length (filter (same_level (Some s)) (f_levels fr)) = 1) as ->; [|simpl; eauto]. apply filter_one. exists n, (Some s). split; auto. split; [simpl; apply String.eqb_refl|].
        intros m y Hm Hy. apply same_level_spec in Hy. subst y. auto.
    - destruct (orb _ _) eqn:Eo.
      + split; [intros (arr & H); discriminate|]. intros (n & HL & Hn). exfalso. apply orb_true_iff in Eo. rewrite Z.ltb_lt, Z.leb_le in Eo. destruct (Z.ltb_spec z 0); lia.
      + split; [|eauto]. intros _. apply orb_false_iff in Eo. destruct Eo as [O1 O2]. apply Z.ltb_ge in O1. apply Z.leb_gt in O2.
        set (i := if (z <? 0)%Z then _ else _) in *. exists (Z.to_nat i). split; [lia|]. subst i. destruct (Z.ltb_spec z 0); [right|left]; lia.
  Qed.
  Lemma level_values_spec (fr : frame) l arr : frame_ok fr -> level_values E fr l = Ok arr ->
    length arr = nrows fr /\ forall i v, nth_error arr i = Some v <-> level_value fr l i v.
  Proof.
    intros [_ FI _] H. unfold nrows.
    assert (HN : exists n, level_number fr l n /\ arr = map (fun k => nth n k (v_nan E)) (f_index fr) /\
                   (forall n', level_number fr l n' -> n' = n)).
    { unfold level_values in H. cbv zeta in H. destruct l as [s|z].
      - destruct (proj1 (level_values_total fr (LName s))) as (n & HN). { unfold level_values. cbv zeta. eauto. }
        destruct (position same_level (f_levels fr) (Some s)) as [j|] eqn:En; [|discriminate]. destruct (length _ =? 1); [|discriminate]. injection H as <-.
        apply position_level in En. destruct HN as (HL & Hn & HU). pose proof (HU _ En) as ->. exists n. repeat split; auto. intros n' (_ & H2 & _). auto.
      - destruct (orb _ _) eqn:Eo in H; [discriminate|]. injection H as <-. apply orb_false_iff in Eo. destruct Eo as [O1 O2].
        apply Z.ltb_ge in O1. apply Z.leb_gt in O2. set (i := if (z <? 0)%Z then _ else _) in *.
        assert (Hi : i = z /\ (0 <= z)%Z \/ i = (z + Z.of_nat (length (f_levels fr)))%Z /\ (z < 0)%Z).
        { subst i. destruct (Z.ltb_spec z 0); lia. }
        exists (Z.to_nat i). split; [|split; [reflexivity|]].
        + split; [lia|]. destruct Hi as [[-> H]|[-> H]]; [left|right]; lia.
        + intros n' [H1 H2]. destruct Hi as [[-> H]|[-> H]]; destruct H2; lia. }
    destruct HN as (n & HN & -> & HU). split; [now rewrite map_length|].
    intros i v. rewrite nth_error_map. split.
    - destruct (nth_error (f_index fr) i) as [row|] eqn:Er; [|discriminate]. simpl. intros X. injection X as X.
      exists n, row. split; [auto|split; [auto|]]. destruct HN as [HN _]. rewrite <- (FI row) in HN by (eapply nth_error_In; eauto).
      rewrite (nth_error_nth' row (v_nan E) HN). congruence.
    - intros (n' & row & H1 & H2 & H3). apply HU in H1. subst n'. rewrite H2. simpl. now rewrite (nth_error_nth _ _ _ H3).
  Qed.
  Lemma column_values_spec (fr : frame) l arr : frame_ok fr -> column_values fr l = Ok arr ->
    length arr = nrows fr /\ forall i v, nth_error arr i = Some v <-> column_value fr l i v.
  Proof.
    intros [_ _ FC] H. unfold column_values in H. destruct l as [s|]; [|discriminate].
    destruct (dget String.eqb (f_cols fr) s) as [[d vals]|] eqn:Ed; [|discriminate]. destruct (dmem _ _ _); [discriminate|].
    injection H as <-. split; [eauto|]. intros i v. split.
    - intros Hv. exists s, d, vals. auto.
    - intros (s' & d' & vals' & Hs & Hc & Hv). injection Hs as <-. unfold is_column in Hc. congruence.
  Qed.

  Lemma keys_of_spec (P : llabel -> nat -> V -> Prop) n : forall ls arrays,
    Forall2 (fun l arr => length arr = n /\ forall i v, nth_error arr i = Some v <-> P l i v) ls arrays ->
    forall i k, i < n -> (k = map (fun a => nth i a (v_nan E)) arrays <-> Forall2 (fun l v => P l i v) ls k).
  Proof.
    induction 1 as [|l arr ls arrays [HL HP] HF IH]; intros i k Hi; simpl.
    - split; [intros ->; constructor|intros H; now inversion H].
    - assert (HA : forall v, P l i v <-> v = nth i arr (v_nan E)).
      { intros v. rewrite <- HP. rewrite (nth_error_nth' arr (v_nan E)) by lia. split; congruence. }
      split.
      + intros ->. constructor; [now apply HA|]. now apply (IH i).
      + intros H. inversion H as [|? v ? k' Hv Hk]; subst. apply HA in Hv. subst v. f_equal. now apply (IH i).
  Qed.

  Lemma ikeys_spec m (fr : frame) ks : frame_ok fr -> ikeys m fr = Ok ks ->
    length ks = nrows fr /\ forall i k, nth_error ks i = Some k <-> i < nrows fr /\ row_key fr m i k.
  Proof.
    intros FO H. unfold ikeys, get_keys, row_key in *. destruct (me_labels m) as [ls|].
    2:{ injection H as <-. simpl. unfold nrows. split; auto. intros i k. split; [|tauto]. intros X. split; auto. apply nth_error_Some. congruence. }
    set (fr0 := with_links fr []) in *. assert (FO0 : frame_ok fr0) by (destruct FO; constructor; auto).
    assert (HA : exists arrays, (if me_rows m then rmapl (level_values E fr0) ls else rmapl (column_values fr0) ls) = Ok arrays /\ ks = keys_of E (nrows fr0) arrays).
    { destruct (me_rows m).
      - unfold check in H. destruct (_ <=? _); simpl in H; [|discriminate]. destruct (rmapl _ ls) as [arrays|]; simpl in H; [|discriminate].
        exists arrays. split; auto. destruct arrays; [discriminate|congruence].
      - destruct (rmapl _ ls) as [arrays|]; simpl in H; [|discriminate]. exists arrays. split; auto. destruct arrays; [discriminate|congruence]. }
    destruct HA as (arrays & HA & ->). change (nrows fr0) with (nrows fr). split; [unfold keys_of; now rewrite map_length, seq_length|].
    assert (HF : Forall2 (fun l arr => length arr = nrows fr /\ forall i v, nth_error arr i = Some v <-> (if me_rows m then level_value fr l i v else column_value fr l i v)) ls arrays).
    { destruct (me_rows m); apply rmapl_ok in HA; (eapply F2_impl; [|exact HA]); simpl; intros a b Hab.
      - apply (level_values_spec fr0 a b FO0 Hab).
      - apply (column_values_spec fr0 a b FO0 Hab). }
    intros i k. unfold keys_of. rewrite nth_error_map. destruct (nth_error (seq 0 (nrows fr)) i) as [x|] eqn:Ex.
    - assert (Hi : i < nrows fr) by (rewrite <- (seq_length (nrows fr) 0); apply nth_error_Some; congruence).
      pose proof (nth_error_nth _ _ 0 Ex) as Y. rewrite seq_nth in Y by auto. simpl in Y. subst x. simpl.
      rewrite <- (keys_of_spec _ _ _ _ HF i k Hi). split; [intros X; injection X as ->; auto|intros [_ ->]; reflexivity].
    - simpl. split; [discriminate|]. intros [Hi _]. apply nth_error_None in Ex. rewrite seq_length in Ex. lia.
  Qed.
  Lemma ikeys_lt m (fr : frame) ks i k : frame_ok fr -> ikeys m fr = Ok ks -> row_key fr m i k -> i < nrows fr.
  Proof.
    intros FO H HR. unfold row_key in HR. destruct (me_labels m) as [ls|] eqn:El.
    - destruct ls as [|l ls].
      + unfold ikeys, get_keys in H. rewrite El in H. destruct (me_rows m); simpl in H; discriminate.
      + inversion HR as [|? v ? k' Hv _]; subst. destruct (me_rows m).
        * destruct Hv as (n & row & _ & Hr & _). unfold nrows. apply nth_error_Some. congruence.
        * destruct Hv as (s & d & vals & _ & Hc & Hv). destruct FO as [_ _ FC]. rewrite <- (FC _ _ _ Hc). apply nth_error_Some. congruence.
    - unfold nrows. apply nth_error_Some. congruence.
  Qed.
  Lemma ikeys_row_key m (fr : frame) ks i k : frame_ok fr -> ikeys m fr = Ok ks -> (nth_error ks i = Some k <-> row_key fr m i k).
  Proof.
    intros FO H. destruct (ikeys_spec _ _ _ FO H) as [_ HS]. rewrite HS. split; [tauto|]. intros HR. split; auto. eapply ikeys_lt; eauto.
  Qed.

  Lemma get_keys_ikeys m (fr : frame) ks : get_keys E m fr = Ok ks -> ikeys m fr = Ok ks.
  Proof.
    unfold ikeys, get_keys. destruct (me_labels m) as [ls|]; auto. destruct (me_rows m); [intros H; exact H|].
    assert (HC : forall arrays, rmapl (column_values fr) ls = Ok arrays -> rmapl (column_values (with_links fr [])) ls = Ok arrays).
    { intros arrays H. apply rmapl_ok in H. apply rmapl_ok. eapply F2_impl; [|exact H]. intros l arr. unfold column_values. simpl.
      destruct l; auto. destruct (dget _ _ _) as [[? ?]|]; auto. destruct (dmem _ _ _); [discriminate|auto]. }
    destruct (rmapl (column_values fr) ls) as [arrays|]; simpl; [|discriminate]. now rewrite (HC _ eq_refl).
  Qed.
  Lemma unshadowed_keys m (fr : frame) : unshadowed fr m -> get_keys E m fr = ikeys m fr.
  Proof.
    intros H. unfold ikeys, get_keys. destruct (me_labels m) as [ls|] eqn:El; auto. destruct (me_rows m) eqn:Er; auto.
    assert (rmapl (column_values fr) ls = rmapl (column_values (with_links fr [])) ls) as ->; auto.
    assert (HI : forall s, In (LName s) ls -> dget String.eqb (f_links fr) s = None) by (intros; eapply H; eauto). clear El H.
    induction ls as [|l ls IH]; simpl; auto. rewrite IH by (intros; apply HI; simpl; auto).
    assert (column_values fr l = column_values (with_links fr []) l) as ->; auto.
    unfold column_values. destruct l as [s|]; auto. unfold dmem. rewrite (HI s) by (simpl; auto). reflexivity.
  Qed.

  (** the parts of a frame that its keys depend on *)
  Definition core (fr : frame) := (f_ldf fr, f_levels fr, f_index fr, f_cols fr).
  Lemma ikeys_core m (fr fr' : frame) : core fr = core fr' -> ikeys m fr = ikeys m fr'.
  Proof.
    unfold core. intros H. injection H as H1 H2 H3 H4. unfold ikeys, get_keys, with_links, nrows, level_values, column_values. simpl. now rewrite H2, H3, H4.
  Qed.
  Lemma core_ok (fr fr' : frame) : core fr = core fr' -> frame_ok fr -> frame_ok fr'.
  Proof.
    unfold core. intros H [A B C]. injection H as H1 H2 H3 H4. constructor; [congruence|rewrite <- H3, <- H2; auto|]. unfold nrows. rewrite <- H3, <- H4. auto.
  Qed.
  Lemma drop_core (fr fr' : frame) : drop_caches fr = drop_caches fr' -> core fr = core fr'.
  Proof. unfold drop_caches, with_links, core. intros H. injection H as H1 H2 H3 H4 _ _ _. congruence. Qed.

  (** * Positions of keys *)
  Lemma pos_code ks k : pos_or_missing E ks k = code (position (keq E) ks k).
  Proof. unfold pos_or_missing. destruct (position _ _ _); auto. Qed.

  Lemma uniques_spec : forall ks seen, NoDup seen ->
    NoDup (uniques E seen ks) /\ (forall k, In k (uniques E seen ks) <-> In k seen \/ (In k ks /\ key_null E k = false)).
  Proof using veq_spec.
    induction ks as [|k ks IH]; simpl; intros seen N; [split; auto; tauto|].
    destruct (key_null E k) eqn:En; simpl.
    - destruct (IH seen N) as [A B]. split; auto. intros x. rewrite B. split; [tauto|]. intros [H|[[->|H] H']]; auto. congruence.
    - destruct (existsb (keq E k) seen) eqn:Ex.
      + destruct (IH seen N) as [A B]. split; auto. intros x. rewrite B. split; [tauto|]. intros [H|[[->|H] H']]; auto.
        apply existsb_exists in Ex. destruct Ex as (y & I & Ey). apply (keq_spec E veq_spec) in Ey. subst y. auto.
      + assert (NI : ~ In k seen).
        { intros I. assert (existsb (keq E k) seen = true); [|congruence]. apply existsb_exists. exists k. split; auto. now apply (keq_spec E veq_spec). }
        destruct (IH (seen ++ [k])) as [A B]; [now apply NoDup_app_one|]. split; auto. intros x. rewrite B, in_app_iff. simpl.
        split; [intros [[H|[H|[]]]|H]; subst; tauto|]. intros [H|[[->|H] H']]; tauto.
  Qed.
  Lemma order_nodup ks : NoDup (uniques E [] ks). Proof using veq_spec. apply uniques_spec. constructor. Qed.
  Lemma order_in ks k : In k (uniques E [] ks) <-> In k ks /\ key_null E k = false.
  Proof using veq_spec. destruct (uniques_spec ks [] (NoDup_nil _)) as [_ H]. rewrite H. simpl. tauto. Qed.

  Lemma arange_self ks : NoDup ks -> map Z.of_nat (seq 0 (length ks)) = map (pos_or_missing E ks) ks.
  Proof using veq_spec.
    intros N. apply (list_eq_nth 0%Z); [now rewrite !map_length, seq_length|]. intros i Hi. rewrite map_length, seq_length in Hi.
    rewrite (nth_map_lt Z.of_nat _ i 0) by (now rewrite seq_length). rewrite seq_nth by auto.
    rewrite (nth_map_lt (pos_or_missing E ks) _ i (nth 0 ks [])) by auto. simpl.
    assert (nth_error ks i = Some (nth i ks (nth 0 ks []))) as Hn by (now apply nth_error_nth').
    unfold pos_or_missing. rewrite (position_nth _ (keq_spec E veq_spec) _ _ _ N Hn). reflexivity.
  Qed.
End Keys.
