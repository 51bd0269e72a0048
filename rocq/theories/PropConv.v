(** C114, C115: the data of Series and numbers, as expressions see them (cheval/utils.py [convert_series],
    api.py [NumberSymbol.assign]). *)
From Coq Require Import ZArith Reals Lra.
From Flocq Require Import Core.Core IEEE754.BinarySingleNaN.
From Verif Require Import Prelude Arith ConvModel.
Local Open Scope nat_scope.
Local Open Scope list_scope.

Lemma each_ok {A B} (f : A -> res B) : forall l v, each f l = Ok v <-> Forall2 (fun a b => f a = Ok b) l v.
Proof.
  induction l as [|a l IH]; intros v; cbn.
  - split; [intros H; injection H as <-; constructor|intros H; now inversion H].
  - destruct (f a) as [b|e] eqn:E; cbn; [|split; [discriminate|intros H; inversion H; congruence]].
    destruct (each f l) as [t|e] eqn:ET; cbn.
    + split.
      * intros H. injection H as <-. constructor; auto. now apply IH.
      * intros H. inversion H as [|? ? ? ? H1 H2]; subst. apply IH in H2. congruence.
    + split; [discriminate|]. intros H. inversion H as [|? ? ? ? H1 H2]; subst. apply IH in H2. discriminate.
Qed.

(** ** Texts *)

(** a text numpy can hold: ASCII, not ending in a zero character *)
Definition plain_text (s : list nat) : Prop := Forall (fun c => c < 128) s /\ last s 1 <> 0.
Definition ascii_text (s : list nat) : Prop := Forall (fun c => c < 128) s.

Lemma ascii_bool s : forallb (fun x => x <? 128) s = true <-> ascii_text s.
Proof. unfold ascii_text. rewrite forallb_forall, Forall_forall. split; intros H c I; apply Nat.ltb_lt; auto. Qed.
Lemma strip_last s : last s 1 <> 0 -> strip_nul s = s.
Proof.
  induction s as [|c [|d t] IH]; intros H; auto.
  - cbn in *. destruct (Nat.eqb_spec c 0); congruence.
  - assert (IH' : strip_nul (d :: t) = d :: t) by (apply IH; exact H). change (match strip_nul (d :: t) with [] => if c =? 0 then [] else [c] | t' => c :: t' end = c :: d :: t). now rewrite IH'.
Qed.
Lemma max_in l x : In x l -> x <= fold_right Nat.max 0 l.
Proof. induction l as [|y l IH]; cbn; intros []; [lia|]. apply IH in H. lia. Qed.
Lemma cut_wide w s : length s <= w -> cut w s = strip_nul s.
Proof. intros H. unfold cut. destruct (Nat.eqb_spec w 0); auto. now rewrite firstn_all2. Qed.

Lemma width_texts ts : ts <> [] -> width (map Text ts) = Ok (fold_right Nat.max 0 (map (@length nat) ts)).
Proof.
  intros N. unfold width. destruct ts as [|t ts]; [congruence|]. cbn [map existsb is_text]. cbn [orb].
  replace (forallb is_text (Text t :: map Text ts)) with true; [f_equal; f_equal; cbn; f_equal; rewrite map_map; reflexivity|].
  symmetry. apply forallb_forall. intros c [<-|I]; auto. apply in_map_iff in I. destruct I as (x & <- & _). reflexivity.
Qed.
Lemma width_ok l w : width l = Ok w -> l <> [] /\ exists ts, l = map Text ts.
Proof.
  unfold width. destruct (existsb is_text l) eqn:X.
  - destruct (forallb is_text l) eqn:A; [|discriminate]. intros _. split; [intros ->; discriminate|].
    clear X. induction l as [|c l IH]; [exists []; reflexivity|]. cbn in A. apply andb_true_iff in A. destruct A as [A1 A2].
    destruct (IH A2) as [ts ->]. destruct c as [s| |]; try discriminate. exists (s :: ts). reflexivity.
  - destruct (forallb _ l); discriminate.
Qed.
Lemma to_bytes_plain w t : plain_text t -> length t <= w -> to_bytes w (Text t) = Ok t.
Proof.
  intros [A B] H. unfold to_bytes. apply ascii_bool in A. rewrite A. now rewrite cut_wide, strip_last.
Qed.
Lemma to_bytes_ok w t : is_ok (to_bytes w (Text t)) = true <-> ascii_text t.
Proof. unfold to_bytes. rewrite <- ascii_bool. destruct (forallb _ t); cbn; split; congruence. Qed.
Lemma is_ok_rmap {A B} (f : A -> B) r : is_ok (rmap f r) = is_ok r. Proof. now destruct r. Qed.
Lemma each_is_ok {A B} (f : A -> res B) l : is_ok (each f l) = true <-> forall a, In a l -> is_ok (f a) = true.
Proof.
  induction l as [|a l IH]; cbn; [split; auto; intros _ x []|].
  destruct (f a) eqn:E; cbn.
  - destruct (each f l); cbn in *; split; auto; try discriminate.
    + intros _ x [<-|I]; [now rewrite E|]. now apply IH.
    + intros H. apply IH. intros x I. auto.
  - split; [discriminate|]. intros H. specialize (H a (or_introl eq_refl)). now rewrite E in H.
Qed.

(** A column of texts reaches expressions as it is: no text is cut, whatever the lengths. *)
Theorem C114_texts_unchanged old ts : ts <> [] -> Forall plain_text ts -> convert_series old (SObj (map Text ts)) = Ok (map ABytes ts).
Proof.
  intros N P. cbn [convert_series]. rewrite width_texts by auto. cbn [rbind]. apply each_ok.
  set (w := fold_right Nat.max 0 (map (@length nat) ts)). assert (W : forall t, In t ts -> length t <= w) by (intros t I; apply max_in; apply in_map_iff; eauto). clearbody w.
  clear N. induction P as [|t ts P1 P IH]; cbn; constructor.
  - rewrite to_bytes_plain; auto. apply W. simpl. auto.
  - apply IH. intros x I. apply W. simpl. auto.
Qed.
(** A column of objects is accepted exactly when it is a column of ASCII texts, at least one: with a missing value
    or anything else among them it is rejected. *)
Theorem C114_objects_accepted old l : is_ok (convert_series old (SObj l)) = true <-> l <> [] /\ exists ts, l = map Text ts /\ Forall ascii_text ts.
Proof.
  cbn [convert_series]. destruct (width l) as [w|e] eqn:W; cbn [rbind].
  - apply width_ok in W. destruct W as (N & ts & ->). rewrite each_is_ok. split.
    + intros H. split; auto. exists ts. split; auto. apply Forall_forall. intros t I. apply (to_bytes_ok w). rewrite <- (is_ok_rmap ABytes). apply H. apply in_map_iff. eauto.
    + intros (_ & ts' & E & A) c I. apply in_map_iff in I. destruct I as (t & <- & I). rewrite is_ok_rmap. apply to_bytes_ok. rewrite Forall_forall in A. apply A.
      assert (ts = ts'). { clear - E. revert ts' E. induction ts as [|a ts IH]; intros [|b ts'] E; cbn in E; try discriminate; auto. injection E as -> E. f_equal. auto. }
      now subst.
  - split; [discriminate|]. intros (N & ts & -> & _). destruct ts as [|t ts]; [now elim N|]. rewrite width_texts in W by discriminate. discriminate.
Qed.

(** A categorical of texts: every row with a category gets the text of its category.  A missing value gets the first
    letters of "nan", as many as the longest category has (with pandas up to 1.2; with later versions it is rejected). *)
Theorem C114_categories old ts codes : ts <> [] -> Forall plain_text ts -> (forall k, In (Some k) codes -> k < length ts) ->
  (convert_series old (SCat (LObj (map Text ts)) codes) =
   if old || forallb (fun o => match o with Some _ => true | None => false end) codes
   then Ok (map (fun o => ABytes (match o with Some k => nth k ts [] | None =>
      let longest := fold_right Nat.max 0 (map (@length nat) ts) in if longest =? 0 then nan_text else firstn longest nan_text end)) codes)
   else Err ValueError).
Proof.
  intros N P K. cbn [convert_series]. rewrite width_texts by auto. cbn [rbind].
  set (w := fold_right Nat.max 0 (map (@length nat) ts)). assert (W : forall t, In t ts -> length t <= w) by (intros t I; apply max_in; apply in_map_iff; eauto). clearbody w.
  replace (each (to_bytes w) (map Text ts)) with (Ok ts).
  2:{ symmetry. apply each_ok. clear - P W. induction P as [|t ts P1 P IH]; cbn; constructor.
      - apply to_bytes_plain; auto. apply W. simpl. auto.
      - apply IH. intros x I. apply W. simpl. auto. }
  cbn [rbind]. rewrite Bool.orb_comm. destruct (old || _); [|reflexivity]. f_equal. apply map_ext. intros [k|]; auto. f_equal.
  unfold cut. destruct (w =? 0) eqn:E; [reflexivity|]. destruct w as [|[|[|w]]]; [discriminate|reflexivity|reflexivity|]. cbn [firstn]. destruct w; reflexivity.
Qed.

(** ** Integers *)
Theorem C114_integers_unchanged old l : convert_series old (SInt (map Some l)) = Ok (map AInt l).
Proof.
  cbn [convert_series]. replace (forallb _ (map Some l)) with true; [now rewrite map_map|].
  symmetry. apply forallb_forall. intros o I. apply in_map_iff in I. destruct I as (z & <- & _). reflexivity.
Qed.
Lemma float_exact z : (Z.abs z <= 2 ^ 53)%Z -> B2R (float_of z) = IZR z /\ is_finite (float_of z) = true.
Proof.
  intros H. unfold float_of. pose proof (binary_normalize_correct 53 1024 prec53_gt_0 prec53_lt_1024 mode_NE z 0 false) as C. cbv zeta in C.
  assert (G : generic_format radix2 (SpecFloat.fexp 53 1024) (F2R (Float radix2 z 0))).
  { destruct (Z.eq_dec (Z.abs z) (2 ^ 53)) as [Q|Q].
    - assert (z = 2 ^ 53 \/ z = - 2 ^ 53)%Z as [-> | ->] by lia.
      + replace (F2R (Float radix2 (2 ^ 53) 0)) with (bpow radix2 53) by (rewrite <- (F2R_bpow radix2 53); rewrite (F2R_change_exp radix2 0 1 53) by lia; reflexivity).
        apply generic_format_bpow. vm_compute. discriminate.
      + rewrite F2R_Zopp. apply generic_format_opp.
        replace (F2R (Float radix2 (2 ^ 53) 0)) with (bpow radix2 53) by (rewrite <- (F2R_bpow radix2 53); rewrite (F2R_change_exp radix2 0 1 53) by lia; reflexivity).
        apply generic_format_bpow. vm_compute. discriminate.
    - apply generic_format_FLT. exists (Float radix2 z 0); [reflexivity|cbn [Fnum]; change (Zpower radix2 53) with (2 ^ 53)%Z; lia|cbn [Fexp]; vm_compute; discriminate]. }
  rewrite round_generic in C; [|apply valid_rnd_round_mode|exact G].
  assert (V : F2R (Float radix2 z 0) = IZR z) by (unfold F2R; cbn; ring).
  rewrite V in C. rewrite Rlt_bool_true in C; [tauto|].
  rewrite <- abs_IZR. apply Rle_lt_trans with (IZR (2 ^ 53)); [now apply IZR_le|].
  change (IZR (2 ^ 53)) with (bpow radix2 53). apply bpow_lt. reflexivity.
Qed.
(** With a missing value among them, integers become floats: the same numbers up to 2^53, and NaN for a missing one. *)
Theorem C114_integers_with_missing old l : In None l -> exists v, convert_series old (SInt l) = Ok v /\ length v = length l /\
  forall r, r < length l -> match nth r l None with
    | Some z => (Z.abs z <= 2 ^ 53)%Z -> exists x, nth_error v r = Some (AFloat x) /\ B2R x = IZR z /\ is_finite x = true
    | None => exists x, nth_error v r = Some (AFloat x) /\ BinarySingleNaN.is_nan x = true
    end.
Proof.
  intros I. cbn [convert_series]. replace (forallb _ l) with false.
  2:{ symmetry. apply Bool.not_true_iff_false. intros H. rewrite forallb_forall in H. specialize (H None I). discriminate. }
  eexists. split; [reflexivity|]. split; [now rewrite map_length|]. intros r Hr. rewrite nth_error_map.
  destruct (nth_error l r) as [o|] eqn:Q; [|apply nth_error_None in Q; lia]. rewrite (nth_error_nth _ _ _ Q). cbn [option_map].
  destruct o as [z|]; [intros HZ|]; eexists; (split; [reflexivity|]); [now apply float_exact|reflexivity].
Qed.

(** ** C114 itself, "data reaches expressions as it was given, and a missing value equals no value", is false twice.
    A missing answer counts as "n"; and an integer is another number because a value elsewhere is missing. *)
Theorem C114_missing_equals_text_refuted :
  exists cats codes v, convert_series true (SCat (LObj (map Text cats)) codes) = Ok v /\ Forall plain_text cats /\
    nth_error codes 1 = Some None /\ exists k, nth_error codes 2 = Some (Some k) /\ nth_error v 1 = nth_error v 2.
Proof.
  exists [[121]; [110]], [Some 0; None; Some 1], [ABytes [121]; ABytes [110]; ABytes [110]].
  split; [reflexivity|]. split; [repeat constructor; try lia; cbn; discriminate|]. split; [reflexivity|]. exists 1. split; reflexivity.
Qed.
Theorem C114_integer_changed_refuted :
  exists z x y, convert_series true (SInt [Some z; None]) = Ok [AFloat x; y] /\ B2R x <> IZR z.
Proof.
  exists 9007199254740993%Z, (float_of 9007199254740993), (AFloat B754_nan). split; [reflexivity|].
  assert (E : B2SF (float_of 9007199254740993) = B2SF (float_of 9007199254740992)) by (vm_compute; reflexivity).
  apply B2SF_inj in E. rewrite E. destruct (float_exact 9007199254740992) as [-> _]; [vm_compute; discriminate|].
  intros H. apply eq_IZR in H. discriminate.
Qed.
Print Assumptions C114_texts_unchanged.
Print Assumptions C114_objects_accepted.
Print Assumptions C114_categories.
Print Assumptions C114_integers_unchanged.
Print Assumptions C114_integers_with_missing.
Print Assumptions C114_missing_equals_text_refuted.
Print Assumptions C114_integer_changed_refuted.

(** The hypotheses are met: "car", "", "walk". *)
Example C114_hypotheses_met : Forall plain_text [[99; 97; 114]; []; [119; 97; 108; 107]] /\
  convert_series false (SObj (map Text [[99; 97; 114]; []; [119; 97; 108; 107]])) = Ok [ABytes [99; 97; 114]; ABytes []; ABytes [119; 97; 108; 107]] /\
  convert_series true (SCat (LObj (map Text [[99; 97; 114]; [98]])) [Some 1; None; Some 0]) = Ok [ABytes [98]; ABytes nan_text; ABytes [99; 97; 114]] /\
  is_ok (convert_series true (SObj [Text [98]; Missing])) = false.
Proof. split; [repeat constructor; try lia; cbn; discriminate|]. repeat split. Qed.

(** ** C115: numbers.  "A scalar variable, of number, boolean, or text type" (model.py 251): integers (up to 2^53 exactly), floats
    and booleans are accepted as the number they are; *)
Theorem C115_numbers pf : (forall z, (Z.abs z <= 2 ^ 53)%Z -> exists x, number_value pf (PyInt z) = Ok x /\ B2R x = IZR z /\ is_finite x = true) /\
  (forall x, number_value pf (PyFloat x) = Ok x) /\
  (forall b : bool, exists x, number_value pf (PyBool b) = Ok x /\ B2R x = (if b then 1 else 0)%R).
Proof.
  split; [|split; [reflexivity|]].
  - intros z H. exists (float_of z). split; [|now apply float_exact]. unfold number_value.
    assert (T : (2 ^ 53 <? 2 ^ 1024 - 2 ^ 970)%Z = true) by (vm_compute; reflexivity). apply Z.ltb_lt in T.
    destruct (Z.ltb_spec (Z.abs z) (2 ^ 1024 - 2 ^ 970)); [reflexivity|exfalso; lia].
  - intros b. exists (float_of (if b then 1 else 0)). split; [reflexivity|]. destruct b; apply float_exact; vm_compute; discriminate.
Qed.
(** but a text is rejected, unless it spells a number. *)
Theorem C115_texts_refuted pf s : pf s = None -> number_value pf (PyText s) = Err ValueError.
Proof. intros H. unfold number_value. now rewrite H. Qed.
Print Assumptions C115_numbers.
Print Assumptions C115_texts_refuted.
Example C115_hypotheses_met : let pf s := match s with [49] => Some (float_of 1) | _ => None end in
  number_value pf (PyText [99; 97; 114]) = Err ValueError /\ number_value pf (PyText [49]) = number_value pf (PyBool true) /\ number_value pf (PyInt 1) = Ok (float_of 1).
Proof. repeat split. Qed.

(** ** Converting some of the rows (of a subset of the decision units) *)
Definition rows_of {A} (ix : list nat) (d : A) (l : list A) : list A := map (fun r => nth r l d) ix.
Definition select_rows (ix : list nat) (s : series) : series :=
  match s with
  | SInt l => SInt (rows_of ix None l) | SFloat l => SFloat (rows_of ix B754_nan l) | SBool l => SBool (rows_of ix false l)
  | SCat cats codes => SCat cats (rows_of ix None codes) | SObj l => SObj (rows_of ix Missing l) | s => s
  end.
Definition row_count (s : series) : nat :=
  match s with SInt l => length l | SFloat l => length l | SBool l => length l | SCat _ codes => length codes | SObj l => length l | _ => 0 end.
(** integers with missing values *)
Definition mixed_integers (s : series) : Prop := exists l, s = SInt l /\ In None l.

Lemma rows_map {A B} (f : A -> B) ix (l : list A) d d' : (forall r, In r ix -> r < length l) -> map f (rows_of ix d l) = rows_of ix d' (map f l).
Proof.
  intros H. unfold rows_of. rewrite map_map. apply map_ext_in. intros r I. specialize (H r I).
  rewrite (nth_indep (map f l) d' (f d)) by now rewrite map_length. now rewrite map_nth.
Qed.
Lemma rows_each {A B} (f : A -> res B) ix (l : list A) v d d' : (forall r, In r ix -> r < length l) -> each f l = Ok v -> each f (rows_of ix d l) = Ok (rows_of ix d' v).
Proof.
  intros H E. apply each_ok in E. apply each_ok. unfold rows_of. induction ix as [|r ix IH]; cbn; constructor.
  - specialize (H r (or_introl eq_refl)). clear IH. revert r H. induction E as [|a b l v E1 E IH]; intros [|r] H; cbn in *; try lia; auto. apply IH. lia.
  - apply IH. intros x I. apply H. simpl. auto.
Qed.
Theorem C114_subset_of_rows old ix s v : ix <> [] -> (forall r, In r ix -> r < row_count s) -> ~ mixed_integers s ->
  convert_series old s = Ok v -> convert_series old (select_rows ix s) = Ok (rows_of ix (AInt 0) v).
Proof.
  intros N H M C. destruct s as [l|l|l|[cats|cats] codes|l| |]; cbn [select_rows row_count] in *; try discriminate.
  - cbn [convert_series] in *. assert (A : forall o, In o l -> o <> None) by (intros o I ->; apply M; exists l; auto).
    replace (forallb _ l) with true in C by (symmetry; apply forallb_forall; intros [z|] I; auto; now apply A in I).
    replace (forallb _ (rows_of ix None l)) with true.
    2:{ symmetry. apply forallb_forall. intros o I. apply in_map_iff in I. destruct I as (r & <- & I). destruct (nth r l None) eqn:Q; auto. exfalso. apply (A (nth r l None)); auto. apply nth_In. auto. }
    injection C as <-. f_equal. apply rows_map. auto.
  - injection C as <-. cbn [convert_series]. f_equal. apply rows_map. auto.
  - injection C as <-. cbn [convert_series]. f_equal. apply rows_map. auto.
  - cbn [convert_series] in *. destruct (width cats) as [w|]; [|discriminate]. cbn [rbind] in *. destruct (each (to_bytes w) cats) as [ts|]; [|discriminate]. cbn [rbind] in *.
    destruct (forallb _ codes || old) eqn:B; [|discriminate]. injection C as <-.
    replace (forallb _ (rows_of ix None codes) || old) with true; [f_equal; now apply rows_map|].
    symmetry. destruct old; [apply Bool.orb_true_r|]. rewrite Bool.orb_false_r in *. apply forallb_forall. rewrite forallb_forall in B. intros o I. apply in_map_iff in I. destruct I as (r & <- & I). apply B, nth_In. auto.
  - cbn [convert_series] in *. eapply rows_each; eauto.
  - cbn [convert_series] in *. destruct (width l) as [w|] eqn:W; [|discriminate]. cbn [rbind] in C. pose proof W as W0. apply width_ok in W. destruct W as (NL & ts & ->).
    rewrite width_texts in W0 by (intros ->; now apply NL). injection W0 as <-. rewrite map_length in H.
    replace (rows_of ix Missing (map Text ts)) with (map Text (rows_of ix [] ts)) by (apply rows_map; auto).
    rewrite width_texts by (destruct ix; [congruence|discriminate]). cbn [rbind].
    apply each_ok in C. apply each_ok. unfold rows_of in *.
    set (w := fold_right Nat.max 0 (map (@length nat) ts)) in *. set (w' := fold_right Nat.max 0 (map (@length nat) (map (fun r => nth r ts []) ix))).
    assert (WW : forall r, In r ix -> length (nth r ts []) <= w /\ length (nth r ts []) <= w').
    { intros r I. split; apply max_in; apply in_map_iff; eexists; (split; [reflexivity|]); [apply nth_In; auto|apply in_map_iff; eauto]. }
    clearbody w w'. clear N M. induction ix as [|r ix IH]; cbn; constructor.
    + destruct (WW r (or_introl eq_refl)) as [W1 W2]. specialize (H r (or_introl eq_refl)). clear IH. 
      assert (Q : rmap ABytes (to_bytes w (Text (nth r ts []))) = Ok (nth r v (AInt 0))).
      { clear W1 W2 WW. remember (map Text ts) as l eqn:EL. revert ts EL r H NL. induction C as [|a b l v E1 E IH]; intros [|t ts] EL r H NL; cbn in *; try discriminate; try lia. injection EL as -> ->. destruct r as [|r]; auto.
        apply IH; auto; [lia|]. destruct ts; [cbn in H; lia|discriminate]. }
      rewrite <- Q. unfold to_bytes. rewrite !cut_wide by (rewrite ?map_length in *; auto; lia). reflexivity.
    + apply IH; intros x I; [apply H|apply WW]; simpl; auto.
Qed.
Print Assumptions C114_subset_of_rows.
(** Of integers with a missing value, a subset without it is read as integers, not as floats. *)
Example C114_subset_of_integers : convert_series true (SInt [Some 3%Z; None]) = Ok [AFloat (float_of 3); AFloat B754_nan] /\
  convert_series true (select_rows [0] (SInt [Some 3%Z; None])) = Ok [AInt 3].
Proof. repeat split. Qed.
