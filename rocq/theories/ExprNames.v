(** Substitution names, the '@' filter, dict literals. *)
From Coq Require Import Ascii DecimalString Decimal DecimalNat Permutation.
From Verif Require Import Prelude DictProofs ExprModel SpecExpr ExprProofs ExprUses.
Local Open Scope string_scope.
Local Open Scope nat_scope.
Local Open Scope list_scope.

(** ** Strings as lists of characters *)
Fixpoint chars (s : string) : list ascii :=
  match s with EmptyString => [] | String c t => c :: chars t end.
Lemma chars_inj a b : chars a = chars b -> a = b.
Proof.
  revert b; induction a as [|c a IH]; intros [|d b]; simpl; try discriminate; auto.
  intros H. injection H as -> H. f_equal. auto.
Qed.
Lemma chars_app a b : chars (a ++ b)%string = chars a ++ chars b.
Proof. induction a as [|c a IH]; simpl; congruence. Qed.

Definition is_digit (c : ascii) : bool :=
  let n := nat_of_ascii c in andb (48 <=? n) (n <=? 57).
(** the last character is a decimal digit *)
Definition ends_in_digit (s : string) : bool :=
  match rev (chars s) with c :: _ => is_digit c | [] => false end.

Lemma dec_digits n : forallb is_digit (chars (dec n)) = true.
Proof.
  unfold dec, NilZero.string_of_uint.
  assert (H : forall d, forallb is_digit (chars (NilEmpty.string_of_uint d)) = true).
  { induction d; simpl; auto. }
  destruct (Nat.to_uint n) eqn:E; try apply (H (_ _)); auto; rewrite <- E; apply H.
Qed.

Fixpoint drop_digits (l : list ascii) : list ascii :=
  match l with c :: t => if is_digit c then drop_digits t else l | [] => [] end.
Lemma drop_digits_app l m : forallb is_digit l = true -> drop_digits (l ++ m) = drop_digits m.
Proof. induction l as [|c l IH]; simpl; auto. destruct (is_digit c); simpl; [auto|discriminate]. Qed.
Lemma forallb_rev {A} (p : A -> bool) l : forallb p (rev l) = forallb p l.
Proof.
  induction l as [|a l IH]; simpl; auto. rewrite forallb_app, IH. simpl. rewrite andb_true_r. apply andb_comm.
Qed.
Lemma no_digit_drop a n : ends_in_digit a = false -> drop_digits (rev (chars (a ++ dec n)%string)) = rev (chars a).
Proof.
  intros H. rewrite chars_app, rev_app_distr, drop_digits_app by (rewrite forallb_rev; apply dec_digits).
  unfold ends_in_digit in H. destruct (rev (chars a)) as [|c l]; auto. simpl. now rewrite H.
Qed.
Lemma make_sub_inj2 a b i j : ends_in_digit a = false -> ends_in_digit b = false ->
  make_sub a i = make_sub b j -> a = b /\ i = j.
Proof.
  intros Ha Hb H. unfold make_sub in H. apply append_inj_l in H.
  assert (E : a = b).
  { apply chars_inj. rewrite <- (rev_involutive (chars a)), <- (rev_involutive (chars b)).
    rewrite <- (no_digit_drop a i Ha), <- (no_digit_drop b j Hb). now rewrite H. }
  subst b. split; auto. apply append_inj_l in H. now apply dec_inj.
Qed.
Lemma make_sub_dict a i j : make_sub a i <> dict_sub j.
Proof. unfold make_sub, dict_sub. simpl. intros H. discriminate H. Qed.

(** ** The transformer allots one lookup to each chained use *)
Section Count.
  Context {L : Type} (nfn : string -> bool).
  Notation expr := (expr L).
  Notation vst := (@vst L).
  Notation visit := (@visit L nfn).

  Definition total (d : dict string (dict string (@chaint L))) : nat := list_sum (map (fun p => length (snd p)) d).
  Lemma total_app a b : total (a ++ b) = total a + total b.
  Proof. unfold total. rewrite map_app. apply list_sum_app. Qed.
  Lemma total_cons p d : total (p :: d) = length (snd p) + total d.
  Proof. reflexivity. Qed.
  Lemma total_dset d k l o : NoDup (dkeys d) -> o = match dget String.eqb d k with Some o => o | None => [] end ->
    total (dset String.eqb d k l) + length o = total d + length l.
  Proof.
    intros N ->. revert N. induction d as [|[k' o] d IH]; intros N; simpl.
    - rewrite total_cons. cbn [snd length]. change (total []) with 0. lia.
    - inversion N; subst. destruct (String.eqb k k'); rewrite !total_cons; cbn [snd]; [lia|]. specialize (IH H2). lia.
  Qed.

  Definition counts {A} (st : vst) (r : vst * res A) (n : nat) : Prop :=
    wf st -> is_ok (snd r) = true -> total (v_ch (fst r)) = total (v_ch st) + n.
  Lemma counts_chain st name ct : counts st (add_chain (L:=L) st name ct) 1.
  Proof.
    intros W O. destruct (mem name (v_simple st)) eqn:M.
    { unfold add_chain in O. rewrite M in O. discriminate. }
    apply mem_false in M. rewrite (add_chain_ok st name ct W M). simpl.
    pose proof (total_dset (v_ch st) name (old_lookups st name ++ [(make_sub name (length (old_lookups st name)), ct)])
      (old_lookups st name) (proj1 W) eq_refl) as T.
    rewrite app_length in T. cbn [length] in T.
    apply (proj1 (Nat.add_cancel_r _ _ (length (old_lookups st name)))). refine (eq_trans T _). ring.
  Qed.
  Lemma counts_list es : Forall (fun e => forall st, counts st (visit e st) (length (chain_uses e))) es ->
    forall st, counts st (visit_list visit es st) (length (concat (map chain_uses es))).
  Proof.
    induction 1 as [|e t He Ht IH]; intros st W O; simpl in *; [lia|].
    specialize (He st W). destruct (visit e st) as [st1 [e'|x]] eqn:E1; [|discriminate].
    destruct (visit_inv _ _ _ _ _ E1 W) as (W1 & _). specialize (IH st1 W1).
    destruct (visit_list visit t st1) as [st2 [t'|x]]; simpl in *; [|discriminate].
    rewrite app_length. specialize (He eq_refl). specialize (IH eq_refl). lia.
  Qed.
  Lemma counts_kws es : Forall (fun kv => forall st, counts st (visit (snd kv) st) (length (chain_uses (snd kv)))) es ->
    forall st, counts st (visit_kws visit es st) (length (concat (map (fun kv => chain_uses (snd kv)) es))).
  Proof.
    induction 1 as [|[k e] t He Ht IH]; intros st W O; simpl in *; [lia|].
    specialize (He st W). destruct (visit e st) as [st1 [e'|x]] eqn:E1; [|discriminate].
    destruct (visit_inv _ _ _ _ _ E1 W) as (W1 & _). specialize (IH st1 W1).
    destruct (visit_kws visit t st1) as [st2 [t'|x]]; simpl in *; [|discriminate].
    rewrite app_length. specialize (He eq_refl). specialize (IH eq_refl). lia.
  Qed.
  Lemma counts_bind {A B} (st : vst) (r : vst * res A) (k : A -> vst -> vst * res B) n m :
    counts st r n -> (wf st -> wf (fst r)) -> (forall a st1, counts st1 (k a st1) m) ->
    counts st (bind_st r k) (n + m).
  Proof.
    intros H1 W1 H2 W O. destruct r as [st1 [a|x]]; simpl in *; [|discriminate].
    specialize (H1 W eq_refl). specialize (H2 a st1 (W1 W) O). simpl in H1. lia.
  Qed.
  Lemma counts_pure {A B} (st : vst) (r : vst * res A) (k : A -> res B) n :
    counts st r n -> counts st (bind_st r (fun a st1 => (st1, k a))) n.
  Proof. intros H W O. destruct r as [st1 [a|x]]; simpl in *; [|discriminate]. now apply H. Qed.
  Lemma counts_0 {A} st (r : res A) : counts st (st, r) 0.
  Proof. intros W O. simpl. lia. Qed.
  Lemma counts_err {A} st x n : counts (A:=A) st (st, Err x) n.
  Proof. intros W O. discriminate. Qed.

  Lemma visit_counts e : forall st, counts st (visit e st) (length (chain_uses e)).
  Proof.
    assert (VW : forall e st, wf st -> wf (fst (visit e st))).
    { intros e0 st W. destruct (visit e0 st) as [st' r] eqn:E. now apply (visit_inv _ _ _ _ _ E). }
    assert (LW : forall l st, wf st -> wf (fst (visit_list visit l st))).
    { intros e0 st W. destruct (visit_list visit e0 st) as [st' r] eqn:E. now apply (visit_list_inv _ _ _ _ _ E). }
    induction e as [x|n|s|s|s|v a IHv|f args kws IHf IHargs IHkws|op e IHe|op vs IHvs|l ops rs IHl IHrs|op l r IHl IHr|ks vs IHks IHvs|k|k l IHl] using expr_ind'; intros st;
      cbn [ExprModel.visit chain_uses]; try apply counts_0; try apply counts_err.
    - unfold visit_name. destruct (nan_like x); [apply counts_0|]. destruct (mem x (v_allch st)); [apply counts_err|].
      intros W O. simpl. lia.
    - unfold base. pose proof (attr_name_spec (EAttr v a)) as A.
      destruct (attr_name (EAttr v a)) as [[name c]|x]; [|apply counts_err].
      rewrite A. apply counts_chain.
    - assert (G : counts st (bind_st (visit f st) (fun f' st1 =>
            bind_st (visit_list visit args st1) (fun args' st2 =>
            bind_st (visit_kws visit kws st2) (fun kws' st3 => (st3, Ok (ECall f' args' kws'))))))
            (length (chain_uses f ++ concat (map chain_uses args) ++ concat (map (fun kv => chain_uses (snd kv)) kws)))).
      { rewrite !app_length. apply counts_bind; [apply IHf|apply VW|].
        intros f' st1. apply counts_bind; [now apply counts_list|apply LW|].
        intros a' st2. apply (counts_pure st2 (visit_kws visit kws st2) (fun kws' => Ok (ECall f' a' kws'))). now apply counts_kws. }
      destruct f; try exact G; cbn [ExprModel.visit chain_uses].
      + destruct (nfn id); [|apply counts_err].
        apply (counts_pure st (visit_list visit args st) (fun args' => Ok (ECall (EName id) args' kws))). now apply counts_list.
      + unfold visit_method. pose proof (attr_name_spec (EAttr f attr)) as A.
        destruct (attr_name (EAttr f attr)) as [[name c]|x] eqn:E; [|apply counts_err].
        destruct c as [|fn c]; [apply counts_err|].
        destruct (negb (supported_agg fn)); [apply counts_err|]. destruct (negb (length kws =? 0)); [apply counts_err|].
        destruct args; [apply counts_err|].
        assert (B : base f = [name]).
        { unfold base. simpl in A. destruct (dotted f) as [[y p]|]; simpl in A; [|discriminate]. injection A as -> _. reflexivity. }
        rewrite B. apply counts_chain.
    - destruct op; try apply counts_err; try apply counts_0.
      apply (counts_pure st (visit e st) (fun a' => Ok (EUn Invert a'))). auto.
    - apply (counts_pure st (visit_list visit vs st) (fun vs' => bool_tree op vs')). now apply counts_list.
    - rewrite app_length. apply counts_bind; [apply IHl|apply VW|].
      intros l' st1. apply (counts_pure st1 (visit_list visit rs st1) (fun rs' => cmp_tree l' rs' ops)). now apply counts_list.
    - rewrite app_length. apply counts_bind; [apply IHl|apply VW|].
      intros l' st1. apply (counts_pure st1 (visit r st1) (fun r' => Ok (EBin op l' r'))). auto.
    - unfold visit_dict. destruct (dict_entries ks vs []); [|apply counts_err]. intros W O. simpl. lia.
    - apply (counts_pure st (visit_list visit l st) (fun l' => Ok (EGen k l'))). now apply counts_list.
  Qed.

  (** ** Distinct substitution names *)
  Definition sub_names (ch : dict string (dict string (@chaint L))) : list string :=
    concat (map (fun p => dkeys (snd p)) ch).
  Lemma sub_names_length ch : length (sub_names ch) = total ch.
  Proof.
    unfold sub_names, total. induction ch as [|p ch IH]; simpl; auto. rewrite app_length, IH.
    unfold dkeys. rewrite map_length. reflexivity.
  Qed.
  Lemma nodup_app {A} (a b : list A) : NoDup a -> NoDup b -> (forall x, In x a -> In x b -> False) -> NoDup (a ++ b).
  Proof.
    intros Na Nb H. induction a as [|x a IH]; simpl; auto. inversion Na; subst. constructor.
    - intros I. apply in_app_or in I. destruct I; [auto|]. apply (H x); simpl; auto.
    - apply IH; auto. intros y I J. apply (H y); simpl; auto.
  Qed.
  Lemma wf_sub_names (st : vst) : wf st -> (forall x, In x (dkeys (v_ch st)) -> ends_in_digit x = false) ->
    NoDup (sub_names (v_ch st)).
  Proof.
    intros (W1 & W2 & _). unfold sub_names. induction (v_ch st) as [|[n l] d IH]; intros D; simpl; [constructor|].
    simpl in W1. inversion W1; subst. apply nodup_app.
    - rewrite (W2 n l) by (left; auto). apply seq_nodup, make_sub_inj.
    - apply IH; auto. intros; apply W2; right; auto. intros; apply D; simpl; auto.
    - intros x I J. rewrite (W2 n l) in I by (left; auto). apply in_map_iff in I. destruct I as (i & <- & _).
      apply in_concat_map in J. destruct J as ([m k] & Hm & J). simpl in J.
      rewrite (W2 m k) in J by (right; auto). apply in_map_iff in J. destruct J as (j & E & _).
      apply make_sub_inj2 in E.
      + destruct E as [-> _]. apply H1. eapply in_keys; eauto.
      + apply D. simpl. right. eapply in_keys; eauto.
      + apply D. simpl. auto.
  Qed.
  Lemma wf_all_subs (st : vst) : wf st -> (forall x, In x (dkeys (v_ch st)) -> ends_in_digit x = false) ->
    NoDup (sub_names (v_ch st) ++ dkeys (v_dl st)).
  Proof.
    intros W D. apply nodup_app.
    - now apply wf_sub_names.
    - destruct W as (_ & _ & W3). rewrite W3. apply seq_nodup, dict_sub_inj.
    - intros x I J. destruct W as (_ & W2 & W3). rewrite W3 in J. apply in_map_iff in J. destruct J as (j & <- & _).
      apply in_concat_map in I. destruct I as ([m k] & Hm & I). simpl in I. rewrite (W2 m k Hm) in I.
      apply in_map_iff in I. destruct I as (i & E & _). now apply make_sub_dict in E.
  Qed.
End Count.

(** ** The '@' filter *)
Definition count_at (s : string) : nat := length (filter (fun c => Ascii.eqb c "@"%char) (chars s)).
Lemma split_at_length s : length (split_at s) = S (count_at s).
Proof.
  unfold count_at. induction s as [|c s IH]; simpl; auto.
  destruct (Ascii.eqb c "@"%char); simpl; [now rewrite IH|].
  destruct (split_at s); simpl in *; [discriminate|auto].
Qed.
Lemma split_at_none s : count_at s = 0 -> split_at s = [s].
Proof.
  unfold count_at. induction s as [|c s IH]; simpl; auto.
  destruct (Ascii.eqb c "@"%char); simpl; [discriminate|]. intros H. now rewrite IH.
Qed.
Lemma split_at_one a b : count_at a = 0 -> count_at b = 0 -> split_at (a ++ "@" ++ b)%string = [a; b].
Proof.
  intros Ha Hb. induction a as [|c a IH]; simpl.
  - now rewrite split_at_none.
  - unfold count_at in Ha. simpl in Ha. destruct (Ascii.eqb c "@"%char); simpl in Ha; [discriminate|].
    simpl in IH. now rewrite IH.
Qed.

(** [t] is [s] without the white space at both ends *)
Definition stripped (s t : string) : Prop :=
  exists l r, s = (l ++ t ++ r)%string /\ forallb is_space (chars l) = true /\ forallb is_space (chars r) = true /\
    (forall c u, t = String c u -> is_space c = false) /\
    (forall c u, t = (u ++ String c "")%string -> is_space c = false).

Lemma lstrip_spec s : exists l, s = (l ++ lstrip s)%string /\ forallb is_space (chars l) = true /\
  (forall c u, lstrip s = String c u -> is_space c = false).
Proof.
  induction s as [|c s (l & E & A & B)]; simpl.
  - exists ""%string. repeat split; auto. discriminate.
  - destruct (is_space c) eqn:S.
    + exists (String c l). simpl. rewrite S. repeat split; auto. now rewrite <- E.
    + exists ""%string. repeat split; auto. intros d u H. injection H as <- _. exact S.
Qed.
Lemma app_string_nil_r s : (s ++ "")%string = s.
Proof. induction s; simpl; congruence. Qed.
Lemma rstrip_spec s : exists r, s = (rstrip s ++ r)%string /\ forallb is_space (chars r) = true /\
  (forall c u, rstrip s = (u ++ String c "")%string -> is_space c = false).
Proof.
  induction s as [|c s (r & E & A & B)]; simpl.
  - exists ""%string. repeat split; auto. intros c [|d u]; discriminate.
  - destruct (rstrip s) as [|d t] eqn:R.
    + destruct (is_space c) eqn:S.
      * exists (String c r). simpl. rewrite S. simpl in E. subst r. repeat split; auto.
      * exists r. simpl in *. subst r. repeat split; auto. intros d [|e u] H; simpl in H.
        { injection H as <-. exact S. }
        { injection H as -> H. destruct u; discriminate. }
    + exists r. simpl in *. repeat split; auto; [congruence|].
      intros e [|f u] H; simpl in H; [injection H as -> H; discriminate|].
      injection H as -> H. apply (B e u). exact H.
Qed.
Lemma rstrip_head s c u : rstrip s = String c u -> exists v, s = String c v.
Proof.
  destruct s as [|d s]; simpl; [discriminate|]. destruct (rstrip s); [destruct (is_space d); [discriminate|]|];
    intros H; injection H as -> _; eauto.
Qed.
Lemma strip_spec s : stripped s (strip s).
Proof.
  unfold strip. destruct (lstrip_spec s) as (l & E1 & A1 & B1). destruct (rstrip_spec (lstrip s)) as (r & E2 & A2 & B2).
  exists l, r. repeat split; auto.
  - rewrite <- E2. exact E1.
  - intros c u H. apply rstrip_head in H. destruct H as [v H]. exact (B1 c v H).
Qed.
