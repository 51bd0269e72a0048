(** How often each symbol is used with attributes, and the names these usages get (C36). *)
From Coq Require Import Ascii DecimalString Decimal DecimalNat.
From Verif Require Import Prelude DictProofs ExprModel SpecExpr ExprProofs ExprUses ExprMeaning ExprNames.
Local Open Scope string_scope.
Local Open Scope nat_scope.
Local Open Scope list_scope.

Section PerSymbol.
  Context {L : Type} (nfn : string -> bool) (y : string).
  Notation expr := (expr L).
  Notation vst := (@vst L).
  Notation visit := (@visit L nfn).

  Definition used (d : dict string (dict string (@chaint L))) : nat := match dget String.eqb d y with Some l => length l | None => 0 end.
  Definition cnt (l : list string) : nat := count_occ string_dec l y.
  Lemma cnt_app a b : cnt (a ++ b) = cnt a + cnt b. Proof. apply count_occ_app. Qed.
  Definition ycounts {A} (st : vst) (r : vst * res A) (n : nat) : Prop :=
    wf st -> is_ok (snd r) = true -> used (v_ch (fst r)) = used (v_ch st) + n.
  Lemma ycounts_chain st name ct : ycounts st (add_chain (L:=L) st name ct) (cnt [name]).
  Proof.
    intros W O. destruct (mem name (v_simple st)) eqn:M.
    { unfold add_chain in O. rewrite M in O. discriminate. }
    apply mem_false in M. rewrite (add_chain_ok st name ct W M). cbn [fst v_ch].
    unfold used. unfold cnt. cbn [count_occ]. destruct (string_dec name y) as [->|N].
    - rewrite (dget_dset _ String.eqb_eq), String.eqb_refl. unfold old_lookups. rewrite app_length. cbn [length]. destruct (dget String.eqb (v_ch st) y); cbn [length]; simpl; lia.
    - rewrite (dget_dset _ String.eqb_eq). destruct (String.eqb_spec y name); [congruence|lia].
  Qed.
  Lemma ycounts_list es : Forall (fun e => forall st, ycounts st (visit e st) (cnt (chain_uses e))) es ->
    forall st, ycounts st (visit_list visit es st) (cnt (concat (map chain_uses es))).
  Proof.
    induction 1 as [|e t He Ht IH]; intros st W O; simpl in *; [unfold cnt; simpl; lia|].
    specialize (He st W). destruct (visit e st) as [st1 [e'|x]] eqn:E1; [|discriminate].
    destruct (visit_inv _ _ _ _ _ E1 W) as (W1 & _). specialize (IH st1 W1).
    destruct (visit_list visit t st1) as [st2 [t'|x]]; simpl in *; [|discriminate].
    rewrite cnt_app. specialize (He eq_refl). specialize (IH eq_refl). lia.
  Qed.
  Lemma ycounts_kws es : Forall (fun kv => forall st, ycounts st (visit (snd kv) st) (cnt (chain_uses (snd kv)))) es ->
    forall st, ycounts st (visit_kws visit es st) (cnt (concat (map (fun kv => chain_uses (snd kv)) es))).
  Proof.
    induction 1 as [|[k e] t He Ht IH]; intros st W O; simpl in *; [unfold cnt; simpl; lia|].
    specialize (He st W). destruct (visit e st) as [st1 [e'|x]] eqn:E1; [|discriminate].
    destruct (visit_inv _ _ _ _ _ E1 W) as (W1 & _). specialize (IH st1 W1).
    destruct (visit_kws visit t st1) as [st2 [t'|x]]; simpl in *; [|discriminate].
    rewrite cnt_app. specialize (He eq_refl). specialize (IH eq_refl). lia.
  Qed.
  Lemma ycounts_bind {A B} (st : vst) (r : vst * res A) (k : A -> vst -> vst * res B) n m :
    ycounts st r n -> (wf st -> wf (fst r)) -> (forall a st1, ycounts st1 (k a st1) m) ->
    ycounts st (bind_st r k) (n + m).
  Proof.
    intros H1 W1 H2 W O. destruct r as [st1 [a|x]]; simpl in *; [|discriminate].
    specialize (H1 W eq_refl). specialize (H2 a st1 (W1 W) O). simpl in H1. lia.
  Qed.
  Lemma ycounts_pure {A B} (st : vst) (r : vst * res A) (k : A -> res B) n :
    ycounts st r n -> ycounts st (bind_st r (fun a st1 => (st1, k a))) n.
  Proof. intros H W O. destruct r as [st1 [a|x]]; simpl in *; [|discriminate]. now apply H. Qed.
  Lemma ycounts_0 {A} st (r : res A) : ycounts st (st, r) 0.
  Proof. intros W O. simpl. lia. Qed.
  Lemma ycounts_err {A} st x n : ycounts (A:=A) st (st, Err x) n.
  Proof. intros W O. discriminate. Qed.

  Lemma visit_ycounts e : forall st, ycounts st (visit e st) (cnt (chain_uses e)).
  Proof.
    assert (VW : forall e st, wf st -> wf (fst (visit e st))).
    { intros e0 st W. destruct (visit e0 st) as [st' r] eqn:E. now apply (visit_inv _ _ _ _ _ E). }
    assert (LW : forall l st, wf st -> wf (fst (visit_list visit l st))).
    { intros e0 st W. destruct (visit_list visit e0 st) as [st' r] eqn:E. now apply (visit_list_inv _ _ _ _ _ E). }
    induction e as [x|n|s|s|s|v a IHv|f args kws IHf IHargs IHkws|op e IHe|op vs IHvs|l ops rs IHl IHrs|op l r IHl IHr|ks vs IHks IHvs|k|k l IHl] using expr_ind'; intros st;
      cbn [ExprModel.visit chain_uses]; try apply ycounts_0; try apply ycounts_err.
    - unfold visit_name. destruct (nan_like x); [apply ycounts_0|]. destruct (mem x (v_allch st)); [apply ycounts_err|].
      intros W O. unfold cnt. simpl. lia.
    - unfold base. pose proof (attr_name_spec (EAttr v a)) as A.
      destruct (attr_name (EAttr v a)) as [[name c]|x]; [|apply ycounts_err].
      rewrite A. apply ycounts_chain.
    - assert (G : ycounts st (bind_st (visit f st) (fun f' st1 =>
            bind_st (visit_list visit args st1) (fun args' st2 =>
            bind_st (visit_kws visit kws st2) (fun kws' st3 => (st3, Ok (ECall f' args' kws'))))))
            (cnt (chain_uses f ++ concat (map chain_uses args) ++ concat (map (fun kv => chain_uses (snd kv)) kws)))).
      { rewrite !cnt_app. apply ycounts_bind; [apply IHf|apply VW|].
        intros f' st1. apply ycounts_bind; [now apply ycounts_list|apply LW|].
        intros a' st2. apply (ycounts_pure st2 (visit_kws visit kws st2) (fun kws' => Ok (ECall f' a' kws'))). now apply ycounts_kws. }
      destruct f; try exact G; cbn [ExprModel.visit chain_uses].
      + destruct (nfn id); [|apply ycounts_err].
        apply (ycounts_pure st (visit_list visit args st) (fun args' => Ok (ECall (EName id) args' kws))). now apply ycounts_list.
      + unfold visit_method. pose proof (attr_name_spec (EAttr f attr)) as A.
        destruct (attr_name (EAttr f attr)) as [[name c]|x] eqn:E; [|apply ycounts_err].
        destruct c as [|fn c]; [apply ycounts_err|].
        destruct (negb (supported_agg fn)); [apply ycounts_err|]. destruct (negb (length kws =? 0)); [apply ycounts_err|].
        destruct args; [apply ycounts_err|].
        assert (B : base f = [name]).
        { unfold base. simpl in A. destruct (dotted f) as [[y0 p]|]; simpl in A; [|discriminate]. injection A as -> _. reflexivity. }
        rewrite B. apply ycounts_chain.
    - destruct op; try apply ycounts_err; try apply ycounts_0.
      apply (ycounts_pure st (visit e st) (fun a' => Ok (EUn Invert a'))). auto.
    - apply (ycounts_pure st (visit_list visit vs st) (fun vs' => bool_tree op vs')). now apply ycounts_list.
    - rewrite cnt_app. apply ycounts_bind; [apply IHl|apply VW|].
      intros l' st1. apply (ycounts_pure st1 (visit_list visit rs st1) (fun rs' => cmp_tree l' rs' ops)). now apply ycounts_list.
    - rewrite cnt_app. apply ycounts_bind; [apply IHl|apply VW|].
      intros l' st1. apply (ycounts_pure st1 (visit r st1) (fun r' => Ok (EBin op l' r'))). auto.
    - unfold visit_dict. destruct (dict_entries ks vs []); [|apply ycounts_err]. intros W O. unfold cnt. simpl. lia.
    - apply (ycounts_pure st (visit_list visit l st) (fun l' => Ok (EGen k l'))). now apply ycounts_list.
  Qed.


End PerSymbol.

Lemma NoDup_app_disj {A} (a b : list A) x : NoDup (a ++ b) -> In x a -> In x b -> False.
Proof. induction a as [|u a IH]; simpl; [tauto|]. intros N I J. inversion N as [|? ? H1 H2]; subst. destruct I as [->|I]; [apply H1, in_or_app; auto|auto]. Qed.
Lemma NoDup_app_left {A} (a b : list A) : NoDup (a ++ b) -> NoDup a.
Proof. induction a as [|u a IH]; simpl; intros N; [constructor|]. inversion N as [|? ? H1 H2]; subst. constructor; auto. intros I. apply H1, in_or_app. auto. Qed.
Lemma NoDup_app_right {A} (a b : list A) : NoDup (a ++ b) -> NoDup b.
Proof. induction a as [|u a IH]; simpl; auto. intros N. inversion N; auto. Qed.
Section Clash.
  Context {L : Type}.
  Notation vst := (@vst L).
  (** the names are distinct exactly when no two symbols have numbered usages that read the same *)
  Lemma wf_subs_iff (st : vst) : wf st ->
    (NoDup (sub_names (v_ch st) ++ dkeys (v_dl st)) <->
     forall y z i j, i < used y (v_ch st) -> j < used z (v_ch st) -> (y ++ dec i = z ++ dec j)%string -> y = z).
  Proof.
    intros (W1 & W2 & W3).
    assert (HU : forall y l, In (y, l) (v_ch st) -> used y (v_ch st) = length l).
    { intros y l I. unfold used. now rewrite (in_dget _ String.eqb_eq (v_ch st) y l W1 I). }
    assert (HI : forall y i, i < used y (v_ch st) -> exists l, In (y, l) (v_ch st) /\ i < length l).
    { intros y i H. unfold used in H. destruct (dget String.eqb (v_ch st) y) as [l|] eqn:El; [|lia]. exists l. split; auto. now apply (dget_in _ String.eqb_eq). }
    split.
    - intros ND y z i j Hi Hj HE. destruct (string_dec y z) as [|NE]; auto. exfalso.
      destruct (HI y i Hi) as (l & Il & Ll). destruct (HI z j Hj) as (k & Ik & Lk).
      apply NoDup_app_left in ND. unfold sub_names in ND.
      assert (X : make_sub y i = make_sub z j) by (unfold make_sub; now rewrite HE).
      clear W1 W3 HU HI Hi Hj. revert W2 ND Il Ik. induction (v_ch st) as [|[n o] d IH]; intros W2 ND Il Ik; [destruct Il|]. cbn [map concat snd] in ND.
      assert (HS : forall u a m, In (u, a) d -> m < length a -> In (make_sub u m) (concat (map (fun p => dkeys (snd p)) d))).
      { intros u a m I H. apply in_concat. exists (dkeys a). split; [apply in_map_iff; exists (u, a); auto|]. rewrite (W2 u a) by now right. apply in_map, in_seq. lia. }
      assert (HO : forall u a m, (u, a) = (n, o) -> m < length a -> In (make_sub u m) (dkeys o)).
      { intros u a m E H. injection E as -> ->. rewrite (W2 n o) by now left. apply in_map, in_seq. lia. }
      destruct Il as [El|Il], Ik as [Ek|Ik].
      + congruence.
      + symmetry in El. assert (In (make_sub y i) (dkeys o)) as A by (eapply HO; eauto). assert (In (make_sub z j) (concat (map (fun p => dkeys (snd p)) d))) as B by (eapply HS; eauto).
        rewrite <- X in B. exact (NoDup_app_disj _ _ _ ND A B).
      + symmetry in Ek. assert (In (make_sub z j) (dkeys o)) as A by (eapply HO; eauto). assert (In (make_sub y i) (concat (map (fun p => dkeys (snd p)) d))) as B by (eapply HS; eauto).
        rewrite X in B. exact (NoDup_app_disj _ _ _ ND A B).
      + apply IH; auto. { intros; apply W2; now right. } now apply NoDup_app_right in ND.
    - intros HC. apply nodup_app.
      + assert (HC' : forall y l z k i j, In (y, l) (v_ch st) -> In (z, k) (v_ch st) -> i < length l -> j < length k -> make_sub y i = make_sub z j -> y = z).
        { intros y l z k i j Il Ik Hi Hj E. apply (HC y z i j); [rewrite (HU y l Il); auto|rewrite (HU z k Ik); auto|]. unfold make_sub in E. now apply append_inj_l in E. }
        clear W3 HU HI HC. revert W1 W2 HC'. unfold sub_names. induction (v_ch st) as [|[n l] d IH]; intros W1 W2 HC; [constructor|]. cbn [map concat snd].
        simpl in W1. inversion W1 as [|? ? Hn W1']; subst. apply nodup_app.
        * rewrite (W2 n l) by (left; auto). apply seq_nodup, make_sub_inj.
        * apply IH; auto. { intros; apply W2; right; auto. } intros y l0 z k i j I1 I2. apply (HC y l0 z k i j); now right.
        * intros x I J. rewrite (W2 n l) in I by (left; auto). apply in_map_iff in I. destruct I as (i & <- & Hi). apply in_seq in Hi.
          apply in_concat_map in J. destruct J as ([m k] & Hm & J). simpl in J.
          rewrite (W2 m k) in J by (right; auto). apply in_map_iff in J. destruct J as (j & E & Hj). apply in_seq in Hj.
          assert (n = m) as ->. { apply (HC n l m k i j); [now left|now right|lia|lia|auto]. } apply Hn. eapply in_keys; eauto.
      + rewrite W3. apply seq_nodup, dict_sub_inj.
      + intros x I J. rewrite W3 in J. apply in_map_iff in J. destruct J as (j & <- & _).
        apply in_concat_map in I. destruct I as ([m k] & Hm & I). simpl in I. rewrite (W2 m k Hm) in I.
        apply in_map_iff in I. destruct I as (i & E & _). now apply make_sub_dict in E.
  Qed.
  Lemma dec_one i : i < 10 -> exists c, chars (dec i) = [c].
  Proof. intros H. do 10 (destruct i as [|i]; [eexists; reflexivity|]). lia. Qed.
End Clash.
