(** Which symbols the transformer registers, and which names the rewritten expression reads. *)
From Coq Require Import Relations.
From Verif Require Import Prelude DictProofs ExprModel SpecExpr ExprNull ExprProofs.
Local Open Scope string_scope.
Local Open Scope nat_scope.
Local Open Scope list_scope.

Section Uses.
  Context {L : Type} (nfn : string -> bool).
  Notation expr := (expr L).
  Notation vst := (@vst L).
  Notation visit := (@visit L nfn).

  Definition sound (st st' : vst) (su cu : list string) : Prop :=
    (forall x, In x (v_simple st') -> In x (v_simple st) \/ In x su) /\
    (forall x, In x (v_vis st') -> In x (v_vis st) \/ In x su) /\
    (forall x, In x (v_allch st') -> In x (v_allch st) \/ In x cu) /\
    (forall x, In x (dkeys (v_ch st')) -> In x (dkeys (v_ch st)) \/ In x cu).
  Definition complete (st' : vst) (su cu : list string) : Prop :=
    (forall x, In x su -> In x (v_simple st') /\ In x (v_vis st')) /\
    (forall x, In x cu -> In x (v_allch st') /\ In x (dkeys (v_ch st'))).
  Definition eff {A} (st : vst) (r : vst * res A) (su cu : list string) : Prop :=
    sound st (fst r) su cu /\ (is_ok (snd r) = true -> wf st -> complete (fst r) su cu).

  Lemma sound_refl st su cu : sound st st su cu.
  Proof. repeat split; auto. Qed.
  Lemma sound_trans a b c su cu su' cu' su'' cu'' :
    sound a b su cu -> sound b c su' cu' ->
    incl su su'' -> incl su' su'' -> incl cu cu'' -> incl cu' cu'' -> sound a c su'' cu''.
  Proof.
    intros (A1 & A2 & A3 & A4) (B1 & B2 & B3 & B4) I1 I2 I3 I4.
    repeat split; intros x H;
      [apply B1 in H|apply B2 in H|apply B3 in H|apply B4 in H]; destruct H as [H|H]; auto;
      [apply A1 in H|apply A2 in H|apply A3 in H|apply A4 in H]; destruct H as [H|H]; auto.
  Qed.
  Lemma complete_ext a b su cu : complete a su cu -> ext a b -> complete b su cu.
  Proof.
    intros (A1 & A2) (E1 & E2 & E3 & _ & _ & E6). split; intros x H.
    - destruct (A1 x H). auto.
    - destruct (A2 x H). auto.
  Qed.
  Lemma complete_app a su cu su' cu' : complete a su cu -> complete a su' cu' -> complete a (su ++ su') (cu ++ cu').
  Proof. intros (A1 & A2) (B1 & B2). split; intros x H; apply in_app_or in H; destruct H; auto. Qed.

  Lemma eff_err {A} (st : vst) x su cu : eff (A:=A) st (st, Err x) su cu.
  Proof. split; [apply sound_refl|discriminate]. Qed.
  Lemma eff_ok_nil {A} (st : vst) (a : A) : eff st (st, Ok a) [] [].
  Proof. split; [apply sound_refl|]. intros _ _. split; simpl; tauto. Qed.

  Lemma eff_list es : Forall (fun e => forall st, eff st (visit e st) (simple_uses e) (chain_uses e)) es ->
    forall st, eff st (visit_list visit es st) (concat (map simple_uses es)) (concat (map chain_uses es)).
  Proof.
    induction 1 as [|e t He Ht IH]; intros st; [apply eff_ok_nil|]. simpl.
    specialize (He st). destruct (visit e st) as [st1 [e'|x]] eqn:E1.
    - destruct He as [S1 C1]. simpl in S1, C1. specialize (IH st1).
      destruct (visit_list visit t st1) as [st2 [t'|x]] eqn:E2; destruct IH as [S2 C2]; simpl in S2, C2.
      + split; simpl.
        * eapply sound_trans; eauto using incl_appl, incl_appr, incl_refl.
        * intros _ W. destruct (visit_inv _ _ _ _ _ E1 W) as (W1 & X1 & _).
          destruct (visit_list_inv _ _ _ _ _ E2 W1) as (W2 & X2 & _).
          apply complete_app; auto. eapply complete_ext; [apply C1|]; auto.
      + split; simpl; [|discriminate]. eapply sound_trans; eauto using incl_appl, incl_appr, incl_refl.
    - destruct He as [S1 _]. simpl in S1. split; simpl; [|discriminate].
      eapply sound_trans; [exact S1|apply sound_refl|..]; try apply incl_refl; auto using incl_appl, incl_appr, incl_refl, incl_nil_l.
  Qed.
  Lemma eff_kws es : Forall (fun kv => forall st, eff st (visit (snd kv) st) (simple_uses (snd kv)) (chain_uses (snd kv))) es ->
    forall st, eff st (visit_kws visit es st) (concat (map (fun kv => simple_uses (snd kv)) es)) (concat (map (fun kv => chain_uses (snd kv)) es)).
  Proof.
    induction 1 as [|[k e] t He Ht IH]; intros st; [apply eff_ok_nil|]. simpl.
    specialize (He st). simpl in He. destruct (visit e st) as [st1 [e'|x]] eqn:E1.
    - destruct He as [S1 C1]. simpl in S1, C1. specialize (IH st1).
      destruct (visit_kws visit t st1) as [st2 [t'|x]] eqn:E2; destruct IH as [S2 C2]; simpl in S2, C2.
      + split; simpl.
        * eapply sound_trans; eauto using incl_appl, incl_appr, incl_refl.
        * intros _ W. destruct (visit_inv _ _ _ _ _ E1 W) as (W1 & X1 & _).
          destruct (visit_kws_inv _ _ _ _ _ E2 W1) as (W2 & X2 & _).
          apply complete_app; auto. eapply complete_ext; [apply C1|]; auto.
      + split; simpl; [|discriminate]. eapply sound_trans; eauto using incl_appl, incl_appr, incl_refl.
    - destruct He as [S1 _]. simpl in S1. split; simpl; [|discriminate].
      eapply sound_trans; [exact S1|apply sound_refl|..]; try apply incl_refl; auto using incl_appl, incl_appr, incl_refl, incl_nil_l.
  Qed.
  (** sequencing: the continuation only needs its own effect, and monotonicity *)
  Lemma eff_bind {A B} (st : vst) (r : vst * res A) (k : A -> vst -> vst * res B) su cu su' cu' :
    eff st r su cu -> (wf st -> wf (fst r)) ->
    (forall a st1, eff st1 (k a st1) su' cu') ->
    (forall a st1, wf st1 -> ext st1 (fst (k a st1))) ->
    eff st (bind_st r k) (su ++ su') (cu ++ cu').
  Proof.
    intros [S1 C1] W1 Hk Xk. destruct r as [st1 [a|x]]; simpl in *.
    - destruct (Hk a st1) as [S2 C2]. split.
      + eapply sound_trans; eauto using incl_appl, incl_appr, incl_refl.
      + intros O W. apply complete_app; auto. eapply complete_ext; [apply C1|]; auto.
    - split; simpl; [|discriminate].
      eapply sound_trans; [exact S1|apply sound_refl|..]; try apply incl_refl; auto using incl_appl, incl_appr, incl_refl, incl_nil_l.
  Qed.
  Lemma eff_pure {A B} (st : vst) (r : vst * res A) (k : A -> res B) su cu :
    eff st r su cu -> eff st (bind_st r (fun a st1 => (st1, k a))) su cu.
  Proof.
    intros [S1 C1]. destruct r as [st1 [a|x]]; simpl in *.
    - split; simpl; auto.
    - split; simpl; auto; discriminate.
  Qed.

  Lemma attr_name_spec e : match attr_name (L:=L) e with
    | Ok (x, c) => dotted e = Some (x, rev c) | Err x => dotted e = None /\ x = UnsupportedSyntax end.
  Proof.
    induction e as [x|n|s|s|s|v a IHv|f args kws IHf IHargs IHkws|op e IHe|op vs IHvs|l ops rs IHl IHrs|op l r IHl IHr|ks vs IHks IHvs|k|k l IHl] using expr_ind'; simpl; auto.
    destruct (attr_name v) as [[x c]|x]; simpl in *.
    - rewrite IHv. reflexivity.
    - destruct IHv as [-> ->]. auto.
  Qed.

  Lemma eff_chain st name ct : eff st (add_chain (L:=L) st name ct) [] [name].
  Proof.
    unfold add_chain. destruct (mem name (v_simple st)) eqn:E; [apply eff_err|].
    split; simpl.
    - repeat split; simpl; auto.
      + intros x. rewrite in_sadd. intuition.
      + intros x H. destruct (in_dec string_dec name (dkeys (v_ch st))) as [I|I].
        * rewrite dset_keys in H; auto. apply String.eqb_eq.
        * rewrite dset_absent in H; auto; [|apply String.eqb_eq]. unfold dkeys in H. rewrite map_app in H.
          apply in_app_or in H. simpl in H. intuition.
    - intros _ W. split; simpl; [tauto|]. intros x [->|[]]. split; [apply in_sadd; auto|].
      apply (in_keys _ _ (dset String.eqb (match dget String.eqb (v_ch st) x with Some l => l | None => [] end)
         (make_sub x (length (match dget String.eqb (v_ch st) x with Some l => l | None => [] end))) ct)).
      apply (in_dset String.eqb String.eqb_eq); [apply W|]. auto.
  Qed.

  Lemma visit_eff e : forall st, eff st (visit e st) (simple_uses e) (chain_uses e).
  Proof.
    assert (VW : forall e st, wf st -> wf (fst (visit e st))).
    { intros e0 st W. destruct (visit e0 st) as [st' r] eqn:E. now apply (visit_inv _ _ _ _ _ E). }
    assert (LW : forall l st, wf st -> wf (fst (visit_list visit l st))).
    { intros e0 st W. destruct (visit_list visit e0 st) as [st' r] eqn:E. now apply (visit_list_inv _ _ _ _ _ E). }
    assert (VX : forall e st, wf st -> ext st (fst (visit e st))).
    { intros e0 st W. destruct (visit e0 st) as [st' r] eqn:E. now apply (visit_inv _ _ _ _ _ E). }
    assert (LX : forall l st, wf st -> ext st (fst (visit_list visit l st))).
    { intros e0 st W. destruct (visit_list visit e0 st) as [st' r] eqn:E. now apply (visit_list_inv _ _ _ _ _ E). }
    assert (KX : forall l st, wf st -> ext st (fst (visit_kws visit l st))).
    { intros e0 st W. destruct (visit_kws visit e0 st) as [st' r] eqn:E. now apply (visit_kws_inv _ _ _ _ _ E). }
    assert (BX : forall A B (r : vst * res A) (k : A -> res B) st, ext st (fst r) -> ext st (fst (bind_st r (fun a s => (s, k a))))).
    { intros A B [s [a|x]] k st; simpl; auto. }
    induction e as [x|n|s|s|s|v a IHv|f args kws IHf IHargs IHkws|op e IHe|op vs IHvs|l ops rs IHl IHrs|op l r IHl IHr|ks vs IHks IHvs|k|k l IHl] using expr_ind'; intros st;
      try (apply eff_ok_nil); try apply eff_err.
    - cbn [ExprModel.visit simple_uses chain_uses]. unfold visit_name. rewrite nan_like_spelling.
      destruct (null_spelling x); [apply eff_ok_nil|]. destruct (mem x (v_allch st)) eqn:M; [apply eff_err|].
      split; simpl.
      + repeat split; simpl; auto; intros y; rewrite in_sadd; intuition.
      + intros _ _. split; simpl; [|tauto]. intros y [->|[]]. rewrite !in_sadd. auto.
    - cbn [ExprModel.visit simple_uses chain_uses]. unfold base. pose proof (attr_name_spec (EAttr v a)) as A.
      destruct (attr_name (EAttr v a)) as [[name c]|x].
      + rewrite A. apply eff_chain.
      + apply eff_err.
    - assert (G : eff st (bind_st (visit f st) (fun f' st1 =>
            bind_st (visit_list visit args st1) (fun args' st2 =>
            bind_st (visit_kws visit kws st2) (fun kws' st3 => (st3, Ok (ECall f' args' kws'))))))
            (simple_uses f ++ concat (map simple_uses args) ++ concat (map (fun kv => simple_uses (snd kv)) kws))
            (chain_uses f ++ concat (map chain_uses args) ++ concat (map (fun kv => chain_uses (snd kv)) kws))).
      { apply eff_bind; [apply IHf|apply VW| |].
        - intros f' st1. apply eff_bind; [now apply eff_list|apply LW| |].
          + intros a' st2. apply (eff_pure st2 (visit_kws visit kws st2) (fun kws' => Ok (ECall f' a' kws'))). now apply eff_kws.
          + intros a' st2 W2. apply (BX _ _ _ (fun kws' => Ok (ECall f' a' kws'))). auto.
        - intros f' st1 W1. specialize (LX args st1 W1). specialize (LW args st1 W1).
          destruct (visit_list visit args st1) as [st2 [a'|x]]; simpl in *; auto.
          eapply ext_trans; [exact LX|]. apply (BX _ _ _ (fun kws' => Ok (ECall f' a' kws'))). auto. }
      destruct f; try exact G; cbn [ExprModel.visit simple_uses chain_uses].
      + destruct (nfn id); [|apply eff_err].
        apply (eff_pure st (visit_list visit args st) (fun args' => Ok (ECall (EName id) args' kws))). now apply eff_list.
      + unfold visit_method. pose proof (attr_name_spec (EAttr f attr)) as A.
        destruct (attr_name (EAttr f attr)) as [[name c]|x] eqn:E; [|apply eff_err].
        destruct c as [|fn c]; [apply eff_err|].
        destruct (negb (supported_agg fn)); [apply eff_err|]. destruct (negb (length kws =? 0)); [apply eff_err|].
        destruct args; [apply eff_err|].
        assert (B : base f = [name]).
        { unfold base. simpl in A. destruct (dotted f) as [[y p]|]; simpl in A; [|discriminate]. injection A as -> _. reflexivity. }
        rewrite B. apply eff_chain.
    - destruct op; cbn [ExprModel.visit simple_uses chain_uses]; try apply eff_err; try apply eff_ok_nil.
      apply (eff_pure st (visit e st) (fun a' => Ok (EUn Invert a'))). auto.
    - cbn [ExprModel.visit simple_uses chain_uses].
      apply (eff_pure st (visit_list visit vs st) (fun vs' => bool_tree op vs')). now apply eff_list.
    - cbn [ExprModel.visit simple_uses chain_uses]. apply eff_bind; [apply IHl|apply VW| |].
      + intros l' st1. apply (eff_pure st1 (visit_list visit rs st1) (fun rs' => cmp_tree l' rs' ops)). now apply eff_list.
      + intros l' st1 W1. apply (BX _ _ _ (fun rs' => cmp_tree l' rs' ops)). auto.
    - cbn [ExprModel.visit simple_uses chain_uses]. apply eff_bind; [apply IHl|apply VW| |].
      + intros l' st1. apply (eff_pure st1 (visit r st1) (fun r' => Ok (EBin op l' r'))). auto.
      + intros l' st1 W1. apply (BX _ _ _ (fun r' => Ok (EBin op l' r'))). auto.
    - cbn [ExprModel.visit simple_uses chain_uses]. unfold visit_dict.
      destruct (dict_entries ks vs []); [|apply eff_err]. split; simpl.
      + repeat split; auto.
      + intros _ _. split; simpl; tauto.
    - cbn [ExprModel.visit simple_uses chain_uses].
      apply (eff_pure st (visit_list visit l st) (fun l' => Ok (EGen k l'))). now apply eff_list.
  Qed.

  (** *** The names the rewritten expression reads *)
  Definition generated (st : vst) (x : string) : Prop :=
    (exists name ct, has_chain st name x ct) \/ In x (dkeys (v_dl st)).
  Lemma generated_ext a b x : ext a b -> generated a x -> generated b x.
  Proof.
    intros (_ & _ & _ & E4 & E5 & _) [(name & ct & H)|H].
    - left. eauto.
    - right. unfold dkeys in *. apply in_map_iff in H. destruct H as (p & <- & H). apply in_map. auto.
  Qed.
  Definition known (st : vst) (e : expr) (x : string) : Prop :=
    x = "NAN" \/ In x (simple_uses e) \/ generated st x \/ In x (hidden_names e).

  Lemma free_fold op l : forall a x, In x (free_names (fold_left (fun b r => EBin (L:=L) op b r) l a)) ->
    In x (free_names a) \/ In x (concat (map free_names l)).
  Proof.
    induction l as [|b l IH]; intros a x; simpl; auto. intros H. apply IH in H. simpl in H.
    rewrite in_app_iff in H |- *. tauto.
  Qed.
  Lemma free_pairwise rs : forall a ops x, In x (concat (map free_names (pairwise (L:=L) a rs ops))) ->
    In x (free_names a) \/ In x (concat (map free_names rs)).
  Proof.
    induction rs as [|r rs IH]; intros a [|op ops] x; simpl; auto; try tauto.
    rewrite !in_app_iff. simpl. intros [[H|[H|[]]]|H]; auto.
    apply IH in H. tauto.
  Qed.
  Lemma free_cmp_tree a rs ops t x : cmp_tree (L:=L) a rs ops = Ok t -> In x (free_names t) ->
    In x (free_names a) \/ In x (concat (map free_names rs)).
  Proof.
    intros H I.
    assert (G : match pairwise a rs ops with
        | n0 :: n1 :: ns => Ok (fold_left (fun b r => EBin BitAnd b r) ns (EBin BitAnd n0 n1))
        | _ => Err AssertionError end = Ok t \/ (exists r, rs = [r] /\ t = ECmp a ops [r])).
    { unfold cmp_tree in H. destruct rs as [|r [|r2 rs]]; auto. injection H as <-. right. eauto. }
    destruct G as [G|(r & -> & ->)].
    - pose proof (free_pairwise rs a ops x) as F. destruct (pairwise a rs ops) as [|n0 [|n1 ns]]; try discriminate.
      injection G as <-. apply F. simpl. rewrite !in_app_iff.
      apply free_fold in I. simpl in I. rewrite in_app_iff in I. tauto.
    - simpl in *. rewrite in_app_iff in I. simpl in I. rewrite app_nil_r in *. tauto.
  Qed.

  Lemma in_concat_map {A} (f : A -> list string) l x : In x (concat (map f l)) <-> exists a, In a l /\ In x (f a).
  Proof. rewrite <- flat_map_concat_map. apply in_flat_map. Qed.

  Definition free_ok (e : expr) : Prop := forall st st' e', wf st -> visit e st = (st', Ok e') ->
    forall x, In x (free_names e') -> known st' e x.
  Lemma free_list es : Forall free_ok es -> forall st st' es', wf st -> visit_list visit es st = (st', Ok es') ->
    forall x, In x (concat (map free_names es')) ->
    x = "NAN" \/ In x (concat (map simple_uses es)) \/ generated st' x \/ In x (concat (map hidden_names es)).
  Proof.
    induction 1 as [|e t He Ht IH]; intros st st' es' W H x.
    - simpl in H. injection H as <- <-. simpl. tauto.
    - simpl in H. destruct (visit e st) as [st1 [e'|y]] eqn:E1; [|discriminate].
      destruct (visit_list visit t st1) as [st2 [t'|y]] eqn:E2; [|discriminate]. injection H as <- <-.
      destruct (visit_inv _ _ _ _ _ E1 W) as (W1 & X1 & _). destruct (visit_list_inv _ _ _ _ _ E2 W1) as (W2 & X2 & _).
      simpl. rewrite !in_app_iff. intros [I|I].
      + destruct (He _ _ _ W E1 x I) as [K|[K|[K|K]]]; auto 9. right. right. left. eapply generated_ext; eauto.
      + destruct (IH _ _ _ W1 E2 x I) as [K|[K|[K|K]]]; auto 9.
  Qed.
  Lemma free_kws es : Forall (fun kv => free_ok (snd kv)) es -> forall st st' es', wf st -> visit_kws visit es st = (st', Ok es') ->
    forall x, In x (concat (map (fun kv => free_names (snd kv)) es')) ->
    x = "NAN" \/ In x (concat (map (fun kv => simple_uses (snd kv)) es)) \/ generated st' x
    \/ In x (concat (map (fun kv => hidden_names (snd kv)) es)).
  Proof.
    induction 1 as [|[k e] t He Ht IH]; intros st st' es' W H x.
    - simpl in H. injection H as <- <-. simpl. tauto.
    - simpl in H. destruct (visit e st) as [st1 [e'|y]] eqn:E1; [|discriminate].
      destruct (visit_kws visit t st1) as [st2 [t'|y]] eqn:E2; [|discriminate]. injection H as <- <-.
      destruct (visit_inv _ _ _ _ _ E1 W) as (W1 & X1 & _). destruct (visit_kws_inv _ _ _ _ _ E2 W1) as (W2 & X2 & _).
      simpl. rewrite !in_app_iff. intros [I|I].
      + destruct (He _ _ _ W E1 x I) as [K|[K|[K|K]]]; auto 9. right. right. left. eapply generated_ext; eauto.
      + destruct (IH _ _ _ W1 E2 x I) as [K|[K|[K|K]]]; auto 9.
  Qed.

  Lemma add_chain_free st name ct st' e' x : wf st -> add_chain (L:=L) st name ct = (st', Ok e') ->
    In x (free_names e') -> generated st' x.
  Proof.
    intros W H I. destruct (mem name (v_simple st)) eqn:M.
    { unfold add_chain in H. rewrite M in H. discriminate. }
    apply mem_false in M. rewrite (add_chain_ok st name ct W M) in H. injection H as <- <-.
    destruct I as [<-|[]]. left. exists name, ct.
    exists (old_lookups st name ++ [(make_sub name (length (old_lookups st name)), ct)]). simpl. split.
    - apply (in_dset String.eqb String.eqb_eq); [apply W|]. auto.
    - apply in_or_app. simpl. auto.
  Qed.

  Lemma visit_free e : free_ok e.
  Proof.
    induction e as [x|n|s|s|s|v a IHv|f args kws IHf IHargs IHkws|op e IHe|op vs IHvs|l ops rs IHl IHrs|op l r IHl IHr|ks vs IHks IHvs|k|k l IHl] using expr_ind'; intros st st' e' W H y I.
    - simpl in H. unfold visit_name in H. rewrite nan_like_spelling in H. destruct (null_spelling x) eqn:E.
      + injection H as <- <-. destruct I as [<-|[]]. left. auto.
      + destruct (mem x (v_allch st)); [discriminate|]. injection H as <- <-. destruct I as [<-|[]].
        right. left. simpl. rewrite E. simpl. auto.
    - simpl in H. injection H as <- <-. destruct I.
    - simpl in H. injection H as <- <-. destruct I.
    - simpl in H. injection H as <- <-. destruct I.
    - simpl in H. injection H as <- <-. destruct I.
    - cbn [ExprModel.visit] in H. destruct (attr_name (EAttr v a)) as [[name c]|z]; [|discriminate].
      right. right. left. eapply add_chain_free; eauto.
    - assert (G : bind_st (visit f st) (fun f' st1 =>
            bind_st (visit_list visit args st1) (fun args' st2 =>
            bind_st (visit_kws visit kws st2) (fun kws' st3 => (st3, Ok (ECall f' args' kws'))))) = (st', Ok e') ->
        y = "NAN" \/ In y (simple_uses f ++ concat (map simple_uses args) ++ concat (map (fun kv => simple_uses (snd kv)) kws))
        \/ generated st' y \/ In y (hidden_names f ++ concat (map hidden_names args) ++ concat (map (fun kv => hidden_names (snd kv)) kws))).
      { clear H. intros H. destruct (visit f st) as [st1 [f'|z]] eqn:E1; simpl in H; [|discriminate].
        destruct (visit_inv _ _ _ _ _ E1 W) as (W1 & X1 & _).
        destruct (visit_list visit args st1) as [st2 [a'|z]] eqn:E2; simpl in H; [|discriminate].
        destruct (visit_list_inv _ _ _ _ _ E2 W1) as (W2 & X2 & _).
        destruct (visit_kws visit kws st2) as [st3 [k'|z]] eqn:E3; simpl in H; [|discriminate].
        destruct (visit_kws_inv _ _ _ _ _ E3 W2) as (W3 & X3 & _). injection H as <- <-.
        assert (J : In y (free_names f') \/ In y (concat (map free_names a')) \/ In y (concat (map (fun kv => free_names (snd kv)) k'))).
        { destruct f'; simpl in I; rewrite ?in_app_iff in I; simpl; rewrite ?in_app_iff; tauto. }
        rewrite !in_app_iff. destruct J as [J|[J|J]].
        - destruct (IHf _ _ _ W E1 y J) as [K|[K|[K|K]]]; auto 9.
          right. right. left. eapply generated_ext; [exact X3|]. eapply generated_ext; eauto.
        - destruct (free_list args IHargs _ _ _ W1 E2 y J) as [K|[K|[K|K]]]; auto 9.
          right. right. left. eapply generated_ext; eauto.
        - destruct (free_kws kws IHkws _ _ _ W2 E3 y J) as [K|[K|[K|K]]]; auto 9. }
      unfold known. destruct f; try (cbn [ExprModel.visit] in H; exact (G H)); clear G; cbn [ExprModel.visit] in H.
      + destruct (nfn id); [|discriminate].
        destruct (visit_list visit args st) as [st1 [a'|z]] eqn:E2; simpl in H; [|discriminate]. injection H as <- <-.
        simpl in I |- *. rewrite in_app_iff in I |- *. destruct I as [I|I]; auto.
        destruct (free_list args IHargs _ _ _ W E2 y I) as [K|[K|[K|K]]]; auto 9.
      + right. right. left. unfold visit_method in H.
        destruct (attr_name (EAttr f attr)) as [[name [|fn c]]|z]; try discriminate.
        destruct (negb (supported_agg fn)); [discriminate|]. destruct (negb (length kws =? 0)); [discriminate|].
        destruct args; [discriminate|]. eapply add_chain_free; eauto.
    - destruct op; cbn [ExprModel.visit] in H; try discriminate.
      + destruct (visit e st) as [st1 [a'|z]] eqn:E1; simpl in H; [|discriminate]. injection H as <- <-.
        exact (IHe _ _ _ W E1 y I).
      + injection H as <- <-. right. right. right. exact I.
    - cbn [ExprModel.visit] in H. destruct (visit_list visit vs st) as [st1 [vs'|z]] eqn:E1; simpl in H; [|discriminate].
      unfold known. cbn [simple_uses hidden_names].
      assert (J : In y (concat (map free_names vs'))).
      { destruct vs' as [|v0 vs']; [discriminate H|]. simpl in H. injection H as _ <-. simpl. rewrite in_app_iff.
        destruct op; apply free_fold in I; exact I. }
      assert (st1 = st') by (destruct (bool_tree op vs'); [congruence|discriminate]). subst st1.
      exact (free_list vs IHvs _ _ _ W E1 y J).
    - cbn [ExprModel.visit] in H. destruct (visit l st) as [st1 [l'|z]] eqn:E1; simpl in H; [|discriminate].
      destruct (visit_inv _ _ _ _ _ E1 W) as (W1 & X1 & _).
      destruct (visit_list visit rs st1) as [st2 [rs'|z]] eqn:E2; simpl in H; [|discriminate].
      destruct (visit_list_inv _ _ _ _ _ E2 W1) as (W2 & X2 & _).
      assert (st2 = st') by (destruct (cmp_tree l' rs' ops); [congruence|discriminate]). subst st2.
      injection H as H. unfold known. cbn [simple_uses hidden_names]. rewrite !in_app_iff.
      destruct (free_cmp_tree _ _ _ _ _ H I) as [J|J].
      + destruct (IHl _ _ _ W E1 y J) as [K|[K|[K|K]]]; auto 9. right. right. left. eapply generated_ext; eauto.
      + destruct (free_list rs IHrs _ _ _ W1 E2 y J) as [K|[K|[K|K]]]; auto 9.
    - cbn [ExprModel.visit] in H. destruct (visit l st) as [st1 [l'|z]] eqn:E1; simpl in H; [|discriminate].
      destruct (visit_inv _ _ _ _ _ E1 W) as (W1 & X1 & _).
      destruct (visit r st1) as [st2 [r'|z]] eqn:E2; simpl in H; [|discriminate].
      destruct (visit_inv _ _ _ _ _ E2 W1) as (W2 & X2 & _). injection H as <- <-.
      unfold known. cbn [simple_uses hidden_names]. rewrite !in_app_iff. simpl in I. apply in_app_or in I. destruct I as [J|J].
      + destruct (IHl _ _ _ W E1 y J) as [K|[K|[K|K]]]; auto 9. right. right. left. eapply generated_ext; eauto.
      + destruct (IHr _ _ _ W1 E2 y J) as [K|[K|[K|K]]]; auto 9.
    - cbn [ExprModel.visit] in H. unfold visit_dict in H. destruct (dict_entries ks vs []); [|discriminate].
      injection H as <- <-. right. right. left. right. simpl. destruct I as [<-|[]].
      unfold dkeys. rewrite dset_absent; [|apply String.eqb_eq|].
      + rewrite map_app. apply in_or_app. simpl. auto.
      + destruct W as (_ & _ & W3). rewrite W3. apply seq_fresh, dict_sub_inj.
    - discriminate.
    - cbn [ExprModel.visit] in H. destruct (visit_list visit l st) as [st1 [l'|z]] eqn:E1; simpl in H; [|discriminate].
      injection H as <- <-. exact (free_list l IHl _ _ _ W E1 y I).
  Qed.
End Uses.
