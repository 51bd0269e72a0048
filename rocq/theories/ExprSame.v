(** An expression that is accepted depends on its text only, not on the container. *)
From Verif Require Import Prelude DictProofs ExprModel SpecExpr SpecContainer ExprProofs ExprUses ExprContainer ExprWorld ModelWorld.
Set Default Proof Using "Type".
Local Open Scope string_scope.
Local Open Scope nat_scope.
Local Open Scope list_scope.

Section Same.
  Context {L : Type} (nfn : string -> bool).
  Notation expr := (expr L).
  Notation vst := (@vst L).
  Notation visit := (@visit L nfn).

  Definition alike (a b : vst) : Prop := v_ch a = v_ch b /\ v_vis a = v_vis b /\ v_dl a = v_dl b.
  Definition alike_r {A} (a b : vst * res A) : Prop :=
    match snd a, snd b with Ok x, Ok y => x = y /\ alike (fst a) (fst b) | _, _ => True end.

  Lemma alike_bind {A B} (ra rb : vst * res A) (k : A -> vst -> vst * res B) :
    alike_r ra rb -> (forall x a b, alike a b -> alike_r (k x a) (k x b)) -> alike_r (bind_st ra k) (bind_st rb k).
  Proof.
    destruct ra as [a [x|e]], rb as [b [y|e']]; unfold alike_r at 1; cbn [snd fst]; intros H K; cbn [bind_st].
    - destruct H as [<- H]. auto.
    - unfold alike_r. destruct (snd (k x a)); exact I.
    - exact I.
    - exact I.
  Qed.
  Lemma alike_pure {A} (x : res A) a b : alike a b -> alike_r (a, x) (b, x).
  Proof. intros H. unfold alike_r. cbn. destruct x; auto. Qed.
  Lemma alike_chain a b name ct : alike a b -> alike_r (add_chain (L:=L) a name ct) (add_chain b name ct).
  Proof.
    intros (E1 & E2 & E3). unfold add_chain, alike_r. rewrite E1. destruct (mem name (v_simple a)), (mem name (v_simple b)); cbn; auto. repeat split; cbn; congruence.
  Qed.
  Lemma alike_list es : Forall (fun e => forall a b, alike a b -> alike_r (visit e a) (visit e b)) es ->
    forall a b, alike a b -> alike_r (visit_list visit es a) (visit_list visit es b).
  Proof.
    induction 1 as [|e t He Ht IH]; intros a b H; simpl; [now apply alike_pure|]. specialize (He a b H).
    destruct (visit e a) as [a1 [x|e1]], (visit e b) as [b1 [y|e2]]; unfold alike_r in He; cbn [fst snd] in He; try exact I.
    - destruct He as [<- He]. specialize (IH a1 b1 He). unfold alike_r in IH. destruct (visit_list visit t a1) as [a2 [xs|e1]], (visit_list visit t b1) as [b2 [ys|e2]]; cbn [fst snd] in IH; try exact I.
      destruct IH as [<- IH]. split; auto.
    - unfold alike_r. destruct (visit_list visit t a1) as [? [?|?]]; exact I.
  Qed.
  Lemma alike_kws es : Forall (fun kv => forall a b, alike a b -> alike_r (visit (snd kv) a) (visit (snd kv) b)) es ->
    forall a b, alike a b -> alike_r (visit_kws visit es a) (visit_kws visit es b).
  Proof.
    induction 1 as [|[k e] t He Ht IH]; intros a b H; simpl; [now apply alike_pure|]. simpl in He. specialize (He a b H).
    destruct (visit e a) as [a1 [x|e1]], (visit e b) as [b1 [y|e2]]; unfold alike_r in He; cbn [fst snd] in He; try exact I.
    - destruct He as [<- He]. specialize (IH a1 b1 He). unfold alike_r in IH. destruct (visit_kws visit t a1) as [a2 [xs|e1]], (visit_kws visit t b1) as [b2 [ys|e2]]; cbn [fst snd] in IH; try exact I.
      destruct IH as [<- IH]. split; auto.
    - unfold alike_r. destruct (visit_kws visit t a1) as [? [?|?]]; exact I.
  Qed.
  Lemma visit_alike e : forall a b, alike a b -> alike_r (visit e a) (visit e b).
  Proof.
    induction e as [x|n|s|s|s|v a0 IHv|f args kws IHf IHargs IHkws|op e IHe|op vs IHvs|l ops rs IHl IHrs|op l r IHl IHr|ks vs IHks IHvs|k|k l IHl] using expr_ind'; intros a b H; try (now apply alike_pure).
    - cbn [ExprModel.visit]. unfold visit_name. destruct (nan_like x); [now apply alike_pure|]. destruct H as (E1 & E2 & E3). unfold alike_r.
      destruct (mem x (v_allch a)), (mem x (v_allch b)); cbn; auto. repeat split; cbn; congruence.
    - cbn [ExprModel.visit]. destruct (attr_name (EAttr v a0)) as [[name c]|x]; [now apply alike_chain|now apply alike_pure].
    - assert (G : forall a b, alike a b ->
          alike_r (bind_st (visit f a) (fun f' st1 =>
            bind_st (visit_list visit args st1) (fun args' st2 =>
            bind_st (visit_kws visit kws st2) (fun kws' st3 => (st3, Ok (ECall f' args' kws'))))))
            (bind_st (visit f b) (fun f' st1 =>
            bind_st (visit_list visit args st1) (fun args' st2 =>
            bind_st (visit_kws visit kws st2) (fun kws' st3 => (st3, Ok (ECall f' args' kws'))))))).
      { clear a b H. intros a b H. apply alike_bind; [now apply IHf|]. intros f' a1 b1 H1. apply alike_bind; [now apply alike_list|]. intros args' a2 b2 H2.
        apply alike_bind; [now apply alike_kws|]. intros. now apply alike_pure. }
      destruct f; try (apply G; auto; fail); cbn [ExprModel.visit].
      + destruct (nfn id); [|now apply alike_pure]. apply alike_bind; [now apply alike_list|]. intros. now apply alike_pure.
      + unfold visit_method. destruct (attr_name (EAttr f attr)) as [[name c]|x] eqn:E; [|now apply alike_pure].
        destruct c as [|fn c]; [now apply alike_pure|].
        destruct (negb (supported_agg fn)); [now apply alike_pure|]. destruct (negb (length kws =? 0)); [now apply alike_pure|].
        destruct args; [now apply alike_pure|]. now apply alike_chain.
    - destruct op; cbn [ExprModel.visit]; try (now apply alike_pure). apply alike_bind; auto. intros. now apply alike_pure.
    - cbn [ExprModel.visit]. apply alike_bind; [now apply alike_list|]. intros. now apply alike_pure.
    - cbn [ExprModel.visit]. apply alike_bind; [now apply IHl|]. intros l' a1 b1 H1. apply alike_bind; [now apply alike_list|]. intros. now apply alike_pure.
    - cbn [ExprModel.visit]. apply alike_bind; [now apply IHl|]. intros l' a1 b1 H1. apply alike_bind; [now apply IHr|]. intros. now apply alike_pure.
    - cbn [ExprModel.visit] in *. unfold visit_dict. destruct H as (E1 & E2 & E3). rewrite E3. unfold alike_r. destruct (dict_entries ks vs []); cbn; auto. repeat split; cbn; congruence.
    - cbn [ExprModel.visit]. apply alike_bind; [now apply alike_list|]. intros. now apply alike_pure.
  Qed.

  Context (pyparse : string -> res expr).
  Lemma parsed_same (x y : @expression L) : parsed nfn pyparse x -> parsed nfn pyparse y -> e_raw x = e_raw y -> x = y.
  Proof.
    intros (s1 & c1 & sets1 & P1) (s2 & c2 & sets2 & P2) E. rewrite <- E in P2. unfold parse in P1, P2. destruct (split_filter (e_raw x)) as [[t flt]|]; [|discriminate].
    destruct (pyparse t) as [e|]; [|discriminate]. pose proof (visit_alike e (VSt s1 c1 [] [] []) (VSt s2 c2 [] [] [])) as H.
    destruct (visit e (VSt s1 c1 [] [] [])) as [a [ra|]]; [|discriminate]. destruct (visit e (VSt s2 c2 [] [] [])) as [b [rb|]]; [|discriminate].
    destruct H as (<- & A1 & A2 & A3); [repeat split|]. cbn [fst] in *. injection P1 as _ <-. injection P2 as _ <-. now rewrite A1, A2, A3.
  Qed.
  Lemma parsed_all_same : forall xs ys : list (@expression L), (forall x, In x xs -> parsed nfn pyparse x) -> (forall y, In y ys -> parsed nfn pyparse y) ->
    map (@e_raw L) xs = map (@e_raw L) ys -> xs = ys.
  Proof.
    induction xs as [|x xs IH]; intros [|y ys] P Q E; cbn in E; try discriminate; auto. injection E as E1 E2. f_equal.
    - apply parsed_same; auto; [apply P|apply Q]; simpl; auto.
    - apply IH; auto; intros z I; [apply P|apply Q]; simpl; auto.
  Qed.
End Same.
