(** Property C73: the names of an expression given to [LinkedDataFrame.evaluate]. *)
From Coq Require Import FunctionalExtensionality.
From Verif Require Import Prelude DictProofs ExprModel ScopeModel ScopeProofs LdfModel SpecLdf LdfProofs LdfKeys LdfReads LdfInv LdfGood LdfLookup LdfExample PropReads.
Local Open Scope string_scope.
Local Open Scope nat_scope.
Local Open Scope list_scope.

Section Evaluate.
  Context {L V : Type} (E : venv L V).
  Notation frame := (@frame V).
  Notation lworld := (@lworld V).

  (** what a name of an expression stands for: the column of that name; if there is none, one of the two
      constants, or else the entry of [local_dict] *)
  Definition name_value (fr : frame) (local : dict string (operand V)) (s : string) (o : operand V) : Prop :=
    (exists d vals, is_column fr s (d, vals) /\ v_conv E d vals = Ok o) \/
    ((forall c, ~ is_column fr s c) /\
     (s = "NAN" /\ o = OScalar (v_nan E) \/ s = "NEG_INF" /\ o = OScalar (v_ninf E) \/
      s <> "NAN" /\ s <> "NEG_INF" /\ dget String.eqb local s = Some o)).

  Definition start (local : dict string (operand V)) : dict string (operand V) :=
    dset String.eqb (dset String.eqb local "NEG_INF" (OScalar (v_ninf E))) "NAN" (OScalar (v_nan E)).

  Lemma eval_symbols_ok (w : lworld) f fr : is_frame w f fr ->
    forall syms (ld : dict string (operand V)) (vals : string -> operand V),
    (forall s, In s syms -> (forall lk, ~ is_link w f s lk)) ->
    (forall s, In s syms -> (exists d vs, is_column fr s (d, vs) /\ v_conv E d vs = Ok (vals s)) \/ (forall c, ~ is_column fr s c) /\ dget String.eqb ld s = Some (vals s)) ->
    exists ld', eval_symbols E w f syms ld = Ok ld' /\ forall s, dget String.eqb ld' s = if existsb (String.eqb s) syms then Some (vals s) else dget String.eqb ld s.
  Proof.
    intros Hf. induction syms as [|s syms IH]; intros ld vals HL HV; [exists ld; split; auto|]. cbn [eval_symbols].
    assert (HN : dget String.eqb (f_links fr) s = None).
    { destruct (dget String.eqb (f_links fr) s) as [lk|] eqn:Ed; auto. exfalso. apply (HL s (or_introl eq_refl) lk). exists fr. auto. }
    assert (HI : frame_item w f s = (do c <- get_column fr s; Ok (ISeries c))).
    { unfold frame_item. apply get_frame_is in Hf. rewrite Hf. cbn [rbind]. now rewrite HN. }
    rewrite HI. unfold get_column. destruct (HV s (or_introl eq_refl)) as [(d & vs & Hc & Ho)|(Hc & Ho)].
    - unfold is_column in Hc. rewrite Hc. cbn [rbind to_operand fst snd]. rewrite Ho.
      destruct (IH (dset String.eqb ld s (vals s)) vals) as (ld' & R1 & R2).
      + intros s' Hs'. apply HL. now right.
      + intros s' Hs'. destruct (HV s' (or_intror Hs')) as [X|[X Y]]; [left; auto|right; split; auto]. rewrite (dget_dset _ sspec). destruct (String.eqb_spec s' s) as [->|]; auto.
      + exists ld'. split; auto. intros s'. rewrite R2, (dget_dset _ sspec). simpl. destruct (String.eqb_spec s' s) as [->|]; simpl; auto. destruct (existsb (String.eqb s) syms); auto.
    - unfold is_column in Hc. destruct (dget String.eqb (f_cols fr) s) as [c|]; [exfalso; eapply Hc; eauto|]. cbn [rbind].
      assert (dmem String.eqb ld s = true) as -> by (unfold dmem; now rewrite Ho).
      destruct (IH ld vals) as (ld' & R1 & R2).
      + intros s' Hs'. apply HL. now right.
      + intros s' Hs'. exact (HV s' (or_intror Hs')).
      + exists ld'. split; auto. intros s'. rewrite R2. simpl. destruct (String.eqb_spec s' s) as [->|]; simpl; auto. destruct (existsb (String.eqb s) syms); auto.
  Qed.

  (** C73: an expression without links is computed by numexpr from the columns of the frame first, and from
      [local_dict] for the other names *)
  Theorem C73_names_stand_for_columns_first_partial fuel (w : lworld) f fr text local ex (vals : string -> operand V) :
    is_frame w f fr -> f_ldf fr = true ->
    snd (parse (v_fn E) (v_parse E) text [] []) = Ok ex -> e_chains ex = [] ->
    (forall s, In s (e_symbols ex) -> (forall lk, ~ is_link w f s lk) /\ name_value fr local s (vals s)) ->
    exists env, (forall s, In s (e_symbols ex) -> env s = Some (vals s)) /\
      lstep E (S fuel) w (LEval f text local) = (w, do c <- (do o <- v_ne E (e_trans ex) env; as_series E (nrows fr) o); Ok (RCol c)).
  Proof.
    intros Hf Hl HP HC HV.
    destruct (eval_symbols_ok w f fr Hf (e_symbols ex) (start local) vals) as (ld' & R1 & R2).
    - intros s Hs. apply HV; auto.
    - intros s Hs. destruct (HV s Hs) as [_ [X|[X Y]]]; [left; auto|right; split; auto]. unfold start. rewrite !(dget_dset _ sspec).
      destruct Y as [(-> & ->)|[(-> & ->)|(A & B & Y)]]; auto. destruct (String.eqb_spec s "NAN"); [congruence|]. destruct (String.eqb_spec s "NEG_INF"); [congruence|]. auto.
    - exists (dget String.eqb ld'). split.
      + intros s Hs. rewrite R2. assert (existsb (String.eqb s) (e_symbols ex) = true) as -> by (apply existsb_exists; exists s; split; auto; apply String.eqb_refl). reflexivity.
      + cbn [lstep evaluate]. pose proof Hf as Hf'. apply get_frame_is in Hf'. rewrite Hf'. cbn [rbind]. rewrite Hl. cbn [check rbind parse_arg]. rewrite HP. cbn [rbind]. fold (start local). rewrite R1. cbn [rbind]. rewrite HC.
        cbn [eval_chains]. unfold out_col. match goal with |- (match ?x with _ => _ end) = _ => destruct x; reflexivity end.
  Qed.

  (** * The entry of [local_dict] for a column is ignored *)
  Definition like (a b : dict string (operand V)) : Prop := forall s, dget String.eqb a s = dget String.eqb b s.
  Lemma like_dset a b s o : like a b -> like (dset String.eqb a s o) (dset String.eqb b s o).
  Proof. intros H s'. rewrite !(dget_dset _ sspec). destruct (String.eqb s' s); auto. Qed.
  Definition like_res (a b : lworld * res (dict string (operand V))) : Prop :=
    fst a = fst b /\ match snd a, snd b with Ok x, Ok y => like x y | Err x, Err y => x = y | _, _ => False end.
  Lemma eval_chain_like ev f name : forall subs w a b, like a b -> like_res (eval_chain E ev w f name subs a) (eval_chain E ev w f name subs b).
  Proof.
    induction subs as [|[sub ct] subs IH]; intros w a b H; cbn [eval_chain]; [split; simpl; auto|].
    destruct (subscript E w f _) as [w1 [i|]]; [|split; simpl; auto]. destruct (match ch_func ct with Some _ => _ | None => _ end) as [w2 [o|]]; [|split; simpl; auto]. apply IH. now apply like_dset.
  Qed.
  Lemma eval_chains_like ev f : forall chains w a b, like a b -> like_res (eval_chains E ev w f chains a) (eval_chains E ev w f chains b).
  Proof.
    induction chains as [|[name subs] chains IH]; intros w a b H; cbn [eval_chains]; [split; simpl; auto|].
    destruct (rbind _ _); [|split; simpl; auto]. destruct (eval_chain_like ev f name subs w a b H) as [H1 H2].
    destruct (eval_chain E ev w f name subs a) as [w1 [x|]], (eval_chain E ev w f name subs b) as [w2 [y|]]; simpl in H1, H2; try contradiction; subst; [apply IH; auto|split; simpl; auto].
  Qed.
  Lemma eval_symbols_like (w : lworld) f fr s d vs o : is_frame w f fr -> (forall lk, ~ is_link w f s lk) -> is_column fr s (d, vs) -> v_conv E d vs = Ok o ->
    forall syms a b, (forall t, t <> s \/ ~ In s syms -> dget String.eqb a t = dget String.eqb b t) -> dmem String.eqb a s = dmem String.eqb b s \/ In s syms ->
    match eval_symbols E w f syms a, eval_symbols E w f syms b with Ok x, Ok y => like x y | Err x, Err y => x = y | _, _ => False end.
  Proof.
    intros Hf Hl Hc Ho. assert (HI : (do i <- frame_item w f s; to_operand E i) = Ok o).
    { unfold frame_item. pose proof Hf as Hf'. apply get_frame_is in Hf'. rewrite Hf'. cbn [rbind]. destruct (dget String.eqb (f_links fr) s) as [lk|] eqn:Ed; [exfalso; apply (Hl lk); exists fr; auto|].
      unfold get_column. unfold is_column in Hc. rewrite Hc. exact Ho. }
    induction syms as [|t syms IH]; intros a b H1 H2; cbn [eval_symbols]; [intros u; apply H1; right; intros []|].
    destruct (String.eqb_spec t s) as [->|Hn].
    - rewrite HI. apply IH.
      + intros u _. rewrite !(dget_dset _ sspec). destruct (String.eqb_spec u s); auto.
      + left. unfold dmem. rewrite !(dget_dset _ sspec), String.eqb_refl. reflexivity.
    - destruct (do i <- frame_item w f t; to_operand E i) as [o'|x].
      + apply IH.
        * intros u Hu. rewrite !(dget_dset _ sspec). destruct (String.eqb_spec u t); auto. apply H1. destruct Hu as [Hu|Hu]; [auto|right; simpl; intros [X|X]; auto].
        * destruct H2 as [H2|[H2|H2]]; [|congruence|auto]. left. unfold dmem in *. rewrite !(dget_dset _ sspec). destruct (String.eqb_spec s t); auto.
      + destruct x; auto. assert (dmem String.eqb a t = dmem String.eqb b t) as -> by (unfold dmem; now rewrite (H1 t) by auto). destruct (dmem String.eqb b t); auto. apply IH.
        * intros u Hu. apply H1. destruct Hu as [Hu|Hu]; [auto|right; simpl; intros [X|X]; auto].
        * destruct H2 as [H2|[H2|H2]]; [auto|congruence|auto].
  Qed.

  Theorem C73_local_values_of_columns_are_ignored fuel (w : lworld) f fr text local ex s d vs o x :
    is_frame w f fr -> f_ldf fr = true ->
    snd (parse (v_fn E) (v_parse E) text [] []) = Ok ex -> In s (e_symbols ex) ->
    is_column fr s (d, vs) -> v_conv E d vs = Ok o -> (forall lk, ~ is_link w f s lk) ->
    lstep E fuel w (LEval f text (dset String.eqb local s x)) = lstep E fuel w (LEval f text local).
  Proof.
    intros Hf Hl HP Hs Hc Ho HL. cbn [lstep]. f_equal. destruct fuel as [|n]; [reflexivity|]. cbn [evaluate]. pose proof Hf as Hf'. apply get_frame_is in Hf'. rewrite Hf'. cbn [rbind]. rewrite Hl.
    cbn [check rbind parse_arg]. rewrite HP. cbn [rbind]. fold (start local). fold (start (dset String.eqb local s x)).
    pose proof (eval_symbols_like w f fr s d vs o Hf HL Hc Ho (e_symbols ex) (start (dset String.eqb local s x)) (start local)) as HE.
    assert (match eval_symbols E w f (e_symbols ex) (start (dset String.eqb local s x)), eval_symbols E w f (e_symbols ex) (start local) with Ok x, Ok y => like x y | Err x, Err y => x = y | _, _ => False end) as HE'.
    { apply HE; auto. intros t [Ht|Ht]; [|contradiction]. unfold start. rewrite !(dget_dset _ sspec). destruct (String.eqb t "NAN"), (String.eqb t "NEG_INF"); auto. destruct (String.eqb_spec t s); [congruence|auto]. }
    clear HE. destruct (eval_symbols E w f (e_symbols ex) (start (dset String.eqb local s x))) as [a|], (eval_symbols E w f (e_symbols ex) (start local)) as [b|]; try contradiction; cbn [rbind]; [|congruence].
    destruct (eval_chains_like (fun w f a => evaluate E n w f a []) f (e_chains ex) w a b HE') as [H1 H2].
    destruct (eval_chains E _ w f (e_chains ex) a) as [w1 [a1|]], (eval_chains E _ w f (e_chains ex) b) as [w2 [b1|]]; simpl in H1, H2; try contradiction; subst; auto.
    f_equal. assert (dget String.eqb a1 = dget String.eqb b1) as -> by (apply functional_extensionality; exact H2). reflexivity.
  Qed.
End Evaluate.

Example C73_applies :
  let w := w0 persons_households_zones in let e := EName "age" in
  snd (parse (v_fn env0) (v_parse env0) "age" [] []) = Ok (Expression "age" e [] [] None ["age"]) /\
  (exists fr, is_frame w 0 fr /\ f_ldf fr = true /\ is_column fr "age" (ints [30; 40; 5; 70]%Z) /\ (forall c, ~ is_column fr "bonus" c)) /\
  (forall lk, ~ is_link w 0 "age" lk).
Proof.
  split; [vm_compute; reflexivity|]. split.
  - eexists. split; [vm_compute; reflexivity|]. split; [reflexivity|]. split; [reflexivity|]. intros c Hc. vm_compute in Hc. discriminate.
  - intros lk (fr & H1 & H2). vm_compute in H1. injection H1 as <-. discriminate.
Qed.
(** "a name given in local_dict is used instead of the column": false *)
Theorem C73_local_dict_refuted :
  let w := w0 persons_households_zones in let local := [("age", OScalar (i 1%Z)); ("bonus", OScalar (i 2%Z))] in
  snd (lstep env0 3 w (LEval 0 "age" local)) = Ok (RCol (ints [30; 40; 5; 70]%Z)) /\
  snd (lstep env0 3 w (LEval 0 "bonus" local)) = Ok (RCol (ints [2; 2; 2; 2]%Z)).
Proof. vm_compute. auto. Qed.
