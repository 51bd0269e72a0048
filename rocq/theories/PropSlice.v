(** Property C65: selecting rows commutes with reading through links. *)
From Verif Require Import Prelude DictProofs ExprModel ScopeModel ScopeProofs LdfModel SpecLdf LdfProofs LdfKeys LdfReads LdfInv LdfGood LdfLookup LdfLinks LdfSim LdfSlice LdfGroups LdfExample PropReads.
Local Open Scope string_scope.
Local Open Scope nat_scope.
Local Open Scope list_scope.

Lemma rows_values {A} ps (l r : list A) : rows_at ps l = Ok r -> values_at l ps r.
Proof.
  intros H. apply rows_at_nth in H. destruct H as [HL H]. unfold values_at. revert r HL H. induction ps as [|p ps IH]; intros [|x r] HL H; try discriminate; constructor.
  - destruct (H 0 p eq_refl) as (y & H1 & H2). simpl in H2. congruence.
  - apply IH; [simpl in HL; lia|]. intros i q Hq. exact (H (S i) q Hq).
Qed.

Section Slices.
  Context {L V : Type} (E : venv L V).
  Notation frame := (@frame V).
  Notation lworld := (@lworld V).

  (** [ldf[ps]] : a frame made of selected rows, whose number is [g] *)
  Lemma take_is (w w1 : lworld) f ps g fuel : lstep E fuel w (LTake f ps) = (w1, Ok (RFrame g)) ->
    exists fr fr', is_frame w f fr /\ w1 = add_frame w fr' /\ g = nframes w /\ nrows fr' = length ps /\
      (forall s, match dget String.eqb (f_cols fr) s with
                 | Some (d, vals) => exists vals', rows_at ps vals = Ok vals' /\ dget String.eqb (f_cols fr') s = Some (d, vals')
                 | None => dget String.eqb (f_cols fr') s = None end) /\
      (f_ldf fr = true -> copy_links (Some (map Z.of_nat ps)) (f_links fr) = Ok (f_links fr')) /\ f_ldf fr' = f_ldf fr /\ (f_ldf fr = false -> f_links fr' = []).
  Proof.
    cbn [lstep]. intros H. unfold keep_world in H. destruct (take_frame E w f ps) as [w2|] eqn:Et; [|discriminate]. injection H as <- <-.
    unfold take_frame in Et. destruct (get_frame w f) as [fr|] eqn:Ef; simpl in Et; [|discriminate]. destruct (rows_at ps (f_index fr)) as [index|] eqn:Ei; simpl in Et; [|discriminate].
    destruct (take_cols ps (f_cols fr)) as [cols|] eqn:Ec; simpl in Et; [|discriminate]. destruct (copy_links _ (f_links fr)) as [links|] eqn:El; simpl in Et; [|discriminate].
    injection Et as <-. exists fr, (derived E fr index cols links). apply get_frame_is in Ef. repeat split; auto.
    - unfold nrows. simpl. now rewrite (rows_at_length _ _ _ Ei).
    - simpl. now apply take_cols_dget.
    - simpl. intros ->. auto.
    - simpl. intros ->. auto.
  Qed.
  Lemma copied_flat lk lk' ps flat : copy_link (Some (map Z.of_nat ps)) lk = Ok lk' -> lk_flat lk = Some flat ->
    exists flat', rows_at ps flat = Ok flat' /\ lk_flat lk' = Some flat' /\ lk_missing lk' = None /\ copy_meta lk' = copy_meta lk /\ lk_grouper lk' = lk_grouper lk.
  Proof.
    intros H Hf. unfold copy_link in H. rewrite Hf in H. cbn [rbind] in H. unfold rows_at. destruct (np_take flat (map Z.of_nat ps)) as [fl|]; simpl in H; [|discriminate].
    injection H as <-. exists fl. repeat split; auto.
  Qed.
  Lemma take_cut (w w1 : lworld) f ps g fuel s lk : lstep E fuel w (LTake f ps) = (w1, Ok (RFrame g)) -> (forall fr, is_frame w f fr -> f_ldf fr = false -> f_links fr = []) ->
    is_link w f s lk -> lk_flat lk <> None -> fitting lk -> exists fr', w1 = add_frame w fr' /\ g = nframes w /\ nrows fr' = length ps /\ cut_link E w fr' f ps s lk /\
      exists lk', is_link w1 g s lk' /\ lk_flat lk' <> None.
  Proof.
    intros H HL Hl Hf [_ HF]. destruct (take_is _ _ _ _ _ _ H) as (fr & fr' & A & -> & -> & B & _ & C & D & _). exists fr'. pose proof Hl as (fr0 & Hfr & Hd).
    assert (fr0 = fr) as -> by (eapply is_frame_unique; eauto). destruct (f_ldf fr) eqn:El; [|rewrite (HL _ A El) in Hd; discriminate]. specialize (C eq_refl).
    destruct (lk_flat lk) as [flat|] eqn:Ef; [|congruence]. destruct (rmapl_dget _ _ _ C) as [_ X]. specialize (X s). rewrite Hd in X. destruct X as (lk' & X1 & X2).
    destruct (copied_flat _ _ _ _ X1 Ef) as (flat' & Y1 & Y2 & Y3 & Y4 & Y5). split; auto. split; auto. split; auto. split.
    - exists lk'. repeat split; auto. intros v Hv. exists (flat', zeros flat'). split.
      + unfold view. rewrite link_added, X2. cbn [rbind]. unfold fresh. rewrite Y2. cbn [rbind]. now rewrite Y2, Y3.
      + assert (v = (flat, zeros flat)) as ->.
        { unfold view in Hv. apply get_link_is in Hl. rewrite Hl in Hv. cbn [rbind] in Hv. unfold fresh in Hv. rewrite Ef in Hv. cbn [rbind] in Hv. rewrite Ef in Hv.
          destruct (lk_missing lk) as [m|]; [|congruence]. destruct (HF _ eq_refl) as (fl & F1 & F2). congruence. }
        intros. eapply through_rows; eauto.
    - exists lk'. split; [exists fr'; split; auto; apply get_frame_is, get_added|congruence].
  Qed.

  Definition no_refresh (os : list (@lop L V)) : Prop := forall o, In o os -> refreshes o = false.
  Lemma take_links fuel os f ps w1 g : lstep E fuel (after E fuel os) (LTake f ps) = (w1, Ok (RFrame g)) -> all_links paired w1.
  Proof. intros H. pose proof (paired_links E fuel (os ++ [LTake f ps])) as P. rewrite after_one, H in P. exact P. Qed.
  Lemma after_ldf fuel os f fr : is_frame (after E fuel os) f fr -> f_ldf fr = false -> f_links fr = [].
  Proof. intros H. apply (reachable_ldf E fuel (after E fuel os)) in H; auto. now exists os. Qed.
  Lemma slice_read fuel os f ps s path w1 g d vals :
    let w := after E fuel os in
    (forall lk, is_link w f s lk -> lk_flat lk <> None /\ fitting lk) ->
    lstep E fuel w (LTake f ps) = (w1, Ok (RFrame g)) ->
    snd (lstep E fuel w (LRead f (s :: path))) = Ok (RCol (d, vals)) ->
    exists vs, values_at vals ps vs /\ snd (lstep E fuel w1 (LRead g (s :: path))) = Ok (RCol (d, vs)).
  Proof.
    intros w HK HT HR. pose proof (take_links _ _ _ _ _ _ HT) as P1. cbn [lstep] in HR |- *. destruct (subscript E w f (s :: path)) as [u [x|]] eqn:Es; [|discriminate].
    destruct x as [| | |c]; try discriminate. simpl in HR. injection HR as ->.
    destruct (get_link w f s) as [lk|] eqn:El.
    - apply get_link_is in El. destruct (HK _ El) as [K1 K2]. destruct (take_cut _ _ _ _ _ _ _ _ HT (after_ldf fuel os f) El K1 K2) as (fr' & -> & -> & B & C & _).
      pose proof (subscript_cut E w fr' f ps (closed_after E fuel os) (paired_links E fuel os) P1 B s lk El C path _ _ Es) as (w2 & vs & R1 & R2).
      exists vs. split; [now apply rows_values|]. now rewrite R2.
    - destruct (take_is _ _ _ _ _ _ HT) as (fr & fr' & A & -> & -> & B & C & D & D1 & D2). simpl in Es |- *. unfold frame_item in *. rewrite get_added. simpl.
      unfold get_link in El. pose proof A as A'. apply get_frame_is in A'. fold w in A'. rewrite A' in El, Es. simpl in El, Es. destruct (dget String.eqb (f_links fr) s) as [lk|] eqn:Ed; [discriminate|].
      assert (dget String.eqb (f_links fr') s = None) as ->.
      { destruct (f_ldf fr) eqn:Ef; [|now rewrite D2]. specialize (D eq_refl). destruct (rmapl_dget _ _ _ D) as [_ X]. specialize (X s). now rewrite Ed in X. }
      unfold get_column in *. specialize (C s). destruct (dget String.eqb (f_cols fr) s) as [[d0 v0]|]; simpl in Es; [|discriminate]. destruct C as (vals' & C1 & C2). rewrite C2. simpl.
      destruct path; [|simpl in Es; discriminate]. simpl in Es. injection Es as _ -> ->. exists vals'. split; [now apply rows_values|reflexivity].
  Qed.
  Lemma slice_agg fuel os f ps s path w1 g func a fill d vals :
    let w := after E fuel os in
    (forall lk, is_link w f s lk -> lk_flat lk <> None /\ fitting lk) ->
    lstep E fuel w (LTake f ps) = (w1, Ok (RFrame g)) ->
    snd (lstep E fuel w (LAgg f (s :: path) func a fill)) = Ok (RCol (d, vals)) ->
    exists vs, values_at vals ps vs /\ snd (lstep E fuel w1 (LAgg g (s :: path) func a fill)) = Ok (RCol (d, vs)).
  Proof.
    intros w HK HT HR. pose proof (take_links _ _ _ _ _ _ HT) as P1. destruct (get_link w f s) as [lk|] eqn:El.
    - apply get_link_is in El. destruct (HK _ El) as [K1 K2]. destruct (take_cut _ _ _ _ _ _ _ _ HT (after_ldf fuel os f) El K1 K2) as (fr' & -> & -> & B & C & _).
      destruct (agg_cut E w fr' f ps (closed_after E fuel os) (paired_links E fuel os) P1 B s lk El C fuel path func a fill d vals HR) as (vs & R1 & R2).
      exists vs. split; auto. now apply rows_values.
    - exfalso. cbn [lstep] in HR. simpl in HR. unfold frame_item in HR. unfold get_link in El. destruct (get_frame w f) as [fr|]; simpl in *; [|discriminate].
      destruct (dget String.eqb (f_links fr) s); [discriminate|]. destruct (get_column fr s) as [c|]; simpl in HR; [|discriminate]. destruct path; simpl in HR; discriminate.
  Qed.

  (** whatever was linked, edited, sliced or copied before (without [compute_indexers(refresh=True)]), if the
      link has its indexer: the selected rows read what the whole frame reads at these rows *)
  Theorem C65_selected_rows_read_alike_partial fuel os f ps s path w1 g d vals :
    let w := after E fuel os in
    no_refresh os -> (forall lk, is_link w f s lk -> lk_flat lk <> None) ->
    lstep E fuel w (LTake f ps) = (w1, Ok (RFrame g)) ->
    snd (lstep E fuel w (LRead f (s :: path))) = Ok (RCol (d, vals)) ->
    exists vs, values_at vals ps vs /\ snd (lstep E fuel w1 (LRead g (s :: path))) = Ok (RCol (d, vs)).
  Proof. intros w HO HF. apply slice_read. intros lk Hl. split; auto. eapply fitting_links; eauto. Qed.
  Theorem C65_selected_rows_aggregate_alike_partial fuel os f ps s path w1 g func a fill d vals :
    let w := after E fuel os in
    no_refresh os -> (forall lk, is_link w f s lk -> lk_flat lk <> None) ->
    lstep E fuel w (LTake f ps) = (w1, Ok (RFrame g)) ->
    snd (lstep E fuel w (LAgg f (s :: path) func a fill)) = Ok (RCol (d, vals)) ->
    exists vs, values_at vals ps vs /\ snd (lstep E fuel w1 (LAgg g (s :: path) func a fill)) = Ok (RCol (d, vs)).
  Proof. intros w HO HF. apply slice_agg. intros lk Hl. split; auto. eapply fitting_links; eauto. Qed.
  (** the same in orderly histories, which may refresh *)
  Theorem C65_orderly_selected_rows_read_alike fuel os f ps s path w1 g d vals :
    (forall a b, v_eq E a b = true <-> a = b) ->
    let w := after E fuel os in
    orderly_run E fuel (new_lworld E) (os ++ [LTake f ps]) ->
    lstep E fuel w (LTake f ps) = (w1, Ok (RFrame g)) ->
    snd (lstep E fuel w (LRead f (s :: path))) = Ok (RCol (d, vals)) ->
    exists vs, values_at vals ps vs /\ snd (lstep E fuel w1 (LRead g (s :: path))) = Ok (RCol (d, vs)).
  Proof.
    intros HV w HO. assert (HO2 : forall os' w0, orderly_run E fuel w0 (os' ++ [LTake f ps]) -> orderly_run E fuel w0 os' /\ preindexed (fst (lrun E fuel w0 os')) f).
    { induction os' as [|o os' IH]; intros w0 X; cbn [app orderly_run lrun] in *; [split; [auto|apply X]|]. destruct X as [X1 X2]. destruct (IH _ X2) as [Y1 Y2].
      destruct (lstep E fuel w0 o) as [u r]. simpl in *. destruct (lrun E fuel u os'). simpl in *. split; [split; auto|exact Y2]. }
    destruct (HO2 _ _ HO) as [O1 O2]. apply slice_read. intros lk Hl. split; [eapply O2; exact Hl|].
    destruct (orderly_good E HV fuel os O1 _ _ _ Hl) as (fr & gr & sk & ok & HG). split; [|apply HG]. apply (paired_links E fuel os _ _ _ Hl).
  Qed.

  (** several selections, one after the other: [ldf[ps1][ps2]...]; [n]: the number of the next frame *)
  Fixpoint selections (n f : nat) (pss : list (list nat)) : list (@lop L V) :=
    match pss with [] => [] | ps :: t => LTake f ps :: selections (S n) n t end.
  Definition selected_frame (n f : nat) (pss : list (list nat)) : nat := match pss with [] => f | _ :: t => n + length t end.
  Inductive selected {A} : list (list nat) -> list A -> list A -> Prop :=
  | selected_all vals : selected [] vals vals
  | selected_some ps pss vals vs out : values_at vals ps vs -> selected pss vs out -> selected (ps :: pss) vals out.
  Theorem C65_repeated_selections_read_alike_partial fuel : forall pss os f s path d vals,
    let w := after E fuel os in
    no_refresh os -> (forall lk, is_link w f s lk -> lk_flat lk <> None) ->
    (forall r, In r (snd (lrun E fuel w (selections (nframes w) f pss))) -> exists x, r = Ok x) ->
    snd (lstep E fuel w (LRead f (s :: path))) = Ok (RCol (d, vals)) ->
    exists vs, selected pss vals vs /\
      snd (lstep E fuel (fst (lrun E fuel w (selections (nframes w) f pss))) (LRead (selected_frame (nframes w) f pss) (s :: path))) = Ok (RCol (d, vs)).
  Proof.
    induction pss as [|ps pss IH]; intros os f s path d vals w HO HF HA HR.
    { exists vals. split; [constructor|exact HR]. }
    cbn [selections lrun] in HA |- *. destruct (lstep E fuel w (LTake f ps)) as [w1 r1] eqn:Et. destruct (lrun E fuel w1 (selections (S (nframes w)) (nframes w) pss)) as [w2 rs] eqn:Er. simpl in HA.
    destruct (HA r1 (or_introl eq_refl)) as (x & ->). assert (exists g, x = RFrame g) as (g & ->).
    { cbn [lstep] in Et. unfold keep_world in Et. destruct (take_frame _ _ _ _); [injection Et as _ <-; eauto|discriminate]. }
    destruct (C65_selected_rows_read_alike_partial fuel os f ps s path w1 g d vals HO HF Et HR) as (vs & V1 & V2).
    pose proof (after_one E fuel os (LTake f ps)) as HA1. fold w in HA1. rewrite Et in HA1. simpl in HA1.
    destruct (take_is _ _ _ _ _ _ Et) as (fr & fr' & A & W1 & G & _). assert (HN : nframes w1 = S (nframes w)) by (rewrite W1; unfold nframes, add_frame; simpl; rewrite app_length; simpl; lia).
    destruct (IH (os ++ [LTake f ps]) g s path d vs) as (out & O1 & O2).
    - intros o Ho. apply in_app_or in Ho. destruct Ho as [Ho|[<-|[]]]; auto.
    - rewrite HA1. intros lk' Hl'. rewrite W1 in Hl'. apply add_link_is in Hl'.
      destruct (get_link w f s) as [lk|] eqn:El.
      + apply get_link_is in El. destruct (take_cut _ _ _ _ _ _ _ _ Et (after_ldf fuel os f) El (HF _ El) ltac:(eapply fitting_links; eauto)) as (fr2 & _ & _ & _ & _ & lk2 & L2 & F2).
        rewrite (is_link_unique w1 g s lk' lk2); auto. rewrite W1. destruct Hl' as [X|[_ X]].
        * exfalso. destruct X as (y & Y & _). assert (g < nframes w) by (apply nth_error_Some; unfold is_frame in Y; congruence). lia.
        * exists fr'. rewrite G. split; auto. apply get_frame_is, get_added.
      + destruct Hl' as [X|[_ X]].
        * exfalso. destruct X as (y & Y & _). assert (g < nframes w) by (apply nth_error_Some; unfold is_frame in Y; congruence). lia.
        * exfalso. destruct (take_is _ _ _ _ _ _ Et) as (fr0 & fr1 & B0 & B1 & _ & _ & _ & B2 & _ & B3). assert (fr1 = fr') as ->.
          { rewrite W1 in B1. unfold add_frame in B1. injection B1 as B1. apply app_inj_tail in B1. now destruct B1 as [_ ->]. }
          unfold get_link in El. apply get_frame_is in B0. rewrite B0 in El. simpl in El. destruct (dget String.eqb (f_links fr0) s) eqn:Ed; [discriminate|].
          destruct (f_ldf fr0); [|now rewrite B3 in X]. destruct (rmapl_dget _ _ _ (B2 eq_refl)) as [_ Y]. specialize (Y s). rewrite Ed in Y. congruence.
    - rewrite HA1, HN. subst g. rewrite Er. simpl. intros r Hr. apply HA. auto.
    - rewrite HA1. exact V2.
    - exists out. split; [econstructor; eauto|]. rewrite HA1, HN in O2. subst g. rewrite Er in O2. cbn [fst] in O2 |- *.
      assert (selected_frame (nframes w) f (ps :: pss) = selected_frame (S (nframes w)) (nframes w) pss) as -> by (unfold selected_frame; destruct pss; simpl; lia). exact O2.
  Qed.
End Slices.

(** rows selected out of order, twice; one person has no household *)
Example C65_applies :
  let w := w0 persons_households_zones in
  no_refresh persons_households_zones /\ (exists lk, is_link w 0 "household" lk /\ lk_flat lk <> None) /\
  snd (lrun env0 3 w (selections 3 0 [[3; 0; 0; 1]; [2; 0; 3]])) = [Ok (RFrame 3); Ok (RFrame 4)] /\
  read0 (fst (lrun env0 3 w (selections 3 0 [[3; 0; 0; 1]; [2; 0; 3]]))) 4 ["household"; "home"; "area"] = Ok (RCol (DFloat, [i 70; None; i 80]%Z)) /\
  selected [[3; 0; 0; 1]; [2; 0; 3]] [i 70; i 80; i 70; None]%Z [i 70; None; i 80]%Z.
Proof.
  split; [intros o Ho; repeat (destruct Ho as [<-|Ho]; [reflexivity|]); destruct Ho|].
  split; [eexists; split; [eexists; split; vm_compute; reflexivity|discriminate]|].
  split; [vm_compute; reflexivity|]. split; [vm_compute; reflexivity|].
  apply (selected_some _ _ _ [None; i 70; i 70; i 80]%Z); [repeat constructor|]. apply (selected_some _ _ _ [i 70; None; i 80]%Z); [repeat constructor|constructor].
Qed.
(** the claim fails for a link without a stored indexer: the selected rows are given the targets of the first
    rows of the original, or reading fails *)
Theorem C65_delayed_links_refuted :
  let w := w0 (delayed_history ++ [LLink 0 1 "household" (to_index "hh") false; LTake 0 [2; 1; 1]; LTake 0 [1]]) in
  read0 w 0 ["household"; "income"] = Ok (RCol (ints [100; 200; 100]%Z)) /\
  read0 w 2 ["age"] = Ok (RCol (ints [5; 40; 40]%Z)) /\
  read0 w 2 ["household"; "income"] = Ok (RCol (ints [100; 200; 100]%Z)) /\
  read0 w 3 ["household"; "income"] = Err ValueError.
Proof. vm_compute. auto. Qed.
(** ... and after a refresh that follows a change of the keys *)
Theorem C65_after_a_refresh_refuted :
  let w := w0 (delayed_history ++ [LLink 0 1 "household" (to_index "hh") true; LRead 0 ["household"; "income"];
                                   LSetColumn 0 "hh" (ints [99; 11; 10]%Z); LCompute 0 true; LTake 0 [0; 1; 2]]) in
  read0 w 0 ["household"; "income"] = Ok (RCol (ints [300; 200; 100]%Z)) /\
  read0 w 2 ["household"; "income"] = Ok (RCol (ints [0; 200; 100]%Z)).
Proof. vm_compute. auto. Qed.
