(** Properties C63 and C64: what an aggregation over a link computes. *)
From Coq Require Import Sorted.
From Verif Require Import Prelude DictProofs ExprModel ScopeModel ScopeProofs LdfModel SpecLdf LdfProofs LdfKeys LdfReads LdfInv LdfGood LdfLookup LdfLinks LdfSim LdfExample PropLookup LdfGroups PropReads.
Local Open Scope string_scope.
Local Open Scope nat_scope.
Local Open Scope list_scope.

Section Agg.
  Context {L V : Type} (E : venv L V).
  Notation key := (list V).
  Notation frame := (@frame V).
  Notation lworld := (@lworld V).
  Notation column := (prod dtype (list V)).

  (** * Specification *)

  (** the rows of the target of a link with the key of row [i], in order *)
  Definition matching (w : lworld) (f : nat) (lk : link) (i : nat) (js : list nat) : Prop := listing (matches w f lk i) js.
  (** a number stands for a whole column *)
  Definition whole_column (n : nat) (o : operand V) (c : column) : Prop :=
    match o with OScalar x => c = (v_dtype E x, repeat x n) | OCol d l => c = (d, l) /\ length l = n end.
  (** what the argument of an aggregation denotes: a column of the target, or else an expression over it:
      for a linked frame what [evaluate] gives, for a plain frame what [DataFrame.eval] gives *)
  Inductive denotes (fuel : nat) (w : lworld) (g : nat) : aggarg L -> column -> Prop :=
  | a_column s c tr : is_frame w g tr -> is_column tr s c -> (forall lk, ~ is_link w g s lk) -> denotes fuel w g (XText s) c
  | an_expression s c tr : is_frame w g tr -> f_ldf tr = true -> (forall c, ~ is_column tr s c) ->
      snd (lstep E fuel w (LEval g s [])) = Ok (RCol c) -> denotes fuel w g (XText s) c
  | a_plain_expression s c tr o : is_frame w g tr -> f_ldf tr = false -> (forall c, ~ is_column tr s c) ->
      v_eval E (XText s) (dget String.eqb (f_cols tr)) = Ok o -> whole_column (nrows tr) o c -> denotes fuel w g (XText s) c
  (** the source of a tree, as utility expressions give it, is never the name of a column *)
  | a_tree e c tr : is_frame w g tr -> f_ldf tr = true -> snd (evaluate E fuel w g (XTree e) []) = Ok c -> denotes fuel w g (XTree e) c
  | a_plain_tree e c tr o : is_frame w g tr -> f_ldf tr = false ->
      v_eval E (XTree e) (dget String.eqb (f_cols tr)) = Ok o -> whole_column (nrows tr) o c -> denotes fuel w g (XTree e) c.
  (** the value for rows without matching rows: [int_fill] for whole numbers and booleans, NaN otherwise *)
  Definition agg_fill (d : dtype) (int_fill : V) : V := match d with DInt | DUint | DBool => int_fill | _ => v_nan E end.
  (** the aggregations that the documentation restricts to numbers; times are not supported at all *)
  Definition allowed (func : aggf) (d : dtype) : Prop := (numeric_only func = true -> numeric_type d = true) /\ d <> DTime.

  (** * Proofs *)
  Context (veq_spec : forall a b, v_eq E a b = true <-> a = b).

  Lemma evaluate_length : forall fuel w f a local w' d vals fr, is_frame w f fr -> evaluate E fuel w f a local = (w', Ok (d, vals)) -> length vals = nrows fr.
  Proof.
    intros [|n] w f a local w' d vals fr Hf H; [discriminate|]. cbn [evaluate] in H. apply get_frame_is in Hf. rewrite Hf in H. cbn [rbind] in H.
    destruct (check _ _); cbn [rbind] in H; [|discriminate]. destruct (parse_arg E a) as [ex|]; cbn [rbind] in H; [|discriminate].
    destruct (eval_symbols E w f _ _) as [ld|]; cbn [rbind] in H; [|discriminate]. destruct (eval_chains E _ w f _ ld) as [w1 [ld1|]]; [|discriminate].
    injection H as _ H. destruct (v_ne E _ _) as [o|]; cbn [rbind] in H; [|discriminate]. unfold as_series in H. destruct o as [x|d' l].
    - injection H as _ <-. apply repeat_length.
    - unfold check in H. destruct (Nat.eqb_spec (length l) (nrows fr)); cbn [rbind] in H; [|discriminate]. now injection H as _ <-.
  Qed.
  Lemma denotes_values fuel w g a d vals tr : world_ok w -> all_links paired w -> is_frame w g tr -> denotes fuel w g a (d, vals) ->
    exists w1, agg_values E (fun w f a => evaluate E fuel w f a []) w g tr a = (w1, Ok (d, vals)) /\ sim E w w1 /\ length vals = nrows tr.
  Proof.
    intros HW HP Hg H. assert (HS : forall w1 r, agg_values E (fun w f a => evaluate E fuel w f a []) w g tr a = (w1, r) -> sim E w w1).
    { intros w1 r H1. eapply agg_values_sim; [apply evaluate_eext|apply sim_refl; exact HP|exact H1]. }
    inversion H as [s c tr0 Hf Hc Hl|s c tr0 Hf Hl Hc He|s c tr0 o Hf Hl Hc He Ho|e c tr0 Hf Hl He|e c tr0 o Hf Hl He Ho]; subst; rewrite (is_frame_unique _ _ _ _ Hf Hg) in *.
    - exists w. unfold is_column in Hc. unfold agg_values in *. rewrite Hc in *. assert (dmem String.eqb (f_links tr) s = false) as Hd.
      { unfold dmem. destruct (dget String.eqb (f_links tr) s) as [lk|] eqn:Ed; auto. exfalso. apply (Hl lk). exists tr. auto. }
      rewrite Hd in *. split; [auto|]. split; [eapply HS; reflexivity|]. eapply fo_cols; eauto.
    - cbn [lstep] in He. unfold out_col in He. destruct (evaluate E fuel w g (XText s) []) as [w1 [c|]] eqn:Ee; [|discriminate]. simpl in He. injection He as ->.
      assert (HA : agg_values E (fun w f a => evaluate E fuel w f a []) w g tr (XText s) = (w1, Ok (d, vals))).
      { unfold agg_values. unfold is_column in Hc. destruct (dget String.eqb (f_cols tr) s) as [c|] eqn:Ec; [exfalso; eapply Hc; eauto|]. rewrite Hl, Ee. reflexivity. }
      exists w1. split; auto. split; [eapply HS; exact HA|]. eapply evaluate_length; eauto.
    - exists w. assert (HA : agg_values E (fun w f a => evaluate E fuel w f a []) w g tr (XText s) = (w, Ok (d, vals))).
      { unfold agg_values. unfold is_column in Hc. destruct (dget String.eqb (f_cols tr) s) as [c|] eqn:Ec; [exfalso; eapply Hc; eauto|]. rewrite Hl, He. cbn [rbind]. unfold as_series, whole_column in *.
        destruct o as [x|d' l]; [now rewrite Ho|]. destruct Ho as [Ho1 Ho2]. injection Ho1 as -> ->. rewrite Ho2. unfold check. rewrite Nat.eqb_refl. reflexivity. }
      split; auto. split; [eapply HS; exact HA|]. unfold whole_column in Ho. destruct o as [x|d' l]; [injection Ho as _ ->; apply repeat_length|]. destruct Ho as [Ho1 Ho2]. now injection Ho1 as _ ->.
    - destruct (evaluate E fuel w g (XTree e) []) as [w1 r] eqn:Ee. cbn [snd] in He. subst r.
      assert (HA : agg_values E (fun w f a => evaluate E fuel w f a []) w g tr (XTree e) = (w1, Ok (d, vals))) by (unfold agg_values; rewrite Hl, Ee; reflexivity).
      exists w1. split; auto. split; [eapply HS; exact HA|]. eapply evaluate_length; eauto.
    - exists w. assert (HA : agg_values E (fun w f a => evaluate E fuel w f a []) w g tr (XTree e) = (w, Ok (d, vals))).
      { unfold agg_values. rewrite Hl, He. cbn [rbind]. unfold as_series, whole_column in *. destruct o as [x|d' l]; [now rewrite Ho|]. destruct Ho as [Ho1 Ho2]. injection Ho1 as -> ->. rewrite Ho2. unfold check. rewrite Nat.eqb_refl. reflexivity. }
      split; auto. split; [eapply HS; exact HA|]. unfold whole_column in Ho. destruct o as [x|d' l]; [injection Ho as _ ->; apply repeat_length|]. destruct Ho as [Ho1 Ho2]. now injection Ho1 as _ ->.
  Qed.

  (** the node from which to aggregate *)
  Lemma agg_node w f path g s lk fr gr : world_ok w -> good E w -> links_ldf w ->
    lookups w f path g -> is_link w g s lk -> lk_agg lk = true -> is_frame w f fr -> is_frame w g gr ->
    exists h ts, subscript E w f (path ++ [s]) = (w, Ok (IAgg f ((g, s) :: h))) /\ chain E w h (nrows gr) ts /\ length ts = nrows fr /\
      forall i o, nth_error ts i = Some o -> reach w f path i o.
  Proof using veq_spec.
    intros HW HG HD HL Hl Ha Hf Hg. pose proof Hl as (gr0 & Hg0 & Hd). rewrite (is_frame_unique _ _ _ _ Hg0 Hg) in *. clear Hg0 gr0.
    inversion HL as [f0|f0 s1 path1 lk1 g0 fr0 gr1 Hl1 Ha1 Hr Hf0 Hg1 HE HL1]; subst.
    - exists [], (map Some (seq 0 (nrows fr))). rewrite (is_frame_unique _ _ _ _ Hg Hf) in *. split; [|split; [constructor|split; [now rewrite map_length, seq_length|]]].
      + simpl. unfold frame_item. apply get_frame_is in Hf. rewrite Hf. cbn [rbind]. rewrite Hd. unfold make_node. rewrite Ha. reflexivity.
      + intros i o Ho. rewrite nth_error_map in Ho. destruct (nth_error (seq 0 (nrows fr)) i) as [x|] eqn:Ex; [|discriminate]. injection Ho as <-.
        assert (Hi : i < nrows fr) by (rewrite <- (seq_length (nrows fr) 0); apply nth_error_Some; congruence). pose proof (nth_error_nth _ _ 0 Ex) as X. rewrite seq_nth in X by auto. simpl in X. subst x. constructor.
    - rewrite (is_frame_unique _ _ _ _ Hf0 Hf) in *.
      destruct (good_goes E veq_spec _ _ _ _ _ _ HW HG Hl1 Ha1 Hr Hf Hg1) as (ts1 & G1 & G2 & G3 & G4).
      set (comp := map (fun o => match o with Some i => match nth_error ts1 i with Some o' => o' | None => None end | None => None end) (map Some (seq 0 (nrows fr)))).
      assert (HC0 : comp = ts1) by (unfold comp; rewrite map_map, <- G2; apply nth_seq_self).
      assert (HC : chain E w [(f, s1)] (nrows gr1) ts1).
      { rewrite <- HC0. unfold comp. constructor; auto.
        - intros I X. apply HE in X. rewrite <- G2 in X. destruct ts1; [destruct I|discriminate].
        - rewrite G2. constructor. }
      assert (HT : top_other w [(f, s1)] = Ok (lk1, lk_other lk1)) by (simpl; apply get_link_is in Hl1; rewrite Hl1; reflexivity).
      destruct (walk_lookups E veq_spec w f HW HG HD _ _ _ HL1 _ _ _ _ _ Hg1 Hg HT HC) as (h' & ts' & lk' & W1 & W2 & W3 & W4 & W5).
      exists h', ts'. split; [|split; [auto|split; [congruence|]]].
      + cbn [app]. unfold subscript. unfold frame_item. pose proof Hl1 as (fr1 & Hf1 & Hd1). assert (fr1 = fr) as -> by (eapply is_frame_unique; eauto).
        pose proof Hf as Hf'. apply get_frame_is in Hf'. rewrite Hf'. cbn [rbind]. rewrite Hd1. unfold make_node. rewrite Ha1.
        destruct (HG _ _ _ Hl1) as (x & z & sk & ok & GD). pose proof (gd_chained _ _ _ _ _ _ _ _ GD) as ->. rewrite (is_frame_unique _ _ _ _ (gd_other _ _ _ _ _ _ _ _ GD) Hg1).
        fold (node (V:=V) f [(f, s1)] gr1). rewrite W1. cbn [walk]. unfold node. destruct (f_ldf gr) eqn:Eld; [|rewrite (HD _ _ Hg Eld) in Hd; discriminate].
        unfold item_item. rewrite W2. cbn [rbind]. pose proof Hg as Hg'. apply get_frame_is in Hg'. rewrite Hg'. cbn [rbind]. rewrite Hd. unfold make_node. rewrite Ha. reflexivity.
      + intros i o Ho. destruct (nth_error ts1 i) as [o1|] eqn:E1.
        * destruct (W5 _ _ E1) as (o' & N1 & N2). rewrite Ho in N1. injection N1 as <-. eapply targets_reach; eauto.
        * exfalso. apply nth_error_None in E1. assert (i < length ts') by (apply nth_error_Some; congruence). lia.
  Qed.

  (** the whole computation *)
  Lemma agg_result fuel os f path g s lk fr gr tr a func int_fill d vals y :
    orderly_run E fuel (new_lworld E) os ->
    let w := after E fuel os in
    lookups w f path g -> is_link w g s lk -> lk_agg lk = true -> lk_flat lk <> None ->
    is_frame w f fr -> is_frame w g gr -> is_frame w (lk_other lk) tr -> (nrows tr = 0 -> nrows gr = 0) ->
    denotes fuel w (lk_other lk) a (d, vals) -> allowed func d ->
    v_store E (v_aggtype E func d) (agg_fill d int_fill) = Ok y ->
    exists w' out sk ok, lstep E fuel w (LAgg f (path ++ [s]) func a int_fill) = (w', Ok (RCol (v_aggtype E func d, out))) /\ same_data w w' /\ length out = nrows fr /\
      ikeys E (lk_self lk) gr = Ok sk /\ ikeys E (lk_target lk) tr = Ok ok /\ length vals = nrows tr /\
      forall i, i < nrows fr -> exists o, reach w f path i o /\ (forall o', reach w f path i o' -> o' = o) /\
        match o with
        | None => nth_error out i = Some y
        | Some j => exists k, nth_error sk j = Some k /\
            match position (keq E) (uniques E [] ok) k with
            | None => nth_error out i = Some y
            | Some p => exists z, nth_error (group_codes (fst (factorize E ok))) p = Some z /\ nth_error out i = Some (v_agg E func (group_of (fst (factorize E ok)) vals z))
            end
        end.
  Proof using veq_spec.
    intros HO w HL Hl Ha Hfl Hf Hg Ht HE HV [HA1 HA2] HY.
    pose proof (orderly_good E veq_spec _ _ HO) as HG. fold w in HG.
    assert (HR : reachable E fuel w) by (exists os; reflexivity).
    pose proof (reachable_ok E _ _ HR) as HW. pose proof (reachable_ldf E _ _ HR) as HD. pose proof (paired_links E fuel os) as HP. fold w in HP.
    destruct (agg_node w f path g s lk fr gr HW HG HD HL Hl Ha Hf Hg) as (h & ts & HSub & HC & HLen & HRe).
    destruct (denotes_values fuel w (lk_other lk) a d vals tr HW HP Ht HV) as (w1 & HVal & HSim & HVL).
    destruct (HG _ _ _ Hl) as (fr0 & gr0 & sk & ok & GD). pose proof GD as [H1 H2 H3 H4 H5 H6 H7 H8 H9].
    rewrite (is_frame_unique _ _ _ _ H1 Hg), (is_frame_unique _ _ _ _ H2 Ht) in *. clear H1 H2 fr0 gr0.
    destruct (lk_flat lk) as [flat|] eqn:Ef; [|congruence]. destruct (H7 _ eq_refl) as [Hflat Hgr]. specialize (Hgr Ha). unfold order in Hflat. rewrite Ha in Hflat.
    destruct (ikeys_spec E _ _ _ (HW _ _ Hg) H3) as [LS SS]. destruct (ikeys_spec E _ _ _ (HW _ _ Ht) H4) as [LO SO].
    set (u := uniques E [] ok) in *. set (codes := fst (factorize E ok)) in *. set (grouped := map (fun z => v_agg E func (group_of codes vals z)) (group_codes codes)).
    assert (HCL : length codes = length vals) by (unfold codes, factorize; simpl; rewrite map_length; lia).
    pose proof (groups_of_keys E veq_spec ok) as HGr. cbv zeta in HGr. fold u codes in HGr.
    assert (HGL : length grouped = (if existsb (key_null E) ok then 1 else 0) + length u).
    { unfold grouped. rewrite map_length, HGr, app_length, map_length, seq_length. destruct (existsb _ ok); reflexivity. }
    set (ts0 := map (position (keq E) u) sk).
    assert (HGo : goes E w g s ts0).
    { assert (HX : map code ts0 = flat) by (rewrite Hflat; unfold ts0; rewrite map_map; apply map_ext; intros k; now rewrite pos_code).
      unfold goes. exists (match lk_missing lk with Some m => m | None => nonzero (map (fun z => (z =? -1)%Z) flat) end). split.
      - unfold view. pose proof Hl as Hl'. apply get_link_is in Hl'. rewrite Hl'. cbn [rbind]. unfold fresh. rewrite Ef. cbn [rbind]. rewrite Ef, HX. reflexivity.
      - intros i. destruct (lk_missing lk) as [m|] eqn:Em; [destruct (H9 _ eq_refl) as (fl & Hfl' & ->); injection Hfl' as <-|]; rewrite <- HX; apply missing_codes. }
    assert (HC' : chain E w ((g, s) :: h) (length grouped) (map (fun o => match o with Some i => match nth_error ts0 i with Some o' => o' | None => None end | None => None end) ts)).
    { constructor; auto.
      - intros j Hj. unfold ts0 in Hj. apply in_map_iff in Hj. destruct Hj as (k & Hk & _). apply (position_lt _ (keq_spec E veq_spec)) in Hk. lia.
      - intros HI HZ. rewrite HGL in HZ. destruct (existsb (key_null E) ok) eqn:Ex; [simpl in HZ; lia|]. assert (HU : u = []) by (apply length_zero_iff_nil; simpl in HZ; lia).
        assert (HOk : ok = []).
        { destruct ok as [|k ok']; auto. exfalso. assert (X : In k u); [|rewrite HU in X; destruct X]. apply (order_in E veq_spec). split; [left; auto|]. simpl in Ex. now apply orb_false_iff in Ex. }
        rewrite HOk in LO. simpl in LO. symmetry in LO. apply HE in LO. rewrite <- LS in LO. apply length_zero_iff_nil in LO. unfold ts0 in HI. rewrite LO in HI. destruct HI.
      - unfold ts0. now rewrite map_length, LS. }
    destruct (presolve_chain E _ _ _ _ HC' (v_aggtype E func d) grouped (agg_fill d int_fill) y eq_refl HY) as (out & P1 & [P2 P3]).
    rewrite map_length in P2.
    assert (HT : top_other w ((g, s) :: h) = Ok (lk, lk_other lk)) by (simpl; apply get_link_is in Hl; rewrite Hl; reflexivity).
    destruct (top_same E w w1 _ _ _ HSim HT) as (lk1 & HT1 & HGk).
    assert (HRR : exists w', resolve_root E w1 f ((g, s) :: h) (v_aggtype E func d, grouped) (agg_fill d int_fill) = (w', Ok (v_aggtype E func d, out)) /\ same_data w w').
    { unfold resolve_root. cbn [fst snd]. destruct (resolve E w1 ((g, s) :: h) (v_aggtype E func d) grouped (agg_fill d int_fill)) as [w2 r2] eqn:Er. destruct (resolve_pure E _ _ _ _ _ _ _ Er) as (R1 & R2 & _).
      assert (r2 = Ok out) as ->. { rewrite R1, <- P1. apply presolve_ext. intros f' n'. symmetry. apply (sim_view _ _ _ HSim). }
      destruct (same_frame _ _ _ _ (sim_data _ _ _ HSim) Hf) as (fr1 & Hf1 & HDr). apply get_frame_is in Hf1. rewrite Hf1. cbn [rbind].
      destruct (drop_parts _ _ HDr) as (_ & _ & HNr & _). rewrite P2, HLen, <- HNr. unfold check. rewrite Nat.eqb_refl. cbn [rbind]. exists w2. split; auto. eapply same_trans; [apply HSim|exact R2]. }
    destruct HRR as (w' & HRR & HSD).
    exists w', out, sk, ok. split; [|split; [auto|split; [congruence|split; [auto|split; [auto|split; [auto|]]]]]].
    - cbn [lstep]. rewrite HSub, aggregate_eq, HT. cbn [rbind]. pose proof Ht as Ht'. apply get_frame_is in Ht'. rewrite Ht'. cbn [rbind]. rewrite HVal. cbn [rbind fst].
      assert (orb (negb (numeric_only func)) (numeric_type d) = true) as -> by (destruct (numeric_only func); simpl; auto). cbn [check rbind].
      assert ((match d with DInt | DUint | DBool => Ok int_fill | DTime => Err NotImplementedErr | _ => Ok (v_nan E) end) = Ok (agg_fill d int_fill)) as -> by (destruct d; auto; congruence).
      cbn [rbind]. rewrite HT1. cbn [rbind]. rewrite HGk, Hgr. unfold group_reduce. cbn [snd fst]. rewrite HCL. unfold check. rewrite Nat.eqb_refl. cbn [rbind].
      fold grouped. rewrite HRR. reflexivity.
    - intros i Hi. destruct (nth_error ts i) as [o|] eqn:Eo; [|apply nth_error_None in Eo; lia]. exists o. pose proof (HRe _ _ Eo) as HRi. split; auto. split.
      + intros o' Ho'. eapply (reach_unique E veq_spec); eauto.
      + specialize (P3 i (match o with Some i => match nth_error ts0 i with Some o' => o' | None => None end | None => None end)).
        rewrite nth_error_map, Eo in P3. simpl in P3. specialize (P3 eq_refl). destruct o as [j|]; auto.
        assert (Hj : j < nrows gr) by (eapply (chain_bound E); [exact HC|eapply nth_error_In; eauto]). rewrite <- LS in Hj.
        destruct (nth_error sk j) as [k|] eqn:Ek; [|apply nth_error_None in Ek; lia]. exists k. split; auto. unfold ts0 in P3. rewrite nth_error_map, Ek in P3. simpl in P3.
        fold u codes. destruct (position (keq E) u k) as [p|] eqn:Ep; auto. unfold grouped in P3. rewrite nth_error_map in P3.
        destruct (nth_error (group_codes codes) p) as [z|] eqn:Ez; [exists z; auto|]. exfalso. apply nth_error_None in Ez.
        apply (position_lt _ (keq_spec E veq_spec)) in Ep. unfold grouped in HGL. rewrite map_length in HGL. lia.
  Qed.

  (** C63: without missing keys in the target, each row gets the aggregate of exactly its matching rows *)
  Theorem C63_aggregates_over_the_matching_rows fuel os f path g s lk fr gr tr a func int_fill d vals y :
    orderly_run E fuel (new_lworld E) os ->
    let w := after E fuel os in
    lookups w f path g -> is_link w g s lk -> lk_agg lk = true -> lk_flat lk <> None ->
    is_frame w f fr -> is_frame w g gr -> is_frame w (lk_other lk) tr -> (nrows tr = 0 -> nrows gr = 0) ->
    (forall j k, row_key tr (lk_target lk) j k -> key_null E k = false) ->
    denotes fuel w (lk_other lk) a (d, vals) -> allowed func d ->
    v_store E (v_aggtype E func d) (agg_fill d int_fill) = Ok y ->
    exists w' out, lstep E fuel w (LAgg f (path ++ [s]) func a int_fill) = (w', Ok (RCol (v_aggtype E func d, out))) /\ same_data w w' /\ length out = nrows fr /\
      forall i, i < nrows fr -> exists o, reach w f path i o /\ (forall o', reach w f path i o' -> o' = o) /\
        match o with
        | None => nth_error out i = Some y
        | Some j => exists js vs, matching w g lk j js /\ values_at vals js vs /\ nth_error out i = Some (match js with [] => y | _ => v_agg E func vs end)
        end.
  Proof using veq_spec.
    intros HO w HL Hl Ha Hfl Hf Hg Ht HE HNull HV HA HY.
    destruct (agg_result fuel os f path g s lk fr gr tr a func int_fill d vals y HO HL Hl Ha Hfl Hf Hg Ht HE HV HA HY) as (w' & out & sk & ok & R1 & R2 & R3 & R4 & R5 & R6 & R7). fold w in R1, R2, R7.
    assert (HW : world_ok w) by (apply (reachable_ok E fuel); exists os; reflexivity).
    exists w', out. split; [exact R1|]. split; [exact R2|]. split; [exact R3|]. intros i Hi. destruct (R7 i Hi) as (o & O1 & O2 & O3). exists o. split; auto. split; auto. destruct o as [j|]; auto.
    destruct O3 as (k & Hk & O3). pose proof (ikeys_row_key E _ _ _ j k (HW _ _ Hg) R4) as RS. pose proof (fun j k => ikeys_row_key E _ _ _ j k (HW _ _ Ht) R5) as RT.
    assert (HN : existsb (key_null E) ok = false).
    { apply Bool.not_true_is_false. intros X. apply existsb_exists in X. destruct X as (k' & I & Hn). apply In_nth_error in I. destruct I as (m & Hm). apply RT in Hm. rewrite (HNull _ _ Hm) in Hn. discriminate. }
    assert (HM : forall j', matches w g lk j j' <-> nth_error ok j' = Some k).
    { intros j'. split.
      - intros (a' & b' & k' & M1 & M2 & M3 & M4). rewrite (is_frame_unique _ _ _ _ M1 Hg), (is_frame_unique _ _ _ _ M2 Ht) in *. apply RT in M4. apply (ikeys_row_key E _ _ _ j k' (HW _ _ Hg) R4) in M3. congruence.
      - intros X. exists gr, tr, k. split; auto. split; auto. split; [now apply RS|now apply RT]. }
    pose proof (groups_of_keys E veq_spec ok) as HGr. cbv zeta in HGr. rewrite HN in HGr. cbn [app] in HGr.
    destruct (position (keq E) (uniques E [] ok) k) as [p|] eqn:Ep.
    - destruct O3 as (z & Hz & Ho). rewrite HGr, nth_error_map in Hz. destruct (nth_error (seq 0 _) p) as [x|] eqn:Ex; [|discriminate]. injection Hz as <-.
      assert (Hp : p < length (uniques E [] ok)) by (rewrite <- (seq_length (length (uniques E [] ok)) 0); apply nth_error_Some; congruence).
      pose proof (nth_error_nth _ _ 0 Ex) as X. rewrite seq_nth in X by auto. simpl in X. subst x.
      destruct (group_listing (fst (factorize E ok)) vals (Z.of_nat p)) as (js & [J1 J2] & J3).
      { unfold factorize. simpl. rewrite map_length. rewrite R6. exact (proj1 (ikeys_spec E _ _ _ (HW _ _ Ht) R5)). }
      exists js, (group_of (fst (factorize E ok)) vals (Z.of_nat p)). apply (position_some _ (keq_spec E veq_spec)) in Ep.
      assert (HJ : forall j', In j' js <-> matches w g lk j j').
      { intros j'. rewrite J2, HM. unfold factorize. simpl. rewrite nth_error_map. change (fun k => if key_null E k then (-1)%Z else pos_or_missing E (uniques E [] ok) k) with (key_code E (uniques E [] ok)).
        pose proof (fun k' => code_of_key E veq_spec (uniques E [] ok) k' p (order_nodup E veq_spec ok) (fun x Hx => proj2 (proj1 (order_in E veq_spec ok x) Hx))) as HC.
        destruct (nth_error ok j') as [k'|]; simpl; [|split; discriminate]. split.
        - intros X. injection X as X. apply HC in X. congruence.
        - intros X. injection X as ->. f_equal. now apply HC. }
      split; [split; auto|]. split; auto. destruct js as [|j0 js]; [|exact Ho]. exfalso.
      assert (In k ok) as I by (apply (order_in E veq_spec), nth_error_In with p; auto). apply In_nth_error in I. destruct I as (m & Hm). apply (HJ m). now apply HM.
    - exists [], []. split; [|split; [constructor|auto]]. split; [constructor|]. intros j'. split; [intros []|]. intros X. apply HM in X.
      apply (position_none _ (keq_spec E veq_spec)) in Ep. apply Ep. apply (order_in E veq_spec). split; [eapply nth_error_In; eauto|].
      apply RT in X. exact (HNull _ _ X).
  Qed.

  (** C64: with missing keys in the target, every group is shifted by one: the rows with the key seen first
      get the aggregate of the rows without a key, those with the next one that of the first, ... *)
  Theorem C64_missing_keys_shift_the_groups fuel os f s lk fr tr a func int_fill d vals y j0 k0 :
    orderly_run E fuel (new_lworld E) os ->
    let w := after E fuel os in
    is_link w f s lk -> lk_agg lk = true -> lk_flat lk <> None -> is_frame w f fr -> is_frame w (lk_other lk) tr ->
    row_key tr (lk_target lk) j0 k0 -> key_null E k0 = true ->
    denotes fuel w (lk_other lk) a (d, vals) -> allowed func d ->
    v_store E (v_aggtype E func d) (agg_fill d int_fill) = Ok y ->
    exists w' out (u : list key), lstep E fuel w (LAgg f [s] func a int_fill) = (w', Ok (RCol (v_aggtype E func d, out))) /\ length out = nrows fr /\
      (** the keys of the target, in the order of their first appearance *)
      NoDup u /\ (forall k, In k u <-> key_null E k = false /\ exists j, row_key tr (lk_target lk) j k) /\
      (forall p q kp kq j, p < q -> nth_error u p = Some kp -> nth_error u q = Some kq -> row_key tr (lk_target lk) j kq -> exists j', j' < j /\ row_key tr (lk_target lk) j' kp) /\
      forall i k, row_key fr (lk_self lk) i k ->
        (~ In k u -> nth_error out i = Some y) /\
        (nth_error u 0 = Some k -> exists js vs, listing (fun j => exists k', row_key tr (lk_target lk) j k' /\ key_null E k' = true) js /\ values_at vals js vs /\ nth_error out i = Some (v_agg E func vs)) /\
        (forall p k', nth_error u (S p) = Some k -> nth_error u p = Some k' ->
           exists js vs, listing (fun j => row_key tr (lk_target lk) j k') js /\ values_at vals js vs /\ nth_error out i = Some (v_agg E func vs)).
  Proof using veq_spec.
    intros HO w Hl Ha Hfl Hf Ht Hk0 Hn0 HV HA HY.
    assert (HW : world_ok w) by (apply (reachable_ok E fuel); exists os; reflexivity).
    pose proof (orderly_good E veq_spec _ _ HO) as HG. fold w in HG. destruct (HG _ _ _ Hl) as (x1 & x2 & sk0 & ok0 & GD).
    pose proof (gd_target _ _ _ _ _ _ _ _ GD) as GT. pose proof (gd_other _ _ _ _ _ _ _ _ GD) as GO. rewrite (is_frame_unique _ _ _ _ GO Ht) in GT. clear GO GD x1 x2 sk0.
    assert (HE : nrows tr = 0 -> nrows fr = 0) by (intros X; pose proof (ikeys_lt E _ _ _ _ _ (HW _ _ Ht) GT Hk0); lia).
    destruct (agg_result fuel os f [] f s lk fr fr tr a func int_fill d vals y HO (lookups_here _ _) Hl Ha Hfl Hf Hf Ht HE HV HA HY) as (w' & out & sk & ok & R1 & R2 & R3 & R4 & R5 & R6 & R7). fold w in R1, R2, R7.
    pose proof (fun j k => ikeys_row_key E _ _ _ j k (HW _ _ Hf) R4) as RS. pose proof (fun j k => ikeys_row_key E _ _ _ j k (HW _ _ Ht) R5) as RT.
    assert (HN : existsb (key_null E) ok = true) by (apply existsb_exists; exists k0; split; auto; apply RT in Hk0; eapply nth_error_In; eauto).
    pose proof (groups_of_keys E veq_spec ok) as HGr. cbv zeta in HGr. rewrite HN in HGr. cbn [app] in HGr. set (u := uniques E [] ok) in *. set (codes := fst (factorize E ok)) in *.
    pose proof (order_nodup E veq_spec ok) as HNd. fold u in HNd. pose proof (fun k => order_in E veq_spec ok k) as HIn. fold u in HIn.
    assert (HCL : length codes = length vals) by (unfold codes, factorize; simpl; rewrite map_length, R6; exact (proj1 (ikeys_spec E _ _ _ (HW _ _ Ht) R5))).
    assert (HCk : forall j z, nth_error codes j = Some z <-> exists k, row_key tr (lk_target lk) j k /\ key_code E u k = z).
    { intros j z. unfold codes, factorize. simpl. fold u. rewrite nth_error_map. change (fun k => if key_null E k then (-1)%Z else pos_or_missing E u k) with (key_code E u). split.
      - destruct (nth_error ok j) as [k|] eqn:Ek; [|discriminate]. intros X. injection X as <-. exists k. split; auto. now apply RT.
      - intros (k & H1 & H2). apply RT in H1. rewrite H1. simpl. congruence. }
    exists w', out, u. split; [exact R1|]. split; [exact R3|]. split; [exact HNd|]. split.
    { intros k. rewrite HIn. split.
      - intros [I Hk]. split; auto. apply In_nth_error in I. destruct I as (m & Hm). exists m. now apply RT.
      - intros [Hk (m & Hm)]. split; auto. apply RT in Hm. eapply nth_error_In; eauto. }
    split.
    { intros p q kp kq j Hpq Hp Hq Hj. apply RT in Hj. destruct (uniques_first E veq_spec ok p q kp kq Hpq Hp Hq j Hj) as (j' & H1 & H2). exists j'. split; auto. now apply RT. }
    intros i k Hk. assert (Hi : i < nrows fr) by (eapply ikeys_lt; eauto).
    destruct (R7 i Hi) as (o & O1 & O2 & O3). inversion O1; subst. destruct O3 as (k1 & Hk1 & O3). apply RS in Hk. rewrite Hk in Hk1. injection Hk1 as <-.
    split; [|split].
    - intros NI. destruct (position (keq E) u k) as [p|] eqn:Ep; auto. exfalso. apply NI. apply (position_some _ (keq_spec E veq_spec)) in Ep. eapply nth_error_In; eauto.
    - intros Hu. rewrite (position_nth _ (keq_spec E veq_spec) _ _ _ HNd Hu) in O3. destruct O3 as (z & Hz & Ho). rewrite HGr in Hz. simpl in Hz. injection Hz as <-.
      destruct (group_listing codes vals (-1)%Z HCL) as (js & [J1 J2] & J3). exists js, (group_of codes vals (-1)%Z). split; [split; auto|auto].
      intros j. rewrite J2, HCk. split; intros (k' & K1 & K2); exists k'; split; auto.
      + destruct (key_null E k') eqn:En; auto. exfalso. apply (code_of_null E veq_spec u k' En); auto. apply HIn. split; auto. apply RT in K1. eapply nth_error_In; eauto.
      + unfold key_code. now rewrite K2.
    - intros p k' Hu Hu'. rewrite (position_nth _ (keq_spec E veq_spec) _ _ _ HNd Hu) in O3. destruct O3 as (z & Hz & Ho). rewrite HGr in Hz. simpl in Hz. rewrite nth_error_map in Hz.
      destruct (nth_error (seq 0 (length u)) p) as [x|] eqn:Ex; [|discriminate]. injection Hz as <-.
      assert (Hp : p < length u) by (apply nth_error_Some; congruence). pose proof (nth_error_nth _ _ 0 Ex) as X. rewrite seq_nth in X by auto. simpl in X. subst x.
      destruct (group_listing codes vals (Z.of_nat p) HCL) as (js & [J1 J2] & J3). exists js, (group_of codes vals (Z.of_nat p)). split; [split; auto|auto].
      pose proof (fun k => code_of_key E veq_spec u k p HNd (fun x Hx => proj2 (proj1 (HIn x) Hx))) as HCd.
      intros j. rewrite J2, HCk. split.
      + intros (k2 & K1 & K2). apply HCd in K2. rewrite Hu' in K2. now injection K2 as <-.
      + intros K1. exists k'. split; auto. now apply HCd.
  Qed.
End Agg.

(** households (1) aggregate over persons (0); cars (2) belong to households: a chain, then an aggregation
    of an expression over a linked frame *)
Definition cars_households_persons : list lop0 :=
  [ LNew true [None] [row 1; row 2; row 3; row 4] [("age", ints [30; 40; 5; 70]%Z); ("hh", ints [10; 11; 10; 12]%Z)];
    LNew true [Some "hid"] [row 11; row 10; row 13] [("income", ints [100; 200; 300]%Z)];
    LNew true [None] [row 1; row 2; row 3] [("hh", ints [10; 99; 13]%Z)];
    LLink 1 0 "members" (LArgs ANone ANone ANone (AStr "hh") ANone ANone) true;
    LLink 2 1 "household" (to_index "hh") true ].
Example C63_applies : let w := w0 cars_households_persons in
  orderly_run env0 3 (new_lworld env0) cars_households_persons /\ lookups w 2 ["household"] 1 /\
  (exists lk tr, is_link w 1 "members" lk /\ lk_agg lk = true /\ lk_flat lk <> None /\ is_frame w (lk_other lk) tr /\
     (forall j k, row_key tr (lk_target lk) j k -> key_null env0 k = false) /\
     denotes env0 3 w (lk_other lk) (XText "1") (DInt, [i 1; i 1; i 1; i 1]%Z)) /\
  allowed FSum DInt /\ v_store env0 (v_aggtype env0 FSum DInt) (agg_fill env0 DInt (i (-1))) = Ok (i (-1)) /\
  snd (lstep env0 3 w (LAgg 2 ["household"; "members"] FSum (XText "1") (i (-1)))) = Ok (RCol (ints [2; -1; -1]%Z)).
Proof.
  split; [cbn [orderly_run cars_households_persons orderly]; tauto|]. split.
  { eapply lookups_on; [eexists; split; vm_compute; reflexivity|reflexivity|left; discriminate|vm_compute; reflexivity|vm_compute; reflexivity|vm_compute; discriminate|apply lookups_here]. }
  split.
  { eexists. eexists. split; [eexists; split; vm_compute; reflexivity|]. split; [reflexivity|]. split; [discriminate|]. split; [vm_compute; reflexivity|]. split.
    - intros j k H. vm_compute in H. inversion H as [|l v ls k' Hv Hk]; subst. inversion Hk; subst. destruct Hv as (s & d & vals & Hs & Hc & Hv). injection Hs as <-. vm_compute in Hc. injection Hc as _ <-.
      do 5 (destruct j as [|j]; [try (injection Hv as <-; reflexivity); try discriminate|]). destruct j; discriminate.
    - eapply an_expression; [vm_compute; reflexivity|reflexivity| |vm_compute; reflexivity]. intros c H. vm_compute in H. discriminate. }
  split; [split; [reflexivity|discriminate]|]. split; vm_compute; reflexivity.
Qed.

(** persons without a household: the sums of all households are those of their neighbours *)
Definition persons_without_household : list lop0 :=
  [ LNew true [None] [row 1; row 2; row 3; row 4] [("age", ints [30; 40; 5; 70]%Z); ("hh", (DFloat, [i 10; i 11; None; i 10]%Z))];
    LNew true [Some "hid"] [row 10; row 11; row 12] [];
    LLink 1 0 "members" (LArgs ANone ANone ANone (AStr "hh") ANone ANone) true ].
(** C64 fails: household 10 has members aged 30 and 70, household 11 one aged 40; the sums given are 5
    (of the person without a household) and 100 (of household 10) *)
Theorem C64_missing_keys_refuted :
  snd (lstep env0 3 (w0 persons_without_household) (LAgg 1 ["members"] FSum (XText "age") (i (-1)))) = Ok (RCol (ints [5; 100; -1]%Z)) /\
  (exists lk, is_link (w0 persons_without_household) 1 "members" lk /\ matching (w0 persons_without_household) 1 lk 0 [0; 3]).
Proof.
  split; [vm_compute; reflexivity|]. eexists. split; [eexists; split; vm_compute; reflexivity|]. split; [repeat constructor|]. intros j. split.
  - intros [<-|[<-|[]]]; (eexists; eexists; eexists; split; [vm_compute; reflexivity|]; split; [vm_compute; reflexivity|]; split; [vm_compute; reflexivity|]);
      (constructor; [|constructor]); (eexists; eexists; eexists; split; [reflexivity|]; split; [vm_compute; reflexivity|reflexivity]).
  - intros (fr & gr & k & H1 & H2 & H3 & H4). vm_compute in H1, H2. injection H1 as <-. injection H2 as <-. vm_compute in H3. injection H3 as <-. vm_compute in H4.
    inversion H4 as [|l v ls k' Hv Hk]; subst. destruct Hv as (s & d & vals & Hs & Hc & Hv). injection Hs as <-. vm_compute in Hc. injection Hc as _ <-.
    do 4 (destruct j as [|j]; [simpl in Hv; try discriminate; simpl; auto|]). destruct j; discriminate.
Qed.
Example C64_applies : let w := w0 persons_without_household in
  orderly_run env0 3 (new_lworld env0) persons_without_household /\
  exists lk tr, is_link w 1 "members" lk /\ lk_agg lk = true /\ lk_flat lk <> None /\ is_frame w (lk_other lk) tr /\
    row_key tr (lk_target lk) 2 [None] /\ key_null env0 [None] = true /\ denotes env0 3 w (lk_other lk) (XText "age") (ints [30; 40; 5; 70]%Z) /\ allowed FSum DInt.
Proof.
  split; [cbn [orderly_run persons_without_household orderly]; tauto|]. eexists. eexists. split; [eexists; split; vm_compute; reflexivity|]. split; [reflexivity|]. split; [discriminate|]. split; [vm_compute; reflexivity|].
  split; [|split; [reflexivity|split; [|split; [reflexivity|discriminate]]]].
  - constructor; [|constructor]. eexists; eexists; eexists; split; [reflexivity|]; split; [vm_compute; reflexivity|reflexivity].
  - eapply a_column; [vm_compute; reflexivity|reflexivity|]. intros lk (fr & H1 & H2). vm_compute in H1. injection H1 as <-. discriminate.
Qed.

Section Count.
  Context {L V : Type} (E : venv L V).
  Lemma take_total (vals : list V) : forall ts, (forall j, In (Some j) ts -> j < length vals) -> (In None ts -> vals <> []) -> exists vs, np_take vals (map code ts) = Ok vs.
  Proof.
    induction ts as [|o ts IH]; intros HB HN; [exists []; reflexivity|].
    destruct IH as (vs & Hv); [intros; apply HB; simpl; auto|intros; apply HN; simpl; auto|].
    assert (exists x, np_at vals (code o) = Ok x) as (x & Hx).
    { destruct o as [j|].
      - simpl. rewrite np_at_nat. destruct (nth_error vals j) eqn:Ej; eauto. apply nth_error_None in Ej. specialize (HB j (or_introl eq_refl)). lia.
      - apply np_at_m1, HN. simpl. auto. }
    exists (x :: vs). simpl. now rewrite Hx, Hv.
  Qed.
  (** C80: counting the values of a column that does not hold whole numbers always raises, whatever the data:
      NaN is the fill value, and it cannot be stored among the counts *)
  Theorem C80_count_of_floats_raises fuel os f s lk fr tr a int_fill d vals :
    (forall a b, v_eq E a b = true <-> a = b) ->
    orderly_run E fuel (new_lworld E) os ->
    let w := after E fuel os in
    is_link w f s lk -> lk_agg lk = true -> lk_flat lk <> None -> is_frame w f fr -> is_frame w (lk_other lk) tr -> (nrows tr = 0 -> nrows fr = 0) ->
    denotes E fuel w (lk_other lk) a (d, vals) -> d = DFloat \/ d = DText \/ d = DObj \/ d = DCat ->
    v_aggtype E FCount d = DInt -> v_store E DInt (v_nan E) = Err ValueError ->
    snd (lstep E fuel w (LAgg f [s] FCount a int_fill)) = Err ValueError.
  Proof.
    intros veq_spec HO w Hl Ha Hfl Hf Ht HE HV Hd HT HSt.
    pose proof (orderly_good E veq_spec _ _ HO) as HG. fold w in HG.
    assert (HR : reachable E fuel w) by (exists os; reflexivity).
    pose proof (reachable_ok E _ _ HR) as HW. pose proof (reachable_ldf E _ _ HR) as HD. pose proof (paired_links E fuel os) as HP. fold w in HP.
    destruct (agg_node E veq_spec w f [] f s lk fr fr HW HG HD (lookups_here _ _) Hl Ha Hf Hf) as (h & ts & HSub & _).
    destruct (denotes_values E fuel w (lk_other lk) a d vals tr HW HP Ht HV) as (w1 & HVal & HSim & HVL).
    assert (h = []) as ->.
    { simpl in HSub. unfold frame_item in HSub. pose proof Hl as (fr0 & Hf0 & Hd0). apply get_frame_is in Hf0. rewrite Hf0 in HSub. cbn [rbind] in HSub. rewrite Hd0 in HSub. unfold make_node in HSub. rewrite Ha in HSub. now injection HSub as <-. }
    destruct (HG _ _ _ Hl) as (fr0 & gr0 & sk & ok & GD). pose proof GD as [H1 H2 H3 H4 H5 H6 H7 H8 H9].
    rewrite (is_frame_unique _ _ _ _ H1 Hf), (is_frame_unique _ _ _ _ H2 Ht) in *. clear H1 H2 fr0 gr0.
    destruct (lk_flat lk) as [flat|] eqn:Ef; [|congruence]. destruct (H7 _ eq_refl) as [Hflat Hgr]. specialize (Hgr Ha). unfold order in Hflat. rewrite Ha in Hflat.
    destruct (ikeys_spec E _ _ _ (HW _ _ Hf) H3) as [LS SS]. destruct (ikeys_spec E _ _ _ (HW _ _ Ht) H4) as [LO SO].
    set (u := uniques E [] ok) in *. set (codes := fst (factorize E ok)) in *. set (grouped := map (fun z => v_agg E FCount (group_of codes vals z)) (group_codes codes)).
    assert (HCL : length codes = length vals) by (unfold codes, factorize; simpl; rewrite map_length; lia).
    assert (HTo : top_other w [(f, s)] = Ok (lk, lk_other lk)) by (simpl; apply get_link_is in Hl; rewrite Hl; reflexivity).
    destruct (top_same E w w1 _ _ _ HSim HTo) as (lk1 & HT1 & HGk).
    cbn [lstep]. simpl app in HSub. rewrite HSub, aggregate_eq, HTo. cbn [rbind]. pose proof Ht as Ht'. apply get_frame_is in Ht'. rewrite Ht'. cbn [rbind]. rewrite HVal. cbn [rbind fst numeric_only negb orb check].
    assert ((match d with DInt | DUint | DBool => Ok int_fill | DTime => Err NotImplementedErr | _ => Ok (v_nan E) end) = Ok (v_nan E)) as -> by (destruct Hd as [->|[->|[->| ->]]]; reflexivity).
    cbn [rbind]. rewrite HT1. cbn [rbind]. rewrite HGk, Hgr. unfold group_reduce. cbn [snd fst]. rewrite HCL. unfold check at 1. rewrite Nat.eqb_refl. cbn [rbind]. fold grouped. rewrite HT.
    unfold resolve_root. cbn [fst snd]. destruct (resolve E w1 [(f, s)] DInt grouped (v_nan E)) as [w2 r2] eqn:Er. destruct (resolve_pure E _ _ _ _ _ _ _ Er) as (R1 & _).
    assert (r2 = Err ValueError) as ->; [|reflexivity]. rewrite R1. cbn [presolve]. rewrite <- (sim_view _ _ _ HSim). unfold view. pose proof Hl as Hl'. apply get_link_is in Hl'. rewrite Hl'. cbn [rbind]. unfold fresh. rewrite Ef. cbn [rbind]. rewrite Ef. cbn [rbind].
    assert (HX : exists vs, np_take grouped flat = Ok vs).
    { pose proof (groups_of_keys E veq_spec ok) as HGr. cbv zeta in HGr. fold u codes in HGr.
      assert (HGL : length grouped = (if existsb (key_null E) ok then 1 else 0) + length u).
      { unfold grouped. rewrite map_length, HGr, app_length, map_length, seq_length. destruct (existsb _ ok); reflexivity. }
      assert (map code (map (position (keq E) u) sk) = flat) as <- by (rewrite Hflat, map_map; apply map_ext; intros k; now rewrite pos_code).
      apply take_total.
      - intros j Hj. apply in_map_iff in Hj. destruct Hj as (k & Hk & _). apply (position_lt _ (keq_spec E veq_spec)) in Hk. lia.
      - intros HI HZ. rewrite HZ in HGL. destruct (existsb (key_null E) ok) eqn:Ex; [simpl in HGL; lia|]. assert (HU : u = []) by (apply length_zero_iff_nil; simpl in HGL; lia).
        assert (HOk : ok = []).
        { destruct ok as [|k ok']; auto. exfalso. assert (X : In k u); [|rewrite HU in X; destruct X]. apply (order_in E veq_spec). split; [left; auto|]. simpl in Ex. now apply orb_false_iff in Ex. }
        rewrite HOk in LO. simpl in LO. symmetry in LO. apply HE in LO. rewrite <- LS in LO. apply length_zero_iff_nil in LO. rewrite LO in HI. destruct HI. }
    destruct HX as (vs & ->). cbn [rbind]. unfold fill_at. rewrite HSt. reflexivity.
  Qed.
End Count.
Theorem C80_count_refuted :
  snd (lstep env0 3 (w0 cars_households_persons) (LAgg 1 ["members"] FCount (XText "age") (i (-1)))) = Ok (RCol (ints [1; 2; -1]%Z)) /\
  let os := [ LNew true [None] [row 1; row 2] [("weight", floats [30; 40]%Z); ("hh", ints [10; 10]%Z)];
              LNew true [Some "hid"] [row 10] []; LLink 1 0 "members" (LArgs ANone ANone ANone (AStr "hh") ANone ANone) true ] in
  snd (lstep env0 3 (w0 os) (LAgg 1 ["members"] FCount (XText "weight") (i (-1)))) = Err ValueError.
Proof. vm_compute. auto. Qed.

(** C81: [count] of a condition gives the number of matching rows, whether or not the condition holds of
    them (pandas counts the values that are not missing) *)
Section Conditions.
  Context {L V : Type} (E : venv L V) (number : nat -> V).
  Lemma values_length {A} (vals : list A) js vs : values_at vals js vs -> length vs = length js /\ (forall v, In v vs -> In v vals).
  Proof. induction 1 as [|j v js vs Hj HF [IH1 IH2]]; [split; auto; intros v []|]. split; [simpl; auto|]. intros x [<-|Hx]; auto. eapply nth_error_In; eauto. Qed.
  Lemma filter_all {A} (p : A -> bool) l : (forall x, In x l -> p x = true) -> filter p l = l.
  Proof. induction l as [|x l IH]; simpl; intros H; auto. rewrite (H x) by auto. f_equal. auto. Qed.
  Theorem C81_count_ignores_the_condition fuel os f s lk fr tr a int_fill vals y :
    (forall a b, v_eq E a b = true <-> a = b) ->
    (forall l, v_agg E FCount l = number (length (filter (fun x => negb (v_null E x)) l))) ->
    orderly_run E fuel (new_lworld E) os ->
    let w := after E fuel os in
    is_link w f s lk -> lk_agg lk = true -> lk_flat lk <> None -> is_frame w f fr -> is_frame w (lk_other lk) tr -> (nrows tr = 0 -> nrows fr = 0) ->
    (forall j k, row_key tr (lk_target lk) j k -> key_null E k = false) ->
    denotes E fuel w (lk_other lk) a (DBool, vals) -> (forall x, In x vals -> v_null E x = false) ->
    v_store E (v_aggtype E FCount DBool) int_fill = Ok y ->
    exists out, snd (lstep E fuel w (LAgg f [s] FCount a int_fill)) = Ok (RCol (v_aggtype E FCount DBool, out)) /\ length out = nrows fr /\
      forall i, i < nrows fr -> exists js, matching w f lk i js /\ nth_error out i = Some (if length js =? 0 then y else number (length js)).
  Proof.
    intros veq_spec HC HO w Hl Ha Hfl Hf Ht HE HNull HV HN HY.
    destruct (C63_aggregates_over_the_matching_rows E veq_spec fuel os f [] f s lk fr fr tr a FCount int_fill DBool vals y) as (w' & out & H1 & H2 & H3 & H4); auto.
    - constructor.
    - split; [discriminate|discriminate].
    - exists out. simpl app in H1. fold w in H1, H4. rewrite H1. split; auto. split; auto. intros i Hi. destruct (H4 i Hi) as (o & O1 & _ & O3). inversion O1; subst.
      destruct O3 as (js & vs & J1 & J2 & J3). exists js. split; auto. rewrite J3. destruct (values_length _ _ _ J2) as [Lv Iv]. destruct js as [|j js]; [reflexivity|].
      simpl (_ =? 0). cbv iota. f_equal. rewrite HC, filter_all, Lv; auto. intros x Hx. rewrite HN; auto.
  Qed.
End Conditions.
Theorem C81_count_of_a_condition_refuted :
  let os := [ LNew true [None] [row 1; row 2; row 3] [("adult", (DBool, [i 1; i 0; i 1]%Z)); ("hh", ints [10; 10; 11]%Z)];
              LNew true [Some "hid"] [row 10; row 11] []; LLink 1 0 "members" (LArgs ANone ANone ANone (AStr "hh") ANone ANone) true ] in
  snd (lstep env0 3 (w0 os) (LAgg 1 ["members"] FCount (XText "adult") (i 0))) = Ok (RCol (ints [2; 1]%Z)) /\
  snd (lstep env0 3 (w0 os) (LAgg 1 ["members"] FSum (XText "adult") (i 0))) = Ok (RCol (DBool, [i 1; i 1]%Z)).
Proof. vm_compute. auto. Qed.
