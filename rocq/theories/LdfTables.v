(** Linked frames as the tables of a choice model: the [frames] of ScopeModel.v given by LdfModel.v.

    A table is a frame of a state that some history of operations leads to.  (Reading through links stores
    their indexers; by C77 this changes no later read, so that a table may be read as often as one likes.
    Simplification: a table is not changed by being read, so rows selected from a table with a delayed link are
    those of a table that has not been read; with [strict] tables reading changes nothing that selections use.)
    Labels are keys, so a decision unit has one label per level; the columns are named by texts, whose labels
    are given by [lab]. *)
From Verif Require Import Prelude DictProofs Arith ExprModel TreeModel ScopeModel ScopeProofs ModelModel SpecModel ModelHist PropCopy.
From Verif Require Import LdfModel SpecLdf LdfProofs LdfKeys LdfReads LdfInv LdfGood LdfLookup LdfLinks LdfSim LdfSlice LdfGroups LdfExample PropReads PropSlice PropRows LdfCols.
Local Open Scope string_scope.
Local Open Scope nat_scope.
Local Open Scope list_scope.

Section Tables.
  Context {L V : Type} (E : venv L V) (fuel : nat) (lab : string -> V).
  Notation frame := (@frame V).
  Notation lworld := (@lworld V).
  Notation key := (list V).

  (** The links of the frame: an indexer that is stored has one entry per row.  [strict]: all links have
      their indexer stored, with the missing rows that belong to it. *)
  Definition tabular (strict : bool) (w : lworld) (f : nat) : Prop :=
    (exists fr, is_frame w f fr) /\
    forall name lk fr, is_frame w f fr -> is_link w f name lk ->
      (forall flat, lk_flat lk = Some flat -> length flat = nrows fr) /\ (strict = true -> lk_flat lk <> None /\ fitting lk).

  Definition raw_table : Type := (list (@lop L V) * nat)%type.
  Definition world_of (t : raw_table) : lworld := after E fuel (fst t).
  Definition table (strict : bool) : Type := { t : raw_table | tabular strict (world_of t) (snd t) }.

  Definition frame_of (t : raw_table) : frame :=
    match nth_error (lw_frames (world_of t)) (snd t) with Some fr => fr | None => Frame false [] [] [] [] (v_default E) [] end.

  (** api.py 395, 397: [convert_series(series)]; the array of a series *)
  Definition as_array_of (o : res (operand V)) : res (list V) :=
    match o with Ok (OCol _ l) => Ok l | Ok (OScalar _) => Err TypeError | Err x => Err x end.
  (** api.py 391-395: [self._table[attribute_name]] *)
  Definition table_col (t : raw_table) (a : string) : res (list V) :=
    as_array_of (do i <- frame_item (world_of t) (snd t) a; to_operand E i).
  (** api.py 380-389: the items from the last attribute to the first, then the method with its argument *)
  Definition table_walk (t : raw_table) (chain : list string) (func : option (string * expr L)) : res (list V) :=
    match subscript E (world_of t) (snd t) (rev chain) with
    | (w1, Err x) => Err x
    | (w1, Ok i) =>
        match func with
        | Some (f, e) => match call_method E (fun w g a => evaluate E fuel w g a []) w1 i f e with
                         | (_, Ok c) => as_array_of (to_operand E (ISeries c)) | (_, Err x) => Err x end
        | None => as_array_of (to_operand E i)
        end
    end.
  (** [to_numpy(frame)] *)
  Definition frame_cells (fr : frame) : list (list V) :=
    map (fun r => map (fun p => nth r (snd (snd p)) (v_nan E)) (f_cols fr)) (seq 0 (nrows fr)).
  (** api.py 411: [self._table.loc[row_mask]] *)
  Definition mask_rows (n : nat) (mask : list bool) : list nat := kept (firstn n mask).
  Definition loc (mask : list bool) (t : raw_table) : raw_table :=
    (fst t ++ [LTake (snd t) (mask_rows (nrows (frame_of t)) mask)], nframes (world_of t)).

  Lemma frame_of_is strict t : tabular strict (world_of t) (snd t) -> is_frame (world_of t) (snd t) (frame_of t).
  Proof. intros [(fr & H) _]. unfold frame_of. unfold is_frame in *. now rewrite H. Qed.

  (** ** Selecting rows within range never fails *)
  Lemma np_take_ok {A} (l : list A) ps : (forall p, In p ps -> p < length l) -> exists r, np_take l (map Z.of_nat ps) = Ok r.
  Proof.
    induction ps as [|p ps IH]; intros H; cbn; [eauto|]. destruct IH as [r Hr]; [intros; apply H; now right|]. unfold np_at.
    destruct (Z.ltb_spec (Z.of_nat p) 0); [lia|]. destruct (Z.ltb_spec (Z.of_nat p) 0); [lia|]. rewrite Nat2Z.id.
    destruct (nth_error l p) as [x|] eqn:Q; [|apply nth_error_None in Q; specialize (H p (or_introl eq_refl)); lia]. cbn. rewrite Hr. cbn. eauto.
  Qed.
  Lemma mask_rows_lt n mask p : In p (mask_rows n mask) -> p < n.
  Proof. intros H. apply keep_in in H. apply in_seq in H. rewrite firstn_length in H. lia. Qed.
  Lemma rmapl_all {A B} (f : A -> res B) l : (forall a, In a l -> exists b, f a = Ok b) -> exists bs, rmapl f l = Ok bs.
  Proof.
    induction l as [|a l IH]; intros H; cbn; [eauto|]. destruct (H a (or_introl eq_refl)) as [b ->]. destruct IH as [bs ->]; [intros; apply H; now right|]. cbn. eauto.
  Qed.
  Lemma in_link os f name lk fr : is_frame (after E fuel os) f fr -> In (name, lk) (f_links fr) -> is_link (after E fuel os) f name lk.
  Proof.
    intros H I. exists fr. split; auto. apply (in_dget _ String.eqb_eq); auto. apply (after_full E fuel os _ _ H).
  Qed.
  Lemma take_succeeds strict os f ps fr : tabular strict (after E fuel os) f -> is_frame (after E fuel os) f fr -> (forall p, In p ps -> p < nrows fr) ->
    exists w1, lstep E fuel (after E fuel os) (LTake f ps) = (w1, Ok (RFrame (nframes (after E fuel os)))).
  Proof.
    intros [_ T] Hf HP. set (w := after E fuel os) in *. destruct (after_full E fuel os _ _ Hf) as [HC _]. fold w in HC.
    cbn [lstep]. unfold take_frame. pose proof Hf as Hf'. apply get_frame_is in Hf'. rewrite Hf'. cbn [rbind].
    destruct (np_take_ok (f_index fr) ps HP) as [index EI]. unfold rows_at at 1. rewrite EI. cbn [rbind].
    destruct (rmapl_all (fun p : string * (dtype * list V) => do vs <- rows_at ps (snd (snd p)); Ok (fst p, (fst (snd p), vs))) (f_cols fr)) as [cols EC].
    { intros a Ia. destruct (np_take_ok (snd (snd a)) ps) as [r Hr]; [rewrite (HC a Ia); exact HP|]. unfold rows_at. rewrite Hr. cbn. eauto. }
    unfold take_cols. rewrite EC. cbn [rbind].
    destruct (rmapl_all (fun p : string * link => do lk <- copy_link (Some (map Z.of_nat ps)) (snd p); Ok (fst p, lk)) (f_links fr)) as [links EL].
    { intros [name lk] Ia. cbn [snd fst]. unfold copy_link. destruct (lk_flat lk) as [flat|] eqn:EF; [|cbn; eauto].
      destruct (T name lk fr Hf (in_link os f name lk fr Hf Ia)) as [TL _]. destruct (np_take_ok flat ps) as [r Hr]; [rewrite (TL _ EF); exact HP|]. rewrite Hr. cbn. eauto. }
    unfold copy_links. rewrite EL. cbn [rbind keep_world]. eauto.
  Qed.

  Lemma firstn_keep {A} n mask (l : list A) : length l = n -> keep (firstn n mask) l = keep mask l.
  Proof. intros <-. revert mask. induction l as [|x l IH]; intros [|b mask]; cbn; auto. rewrite IH. reflexivity. Qed.
  Lemma keep_short {A} mask (l : list A) : length mask <= length l -> map Some (keep mask l) = map (nth_error l) (kept mask).
  Proof.
    intros H. rewrite <- (firstn_skipn (length mask) l) at 1. assert (HL : length (firstn (length mask) l) = length mask) by (rewrite firstn_length; lia).
    replace (keep mask (firstn (length mask) l ++ skipn (length mask) l)) with (keep mask (firstn (length mask) l)).
    - rewrite keep_some by exact HL. apply map_ext_in. intros p I. apply keep_in in I. apply in_seq in I. rewrite <- (firstn_skipn (length mask) l) at 2. rewrite nth_error_app1; auto. lia.
    - generalize (skipn (length mask) l) as q. revert HL. generalize (firstn (length mask) l) as k. clear H. induction mask as [|b mask IH]; intros [|x k] HL q; cbn in *; try discriminate; auto.
      rewrite (IH k) with (q := q) by lia. reflexivity.
  Qed.
  Lemma values_keep {A} n mask (l vs : list A) : length l = n -> values_at l (mask_rows n mask) vs -> vs = keep mask l.
  Proof.
    intros HL H. rewrite <- (firstn_keep n mask l HL). unfold mask_rows in H. set (m := firstn n mask) in *.
    assert (HM : length m <= length l) by (unfold m; rewrite firstn_length; lia).
    assert (Q : map Some vs = map Some (keep m l)).
    { rewrite keep_short by exact HM. clear - H. induction H; cbn; congruence. }
    clear - Q. revert Q. generalize (keep m l) as k. induction vs as [|v vs IH]; intros [|x k] Q; cbn in Q; try discriminate; auto. injection Q as -> Q. f_equal. now apply IH.
  Qed.

  (** a link of the new frame comes from a link of the old one *)
  Lemma taken_link os f ps w1 g fr fr' name lk' : lstep E fuel (after E fuel os) (LTake f ps) = (w1, Ok (RFrame g)) -> is_frame (after E fuel os) f fr -> is_frame w1 g fr' ->
    is_link w1 g name lk' -> exists lk, is_link (after E fuel os) f name lk /\ copy_link (Some (map Z.of_nat ps)) lk = Ok lk' /\ nrows fr' = length ps.
  Proof.
    intros HT Hf Hg (fr1 & H1 & H2). destruct (take_is E _ _ _ _ _ _ HT) as (fr0 & frn & A & B & C & D & _ & F & G & I).
    assert (fr0 = fr) as -> by (eapply is_frame_unique; eauto). subst w1 g.
    assert (HN : is_frame (add_frame (after E fuel os) frn) (nframes (after E fuel os)) frn) by (apply get_frame_is, get_added).
    assert (fr1 = frn) as -> by (eapply is_frame_unique; eauto). assert (fr' = frn) as -> by (eapply is_frame_unique; eauto).
    destruct (f_ldf fr) eqn:EL; [|rewrite I in H2 by auto; discriminate]. specialize (F eq_refl). destruct (rmapl_dget _ _ _ F) as [_ X]. specialize (X name).
    destruct (dget String.eqb (f_links fr) name) as [lk|] eqn:Ed; [|congruence]. destruct X as (b & X1 & X2). exists lk. split; [exists fr; auto|]. split; auto. congruence.
  Qed.
  Lemma loc_tabular strict mask t : tabular strict (world_of t) (snd t) -> tabular strict (world_of (loc mask t)) (snd (loc mask t)).
  Proof.
    intros T. pose proof (frame_of_is _ _ T) as Hf. destruct t as [os f]. unfold loc, world_of in *. cbn [fst snd] in *. set (fr := frame_of (os, f)) in *.
    destruct (take_succeeds strict os f (mask_rows (nrows fr) mask) fr T Hf) as (w1 & HT); [intros p; apply mask_rows_lt|].
    rewrite after_one, HT. cbn [fst]. destruct (take_is E _ _ _ _ _ _ HT) as (fr0 & frn & A & B & C & D & _).
    assert (HN : is_frame w1 (nframes (after E fuel os)) frn) by (subst w1; apply get_frame_is, get_added).
    split; [eauto|]. intros name lk' frx Hx HL. assert (frx = frn) as -> by (eapply is_frame_unique; eauto).
    destruct (taken_link os f _ w1 _ fr frn name lk' HT Hf HN HL) as (lk & L1 & L2 & _). destruct T as [_ T]. destruct (T name lk fr Hf L1) as [T1 T2].
    split.
    - intros flat' HF. unfold copy_link in L2. destruct (lk_flat lk) as [flat|] eqn:EF; cbn [rbind] in L2.
      + destruct (np_take flat _) as [fl|] eqn:ET; cbn [rbind] in L2; [|discriminate]. injection L2 as <-. cbn in HF. injection HF as <-.
        fold (rows_at (mask_rows (nrows fr) mask) flat) in ET. rewrite (rows_at_length _ _ _ ET). congruence.
      + injection L2 as <-. discriminate.
    - intros HS. destruct (T2 HS) as [T3 T4]. destruct (lk_flat lk) as [flat|] eqn:EF; [|congruence].
      destruct (copied_flat _ _ _ _ L2 EF) as (flat' & C1 & C2 & C3 & _). split; [congruence|]. split; [intros X; congruence|intros m X; congruence].
  Qed.

  (** ** The frames of ScopeModel.v *)
  Definition tables (strict : bool) : frames L key V :=
    Frames L key V (table strict)
      (fun t => f_index (frame_of (proj1_sig t)))
      (fun t => map (fun s => [lab s]) (dkeys (f_cols (frame_of (proj1_sig t)))))
      (fun t => frame_cells (frame_of (proj1_sig t)))
      (fun t => f_ldf (frame_of (proj1_sig t)))
      (fun t s => dmem String.eqb (f_cols (frame_of (proj1_sig t))) s)
      (fun t => table_col (proj1_sig t))
      (fun t => table_walk (proj1_sig t))
      (fun mask t => exist _ (loc mask (proj1_sig t)) (loc_tabular strict mask _ (proj2_sig t))).

  (** ** Laws *)
  Lemma loc_index strict mask (t : table strict) : f_index (frame_of (loc mask (proj1_sig t))) = keep mask (f_index (frame_of (proj1_sig t))).
  Proof.
    destruct t as [[os f] T]. cbn [proj1_sig]. pose proof (frame_of_is _ _ T) as Hf. pose proof (frame_of_is _ _ (loc_tabular strict mask _ T)) as Hg.
    set (fr := frame_of (os, f)) in *. unfold loc at 1 2, world_of in Hg. cbn [fst snd] in Hg. fold fr in Hg. unfold world_of in Hf. cbn [fst snd] in Hf.
    destruct (take_succeeds strict os f (mask_rows (nrows fr) mask) fr T Hf) as (w1 & HT); [intros p; apply mask_rows_lt|].
    rewrite after_one, HT in Hg. cbn [fst] in Hg. set (fr' := frame_of (loc mask (os, f))) in *.
    cbn [lstep] in HT. unfold keep_world in HT. destruct (take_frame E _ f _) as [w2|] eqn:ET; [|discriminate]. injection HT as <-.
    unfold take_frame in ET. apply get_frame_is in Hf. rewrite Hf in ET. cbn [rbind] in ET. destruct (rows_at _ (f_index fr)) as [index|] eqn:EI; cbn [rbind] in ET; [|discriminate].
    destruct (take_cols _ _) as [cols|]; cbn [rbind] in ET; [|discriminate]. destruct (copy_links _ _) as [links|]; cbn [rbind] in ET; [|discriminate]. injection ET as <-.
    assert (fr' = derived E fr index cols links) as -> by (eapply is_frame_unique; [exact Hg|apply get_frame_is, get_added]). cbn [derived f_index].
    apply rows_values in EI. eapply values_keep; eauto.
  Qed.

  (** ** What a table gives is what the frame gives *)
  Definition converts (c : dtype * list V) (v : list V) : Prop := exists d, v_conv E (fst c) (snd c) = Ok (OCol d v).
  Lemma as_array_iff c v : as_array_of (to_operand E (ISeries c)) = Ok v <-> converts c v.
  Proof.
    unfold converts. cbn. destruct (v_conv E (fst c) (snd c)) as [[x|d l]|]; cbn; (split; [intros Q|intros H; destruct H as [d0 Q]]); try discriminate.
    - injection Q as ->. eauto.
    - now injection Q as _ ->.
  Qed.
  Lemma walk_reads t chain v : table_walk t chain None = Ok v <->
    exists c, snd (lstep E fuel (world_of t) (LRead (snd t) (rev chain))) = Ok (RCol c) /\ converts c v.
  Proof.
    unfold table_walk. cbn [lstep]. destruct (subscript E (world_of t) (snd t) (rev chain)) as [w1 [i|x]]; cbn [out_item snd].
    - destruct i as [r h|r h|r h|c]; try (split; [discriminate|intros (c & Q & _); discriminate]). rewrite as_array_iff. cbn [out_item snd]. split; [intros H; exists c; auto|]. intros (c0 & Q & H). injection Q as <-. exact H.
    - split; [discriminate|intros (c & Q & _); discriminate].
  Qed.
  Lemma walk_aggregates t chain func e v : table_walk t chain (Some (func, e)) = Ok v <->
    exists fn c, aggf_named func = Some fn /\ snd (lstep E fuel (world_of t) (LAgg (snd t) (rev chain) fn (XTree e) (v_m1 E))) = Ok (RCol c) /\ converts c v.
  Proof.
    unfold table_walk. cbn [lstep]. destruct (subscript E (world_of t) (snd t) (rev chain)) as [w1 [i|x]]; cbn [snd].
    - destruct i as [r h|r h|r h|c]; cbn [call_method]; try (split; [discriminate|intros (fn1 & c1 & _ & Q & _); discriminate]).
      destruct (aggf_named func) as [fn|]; [|split; [discriminate|intros (fn & c & Q & _); discriminate]].
      destruct (aggregate E _ w1 r h fn (XTree e) (v_m1 E)) as [w2 [c|x]] eqn:EA; cbn [out_col snd].
      + rewrite as_array_iff. split; [intros H; exists fn, c; rewrite EA; cbn [out_col snd]; auto|]. intros (fn0 & c0 & Q & R & H). injection Q as <-. rewrite EA in R. cbn in R. injection R as <-. exact H.
      + split; [discriminate|]. intros (fn0 & c0 & Q & R & _). injection Q as <-. rewrite EA in R. discriminate.
    - split; [discriminate|intros (fn & c & _ & Q & _); discriminate].
  Qed.
  Lemma col_reads t a v : table_col t a = Ok v <->
    exists c, snd (lstep E fuel (world_of t) (LRead (snd t) [a])) = Ok (RCol c) /\ converts c v.
  Proof.
    rewrite <- (walk_reads t [a]). unfold table_col, table_walk. cbn [rev app subscript]. destruct (frame_item (world_of t) (snd t) a) as [i|x]; cbn [rbind walk]; reflexivity.
  Qed.

  (** ** Lengths *)
  Definition conv_length : Prop := forall d l d' l', v_conv E d l = Ok (OCol d' l') -> length l' = length l.
  Lemma walk_agg (w : lworld) f : forall path i w1 r h, rooted f i -> walk E w i path = (w1, Ok (IAgg r h)) -> w1 = w /\ r = f.
  Proof.
    induction path as [|s path IH]; intros i w1 r h HR H; cbn [walk] in H.
    - injection H as <- ->. auto.
    - destruct i as [r0 h0|r0 h0|r0 h0|c]; cbn [item_item] in H; cbn in HR; try contradiction; try discriminate; subst r0.
      + destruct (rbind _ _) as [c|] in H; [|discriminate]. destruct (resolve_root E w f h0 c _) as [u1 [c1|]] in H; [|discriminate].
        destruct path; cbn in H; discriminate.
      + destruct (rbind _ _) as [[g gr]|] in H; [|discriminate]. destruct (dget String.eqb (f_links gr) s) as [lk|].
        * apply (IH (make_node lk f ((g, s) :: h0))) in H; auto. unfold make_node. destruct (lk_agg lk); [|destruct (lk_chained lk)]; reflexivity.
        * destruct (get_column gr s) as [c|]; [|discriminate]. destruct (resolve_root E w f h0 c _) as [u1 [c1|]]; [|discriminate]. destruct path; cbn in H; discriminate.
  Qed.
  Lemma agg_length os f path func a fill d vals fr : is_frame (after E fuel os) f fr ->
    snd (lstep E fuel (after E fuel os) (LAgg f path func a fill)) = Ok (RCol (d, vals)) -> length vals = nrows fr.
  Proof.
    intros Hf H. set (w := after E fuel os) in *. cbn [lstep] in H. destruct (subscript E w f path) as [w1 [x|]] eqn:Es; [|discriminate]. destruct x as [| |r h|]; try discriminate.
    assert (w1 = w /\ r = f) as [-> ->].
    { destruct path as [|s path]; cbn in Es; [discriminate|]. destruct (frame_item w f s) as [i|] eqn:Ei; [|discriminate].
      unfold frame_item in Ei. apply get_frame_is in Hf. rewrite Hf in Ei. cbn [rbind] in Ei. destruct (dget String.eqb (f_links fr) s) as [lk|].
      - injection Ei as <-. eapply walk_agg; [|exact Es]. unfold make_node. destruct (lk_agg lk); [|destruct (lk_chained lk)]; reflexivity.
      - destruct (get_column fr s) as [c|]; cbn in Ei; [|discriminate]. injection Ei as <-. destruct path; cbn in Es; discriminate. }
    rewrite aggregate_eq in H. destruct (rbind _ _) as [[g gr]|] in H; [|discriminate].
    destruct (agg_values E _ w g gr a) as [w2 r2] eqn:EA.
    pose proof (agg_values_sim E _ w w _ _ _ _ _ (proj1 (evaluate_eext E fuel)) (sim_refl E _ (paired_links E fuel os)) EA) as S1.
    destruct (same_frame _ _ _ _ (sim_data _ _ _ S1) Hf) as (fr2 & F2 & DC). apply drop_core in DC. unfold core in DC. injection DC as _ _ DC _.
    destruct (rbind _ _) as [[c fl]|] in H; [|discriminate]. destruct (resolve_root E w2 f h c fl) as [w3 [[d3 v3]|]] eqn:ER; [|discriminate]. cbn in H. injection H as -> ->.
    rewrite (resolve_root_length E _ _ _ _ _ _ _ _ _ F2 ER). unfold nrows. congruence.
  Qed.
  Lemma lread_length os f path d vals fr : is_frame (after E fuel os) f fr ->
    snd (lstep E fuel (after E fuel os) (LRead f path)) = Ok (RCol (d, vals)) -> length vals = nrows fr.
  Proof.
    intros Hf H. cbn [lstep] in H. destruct (subscript E (after E fuel os) f path) as [w1 [x|]] eqn:Es; [|discriminate]. destruct x as [| | |[d0 v0]]; try discriminate. cbn in H. injection H as -> ->.
    eapply read_length; eauto. apply (reachable_ok E fuel). now exists os.
  Qed.
  Lemma walk_length_law strict (t : table strict) p o v : conv_length -> table_walk (proj1_sig t) p o = Ok v -> length v = length (f_index (frame_of (proj1_sig t))).
  Proof.
    intros CL H. destruct t as [[os f] T]. cbn [proj1_sig] in *. pose proof (frame_of_is _ _ T) as Hf. unfold world_of in Hf. cbn [fst snd] in Hf.
    destruct o as [[func e]|].
    - apply walk_aggregates in H. destruct H as (fn & [d l] & _ & H & [d' C]). unfold world_of in H. cbn [fst snd] in H. apply CL in C. rewrite C. cbn [snd]. eapply (agg_length os f); eauto.
    - apply walk_reads in H. destruct H as ([d l] & H & [d' C]). unfold world_of in H. cbn [fst snd] in H. apply CL in C. rewrite C. cbn [snd]. eapply (lread_length os f); eauto.
  Qed.
  Lemma col_walk t a : table_col t a = table_walk t [a] None.
  Proof. unfold table_col, table_walk. cbn [rev app subscript]. destruct (frame_item (world_of t) (snd t) a) as [i|x]; cbn [rbind walk]; reflexivity. Qed.

  (** ** Rows selected by a mask *)
  (** [convert_series] of some rows of a series is these rows of [convert_series] of the series.  (So it is for
      columns of numbers; for the conversion as modelled in ConvModel.v see C114_subset_of_rows; text columns of no rows cannot
      be converted, utils.py 51-53.) *)
  Definition conv_rows (mask : list bool) : Prop := forall d l d' l', v_conv E d l = Ok (OCol d' l') ->
    exists d'', v_conv E d (keep mask l) = Ok (OCol d'' (keep mask l')).
  Lemma walk_slice_law mask (t : table true) p o v : conv_length -> conv_rows mask -> table_walk (proj1_sig t) p o = Ok v ->
    table_walk (loc mask (proj1_sig t)) p o = Ok (keep mask v).
  Proof.
    intros CL CR H. destruct t as [[os f] T]. cbn [proj1_sig] in *. pose proof (frame_of_is _ _ T) as Hf. set (fr := frame_of (os, f)) in *. unfold world_of in Hf. cbn [fst snd] in Hf.
    destruct (take_succeeds true os f (mask_rows (nrows fr) mask) fr T Hf) as (w1 & HT); [intros q; apply mask_rows_lt|].
    assert (HW : world_of (loc mask (os, f)) = w1) by (unfold loc, world_of; cbn [fst snd]; rewrite after_one; fold fr; now rewrite HT).
    assert (HG : snd (loc mask (os, f)) = nframes (after E fuel os)) by reflexivity.
    assert (K : forall s lk, is_link (after E fuel os) f s lk -> lk_flat lk <> None /\ fitting lk).
    { intros s lk HL. destruct T as [_ T]. cbn [fst snd] in T. destruct (T s lk fr Hf HL) as [_ T2]. now apply T2. }
    assert (NE : rev p = [] \/ exists s path, rev p = s :: path) by (destruct (rev p); eauto).
    destruct o as [[func e]|].
    - apply walk_aggregates in H. destruct H as (fn & [d l] & HF & H & [d' C]). unfold world_of in H. cbn [fst snd] in H, C. pose proof (agg_length os f _ _ _ _ _ _ _ Hf H) as LL.
      destruct NE as [NE|(s & path & NE)]; rewrite NE in H; [discriminate|].
      destruct (slice_agg E fuel os f _ s path w1 _ fn (XTree e) (v_m1 E) d l (K s) HT H) as (vs & V1 & V2). apply values_keep in V1; auto. subst vs.
      destruct (CR _ _ _ _ C) as [d'' C']. apply walk_aggregates. exists fn, (d, keep mask l). rewrite HW, HG, NE. split; auto. split; auto. exists d''. exact C'.
    - apply walk_reads in H. destruct H as ([d l] & H & [d' C]). unfold world_of in H. cbn [fst snd] in H, C. pose proof (lread_length os f _ _ _ _ Hf H) as LL.
      destruct NE as [NE|(s & path & NE)]; rewrite NE in H; [discriminate|].
      destruct (slice_read E fuel os f _ s path w1 _ d l (K s) HT H) as (vs & V1 & V2). apply values_keep in V1; auto. subst vs.
      destruct (CR _ _ _ _ C) as [d'' C']. apply walk_reads. exists (d, keep mask l). rewrite HW, HG, NE. split; auto. exists d''. exact C'.
  Qed.
  Lemma loc_ldf strict mask (t : table strict) : f_ldf (frame_of (loc mask (proj1_sig t))) = f_ldf (frame_of (proj1_sig t)).
  Proof.
    destruct t as [[os f] T]. cbn [proj1_sig] in *. pose proof (frame_of_is _ _ T) as Hf. pose proof (frame_of_is _ _ (loc_tabular strict mask _ T)) as Hg. set (fr := frame_of (os, f)) in *.
    unfold world_of in Hf. cbn [fst snd] in Hf. destruct (take_succeeds strict os f (mask_rows (nrows fr) mask) fr T Hf) as (w1 & HT); [intros q; apply mask_rows_lt|].
    unfold loc at 1 2, world_of in Hg. cbn [fst snd] in Hg. fold fr in Hg. rewrite after_one, HT in Hg. cbn [fst] in Hg.
    destruct (take_is E _ _ _ _ _ _ HT) as (fr0 & frn & A & B & C & _ & _ & _ & D & _). assert (fr0 = fr) as -> by (eapply is_frame_unique; eauto).
    subst w1. assert (frame_of (loc mask (os, f)) = frn) as -> by (eapply is_frame_unique; [exact Hg|apply get_frame_is, get_added]). exact D.
  Qed.

  (** ** The environment of a choice model whose tables are linked frames *)
  Context (F : arith) (label : label -> key) (number : num F -> V) (nan ninf : num F) (f32 : bool -> L -> num F) (ne : expr L -> (string -> option V) -> option (num F)).
  Definition tenv (strict : bool) : env L F key V := Env L F key V (keq E) label number nan ninf f32 ne (v_fn E) (v_parse E) (tables strict).

  Theorem tables_obey_frame_laws strict : (forall a b, v_eq E a b = true <-> a = b) -> conv_length -> frame_laws (tenv strict).
  Proof.
    intros VE CL. constructor.
    - intros a b. cbn. unfold keq. rewrite (index_equals_spec _ VE). reflexivity.
    - intros t. cbn. unfold frame_cells. split; [rewrite map_length, seq_length; reflexivity|]. apply Forall_forall. intros row I. apply in_map_iff in I. destruct I as (r & <- & _).
      unfold dkeys. now rewrite !map_length.
    - intros t. split; cbn.
      + intros a v H. rewrite col_walk in H. eapply walk_length_law; eauto.
      + intros p o v H. eapply walk_length_law; eauto.
    - intros mask t. cbn. apply loc_index.
  Qed.
  Theorem tables_obey_frame_slices mask : conv_length -> conv_rows mask -> frame_slices (tenv true) mask.
  Proof.
    intros CL CR. constructor.
    - intros t a v _ H. cbn in H |- *. rewrite col_walk in *. now apply walk_slice_law.
    - intros t p o v _ H. cbn in H |- *. now apply walk_slice_law.
    - intros t. cbn. apply loc_ldf.
  Qed.
End Tables.
