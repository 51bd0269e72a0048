(** C117: when are assigned data a snapshot. *)
From Coq Require Import ZArith.
From Verif Require Import Prelude Arith DictProofs ScopeModel ConvModel AliasModel.
Local Open Scope string_scope.
Local Open Scope nat_scope.
Local Open Scope list_scope.

(** calls that give the symbol [name] of model [m] other data *)
Definition renews (m : nat) (name : string) (o : aop) : Prop :=
  match o with AssignVector m' n _ | AssignTable m' n _ | AEmpty m' n => m' = m /\ n = name | _ => False end.
(** the rows of a mask *)
Section Alias.
  Context (old : bool).
  Notation astep := (astep old).
  Notation arun := (arun old).
  Notation dget := (dget String.eqb).

  Definition slot (w : aworld) m name : option stored := dget (model_of w m) name.

  Lemma set_model_other w m n m' x : m' <> m -> model_of (set_symbol w m n x) m' = model_of w m'.
  Proof. intros Q. unfold model_of, set_symbol. cbn [aw_models]. apply nth_upd_neq. congruence. Qed.
  Lemma set_symbol_length w m n x : length (aw_models (set_symbol w m n x)) = length (aw_models w).
  Proof. unfold set_symbol. cbn [aw_models]. apply upd_length. Qed.
  Lemma set_symbol_slot w m n x m' n' : m < length (aw_models w) ->
    slot (set_symbol w m n x) m' n' = if andb (m' =? m) (String.eqb n' n) then Some x else slot w m' n'.
  Proof.
    intros Hm. unfold slot. destruct (Nat.eqb_spec m' m) as [->|Q]; cbn [andb]; [|now rewrite set_model_other].
    unfold model_of at 1, set_symbol. cbn [aw_models]. rewrite nth_upd_eq by auto. apply (dget_dset String.eqb String.eqb_eq).
  Qed.
  Lemma set_symbol_out w m n x : ~ m < length (aw_models w) -> aw_models (set_symbol w m n x) = aw_models w.
  Proof. intros Hm. unfold set_symbol. cbn [aw_models]. clear - Hm. revert Hm. generalize (dset String.eqb (model_of w m) n x). intros v. generalize (aw_models w). intros l. revert m. induction l as [|a l IH]; intros [|m] H; cbn in *; auto; try lia. f_equal. apply IH. lia. Qed.
  Lemma nth_app_old {A} (l l' : list A) i d : i < length l -> nth i (l ++ l') d = nth i l d.
  Proof. apply app_nth1. Qed.

  Lemma step_length w o : length (aw_models w) <= length (aw_models (astep w o)).
  Proof.
    destruct o; cbn [AliasModel.astep aw_models]; rewrite ?app_length; try lia.
    - destruct (assign_vector old w a); rewrite ?set_symbol_length; lia.
    - rewrite set_symbol_length; lia.
    - rewrite set_symbol_length; lia.
    - destruct (subset_symbols _ _ _ _ _). cbn [aw_models]. rewrite app_length. lia.
  Qed.
  Lemma step_slot w o m name : m < length (aw_models w) -> ~ renews m name o -> slot (astep w o) m name = slot w m name.
  Proof.
    intros Hm NR. unfold slot. assert (AP : forall x, model_of (AWorld (aw_series w) (aw_frames w) (aw_models w ++ x)) m = model_of w m) by (intros x; unfold model_of; cbn [aw_models]; now apply nth_app_old).
    assert (SS : forall m' n x, ~ (m' = m /\ n = name) -> slot (set_symbol w m' n x) m name = slot w m name).
    { intros m' n x N. destruct (Nat.lt_ge_cases m' (length (aw_models w))) as [L|L]; [|unfold slot, model_of; now rewrite set_symbol_out by lia].
      rewrite set_symbol_slot by auto. destruct (Nat.eqb_spec m m') as [->|]; cbn; auto. destruct (String.eqb_spec name n) as [->|]; auto. tauto. }
    unfold slot in SS. destruct o; cbn [AliasModel.astep]; cbn in NR; try reflexivity.
    - now rewrite AP.
    - destruct (assign_vector old w a); [|reflexivity]. now apply SS.
    - now apply SS.
    - now apply SS.
    - now rewrite AP.
    - destruct (subset_symbols _ _ _ _ _) as [fs l]. unfold model_of. cbn [aw_models]. now rewrite nth_app_old.
  Qed.
  Lemma run_slot ops : forall w m name, m < length (aw_models w) -> Forall (fun o => ~ renews m name o) ops -> slot (arun w ops) m name = slot w m name.
  Proof.
    induction ops as [|o t IH]; intros w m name Hm NR; auto. inversion NR; subst. unfold AliasModel.arun in *. cbn [fold_left]. rewrite IH; auto; [now apply step_slot|]. pose proof (step_length w o). lia.
  Qed.

  (** ** Vectors *)

  (** Data that are converted when they are assigned (texts, categoricals, integers of pandas) are a snapshot: whatever is done
      later, the symbol has the converted data of the time of the assignment, until it is assigned or emptied. *)
  Theorem C117_converted_data_are_a_snapshot_partial w m name a u l ops :
    m < length (aw_models w) -> nth_error (aw_series w) a = Some u -> shares u = false -> convert_series old (us_data u) = Ok l ->
    Forall (fun o => ~ renews m name o) ops ->
    get_vector old (arun (astep w (AssignVector m name a)) ops) m name = Some (Ok l).
  Proof.
    intros Hm U SH CV NR. cbn [AliasModel.astep]. unfold assign_vector. rewrite (nth_error_nth _ _ _ U), CV, SH. cbn [rbind].
    unfold get_vector. fold (slot (arun (set_symbol w m name (Held l)) ops) m name). rewrite run_slot; auto; [|now rewrite set_symbol_length].
    rewrite set_symbol_slot, Nat.eqb_refl, String.eqb_refl by auto. reflexivity.
  Qed.
  (** Numbers and truth values in an array of numpy are not: the symbol always has what the array contains now. *)
  Theorem C117_arrays_are_shown_as_they_are_now w m name a u l ops :
    m < length (aw_models w) -> nth_error (aw_series w) a = Some u -> shares u = true -> convert_series old (us_data u) = Ok l ->
    Forall (fun o => ~ renews m name o) ops ->
    let w' := arun (astep w (AssignVector m name a)) ops in
    exists u', nth_error (aw_series w') a = Some u' /\ get_vector old w' m name = Some (convert_series old (us_data u')).
  Proof.
    intros Hm U SH CV NR w'. assert (SL : slot w' m name = Some (View a)).
    { unfold w'. cbn [AliasModel.astep]. unfold assign_vector. rewrite (nth_error_nth _ _ _ U), CV, SH. cbn [rbind]. rewrite run_slot; auto; [|now rewrite set_symbol_length].
      rewrite set_symbol_slot, Nat.eqb_refl, String.eqb_refl by auto. reflexivity. }
    assert (GL : forall ops w, length (aw_series w) <= length (aw_series (arun w ops))).
    { clear. unfold AliasModel.arun. induction ops as [|o t IH]; intros w; cbn [fold_left]; auto. eapply Nat.le_trans; [|apply IH].
      destruct o; cbn [AliasModel.astep aw_series]; rewrite ?app_length, ?upd_length; try lia.
      - destruct (assign_vector old w a); cbn; lia.
      - cbn; lia.
      - cbn; lia.
      - destruct (subset_symbols _ _ _ _ _). cbn. lia. }
    assert (La : a < length (aw_series w')).
    { unfold w'. eapply Nat.lt_le_trans; [|apply GL]. cbn [AliasModel.astep]. assert (a < length (aw_series w)) by (apply nth_error_Some; congruence). destruct (assign_vector old w a); cbn; auto. }
    destruct (nth_error (aw_series w') a) as [u'|] eqn:Q; [|apply nth_error_None in Q; lia]. exists u'. split; auto.
    unfold get_vector. fold (slot w' m name). rewrite SL. cbn [vector_now]. now rewrite (nth_error_nth _ _ _ Q).
  Qed.

  (** ** Tables *)

  (** A table symbol has the frame itself: an attribute is the column the frame has now, new or changed. *)
  Theorem C117_tables_show_the_frame_as_it_is_now w m name f ops :
    m < length (aw_models w) -> Forall (fun o => ~ renews m name o) ops ->
    let w' := arun (astep w (AssignTable m name f)) ops in
    forall attr s, dget (nth f (aw_frames w') []) attr = Some s -> get_attribute old w' m name attr = Some (convert_series old s).
  Proof.
    intros Hm NR w' attr s G. unfold get_attribute. fold (slot w' m name). unfold w' at 1. cbn [AliasModel.astep]. rewrite run_slot; auto; [|now rewrite set_symbol_length].
    rewrite set_symbol_slot, Nat.eqb_refl, String.eqb_refl by auto. cbv beta iota delta [andb]. now rewrite G.
  Qed.

  (** ** Copies *)

  (** A copy shares its data with the model it was made of: both always have the same values, until one of the two
      symbols is assigned or emptied. *)
  Theorem C117_copies_show_the_same_data w m name ops :
    let m' := length (aw_models w) in m < m' ->
    Forall (fun o => ~ renews m name o /\ ~ renews m' name o) ops ->
    let w' := arun (astep w (ACopy m)) ops in
    get_vector old w' m' name = get_vector old w' m name /\ forall attr, get_attribute old w' m' name attr = get_attribute old w' m name attr.
  Proof.
    intros m' Hm NR w'. assert (L1 : length (aw_models (astep w (ACopy m))) = S m') by (cbn; rewrite app_length; cbn; lia).
    assert (S1 : slot w' m name = slot w m name).
    { unfold w'. rewrite run_slot; [|lia|eapply Forall_impl; [|exact NR]; cbn; tauto]. apply step_slot; auto. }
    assert (S2 : slot w' m' name = slot w m name).
    { unfold w'. rewrite run_slot; [|lia|eapply Forall_impl; [|exact NR]; cbn; tauto]. unfold slot. cbn [AliasModel.astep]. unfold model_of at 1. cbn [aw_models]. rewrite app_nth2 by auto. unfold m'. rewrite Nat.sub_diag. reflexivity. }
    unfold get_vector, get_attribute. fold (slot w' m name) (slot w' m' name). rewrite S1, S2. auto.
  Qed.

  Lemma subset_spec w mask : forall l frames, let '(fs, l') := subset_symbols old w mask frames l in
    (exists new, fs = frames ++ new) /\
    forall name, match dget l name with
      | Some (Frame f) => exists f', dget l' name = Some (Frame f') /\ length frames <= f' < length fs /\
          (f < length frames -> nth f' fs [] = map (fun p => (fst p, keep_series mask (snd p))) (nth f frames []))
      | Some Empty => dget l' name = Some Empty
      | Some x => dget l' name = Some (match vector_now old w x with Some (Ok v) => Held (keep mask v) | _ => Empty end)
      | None => dget l' name = None
      end.
  Proof.
    induction l as [|[n x] t IH]; intros frames; cbn [subset_symbols].
    { split; [exists []; now rewrite app_nil_r|]. intros name. reflexivity. }
    set (q := match x with Empty => (frames, Empty) | Frame f => (frames ++ [map (fun p => (fst p, keep_series mask (snd p))) (nth f frames [])], Frame (length frames)) | _ => (frames, match vector_now old w x with Some (Ok v) => Held (keep mask v) | _ => Empty end) end).
    assert (QE : match x with Empty => (frames, Empty) | Held _ | View _ => (frames, match vector_now old w x with Some (Ok v) => Held (keep mask v) | _ => Empty end) | Frame f => (frames ++ [map (fun p => (fst p, keep_series mask (snd p))) (nth f frames [])], Frame (length frames)) end = q) by (destruct x; reflexivity).
    assert (G : let '(fs, l') := (let '(frames1, x') := q in let '(frames2, t') := subset_symbols old w mask frames1 t in (frames2, (n, x') :: t')) in
      (exists new, fs = frames ++ new) /\
      forall name, match dget ((n, x) :: t) name with
      | Some (Frame f) => exists f', dget l' name = Some (Frame f') /\ length frames <= f' < length fs /\
          (f < length frames -> nth f' fs [] = map (fun p => (fst p, keep_series mask (snd p))) (nth f frames []))
      | Some Empty => dget l' name = Some Empty
      | Some x => dget l' name = Some (match vector_now old w x with Some (Ok v) => Held (keep mask v) | _ => Empty end)
      | None => dget l' name = None
      end); [|destruct x; exact G].
    destruct q as [frames1 x'] eqn:Q. specialize (IH frames1). destruct (subset_symbols old w mask frames1 t) as [fs t']. destruct IH as [[new NE] IH].
    assert (F1 : exists new1, frames1 = frames ++ new1).
    { subst q. destruct x; injection Q as <- <-; try (exists []; now rewrite app_nil_r). eexists; reflexivity. }
    destruct F1 as [new1 F1]. split; [exists (new1 ++ new); now rewrite app_assoc, <- F1|].
    intros name. cbn [Prelude.dget]. destruct (String.eqb name n) eqn:EN.
    - subst q. destruct x; injection Q as <- <-; try reflexivity. exists (length frames). split; [reflexivity|]. rewrite NE, !app_length. cbn [length]. split; [lia|]. intros _. rewrite <- app_assoc. rewrite app_nth2 by lia. now rewrite Nat.sub_diag.
    - specialize (IH name). destruct (dget t name) as [[| | |f]|]; auto. destruct IH as (f' & I1 & I2 & I3). exists f'. split; auto. rewrite F1, app_length in *. split; [lia|]. intros Hf. rewrite I3 by lia. now rewrite app_nth1.
  Qed.

  (** A subset has values of its own: the rows that the mask keeps of the values at the time of the copy. *)
  Theorem C117_subsets_have_their_own_data w m mask name v ops :
    let m' := length (aw_models w) in
    get_vector old w m name = Some (Ok v) -> Forall (fun o => ~ renews m' name o) ops ->
    get_vector old (arun (astep w (ASubset m mask)) ops) m' name = Some (Ok (keep mask v)).
  Proof.
    intros m' G NR. unfold get_vector. fold (slot (arun (astep w (ASubset m mask)) ops) m' name). rewrite run_slot; auto.
    2:{ cbn [AliasModel.astep]. destruct (subset_symbols _ _ _ _ _). cbn [aw_models]. rewrite app_length. cbn. lia. }
    cbn [AliasModel.astep]. pose proof (subset_spec w mask (model_of w m) (aw_frames w)) as SP. destruct (subset_symbols old w mask (aw_frames w) (model_of w m)) as [fs l'] . destruct SP as [_ SP].
    unfold slot, model_of. cbn [aw_models]. rewrite app_nth2 by auto. unfold m'. rewrite Nat.sub_diag. cbn [nth]. specialize (SP name).
    unfold get_vector in G. destruct (dget (model_of w m) name) as [[|l|a|f]|]; try discriminate G; rewrite SP, G; reflexivity.
  Qed.
  Theorem C117_subsets_have_their_own_tables w m mask name f attr s ops :
    let m' := length (aw_models w) in let w1 := astep w (ASubset m mask) in
    slot w m name = Some (Frame f) -> f < length (aw_frames w) -> dget (nth f (aw_frames w) []) attr = Some s ->
    Forall (fun o => ~ renews m' name o) ops ->
    (** the user cannot write to the frames that the copy made *)
    Forall (fun o => forall g n x, o = UColumn g n x -> g < length (aw_frames w) \/ length (aw_frames w1) <= g) ops ->
    get_attribute old (arun w1 ops) m' name attr = Some (convert_series old (keep_series mask s)).
  Proof.
    intros m' w1 SL Hf G NR NU. unfold get_attribute. fold (slot (arun w1 ops) m' name).
    assert (L1 : m' < length (aw_models w1)) by (unfold w1; cbn [AliasModel.astep]; destruct (subset_symbols _ _ _ _ _); cbn [aw_models]; rewrite app_length; cbn; lia).
    rewrite run_slot by auto.
    assert (FR : exists f', slot w1 m' name = Some (Frame f') /\ length (aw_frames w) <= f' < length (aw_frames w1) /\ nth f' (aw_frames w1) [] = map (fun p => (fst p, keep_series mask (snd p))) (nth f (aw_frames w) [])).
    { unfold w1. cbn [AliasModel.astep]. pose proof (subset_spec w mask (model_of w m) (aw_frames w)) as SP. destruct (subset_symbols old w mask (aw_frames w) (model_of w m)) as [fs l']. destruct SP as [_ SP].
      unfold slot, model_of at 1. cbn [aw_models aw_frames]. rewrite app_nth2 by auto. unfold m'. rewrite Nat.sub_diag. cbn [nth]. specialize (SP name). unfold slot in SL. rewrite SL in SP. destruct SP as (f' & P1 & P2 & P3). exists f'. auto. }
    destruct FR as (f' & -> & B & N). assert (SAME : forall ops w2, length (aw_frames w1) <= length (aw_frames w2) ->
      Forall (fun o => forall g n x, o = UColumn g n x -> g < length (aw_frames w) \/ length (aw_frames w1) <= g) ops -> nth f' (aw_frames (arun w2 ops)) [] = nth f' (aw_frames w2) []).
    { clear - B. induction ops as [|o t IH]; intros w2 L NU; auto. inversion NU; subst. unfold AliasModel.arun in *. cbn [fold_left].
      assert (ST : length (aw_frames w2) <= length (aw_frames (astep w2 o)) /\ nth f' (aw_frames (astep w2 o)) [] = nth f' (aw_frames w2) []).
      { destruct o as [u|g|a s0|g n s0| |k n a|k n g|k n|k|k msk]; cbn [AliasModel.astep aw_frames]; try (split; [cbn; lia|reflexivity]).
        - rewrite app_length. split; [lia|]. apply app_nth1. lia.
        - rewrite upd_length. split; auto. apply nth_upd_neq. destruct (H1 g n s0 eq_refl); lia.
        - destruct (assign_vector old w2 a); cbn; auto.
        - pose proof (subset_spec w2 msk (model_of w2 k) (aw_frames w2)) as SP. destruct (subset_symbols old w2 msk (aw_frames w2) (model_of w2 k)) as [fs l']. destruct SP as [[new ->] _]. cbn [aw_frames]. rewrite app_length. split; [lia|]. apply app_nth1. lia. }
      destruct ST as [ST1 ST2]. rewrite IH; auto. lia. }
    rewrite SAME by auto. rewrite N. assert (GM : dget (map (fun p => (fst p, keep_series mask (snd p))) (nth f (aw_frames w) [])) attr = Some (keep_series mask s)).
    { revert G. generalize (nth f (aw_frames w) []). induction d as [|[k x] t IH]; cbn [map Prelude.dget fst snd]; [discriminate|]. destruct (String.eqb attr k); [intros H; injection H as ->; auto|exact IH]. }
    rewrite GM. reflexivity.
  Qed.
End Alias.
Print Assumptions C117_converted_data_are_a_snapshot_partial.
Print Assumptions C117_subsets_have_their_own_tables.

(** A vector of integers is assigned; then the Series is written to: the symbol, and the copy made before, have the new value.
    The subset, and a vector of texts, keep the old ones. *)
Definition series_of (l : list Z) : series := SInt (map Some l).
Definition alias_history : list aop :=
  [ANewModel; UNew (USeries true (series_of [1; 2; 3]%Z)); UNew (USeries true (SObj [Text [97]; Text [98]; Text [99]]));
   UFrame [("age", series_of [7; 8; 9]%Z)]; AssignVector 0 "x" 0; AssignVector 0 "s" 1; AssignTable 0 "t" 0;
   ACopy 0; ASubset 0 [true; false; true]].
Definition alias_start : aworld := AWorld [] [] [].
Definition alias_w : aworld := arun false alias_start alias_history.
Definition alias_later : list aop := [UWrite 0 (series_of [1; 20; 30]%Z); UWrite 1 (SObj [Text [97]; Text [98]; Text [120]]); UColumn 0 "age" (series_of [7; 8; 10]%Z); UColumn 0 "new" (series_of [0; 0; 1]%Z)].
Theorem C117_snapshot_refuted : exists w m name v,
  get_vector false w m name = Some (Ok v) /\ get_vector false (arun false w alias_later) m name <> Some (Ok v) /\ Forall (fun o => ~ renews m name o) alias_later.
Proof.
  exists alias_w, 0, "x", [AInt 1; AInt 2; AInt 3]%Z. split; [reflexivity|]. split; [discriminate|]. repeat constructor; intros [].
Qed.
Example C117_met : let w' := arun false alias_w alias_later in
  get_vector false w' 0 "x" = Some (Ok [AInt 1; AInt 20; AInt 30]%Z) /\ get_vector false w' 1 "x" = Some (Ok [AInt 1; AInt 20; AInt 30]%Z) /\ get_vector false w' 2 "x" = Some (Ok [AInt 1; AInt 3]%Z) /\
  get_vector false w' 0 "s" = Some (Ok [ABytes [97]; ABytes [98]; ABytes [99]]) /\
  get_attribute false w' 0 "t" "age" = Some (Ok [AInt 7; AInt 8; AInt 10]%Z) /\ get_attribute false w' 1 "t" "new" = Some (Ok [AInt 0; AInt 0; AInt 1]%Z) /\ get_attribute false w' 2 "t" "age" = Some (Ok [AInt 7; AInt 9]%Z).
Proof. vm_compute. auto 10. Qed.
