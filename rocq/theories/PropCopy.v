(** Properties C56 and C57: copy() and copy_subset(). *)
From Verif Require Import Prelude Arith CoreModel TreeModel DictProofs ParModel ExprModel SpecExpr SpecContainer ExprWorld ScopeModel SpecScope ScopeProofs ModelModel ModelProofs SpecModel KernelProofs EvalProofs ModelExample PropState ModelWorld ModelHist ModelTabs ExprSets ModelInv RunProofs EvalTransfer PropUtility PropRerun PropPreval.
Local Open Scope string_scope.
Local Open Scope nat_scope.
Local Open Scope list_scope.

(** ** The rows kept by a mask *)
Definition kept (mask : list bool) : list nat := keep mask (seq 0 (length mask)).
Lemma keep_some {A} (mask : list bool) (l : list A) : length l = length mask -> map Some (keep mask l) = map (nth_error l) (kept mask).
Proof.
  intros H. unfold kept. rewrite <- !keep_map. f_equal. rewrite <- H. clear.
  assert (G : forall (l p : list A), map Some l = map (nth_error (p ++ l)) (seq (length p) (length l))).
  { induction l0 as [|x l0 IH]; intros p; cbn; auto. f_equal; [rewrite nth_error_app2, Nat.sub_diag; auto|].
    specialize (IH (p ++ [x])). rewrite <- app_assoc in IH. cbn in IH. rewrite app_length in IH. cbn in IH. rewrite Nat.add_1_r in IH. exact IH. }
  apply (G l []).
Qed.
Lemma kept_length {A} (mask : list bool) (l : list A) : length l = length mask -> length (keep mask l) = length (kept mask).
Proof. intros H. unfold kept. apply keep_length. now rewrite seq_length. Qed.
Lemma keep_in {A} (mask : list bool) (l : list A) : incl (keep mask l) l.
Proof. revert l. induction mask as [|b m IH]; intros [|x l]; cbn; try (intros y []). destruct b; intros y; [intros [->|I]; [left|right; apply IH]|right; apply IH]; auto. Qed.
Lemma kept_lt mask r : r < length (kept mask) -> nth r (kept mask) 0 < length mask.
Proof.
  intros H. assert (I : In (nth r (kept mask) 0) (kept mask)) by now apply nth_In. apply keep_in in I. apply in_seq in I. lia.
Qed.
Lemma keep_nth_error {A} (mask : list bool) (l : list A) r : length l = length mask -> r < length (kept mask) -> nth_error (keep mask l) r = nth_error l (nth r (kept mask) 0).
Proof.
  intros H R. pose proof (f_equal (fun z => nth_error z r) (keep_some mask l H)) as Q. cbn in Q. rewrite !nth_error_map in Q.
  rewrite (nth_error_nth' (kept mask) 0 R) in Q. cbn in Q. destruct (nth_error (keep mask l) r) eqn:X; cbn in Q; [congruence|].
  apply nth_error_None in X. rewrite (kept_length mask l H) in X. lia.
Qed.
Lemma keep_nth {A} (mask : list bool) (l : list A) d r : length l = length mask -> r < length (kept mask) -> nth r (keep mask l) d = nth (nth r (kept mask) 0) l d.
Proof.
  intros H R. pose proof (keep_nth_error mask l r H R) as Q. rewrite <- (nth_default_eq r (keep mask l)), <- (nth_default_eq _ l). unfold nth_default. now rewrite Q.
Qed.

Section Copies.
  Context {L : Type} {F : arith} {D cell : Type} (E : env L F D cell).
  Notation num := (num F).
  Notation FR := (ev_frames E).
  Notation symbol := (symbol (num:=num) FR).
  Notation expression := (@expression L).
  Notation container := (@container L).
  Notation exprs := (list (@subgroup L)).
  Notation table := (list (list num)).
  Notation tables := (list (list (list num))).
  Notation cm := (cm E).
  Notation mworld := (mworld E).
  Notation mop := (mop E).
  Notation start := (new_mworld E).
  Notation dget := (dget String.eqb).

  (** ** The copied container *)
  Lemma copied_view (w : world (L:=L)) i : own w -> let '(h', c') := copy (w_heap w) (cont w i) in view h' c' = view (w_heap w) (cont w i).
  Proof.
    intros O. unfold copy. destruct (copy_subs (w_heap w) (c_subs (cont w i)) []) as [h' subs] eqn:CS.
    destruct (copy_subs_spec _ _ _ _ _ CS) as (t & rs & -> & -> & _ & _ & _ & V); auto.
    - intros n r I. eapply ow_range; eauto.
    - apply (ow_keys _ O).
    - unfold view. cbn [c_ungrouped c_subs app] in *. now rewrite V.
  Qed.

  (** what a run of the copy evaluates *)
  Lemma copied_selection (w : world (L:=L)) i h' c' g simple xs : own w -> reg (ev_fn E) (ev_parse E) w -> Forall tight (w_heap w) -> copy (w_heap w) (cont w i) = (h', c') -> Forall tight h' ->
    selection (w_heap w) (cont w i) g = Ok (simple, xs) ->
    exists simple', selection h' c' g = Ok (simple', xs) /\ incl simple' simple /\ (forall x, In x xs -> incl (e_symbols x) simple') /\
      (forall names', symbols_to_check h' c' g = Ok names' -> exists names, symbols_to_check (w_heap w) (cont w i) g = Ok names /\ incl names' names).
  Proof.
    intros O RG TH CP TH' S. pose proof (copied_view w i O) as V. rewrite CP in V. set (h := w_heap w) in *. set (c := cont w i) in *.
    assert (PG : forall n r', In (n, r') (c_subs c') -> exists r, In (n, r) (c_subs c) /\ sg_exprs (deref h' r') = sg_exprs (deref h r)).
    { intros n r' I. pose proof (f_equal p_groups V) as VG. cbn in VG. unfold groups_view in VG.
      assert (J : In (n, sg_exprs (deref h' r')) (map (fun p => (fst p, sg_exprs (deref h (snd p)))) (c_subs c))) by (rewrite <- VG; apply in_map_iff; exists (n, r'); auto).
      apply in_map_iff in J. destruct J as ([n0 r] & Q & J). cbn in Q. injection Q as -> Q. eauto. }
    assert (UG : c_ungrouped c' = c_ungrouped c) by apply (f_equal p_ungrouped V).
    assert (CC : c_simple c' = fold_left (fun s x => sunion s (e_symbols x)) (c_ungrouped c) [] /\ c_chained c' = fold_left (fun s x => sunion s (dkeys (e_chains x))) (c_ungrouped c) []).
    { unfold copy in CP. destruct (copy_subs h (c_subs c) []) as [a b]. injection CP as _ <-. auto. }
    assert (S1 : incl (itersimple h' c' true) (itersimple h c true)).
    { intros y. unfold itersimple, subs_of. rewrite !in_app_iff, !in_concat. intros [I|(l & I & J)].
      - left. rewrite (proj1 CC), (fold_sets (fun x => e_symbols x)) in I. destruct I as [[]|(x & I & J)]. destruct (reg_cont _ _ w i RG x I) as (_ & A & _). now apply A.
      - right. apply in_map_iff in I. destruct I as (s & <- & I). apply in_map_iff in I. destruct I as (r' & <- & I). apply in_vals_ex in I. destruct I as [n I].
        destruct (PG n r' I) as (r & K & X). apply (tt_simple _ (tight_deref _ r' TH')) in J. rewrite X in J. apply (tt_simple _ (tight_deref _ r TH)) in J.
        exists (sg_simple (deref h r)). split; auto. apply in_map, in_map. eapply in_vals; eauto. }
    assert (S2 : incl (iterchained h' c' true) (iterchained h c true)).
    { intros y. unfold iterchained, subs_of. rewrite !in_app_iff, !in_concat. intros [I|(l & I & J)].
      - left. rewrite (proj2 CC), (fold_sets (fun x => dkeys (e_chains x))) in I. destruct I as [[]|(x & I & J)]. destruct (reg_cont _ _ w i RG x I) as (_ & _ & A). now apply A.
      - right. apply in_map_iff in I. destruct I as (s & <- & I). apply in_map_iff in I. destruct I as (r' & <- & I). apply in_vals_ex in I. destruct I as [n I].
        destruct (PG n r' I) as (r & K & X). apply (tt_chained _ (tight_deref _ r' TH')) in J. rewrite X in J. apply (tt_chained _ (tight_deref _ r TH)) in J.
        exists (sg_chained (deref h r)). split; auto. apply in_map, in_map. eapply in_vals; eauto. }
    assert (IT : iter h' c' true = iter h c true) by (rewrite <- !p_all_view; now rewrite V).
    destruct g as [g|]; cbn in S |- *.
    - unfold get_group in *. pose proof (p_group_view h' (c_subs c') g) as P1. pose proof (p_group_view h (c_subs c) g) as P2.
      pose proof (f_equal p_groups V) as VG. cbn in VG. rewrite VG, P2 in P1. destruct (dget (c_subs c) g) as [r|]; [|discriminate]. cbn in S. injection S as <- <-.
      destruct (dget (c_subs c') g) as [r'|]; [|discriminate]. injection P1 as P1. cbn. exists (sg_simple (deref h' r')).
      assert (A1 : incl (sg_simple (deref h' r')) (sg_simple (deref h r))).
      { intros y I. apply (tt_simple _ (tight_deref _ r' TH')) in I. rewrite <- P1 in I. now apply (tt_simple _ (tight_deref _ r TH)). }
      assert (A2 : incl (sg_chained (deref h' r')) (sg_chained (deref h r))).
      { intros y I. apply (tt_chained _ (tight_deref _ r' TH')) in I. rewrite <- P1 in I. now apply (tt_chained _ (tight_deref _ r TH)). }
      split; [now rewrite P1|]. split; auto. split.
      + intros x I y Y. apply (tt_simple _ (tight_deref _ r' TH')). rewrite <- P1. eauto.
      + intros names' Q. injection Q as <-. eexists. split; [reflexivity|]. now apply incl_app_app.
    - injection S as <- <-. exists (itersimple h' c' true). rewrite IT. split; auto. split; auto. split.
      + intros x I y Y. rewrite <- IT in I. apply in_iter in I. unfold itersimple. apply in_or_app. destruct I as [I|(n & r & I & J)].
        * left. rewrite (proj1 CC), (fold_sets (fun x => e_symbols x)). rewrite UG in I. eauto.
        * right. apply in_concat. exists (sg_simple (deref h' r)). split; [unfold subs_of; apply in_map, in_map; eapply in_vals; eauto|]. apply (tt_simple _ (tight_deref _ r TH')). eauto.
      + intros names' Q. injection Q as <-. eexists. split; [reflexivity|]. now apply incl_app_app.
  Qed.

  Context (NL : numexpr_local E) (FL : frame_laws E).
  Set Default Proof Using "Type*".

  (** ** Evaluating a model whose rows are rows of another one *)
  Lemma transfer ts ts' (m m' : cm) simple simple' xs (d d' : list D) cols nl t (sigma : nat -> nat) :
    evaluated E ts m simple xs d cols nl t ->
    table_ok E ts' m' -> tidy E m' simple' xs -> validate_tree (m_tree m) = Ok tt -> m_tree m' = m_tree m -> m_du m' = Some d' ->
    (forall v, m_utils m' = Some v -> length (u_cols v) = length cols) -> length (start_table E ts' m' (length d') (length cols)) = length d' ->
    (forall r, r < length d' -> sigma r < length d) ->
    (forall r c, r < length d' -> c < length cols -> tcell (start_table E ts' m' (length d') (length cols)) r c = tcell (start_table E ts m (length d) (length cols)) (sigma r) c) ->
    simple_ok E (m_scope m') simple' -> (forall x, In x xs -> ready E (m_scope m') nl cols simple' x) ->
    (forall x acc r c, In x xs -> r < length d' -> c < length cols -> xvalue E (m_scope m') nl cols r c x acc = xvalue E (m_scope m) nl cols (sigma r) c x acc) ->
    exists ts2 m2 u, evaluate E ts' m' simple' xs = (ts2, m2, Ok u) /\ rectangle (length d') (length cols) (nth (u_ref u) ts2 []) /\
      forall r c, r < length d' -> c < length cols -> tcell (nth (u_ref u) ts2 []) r c = tcell t (sigma r) c.
  Proof.
    intros [A1 A2 A3 A4 A5 A6 A7 A8 A9 A10] TO TD V TR DU UC LS SG ST SO RD XV.
    pose proof (proj2 (has_nan_false E NL _ _ _ A8) A10) as NN.
    assert (TT : forall r c l, r < length d' -> nth_error cols c = Some l ->
       total (applies nl l) (xvalue E (m_scope m') nl cols r c) xs (tcell (start_table E ts' m' (length d') (length cols)) r c) = Some (tcell t (sigma r) c)).
    { intros r c l Hr Hc. assert (LC : c < length cols) by (apply nth_error_Some; congruence). rewrite (ST r c Hr LC). rewrite <- (A9 (sigma r) c l (SG r Hr) Hc).
      apply total_ext. intros x a I. now apply XV. }
    destruct (evaluate_from_totals E NL ts' m' simple' xs d' cols nl) as (ts2 & m2 & u & EV); auto; try (rewrite TR; auto; fail).
    { intros r c l Hr Hc. exists (tcell t (sigma r) c). split; auto. apply NN; auto. apply nth_error_Some. congruence. }
    exists ts2, m2, u. split; auto. apply evaluate_evaluated in EV; auto.
    2:{ intros y s I R G. destruct (SO y I R) as (s' & dd & G' & FS & _). congruence. }
    destruct EV as (d0 & c0 & n0 & [B1 B2 B3 B4 B5 B6 B7 B8 B9 B10]). rewrite TR in *.
    assert (d0 = d') by congruence. assert (c0 = cols) by congruence. assert (n0 = nl) by congruence. subst d0 c0 n0. split; auto.
    intros r c Hr Hc. destruct (nth_error cols c) as [l|] eqn:NC; [|apply nth_error_None in NC; lia].
    specialize (B9 r c l Hr NC). rewrite (TT r c l Hr NC) in B9. congruence.
  Qed.

  (** ** Masked data.  [None]: all rows *)
  (** [t.loc[mask]] selects the same rows of columns and of what is reached through links (where these can be read) *)
  Record frame_slices (mask : list bool) : Prop := FrameSlices {
    fs_col : forall (t : fr FR) a v, length mask = length (fr_index FR t) -> fr_col FR t a = Ok v -> fr_col FR (fr_loc FR mask t) a = Ok (keep mask v);
    fs_walk : forall (t : fr FR) p f v, length mask = length (fr_index FR t) -> fr_walk FR t p f = Ok v -> fr_walk FR (fr_loc FR mask t) p f = Ok (keep mask v);
    fs_linked : forall (t : fr FR), fr_linked FR (fr_loc FR mask t) = fr_linked FR t
  }.
  Definition mkeep {A} (mo : option (list bool)) (l : list A) : list A := match mo with None => l | Some mask => keep mask l end.
  Definition row_of (mo : option (list bool)) (r : nat) : nat := match mo with None => r | Some mask => nth r (kept mask) 0 end.
  Definition mask_for (mo : option (list bool)) (n : nat) : Prop := match mo with None => True | Some mask => length mask = n /\ frame_slices mask end.

  Lemma mkeep_nth_error {A} mo n (l : list A) r : mask_for mo n -> length l = n -> r < length (mkeep mo l) -> nth_error (mkeep mo l) r = nth_error l (row_of mo r).
  Proof.
    destruct mo as [mask|]; cbn; auto. intros [H _] H' R. apply keep_nth_error; [congruence|]. rewrite (kept_length mask l) in R by congruence. exact R.
  Qed.
  Lemma row_lt {A} mo n (l : list A) r : mask_for mo n -> length l = n -> r < length (mkeep mo l) -> row_of mo r < n.
  Proof.
    destruct mo as [mask|]; cbn; [|intros; lia]. intros [H _] H' R. rewrite (kept_length mask l) in R by congruence. rewrite <- H. now apply kept_lt.
  Qed.
  Lemma mkeep_length {A B} mo (l : list A) (l' : list B) : length l = length l' -> length (mkeep mo l) = length (mkeep mo l').
  Proof. destruct mo; cbn; auto. intros. now apply keep_length. Qed.
  Lemma mkeep_rect mo n k (t : table) : rectangle n k t -> rectangle (length (mkeep mo (repeat tt n))) k (mkeep mo t).
  Proof. destruct mo as [mask|]; cbn; [|now rewrite repeat_length]. apply rect_keep. Qed.
  Lemma mkeep_tcell mo n (t : table) r c : mask_for mo n -> length t = n -> r < length (mkeep mo t) -> tcell (mkeep mo t) r c = tcell t (row_of mo r) c.
  Proof.
    intros M H R. unfold tcell. pose proof (mkeep_nth_error mo n t r M H R) as Q. rewrite <- (nth_default_eq r (mkeep mo t)), <- (nth_default_eq _ t). unfold nth_default. now rewrite Q.
  Qed.

  Lemma copied_get mo (scope : dict string symbol) y : dget (copy_scope E true mo scope) y = option_map (copy_symbol FR true mo) (dget scope y).
  Proof. induction scope as [|[n s] t IH]; cbn; auto. destruct (String.eqb y n); auto. Qed.
  Lemma copied_filled mo (s : symbol) : filled FR (copy_symbol FR true mo s) = filled FR s.
  Proof. destruct s as [[]|o []|o ma al []|o rc rr f [[]|]]; reflexivity. Qed.
  Lemma copied_simple mo (s : symbol) d : filled FR s = true -> get_simple FR s = Ok d -> exists d', get_simple FR (copy_symbol FR true mo s) = Ok d'.
  Proof. destruct s as [[]|o []|o ma al []|o rc rr f [[]|]]; cbn; try discriminate; eauto. Qed.
  Lemma copied_chain mo n k (s : symbol) ct d : mask_for mo n -> aligned_symbol E n k s -> get_chain FR s ct = Ok d -> exists d', get_chain FR (copy_symbol FR true mo s) ct = Ok d'.
  Proof.
    destruct s as [v|o v|o ma al v|o rc rr f v]; try discriminate. intros M A G.
    destruct v as [t|]; [|exists d; exact G]. destruct o; [exists d; destruct mo; exact G|]. destruct mo as [mask|]; [|exists d; exact G]. cbn in M, A, G.
    destruct M as [M [S1 S2 S3]]. destruct A as [A _]. assert (LM : length mask = length (fr_index FR t)) by congruence.
    apply rbind_ok in G. destruct G as (col & G & _). cbn. destruct (ch_chain ct) as [|a [|b l]]; [discriminate| |].
    - rewrite (S1 t a col) by auto. cbn. eauto.
    - apply rbind_ok in G. destruct G as ([] & G1 & G2). rewrite S3, G1. cbn [rbind]. rewrite (S2 _ _ _ col) by auto. cbn. eauto.
  Qed.
  Lemma copied_symbol_cell mo n k (s : symbol) (l : list D) r c : mask_for mo n -> aligned_symbol E n k s -> length l = n -> r < length (mkeep mo l) ->
    symbol_cell E (copy_symbol FR true mo s) r c = symbol_cell E s (row_of mo r) c.
  Proof.
    intros M A LL R. destruct s as [[v|]|[] [v|]|o ma al [v|]|o rc rr f [[j v]|]]; cbn; auto.
    - replace (match mo with Some k0 => keep k0 v | None => v end) with (mkeep mo v) by (destruct mo; auto). apply (mkeep_nth_error mo n); auto.
      rewrite (mkeep_length mo v l); auto. cbn in A. congruence.
    - destruct A as [_ [A1 A2]]. replace (match mo with Some k0 => keep k0 v | None => v end) with (mkeep mo v) by (destruct mo; auto).
      unfold at2. rewrite (mkeep_nth_error mo n); auto. rewrite (mkeep_length mo v l); auto. congruence.
  Qed.
  Lemma copied_attribute_cell mo n k (s : symbol) ct (l : list D) r c d : mask_for mo n -> aligned_symbol E n k s -> length l = n -> r < length (mkeep mo l) ->
    get_chain FR s ct = Ok d ->
    attribute_cell E (copy_symbol FR true mo s) ct r c = attribute_cell E s ct (row_of mo r) c.
  Proof.
    intros M A LL R GC. destruct s as [[v|]|[] [v|]|o ma al [t|]|o rc rr f [[j v]|]]; cbn; auto. cbn in A.
    destruct o; cbn; [destruct mo; reflexivity|]. destruct mo as [mask|]; cbn; [|reflexivity]. cbn in M. destruct M as [M SL]. pose proof SL as [S1 S2 S3]. destruct A as [A [C1 C2]].
    assert (LM : length mask = length (fr_index FR t)) by congruence.
    assert (G : forall v : list cell, length v = n -> nth_error (keep mask v) r = nth_error v (nth r (kept mask) 0)).
    { intros v H. apply (mkeep_nth_error (Some mask) n v r); cbn; auto. cbn in R. rewrite (keep_length mask D cell l v) in R by congruence. exact R. }
    cbn in GC. apply rbind_ok in GC. destruct GC as (v & GC & _). destruct (ch_chain ct) as [|a [|b q]]; [discriminate| |].
    - rewrite (S1 t a v), GC by auto. apply G. apply C1 in GC. congruence.
    - apply rbind_ok in GC. destruct GC as (u0 & _ & GC). rewrite (S2 t _ _ v), GC by auto. apply G. apply C2 in GC. congruence.
  Qed.

  (** the value of an expression in row [r] of the copy *)
  Lemma copied_xvalue mo n k (scope : dict string symbol) nl cols simple (l : list D) r c x acc : mask_for mo n -> aligned E n k scope -> length l = n -> r < length (mkeep mo l) ->
    ready E scope nl cols simple x ->
    xvalue E (copy_scope E true mo scope) nl cols r c x acc = xvalue E scope nl cols (row_of mo r) c x acc.
  Proof.
    intros M A LL R [_ _ RC _]. apply NL. intros y _. unfold cell_meaning. destruct (String.eqb y "OUT"), (String.eqb y "NAN"), (String.eqb y "NEG_INF"); auto.
    destruct (find_chain (e_chains x) y) as [[name ct]|] eqn:FC.
    - unfold find_chain in FC. destruct (find _ (e_chains x)) as [[n0 us]|] eqn:FD; [|discriminate]. apply find_some in FD. destruct FD as [FD _].
      destruct (dget us y) as [ct0|] eqn:DU; [|discriminate]. injection FC as -> ->. destruct (RC name us FD) as (s & G & U).
      destruct (U y ct) as [d GC]; [apply (dget_in String.eqb String.eqb_eq), DU|].
      rewrite copied_get, G. cbn [option_map]. eapply copied_attribute_cell; eauto.
      eapply A. eapply (dget_in String.eqb String.eqb_eq); eauto.
    - destruct (dget (e_dl x) y); auto. rewrite copied_get. destruct (dget scope y) as [s|] eqn:G; cbn [option_map]; auto. eapply copied_symbol_cell; eauto.
      eapply A. eapply (dget_in String.eqb String.eqb_eq); eauto.
  Qed.
  Lemma copied_simple_ok mo (scope : dict string symbol) simple : simple_ok E scope simple -> simple_ok E (copy_scope E true mo scope) simple.
  Proof.
    intros H y I R. destruct (H y I R) as (s & d & G & FS & GS). destruct (copied_simple mo s d FS GS) as [d' GS']. exists (copy_symbol FR true mo s), d'. rewrite copied_get, G. split; auto. split; auto. now rewrite copied_filled.
  Qed.
  Lemma copied_ready mo n k (scope : dict string symbol) nl cols simple x : mask_for mo n -> aligned E n k scope -> ready E scope nl cols simple x -> ready E (copy_scope E true mo scope) nl cols simple x.
  Proof.
    intros M A [R1 R2 R3 R4]. constructor; auto. intros name us I. destruct (R3 name us I) as (s & G & U). exists (copy_symbol FR true mo s). rewrite copied_get, G. split; auto.
    intros sub ct J. destruct (U sub ct J) as [d GC]. eapply copied_chain; eauto. eapply A. eapply (dget_in String.eqb String.eqb_eq); eauto.
  Qed.

  (** ** Copies of models in histories *)
  (** model [j] of [w'] is a copy of model [i] of [w], or of the rows of [mo] *)
  Record copy_of (w : mworld) (i : nat) (w' : mworld) (j : nat) (mo : option (list bool)) : Prop := CopyOf {
    co_exprs : copy (mheap E w) (mcont E w i) = (mheap E w', mcont E w' j);
    co_tree : m_tree (model E w' j) = m_tree (model E w i);
    co_scope : m_scope (model E w' j) = copy_scope E true mo (m_scope (model E w i));
    co_units : forall d, m_du (model E w i) = Some d -> m_du (model E w' j) = Some (mkeep mo d) /\ mask_for mo (length d);
    co_utils : match m_utils (model E w i), m_utils (model E w' j) with
               | None, None => True
               | Some u, Some u' => u_cols u' = u_cols u /\ nth (u_ref u') (mw_tabs w') [] = mkeep mo (nth (u_ref u) (mw_tabs w) [])
               | _, _ => False
               end
  }.

  Lemma copied_run (ops ops' : list mop) i j mo group clear ts1 m1 t simple xs :
    let w := mrun E start ops in let w' := mrun E start ops' in
    orderly_history E start ops -> orderly_history E start ops' -> copy_of w i w' j mo ->
    selection (mheap E w) (mcont E w i) group = Ok (simple, xs) -> (forall x, In x xs -> plain_names simple x) ->
    run_utilities E (mheap E w) (mcont E w i) (mw_tabs w) (model E w i) group clear = (ts1, m1, Ok t) ->
    (forall clear', (forall x, In x xs -> own_names x) -> exists ts2 m2, run_utilities E (mheap E w') (mcont E w' j) (mw_tabs w') (model E w' j) group clear' = (ts2, m2, Ok (mkeep mo t))) /\
    (forall clear' ts2 m2 t', run_utilities E (mheap E w') (mcont E w' j) (mw_tabs w') (model E w' j) group clear' = (ts2, m2, Ok t') -> t' = mkeep mo t).
  Proof.
    intros w w' OH OH' [CE CT CS CD CU] S PN RA.
    assert (RG : reg (ev_fn E) (ev_parse E) (mw_ex w)) by (apply mreg_run, reg_new).
    destruct (copied_selection (mw_ex w) i _ _ group simple xs (reach_own E ops) RG (reach_tight E ops) CE (reach_tight E ops') S) as (simple' & S' & SI & SX & SN).
    assert (PN' : forall x, In x xs -> plain_names simple' x) by (intros x I; destruct (PN x I) as [A B]; split; auto).
    pose proof (tidy_reachable E FL ops i group simple xs OH S PN) as TD. fold w in TD.
    pose proof (tidy_reachable E FL ops' j group simple' xs OH' S' PN') as TD'. fold w' in TD'.
    pose proof (table_ok_reachable E NL ops i) as TO. fold w in TO. pose proof (table_ok_reachable E NL ops' j) as TO'. fold w' in TO'.
    set (m := model E w i) in *. set (m' := model E w' j) in *.
    apply run_ok in RA. destruct RA as (si & xs0 & m0 & u & VA & SA & EA & _ & ->). rewrite S in SA. injection SA as <- <-.
    apply evaluate_evaluated in EA; auto.
    2:{ intros y q I R G. destruct (run_filled E NL _ _ m group simple xs VA S y I R) as (q' & G' & FQ). congruence. }
    destruct EA as (d & cols & nl & EA). pose proof EA as [A1 A2 A3 A4 A5 A6 A7 A8 A9 A10]. set (t := nth (u_ref u) ts1 []) in *.
    destruct (CD d A1) as [DU' MF]. pose proof (td_aligned E m simple xs TD d cols A1 A2) as AL.
    pose proof (validate_ok E _ _ _ _ VA) as (VT & _ & names & SY & VN).
    assert (LD : length (mkeep mo d) = length (mkeep mo (repeat tt (length d)))) by (apply mkeep_length; now rewrite repeat_length).
    assert (RT : rectangle (length (mkeep mo d)) (length cols) (mkeep mo t)) by (rewrite LD; now apply mkeep_rect).
    assert (CORE : simple_ok E (m_scope m') simple' -> (forall x, In x xs -> ready E (m_scope m') nl cols simple' x) ->
      exists ts2 m2 u2, evaluate E (mw_tabs w') m' simple' xs = (ts2, m2, Ok u2) /\ nth (u_ref u2) ts2 [] = mkeep mo t).
    { intros SO RD.
      assert (ST : start_table E (mw_tabs w') m' (length (mkeep mo d)) (length cols) = mkeep mo (start_table E (mw_tabs w) m (length d) (length cols))).
      { unfold start_table. destruct (m_utils m) as [v|], (m_utils m') as [v'|]; try contradiction; [apply CU|].
        apply (tables_equal E NL (length (mkeep mo d)) (length cols)); [apply (zeros_rect E)|rewrite LD; apply mkeep_rect, (zeros_rect E)|].
        intros r c Hr Hc. rewrite (zeros_cell E). rewrite (mkeep_tcell mo (length d)); auto; [now rewrite (zeros_cell E)|apply (zeros_rect E)|].
        rewrite (mkeep_length mo _ d); auto. apply (zeros_rect E). }
      destruct (transfer (mw_tabs w) (mw_tabs w') m m' simple simple' xs d (mkeep mo d) cols nl t (row_of mo) EA TO' TD' VT CT DU') as (ts2 & m2 & u2 & EV & R2 & T2); auto.
      - intros v Q. destruct (m_utils m) as [v0|] eqn:MU; rewrite Q in CU; [|contradiction]. rewrite (proj1 CU). now apply A4.
      - rewrite ST. rewrite (mkeep_length mo _ d); auto.
      - intros r Hr. apply (row_lt mo (length d) d); auto.
      - intros r c Hr Hc. rewrite ST. apply (mkeep_tcell mo (length d)); auto. rewrite (mkeep_length mo _ d); auto.
      - intros x acc r c I Hr Hc. rewrite CS. eapply copied_xvalue; eauto.
      - exists ts2, m2, u2. split; auto. apply (tables_equal E NL (length (mkeep mo d)) (length cols)); auto. intros r c Hr Hc. rewrite T2 by auto. symmetry.
        apply (mkeep_tcell mo (length d)); auto; [apply A8|]. rewrite (mkeep_length mo t d); auto. apply A8. }
    assert (SO' : simple_ok E (m_scope m') simple') by (rewrite CS; apply copied_simple_ok; intros y I; apply A6; auto).
    split.
    - intros clear' ON.
      assert (RD' : forall x, In x xs -> ready E (m_scope m') nl cols simple' x).
      { intros x I. rewrite CS. eapply copied_ready; eauto. destruct (A7 x I) as [R1 R2 R3 R4]. constructor; auto.
        intros y Y. destruct (ON x I y Y) as [R|[R|R]]; auto. right. left. eapply SX; eauto. }
      destruct (CORE SO' RD') as (ts2 & m2 & u2 & EV & Q).
      assert (V' : validate E (mheap E w') (mcont E w' j) m' group = Ok tt).
      { assert (SY' : exists names', symbols_to_check (mheap E w') (mcont E w' j) group = Ok names').
        { destruct (symbols_simple E _ _ _ _ _ S') as (n' & X & _). eauto. }
        destruct SY' as [names' SY']. destruct (SN names' SY') as (names0 & X & INC). assert (names0 = names) by (unfold mheap, mcont in *; congruence). subst names0.
        eapply validate_iff; eauto; [now rewrite CT|]. intros y I R. destruct (VN y (INC y I) R) as (q & G & FQ). exists (copy_symbol FR true mo q). rewrite CS, copied_get, G. split; auto. now rewrite copied_filled. }
      pose proof (run_exists E _ _ _ _ group clear' _ _ ts2 m2 u2 V' S' EV) as RB. rewrite Q in RB. eauto.
    - intros clear' ts2 m2 t' RB. apply run_ok in RB. destruct RB as (si & xs0 & m3 & u3 & VB & SB & EB & _ & ->). rewrite S' in SB. injection SB as <- <-.
      pose proof EB as EB'. apply evaluate_evaluated in EB'; auto.
      2:{ intros y q I R G. destruct (run_filled E NL _ _ m' group simple' xs VB S' y I R) as (q' & G' & FQ). congruence. }
      destruct EB' as (d0 & c0 & n0 & [B1 B2 B3 B4 B5 B6 B7 B8 B9 B10]). rewrite CT in *. assert (c0 = cols) by congruence. assert (n0 = nl) by congruence. subst c0 n0.
      destruct (CORE B6 B7) as (ts4 & m4 & u4 & EV & Q). rewrite EB in EV. injection EV as <- _ <-. exact Q.
  Qed.

  Lemma copy_world w i (f : copy_flags) : length (w_conts (mw_ex w)) = length (mw_models w) -> table_ok E (mw_tabs w) (model E w i) ->
    cf_assigned f = true -> cf_exprs f = true -> cf_utils f = true ->
    copy_of w i (mstep E w (MCopy E i f)) (length (mw_models w)) None.
  Proof.
    intros LW TO F1 F2 F3. cbn [mstep]. destruct (copy_model E (mw_tabs w) (model E w i) f) as [ts m] eqn:CM. rewrite F2. unfold set_exprs. cbn [cstep].
    unfold mheap, mcont. cbn [mw_ex]. destruct (copy (w_heap (mw_ex w)) (cont (mw_ex w) i)) as [h' c'] eqn:CP.
    assert (MM : model E (MWorld (E:=E) (World h' (w_conts (mw_ex w) ++ [c'])) ts (mw_models w ++ [m])) (length (mw_models w)) = m) by (unfold model; cbn; now rewrite app_nth2, Nat.sub_diag by lia).
    pose proof (copy_effect E NL _ _ _ _ _ CM TO) as (_ & _ & _ & CU).
    assert (SC : m_tree m = m_tree (model E w i) /\ m_scope m = copy_scope E true None (m_scope (model E w i)) /\ m_du m = m_du (model E w i) /\ (m_utils (model E w i) = None -> m_utils m = None)).
    { unfold copy_model in CM. rewrite F1, !orb_true_r in CM. destruct (m_utils (model E w i)); [rewrite F3 in CM|]; injection CM as _ <-; cbn; auto. split; auto. split; auto. split; auto. discriminate. }
    destruct SC as (SC1 & SC2 & SC3 & SC4). constructor; rewrite ?MM; auto.
    - unfold mheap, mcont. cbn [mw_ex w_heap]. rewrite cont_new, LW, Nat.eqb_refl. exact CP.
    - intros d DU. rewrite SC3, DU. cbn. auto.
    - cbn [mw_tabs]. destruct (m_utils (model E w i)) as [u|] eqn:MU; [|now rewrite SC4]. destruct (CU u eq_refl F3) as (u' & -> & _ & Q1 & Q2). auto.
  Qed.
  Lemma subset_world w i mi mask ts' m' (FS : frame_slices mask) : length (w_conts (mw_ex w)) = length (mw_models w) -> length mi = length mask ->
    copy_subset E (mw_tabs w) (model E w i) mi mask = (ts', Ok m') ->
    copy_of w i (mstep E w (MSubset E i mi mask)) (length (mw_models w)) (Some mask).
  Proof.
    intros LW LM SB. cbn [mstep]. rewrite SB. cbn [cstep].
    unfold mheap, mcont. cbn [mw_ex]. destruct (copy (w_heap (mw_ex w)) (cont (mw_ex w) i)) as [h' c'] eqn:CP.
    assert (MM : model E (MWorld (E:=E) (World h' (w_conts (mw_ex w) ++ [c'])) ts' (mw_models w ++ [m'])) (length (mw_models w)) = m') by (unfold model; cbn; now rewrite app_nth2, Nat.sub_diag by lia).
    unfold copy_subset in SB. unfold units in SB. destruct (m_du (model E w i)) as [d|] eqn:DU; [|discriminate]. destruct (index_equals (ev_eq E) mi d) eqn:IE; [|discriminate].
    apply (index_equals_spec (ev_eq E) (fl_eq E FL)) in IE. subst mi. constructor; rewrite ?MM; auto.
    - unfold mheap, mcont. cbn [mw_ex w_heap]. rewrite cont_new, LW, Nat.eqb_refl. exact CP.
    - destruct (m_utils (model E w i)); [destruct (index_equals _ _ _); [|discriminate]|]; injection SB as _ <-; reflexivity.
    - destruct (m_utils (model E w i)); [destruct (index_equals _ _ _); [|discriminate]|]; injection SB as _ <-; reflexivity.
    - intros d0 Q. rewrite DU in Q. injection Q as <-. split; [|cbn; auto].
      destruct (m_utils (model E w i)); [destruct (index_equals _ _ _); [|discriminate]|]; injection SB as _ <-; reflexivity.
    - cbn [mw_tabs]. destruct (m_utils (model E w i)) as [u|]; [destruct (index_equals _ _ _); [|discriminate]|]; injection SB as <- <-; cbn; auto. split; auto.
      rewrite app_nth2, Nat.sub_diag by lia. reflexivity.
  Qed.

  (** * C56: a copy runs to the same utilities *)
  (** When a run of the original succeeds, so does the same run of its copy, with the same utilities.  (The flags are
      those of a plain copy(); each expression registers its own names, see C33.) *)
  Theorem C56_copy_runs_the_same (ops : list mop) i (f : copy_flags) group clear clear' ts1 m1 t simple xs :
    let w := mrun E start ops in let w' := mstep E w (MCopy E i f) in let j := length (mw_models w) in
    cf_assigned f = true -> cf_exprs f = true -> cf_utils f = true ->
    orderly_history E start ops ->
    selection (mheap E w) (mcont E w i) group = Ok (simple, xs) -> (forall x, In x xs -> plain_names simple x /\ own_names x) ->
    run_utilities E (mheap E w) (mcont E w i) (mw_tabs w) (model E w i) group clear = (ts1, m1, Ok t) ->
    exists ts2 m2, run_utilities E (mheap E w') (mcont E w' j) (mw_tabs w') (model E w' j) group clear' = (ts2, m2, Ok t).
  Proof.
    intros w w' j F1 F2 F3 OH S PN RA. pose proof (copy_world w i f (lengths_agree E ops) (table_ok_reachable E NL ops i) F1 F2 F3) as CO. fold w' j in CO.
    assert (W' : w' = mrun E start (ops ++ [MCopy E i f])) by (rewrite mrun_app; reflexivity).
    rewrite W' in CO |- *. refine (proj1 (copied_run ops (ops ++ [MCopy E i f]) i j None group clear ts1 m1 t simple xs OH _ CO S _ RA) clear' _).
    - apply orderly_app; auto. cbn. auto.
    - intros x I. apply PN, I.
    - intros x I. apply PN, I.
  Qed.
  (** Without that condition: whenever both runs succeed, their utilities are equal. *)
  Theorem C56_copy_same_utilities (ops : list mop) i (f : copy_flags) group clear clear' ts1 m1 t ts2 m2 t' simple xs :
    let w := mrun E start ops in let w' := mstep E w (MCopy E i f) in let j := length (mw_models w) in
    cf_assigned f = true -> cf_exprs f = true -> cf_utils f = true ->
    orderly_history E start ops ->
    selection (mheap E w) (mcont E w i) group = Ok (simple, xs) -> (forall x, In x xs -> plain_names simple x) ->
    run_utilities E (mheap E w) (mcont E w i) (mw_tabs w) (model E w i) group clear = (ts1, m1, Ok t) ->
    run_utilities E (mheap E w') (mcont E w' j) (mw_tabs w') (model E w' j) group clear' = (ts2, m2, Ok t') -> t' = t.
  Proof.
    intros w w' j F1 F2 F3 OH S PN RA. pose proof (copy_world w i f (lengths_agree E ops) (table_ok_reachable E NL ops i) F1 F2 F3) as CO. fold w' j in CO.
    assert (W' : w' = mrun E start (ops ++ [MCopy E i f])) by (rewrite mrun_app; reflexivity).
    rewrite W' in CO |- *. refine (proj2 (copied_run ops (ops ++ [MCopy E i f]) i j None group clear ts1 m1 t simple xs OH _ CO S PN RA) clear' ts2 m2 t').
    apply orderly_app; auto. cbn. auto.
  Qed.

  (** [copy()] with its default arguments copies everything, so it runs the same *)
  Theorem C56_default_copy_runs_the_same (ops : list mop) i group clear clear' ts1 m1 t simple xs :
    let w := mrun E start ops in let w' := mstep E w (MCopy E i default_flags) in let j := length (mw_models w) in
    orderly_history E start ops ->
    selection (mheap E w) (mcont E w i) group = Ok (simple, xs) -> (forall x, In x xs -> plain_names simple x /\ own_names x) ->
    run_utilities E (mheap E w) (mcont E w i) (mw_tabs w) (model E w i) group clear = (ts1, m1, Ok t) ->
    exists ts2 m2, run_utilities E (mheap E w') (mcont E w' j) (mw_tabs w') (model E w' j) group clear' = (ts2, m2, Ok t).
  Proof. exact (fun OH S PN RA => C56_copy_runs_the_same ops i default_flags group clear clear' ts1 m1 t simple xs eq_refl eq_refl eq_refl OH S PN RA). Qed.

  (** * C57: copy_subset() and then a run, or a run and then the rows of the mask *)
  Theorem C57_subset_runs_on_the_rows (ops : list mop) i mi mask ts' m' group clear clear' ts1 m1 t simple xs (FS : frame_slices mask) :
    let w := mrun E start ops in let w' := mstep E w (MSubset E i mi mask) in let j := length (mw_models w) in
    orderly_history E start ops -> length mi = length mask ->
    copy_subset E (mw_tabs w) (model E w i) mi mask = (ts', Ok m') ->
    selection (mheap E w) (mcont E w i) group = Ok (simple, xs) -> (forall x, In x xs -> plain_names simple x /\ own_names x) ->
    run_utilities E (mheap E w) (mcont E w i) (mw_tabs w) (model E w i) group clear = (ts1, m1, Ok t) ->
    exists ts2 m2, run_utilities E (mheap E w') (mcont E w' j) (mw_tabs w') (model E w' j) group clear' = (ts2, m2, Ok (keep mask t)).
  Proof.
    intros w w' j OH LM SB S PN RA. pose proof (subset_world w i mi mask ts' m' FS (lengths_agree E ops) LM SB) as CO. fold w' j in CO.
    assert (W' : w' = mrun E start (ops ++ [MSubset E i mi mask])) by (rewrite mrun_app; reflexivity).
    rewrite W' in CO |- *. refine (proj1 (copied_run ops (ops ++ [MSubset E i mi mask]) i j (Some mask) group clear ts1 m1 t simple xs OH _ CO S _ RA) clear' _).
    - apply orderly_app; auto. cbn. auto.
    - intros x I. apply PN, I.
    - intros x I. apply PN, I.
  Qed.
  Lemma map_res_keep {A B} (g : A -> res B) : forall mask l l', map_res g l = Ok l' -> map_res g (keep mask l) = Ok (keep mask l').
  Proof.
    induction mask as [|b mask IH]; intros [|x l] l' H; cbn in H |- *; auto; try (injection H as <-; auto; fail).
    destruct (g x) as [y|] eqn:GX; [|discriminate]. cbn in H. destruct (map_res g l) as [ys|] eqn:GL; [|discriminate]. cbn in H. injection H as <-.
    destruct b; cbn; [rewrite GX, (IH l ys GL); reflexivity|eauto].
  Qed.
  Theorem C57_subset_probabilities (ops : list mop) i mi mask ts' m' group clear clear' scale check ts1 m1 p simple xs (FS : frame_slices mask) :
    let w := mrun E start ops in let w' := mstep E w (MSubset E i mi mask) in let j := length (mw_models w) in
    orderly_history E start ops -> length mi = length mask ->
    copy_subset E (mw_tabs w) (model E w i) mi mask = (ts', Ok m') ->
    selection (mheap E w) (mcont E w i) group = Ok (simple, xs) -> (forall x, In x xs -> plain_names simple x /\ own_names x) ->
    run_stochastic E (mheap E w) (mcont E w i) (mw_tabs w) (model E w i) group clear scale check = (ts1, m1, Ok p) ->
    exists ts2 m2, run_stochastic E (mheap E w') (mcont E w' j) (mw_tabs w') (model E w' j) group clear' scale check = (ts2, m2, Ok (keep mask p)).
  Proof.
    intros w w' j OH LM SB S PN RA. unfold run_stochastic in *.
    destruct (run_utilities E (mheap E w) (mcont E w i) (mw_tabs w) (model E w i) group clear) as [[ts3 m3] [t|x]] eqn:RU; [|discriminate]. injection RA as <- <- RA.
    destruct (C57_subset_runs_on_the_rows ops i mi mask ts' m' group clear clear' ts3 m3 t simple xs FS OH LM SB S PN RU) as (ts2 & m2 & RB). fold w w' j in RB. rewrite RB.
    pose proof (run_touch E _ _ _ _ _ _ _ _ _ RU) as (T1 & _). pose proof (run_touch E _ _ _ _ _ _ _ _ _ RB) as (T2 & _).
    pose proof (co_tree _ _ _ _ _ (subset_world w i mi mask ts' m' FS (lengths_agree E ops) LM SB)) as T3. fold w' j in T3.
    rewrite T1 in RA. rewrite T2, T3. exists ts2, m2. f_equal. now apply map_res_keep.
  Qed.

End Copies.
Unset Default Proof Using.
