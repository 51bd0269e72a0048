(** C116: constants added to the utilities of whole models, in exact arithmetic. *)
From Coq Require Import Reals Lra.
From Verif Require Import Prelude Arith CoreModel TreeModel DictProofs ParModel ExprModel SpecExpr ExprProofs ExprUses ExprMeaning ExprContainer ExprWorld ScopeModel SpecScope ScopeProofs ModelModel ModelProofs SpecModel KernelProofs EvalProofs ModelExample PropState ModelWorld ModelHist ModelTabs RunProofs PropUtility PropExpr SpecSampling SpecNested SpecTree TreeProofs TreeMore TreeHist RunOut SpecEnd EndProofs ParProofs OutProofs RunResult EndExample PropEnd SpecLogit MnlProofs PropMultinomial.
Local Open Scope string_scope.
Local Open Scope nat_scope.
Local Open Scope list_scope.

Lemma stochastic_flat (t : tree XR) us scaled chk cols o : depth t = Ok 1 -> choices t = Ok cols -> stochastic_outputs t us scaled chk = Ok o ->
  exists P top terms, multinomial_probabilities XR us chk = Ok (P, top, terms) /\ o = (combine cols P, top, combine cols terms).
Proof.
  intros DP CH H. unfold stochastic_outputs, row_outputs in H. rewrite DP, CH in H. cbn [rbind Nat.ltb Nat.leb] in H.
  destruct (multinomial_probabilities XR us chk) as [[[P top] terms]|] eqn:M; [|discriminate]. cbn [rbind] in H. injection H as <-. eauto 10.
Qed.

Lemma mnl_shift_total c us : SpecLogit.total (map (shift c) us) = (exp c * SpecLogit.total us)%R.
Proof. rewrite total_shift. reflexivity. Qed.

Section Constants.
  Context {L D N : Type} (E : env L XR D (val N)) (O : ops L N) (as_num : val N -> option xr).
  Notation mop := (mop E).
  Notation start := (new_mworld E).
  Context (NC : numexpr_computes E O as_num) (FL : frame_laws E) (NUL : ev_num E (ev_nan E) = VNull).

  Lemma texts_total_app scope nl cols r c l xs x : forall acc,
    texts_total E O as_num scope nl cols r c l (xs ++ [x]) acc =
    obind (texts_total E O as_num scope nl cols r c l xs acc) (fun a =>
      if text_applies nl l x then obind (text_value E O as_num scope nl cols r c x a) (fun v => Some (xadd a v)) else Some a).
  Proof.
    induction xs as [|y t IH]; intros acc; cbn [texts_total app obind].
    - reflexivity.
    - destruct (text_applies nl l y); auto. destruct (text_value E O as_num scope nl cols r c y acc); cbn [obind]; auto.
  Qed.

  Lemma flat_row (ops : list mop) i group clear scale check ts1 m1 out simple xs (uu : list (option R)) d cols r :
      let w := mrun E start ops in let m := model E w i in
      orderly_history E start ops -> m_utils m = None ->
      run_stochastic_all E (mheap E w) (mcont E w i) (mw_tabs w) m group clear scale check = (ts1, m1, Ok out) ->
      selection (mheap E w) (mcont E w i) group = Ok (simple, xs) -> (forall y, In y xs -> meant E simple y) ->
      m_du m = Some d -> choices (m_tree m) = Ok cols -> depth (m_tree m) = Ok 1 -> r < length d ->
      texts_row E O as_num (m_scope m) 1 cols r (map (@e_raw L) xs) (map as_x uu) -> some_feasible uu ->
      nth_error out r = Some (combine cols (map (fun u => Fin (mnl uu u)) uu), Fin (SpecLogit.total uu), combine cols (map (fun u => Fin (expu u)) uu)).
  Proof.
    intros w m OH MU RR S MT DU CH DP Hr TR SF.
    unfold run_stochastic_all in RR. destruct (run_utilities E (mheap E w) (mcont E w i) (mw_tabs w) m group clear) as [[ts m2] [t|e]] eqn:RU; [|discriminate].
    injection RR as <- <- RR. destruct (rows_are_texts E O as_num NC FL NUL ops i group clear ts m2 t simple xs d cols 1 OH MU RU S MT DU CH DP) as (T1 & T2 & IV & V & LC & [R1 _] & TX). fold w m in T1, T2, IV, V, LC, TX.
    apply map_res_ok in RR. destruct RR as [LO RR]. destruct (RR r _ (TX r _ Hr TR)) as (o & SO & NO). rewrite T1 in SO. rewrite NO.
    destruct (stochastic_flat _ _ _ _ _ _ DP CH SO) as (P & top & terms & M & ->). rewrite (C06_logit_formula uu check SF) in M. injection M as <- <- <-. reflexivity.
  Qed.

  (** the second of two models has the same choices, data and decision units as the first, and one more expression, [x] *)
  Definition one_more_text (w w' : mworld E) (i j : nat) (xs xs' : list (@expression L)) (x : string) : Prop :=
    m_tree (model E w' j) = m_tree (model E w i) /\ m_scope (model E w' j) = m_scope (model E w i) /\ m_du (model E w' j) = m_du (model E w i) /\
    map (@e_raw L) xs' = map (@e_raw L) xs ++ [x].

  (** Adding the expression multiplies e^u by the same factor wherever it applies. *)
  Lemma flat_outputs (ops ops' : list mop) i j group group' clear clear' scale scale' check check' ts1 m1 out ts2 m2 out' simple xs simple' xs' x d cols (delta : nat -> R) r (uu : list (option R)) :
    let w := mrun E start ops in let m := model E w i in let w' := mrun E start ops' in let m' := model E w' j in
    orderly_history E start ops -> orderly_history E start ops' -> m_utils m = None -> m_utils m' = None ->
    run_stochastic_all E (mheap E w) (mcont E w i) (mw_tabs w) m group clear scale check = (ts1, m1, Ok out) ->
    run_stochastic_all E (mheap E w') (mcont E w' j) (mw_tabs w') m' group' clear' scale' check' = (ts2, m2, Ok out') ->
    selection (mheap E w) (mcont E w i) group = Ok (simple, xs) -> (forall y, In y xs -> meant E simple y) ->
    selection (mheap E w') (mcont E w' j) group' = Ok (simple', xs') -> (forall y, In y xs' -> meant E simple' y) ->
    one_more_text w w' i j xs xs' x -> m_du m = Some d -> choices (m_tree m) = Ok cols -> depth (m_tree m) = Ok 1 ->
    r < length d -> texts_row E O as_num (m_scope m) 1 cols r (map (@e_raw L) xs) (map as_x uu) -> some_feasible uu ->
    (forall c l, nth_error cols c = Some l -> if text_applies 1 l x then forall sofar, text_value E O as_num (m_scope m) 1 cols r c x sofar = Some (Fin (delta c)) else delta c = 0%R) ->
    let uu' := map (fun c => shift (delta c) (nth c uu None)) (seq 0 (length uu)) in
    length uu = length cols /\
    nth_error out r = Some (combine cols (map (fun u => Fin (mnl uu u)) uu), Fin (SpecLogit.total uu), combine cols (map (fun u => Fin (expu u)) uu)) /\
    nth_error out' r = Some (combine cols (map (fun u => Fin (mnl uu' u)) uu'), Fin (SpecLogit.total uu'), combine cols (map (fun u => Fin (expu u)) uu')).
  Proof.
    intros w m w' m' OH OH' MU MU' RR RR' S MT S' MT' (T0 & T1 & T2 & T3) DU CH DP Hr TR SF DL uu'.
    fold w' m' w m in T0, T1, T2. 
    assert (DU' : m_du m' = Some d) by congruence. assert (CH' : choices (m_tree m') = Ok cols) by congruence. assert (DP' : depth (m_tree m') = Ok 1) by congruence.
    assert (LU : length uu = length cols) by (destruct TR as [Q _]; now rewrite map_length in Q).
    assert (SF' : some_feasible uu').
    { destruct SF as [v I]. apply (In_nth _ _ None) in I. destruct I as (c & Hc & Q). exists (v + delta c)%R. apply in_map_iff. exists c. rewrite Q. split; [reflexivity|]. apply in_seq. lia. }
    assert (TR' : texts_row E O as_num (m_scope m') 1 cols r (map (@e_raw L) xs') (map as_x uu')).
    { destruct TR as [_ TR]. unfold uu'. split; [rewrite !map_length, seq_length; congruence|]. intros c l Q. rewrite T3, T1, texts_total_app, (TR c l Q). cbn [obind].
      assert (Hc : c < length uu) by (rewrite LU; apply nth_error_Some; congruence). specialize (DL c l Q).
      change (nzero XR) with (as_x None) || idtac. rewrite (nth_indep (map as_x uu) _ (as_x None)) by (now rewrite map_length). rewrite map_nth.
      rewrite (nth_indep (map as_x (map _ _)) _ (as_x (shift (delta 0) (nth 0 uu None)))) by (now rewrite !map_length, seq_length). rewrite map_nth.
      rewrite (map_nth (fun c => shift (delta c) (nth c uu None))), seq_nth by auto. rewrite Nat.add_0_l.
      destruct (text_applies 1 l x); [rewrite DL; cbn [obind]|]; f_equal.
      - destruct (nth c uu None); reflexivity.
      - rewrite DL. destruct (nth c uu None) as [v|]; cbn; [|reflexivity]. now rewrite Rplus_0_r. }
    split; [exact LU|]. split; [exact (flat_row ops i group clear scale check ts1 m1 out simple xs uu d cols r OH MU RR S MT DU CH DP Hr TR SF)|].
    exact (flat_row ops' j group' clear' scale' check' ts2 m2 out' simple' xs' uu' d cols r OH' MU' RR' S' MT' DU' CH' DP' Hr TR' SF').
  Qed.

  (** One more expression, a constant [k] in every column, without a filter: every probability stays as it was and the second output is multiplied by e^k. *)
  Theorem C116_constant_everywhere (ops ops' : list mop) i j group group' clear clear' scale scale' check check' ts1 m1 out ts2 m2 out' simple xs simple' xs' x d cols k r (uu : list (option R)) :
    let w := mrun E start ops in let m := model E w i in let w' := mrun E start ops' in let m' := model E w' j in
    orderly_history E start ops -> orderly_history E start ops' -> m_utils m = None -> m_utils m' = None ->
    run_stochastic_all E (mheap E w) (mcont E w i) (mw_tabs w) m group clear scale check = (ts1, m1, Ok out) ->
    run_stochastic_all E (mheap E w') (mcont E w' j) (mw_tabs w') m' group' clear' scale' check' = (ts2, m2, Ok out') ->
    selection (mheap E w) (mcont E w i) group = Ok (simple, xs) -> (forall y, In y xs -> meant E simple y) ->
    selection (mheap E w') (mcont E w' j) group' = Ok (simple', xs') -> (forall y, In y xs' -> meant E simple' y) ->
    one_more_text w w' i j xs xs' x -> m_du m = Some d -> choices (m_tree m) = Ok cols -> depth (m_tree m) = Ok 1 ->
    r < length d -> texts_row E O as_num (m_scope m) 1 cols r (map (@e_raw L) xs) (map as_x uu) -> some_feasible uu ->
    (forall c l, nth_error cols c = Some l -> text_applies 1 l x = true /\ forall sofar, text_value E O as_num (m_scope m) 1 cols r c x sofar = Some (Fin k)) ->
    exists P T terms terms', nth_error out r = Some (combine cols P, Fin T, terms) /\ nth_error out' r = Some (combine cols P, Fin (exp k * T), terms') /\ length P = length cols.
  Proof.
    intros w m w' m' OH OH' MU MU' RR RR' S MT S' MT' OM DU CH DP Hr TR SF K.
    assert (LU : length uu = length cols) by (destruct TR as [Q _]; now rewrite map_length in Q).
    destruct (flat_outputs ops ops' i j group group' clear clear' scale scale' check check' ts1 m1 out ts2 m2 out' simple xs simple' xs' x d cols (fun _ => k) r uu
      OH OH' MU MU' RR RR' S MT S' MT' OM DU CH DP Hr TR SF) as (_ & O1 & O2).
    { intros c l Q. destruct (K c l Q) as [K1 K2]. rewrite K1. exact K2. }
    assert (U : map (fun c => shift k (nth c uu None)) (seq 0 (length uu)) = map (shift k) uu).
    { rewrite <- (map_map (fun c => nth c uu None) (shift k)). f_equal. clear. induction uu as [|u t IH]; auto. cbn [length seq map nth]. f_equal. rewrite <- seq_shift, map_map. exact IH. }
    rewrite U, mnl_shift_total in O2. assert (PE : map (fun u => Fin (mnl (map (shift k) uu) u)) (map (shift k) uu) = map (fun u => Fin (mnl uu u)) uu).
    { rewrite <- (map_map (mnl (map (shift k) uu)) Fin), mnl_shift, map_map by auto. reflexivity. }
    rewrite PE in O2. do 4 eexists. split; [exact O1|]. split; [exact O2|]. now rewrite map_length.
  Qed.

  (** One more expression, a constant [k] that applies to the choice at position [c0] only ([k @ choice], an alternative-specific constant):
      the odds of this choice against any other are multiplied by e^k; if [k] is positive its probability does not fall, and no other probability rises. *)
  Theorem C116_constant_for_one_choice (ops ops' : list mop) i j group group' clear clear' scale scale' check check' ts1 m1 out ts2 m2 out' simple xs simple' xs' x d cols k c0 r (uu : list (option R)) :
    let w := mrun E start ops in let m := model E w i in let w' := mrun E start ops' in let m' := model E w' j in
    orderly_history E start ops -> orderly_history E start ops' -> m_utils m = None -> m_utils m' = None ->
    run_stochastic_all E (mheap E w) (mcont E w i) (mw_tabs w) m group clear scale check = (ts1, m1, Ok out) ->
    run_stochastic_all E (mheap E w') (mcont E w' j) (mw_tabs w') m' group' clear' scale' check' = (ts2, m2, Ok out') ->
    selection (mheap E w) (mcont E w i) group = Ok (simple, xs) -> (forall y, In y xs -> meant E simple y) ->
    selection (mheap E w') (mcont E w' j) group' = Ok (simple', xs') -> (forall y, In y xs' -> meant E simple' y) ->
    one_more_text w w' i j xs xs' x -> m_du m = Some d -> choices (m_tree m) = Ok cols -> depth (m_tree m) = Ok 1 ->
    r < length d -> texts_row E O as_num (m_scope m) 1 cols r (map (@e_raw L) xs) (map as_x uu) -> some_feasible uu ->
    c0 < length cols ->
    (forall c l, nth_error cols c = Some l -> text_applies 1 l x = (c =? c0)) ->
    (forall sofar, text_value E O as_num (m_scope m) 1 cols r c0 x sofar = Some (Fin k)) ->
    exists P P' T T' terms terms',
      nth_error out r = Some (combine cols (map Fin P), Fin T, terms) /\ nth_error out' r = Some (combine cols (map Fin P'), Fin T', terms') /\
      length P = length cols /\ length P' = length cols /\
      (forall c, c <> c0 -> prob P' c0 * prob P c = exp k * prob P c0 * prob P' c)%R /\
      ((0 < k)%R -> (prob P c0 <= prob P' c0)%R /\ (forall c, c <> c0 -> (prob P' c <= prob P c)%R) /\ (T <= T')%R /\
        ((0 < prob P c0 < 1)%R -> (prob P c0 < prob P' c0)%R)).
  Proof.
    intros w m w' m' OH OH' MU MU' RR RR' S MT S' MT' OM DU CH DP Hr TR SF Hc0 AP K.
    assert (LU : length uu = length cols) by (destruct TR as [Q _]; now rewrite map_length in Q).
    destruct (flat_outputs ops ops' i j group group' clear clear' scale scale' check check' ts1 m1 out ts2 m2 out' simple xs simple' xs' x d cols (fun c => if c =? c0 then k else 0%R) r uu
      OH OH' MU MU' RR RR' S MT S' MT' OM DU CH DP Hr TR SF) as (_ & O1 & O2).
    { intros c l Q. rewrite (AP c l Q). destruct (Nat.eqb_spec c c0) as [->|]; auto. }
    set (uu' := map (fun c => shift (if c =? c0 then k else 0%R) (nth c uu None)) (seq 0 (length uu))) in *.
    assert (LU' : length uu' = length uu) by (unfold uu'; now rewrite map_length, seq_length).
    assert (N' : forall c, c < length uu -> nth c uu' None = shift (if c =? c0 then k else 0%R) (nth c uu None)).
    { intros c Hc. unfold uu'. rewrite (nth_indep _ _ (shift (if 0 =? c0 then k else 0%R) (nth 0 uu None))) by (now rewrite map_length, seq_length).
      rewrite (map_nth (fun c => shift (if c =? c0 then k else 0%R) (nth c uu None))), seq_nth by auto. reflexivity. }
    assert (N0 : nth c0 uu' None = shift k (nth c0 uu None)) by (rewrite N', Nat.eqb_refl by lia; reflexivity).
    assert (NN : forall c, c < length uu -> c <> c0 -> nth c uu' None = nth c uu None).
    { intros c Hc Q. rewrite N' by auto. apply Nat.eqb_neq in Q. rewrite Q. destruct (nth c uu None); cbn; auto. now rewrite Rplus_0_r. }
    assert (UP : uu' = upd uu c0 (shift k (nth c0 uu None))).
    { apply (nth_ext _ _ None None); [now rewrite upd_length|]. intros c Hc. rewrite LU' in Hc. destruct (Nat.eq_dec c c0) as [->|Q]; [rewrite N0, nth_upd_eq by lia; reflexivity|]. rewrite NN, nth_upd_neq by auto. reflexivity. }
    assert (TE : SpecLogit.total uu' = (SpecLogit.total uu - expu (nth c0 uu None) + exp k * expu (nth c0 uu None))%R).
    { rewrite UP, total_upd, expu_shift by lia. reflexivity. }
    pose proof (MnlProofs.total_pos uu SF) as TP. pose proof (expu_nonneg (nth c0 uu None)) as EN. pose proof (exp_pos k) as EK.
    assert (TP' : (0 < SpecLogit.total uu')%R).
    { rewrite TE. assert (I0 : In (nth c0 uu None) uu) by (apply nth_In; lia). pose proof (total_ge uu _ I0) as G. destruct EN as [EN|EN]; [|rewrite <- EN; lra].
      pose proof (Rmult_lt_0_compat _ _ EK EN). lra. }
    assert (PE : forall vs c, c < length vs -> prob (map (mnl vs) vs) c = (expu (nth c vs None) / SpecLogit.total vs)%R).
    { intros vs c Hc. rewrite prob_mnl by auto. reflexivity. }
    assert (PO : forall vs c, ~ c < length vs -> prob (map (mnl vs) vs) c = 0%R).
    { intros vs c Hc. unfold prob. apply nth_overflow. rewrite map_length. lia. }
    exists (map (mnl uu) uu), (map (mnl uu') uu'), (SpecLogit.total uu), (SpecLogit.total uu'). do 2 eexists. rewrite !map_map.
    split; [exact O1|]. split; [exact O2|]. split; [now rewrite map_length|]. split; [rewrite map_length; congruence|]. split; [|intros KP; repeat split].
    - intros c Q. destruct (Nat.lt_ge_cases c (length uu)) as [Hc|Hc]; [|rewrite (PO uu c), (PO uu' c) by lia; ring]. rewrite !PE by lia. rewrite (NN c Hc Q), N0, expu_shift. field. split; lra.
    - rewrite !PE by lia. rewrite N0, expu_shift, TE. set (e := expu (nth c0 uu None)) in *. set (T := SpecLogit.total uu) in *.
      rewrite TE in TP'. assert (K1 : (1 < exp k)%R) by (rewrite <- exp_0; now apply exp_increasing).
      assert (I0 : In (nth c0 uu None) uu) by (apply nth_In; lia). pose proof (total_ge uu _ I0) as G. fold e T in G.
      apply Rmult_le_reg_r with (T * (T - e + exp k * e))%R; [apply Rmult_lt_0_compat; auto|].
      replace (e / T * (T * (T - e + exp k * e)))%R with (e * (T - e + exp k * e))%R by (field; lra). replace (exp k * e / (T - e + exp k * e) * (T * (T - e + exp k * e)))%R with (exp k * e * T)%R by (field; lra). replace (exp k * e * T)%R with (e * (T - e + exp k * e) + e * ((exp k - 1) * (T - e)))%R by ring. assert (0 <= e * ((exp k - 1) * (T - e)))%R by (apply Rmult_le_pos; [lra|apply Rmult_le_pos; lra]). lra.
    - intros c Q. destruct (Nat.lt_ge_cases c (length uu)) as [Hc|Hc]; [|rewrite (PO uu c), (PO uu' c) by lia; lra]. rewrite !PE by lia. rewrite (NN c Hc Q).
      pose proof (expu_nonneg (nth c uu None)). assert (K1 : (1 < exp k)%R) by (rewrite <- exp_0; now apply exp_increasing). unfold Rdiv. apply Rmult_le_compat_l; auto. apply Rinv_le_contravar; auto. rewrite TE. nra.
    - assert (K1 : (1 < exp k)%R) by (rewrite <- exp_0; now apply exp_increasing). rewrite TE. nra.
    - rewrite !PE by lia. rewrite N0, expu_shift, TE. set (e := expu (nth c0 uu None)) in *. set (T := SpecLogit.total uu) in *. intros [P0 P1].
      rewrite TE in TP'. assert (K1 : (1 < exp k)%R) by (rewrite <- exp_0; now apply exp_increasing).
      assert (E0 : (0 < e)%R) by (destruct EN as [|Q]; auto; rewrite <- Q in P0; unfold Rdiv in P0; lra).
      assert (ET : (e < T)%R). { apply (Rmult_lt_compat_r T) in P1; auto. replace (e / T * T)%R with e in P1 by (field; lra). lra. }
      apply Rmult_lt_reg_r with (T * (T - e + exp k * e))%R; [apply Rmult_lt_0_compat; auto|].
      replace (e / T * (T * (T - e + exp k * e)))%R with (e * (T - e + exp k * e))%R by (field; lra). replace (exp k * e / (T - e + exp k * e) * (T * (T - e + exp k * e)))%R with (exp k * e * T)%R by (field; lra). replace (exp k * e * T)%R with (e * (T - e + exp k * e) + e * ((exp k - 1) * (T - e)))%R by ring. assert (0 < e * ((exp k - 1) * (T - e)))%R by (apply Rmult_lt_0_compat; [lra|apply Rmult_lt_0_compat; lra]). lra.
  Qed.
End Constants.
Print Assumptions C116_constant_everywhere.
Print Assumptions C116_constant_for_one_choice.

(** ** Examples: cells hold exact numbers; two choices, one decision unit with x = 5, and the expression [x]; then [1 @ A] or [1]. *)
Definition numX (x : xr) : val xr := match x with NaN => VNull | _ => VNum x end.
Definition backX (v : val xr) : option xr := match v with VNum x => Some x | VNull => Some NaN | _ => None end.
Definition opsX : ops nat xr := Ops (fun n => Fin (INR n)) (fun _ _ _ => None) (fun _ _ _ => None) (fun _ => None) (fun _ => None) (fun _ => None) (fun _ _ => None).
Definition framesX : frames nat string (val xr) :=
  Frames nat string (val xr) Empty_set (fun _ => []) (fun _ => []) (fun _ => []) (fun _ => false) (fun _ _ => false) (fun _ _ => Err KeyError) (fun _ _ _ => Err KeyError) (fun _ t => t).
Definition parseX (s : string) : res (expr nat) := if String.eqb s "x" then Ok (EName "x") else if String.eqb s "1" then Ok (ENum 1) else Err SyntaxErr.
Definition envX : env nat XR string (val xr) :=
  Env nat XR string (val xr) String.eqb e_label numX NaN NInf (fun neg n => Fin (INR n)) (fun e rho => obind (neval opsX rho e) backX) (fun _ => false) parseX framesX.
Lemma envX_computes : numexpr_computes envX opsX backX. Proof. intros e rho. reflexivity. Qed.
Lemma envX_null : ev_num envX (ev_nan envX) = VNull. Proof. reflexivity. Qed.
Lemma envX_laws : frame_laws envX.
Proof. constructor; [intros a b; apply String.eqb_eq|intros []|intros []|intros mask []]. Qed.

Definition histX (more : list string) : list (mop envX) :=
  [MNew envX; MTree envX 0 (@AddChoices XR ["A"; "B"] false None); MUnits envX 0 ["u1"]; MDeclare envX 0 "x" (DeclVector 0);
   MAssign envX 0 "x" (VSeries (num:=xr) (FR:=framesX) ["u1"] [VNum (Fin 5)])] ++ map (fun x => MAppend envX 0 x None) ("x" :: more).
(** the world after the choices are added (the scales of the choices are compared with 0 and 1, which is not computation) *)
Definition world0X : mworld envX := mrun envX (new_mworld envX) [MNew envX].
Definition treeX : tree XR := @Tree XR [@Node XR "A" None (Fin 1) 1 []; @Node XR "B" None (Fin 1) 1 []] [("A", 0); ("B", 1)] [0; 1] None.
Definition world1X : mworld envX := set_model envX world0X (mw_tabs world0X) 0 (CM (E:=envX) treeX (m_scope (model envX world0X 0)) None None).
Lemma scale_one : scale_ok XR (Fin 1) = true.
Proof. unfold scale_ok. cbn. unfold Rltb, Rleb. destruct (Rlt_dec 0 1); [|lra]. destruct (Rle_dec 1 1); [reflexivity|lra]. Qed.
Lemma world1X_is : mrun envX (new_mworld envX) [MNew envX; MTree envX 0 (@AddChoices XR ["A"; "B"] false None)] = world1X.
Proof.
  change (mrun envX (new_mworld envX) [MNew envX; MTree envX 0 (@AddChoices XR ["A"; "B"] false None)]) with (set_model envX world0X (mw_tabs world0X) 0 (tree_op envX (model envX world0X 0) (@AddChoices XR ["A"; "B"] false None))).
  unfold world1X. f_equal. unfold tree_op.
  assert (Q : run_op XR (set_cached (m_tree (model envX world0X 0)) (option_map u_cols (m_utils (model envX world0X 0)))) (@AddChoices XR ["A"; "B"] false None) = treeX); [|now rewrite Q].
  cbn [run_op]. change (set_cached (m_tree (model envX world0X 0)) (option_map u_cols (m_utils (model envX world0X 0)))) with (@new_tree XR).
  unfold add_choices. cbn [map combine add_pairs]. change (create_node XR (drop_cache XR (@new_tree XR)) "A" (none_ XR) None) with (@new_node XR (@new_tree XR) "A" "A" (Fin 1) None 1).
  assert (N1 : @new_node XR (@new_tree XR) "A" "A" (Fin 1) None 1 = (@Tree XR [@Node XR "A" None (Fin 1) 1 []] [("A", 0)] [] None, Ok 0)) by (unfold new_node; rewrite scale_one; reflexivity).
  rewrite N1. cbv beta iota. set (t1 := @Tree XR [@Node XR "A" None (Fin 1) 1 []] [("A", 0)] [0] None).
  assert (N2 : create_node XR t1 "B" (none_ XR) None = (@Tree XR (t_heap treeX) (t_all treeX) [0] None, Ok 1)).
  { change (create_node XR t1 "B" (none_ XR) None) with (@new_node XR t1 "B" "B" (Fin 1) None 1). unfold new_node. rewrite scale_one. reflexivity. }
  change (add_top XR _ 0) with t1. rewrite N2. reflexivity.
Qed.
Definition restX (more : list string) : list (mop envX) :=
  [MUnits envX 0 ["u1"]; MDeclare envX 0 "x" (DeclVector 0);
   MAssign envX 0 "x" (VSeries (num:=xr) (FR:=framesX) ["u1"] [VNum (Fin 5)])] ++ map (fun x => MAppend envX 0 x None) ("x" :: more).
Definition worldX more := mrun envX world1X (restX more).
Lemma worldX_is more : mrun envX (new_mworld envX) (histX more) = worldX more.
Proof. unfold worldX. rewrite <- world1X_is. reflexivity. Qed.
Definition modelX more := model envX (worldX more) 0.
Lemma histX_orderly more : orderly_history envX (new_mworld envX) (histX more).
Proof.
  unfold histX. cbn [app map orderly_history]. repeat match goal with |- _ /\ _ => split end; try exact I; try (intros n s []; fail).
  all: try (unfold orderly; try exact I; try reflexivity).
  - split; [split; [repeat constructor; cbn; intuition discriminate|cbn; tauto]|intros n s []].
  - match goal with |- orderly_history _ ?w _ => generalize w end. induction more as [|x t IH]; intros w; cbn [map orderly_history]; auto. split; [exact I|]. apply IH.
Qed.
Definition selX more := selection (mheap envX (worldX more)) (mcont envX (worldX more) 0) None.
Definition simpleX more : list string := match selX more with Ok (s, _) => s | Err _ => [] end.
Definition xsX more : list (@expression nat) := match selX more with Ok (_, xs) => xs | Err _ => [] end.
Definition runX more := run_utilities envX (mheap envX (worldX more)) (mcont envX (worldX more) 0) (mw_tabs (worldX more)) (modelX more) None true.
Definition colsX : list label := [Flat "A"; Flat "B"].
Lemma selX_ok more : In more [[]; ["1 @ A"]; ["1"]] -> selX more = Ok (simpleX more, xsX more) /\ map (@e_raw nat) (xsX more) = "x" :: more /\ simpleX more = ["x"].
Proof. intros [<-|[<-|[<-|[]]]]; vm_compute; auto. Qed.
Lemma meantX more : In more [[]; ["1 @ A"]; ["1"]] -> forall y, In y (xsX more) -> meant envX (simpleX more) y.
Proof.
  intros I y Iy. rewrite (proj2 (proj2 (selX_ok more I))).
  destruct I as [<-|[<-|[<-|[]]]]; match type of Iy with In _ ?l => let v := eval vm_compute in l in change (In y v) in Iy end; repeat (destruct Iy as [<-|Iy]; [|]); try destruct Iy.
  all: split; [split; intros z Z; cbn in Z; intuition subst; reflexivity|]; split; [intros name us sub ct I1 I2 NF; cbn in I1; intuition|].
  all: intros body flt tree SF PP; vm_compute in SF; injection SF as <- <-; vm_compute in PP; injection PP as <-; split; try (intros z Z; cbn in Z; intuition subst; cbn; auto; fail).
  all: cbn; intuition; now constructor.
Qed.
Ltac no_nan := repeat match goal with |- context [Req_EM_T ?a ?a] => let X := fresh in destruct (Req_EM_T a a) as [_|X]; [|destruct X; reflexivity] end.
Lemma runX_returns more : In more [[]; ["1 @ A"]; ["1"]] -> forall scale check, exists ts m out,
  run_stochastic_all envX (mheap envX (worldX more)) (mcont envX (worldX more) 0) (mw_tabs (worldX more)) (modelX more) None true scale check = (ts, m, Ok out).
Proof.
  intros I scale check. unfold run_stochastic_all. fold (runX more).
  assert (Q : exists ts m u v, runX more = (ts, m, Ok [[Fin u; Fin v]]) /\ depth (m_tree m) = Ok 1 /\ choices (m_tree m) = Ok colsX).
  { destruct I as [<-|[<-|[<-|[]]]]; do 4 eexists; (split; [vm_compute; no_nan; reflexivity|split; vm_compute; reflexivity]). }
  destruct Q as (ts & m & u & v & -> & DP & CH). cbn [map_res rbind]. unfold stochastic_outputs, row_outputs. rewrite DP, CH. cbn [rbind Nat.ltb Nat.leb].
  change [Fin u; Fin v] with (map as_x [Some u; Some v]). rewrite C06_logit_formula by (exists u; cbn; auto). cbn [rbind]. eauto.
Qed.
Ltac namedX H := cbv zeta in H; rewrite !worldX_is in H.
Lemma rowX more : texts_row envX opsX backX (m_scope (modelX more)) 1 colsX 0 (map (@e_raw nat) (xsX [])) (map as_x [Some (0 + 5)%R; Some (0 + 5)%R]).
Proof.
  rewrite (proj1 (proj2 (selX_ok [] (or_introl eq_refl)))). assert (S : m_scope (modelX more) = [("x", SVector false (Some [VNum (Fin 5)]))]).
  { unfold modelX, worldX, restX. cbn [app map]. unfold mrun. cbn [fold_left]. 
    assert (G : forall l w, model envX (fold_left (mstep envX) (map (fun x => MAppend envX 0 x None) l) w) 0 = model envX w 0).
    { induction l as [|x t IH]; intros w; cbn [map fold_left]; auto. rewrite IH. reflexivity. }
    rewrite G. vm_compute. reflexivity. }
  rewrite S. split; [reflexivity|]. intros [|[|c]] l H; try (destruct c; discriminate); cbn in H; injection H as <-; cbn; reflexivity.
Qed.
Lemma partsX more : m_utils (modelX more) = None /\ m_du (modelX more) = Some ["u1"] /\ m_tree (modelX more) = treeX /\ m_scope (modelX more) = m_scope (modelX []).
Proof.
  unfold modelX, worldX, restX. cbn [app map]. unfold mrun. cbn [fold_left].
  assert (G : forall l w, model envX (fold_left (mstep envX) (map (fun x => MAppend envX 0 x None) l) w) 0 = model envX w 0).
  { induction l as [|x t IH]; intros w; cbn [map fold_left]; auto. rewrite IH. reflexivity. }
  rewrite G. repeat split; vm_compute; reflexivity.
Qed.

(** the odds of A against B are multiplied by e *)
Example C116_met_one : exists out out' P P' T T' terms terms',
  snd (run_stochastic_all envX (mheap envX (worldX [])) (mcont envX (worldX []) 0) (mw_tabs (worldX [])) (modelX []) None true false true) = Ok out /\
  snd (run_stochastic_all envX (mheap envX (worldX ["1 @ A"])) (mcont envX (worldX ["1 @ A"]) 0) (mw_tabs (worldX ["1 @ A"])) (modelX ["1 @ A"]) None true false true) = Ok out' /\
  nth_error out 0 = Some (combine colsX (map Fin P), Fin T, terms) /\ nth_error out' 0 = Some (combine colsX (map Fin P'), Fin T', terms') /\
  (prob P' 0 * prob P 1 = exp 1 * prob P 0 * prob P' 1)%R.
Proof.
  assert (I0 : In [] [[]; ["1 @ A"]; ["1"]]) by (cbn; auto). assert (I1 : In ["1 @ A"] [[]; ["1 @ A"]; ["1"]]) by (cbn; auto).
  destruct (runX_returns [] I0 false true) as (ts1 & m1 & out & R1). destruct (runX_returns _ I1 false true) as (ts2 & m2 & out' & R2).
  destruct (partsX []) as (A1 & A2 & A3 & _). destruct (partsX ["1 @ A"]) as (B1 & B2 & B3 & B4).
  pose proof (C116_constant_for_one_choice envX opsX backX envX_computes envX_laws envX_null (histX []) (histX ["1 @ A"]) 0 0 None None true true false false true true
    ts1 m1 out ts2 m2 out' (simpleX []) (xsX []) (simpleX ["1 @ A"]) (xsX ["1 @ A"]) "1 @ A" ["u1"] colsX 1%R 0 0 [Some (0 + 5)%R; Some (0 + 5)%R]) as T. namedX T.
  destruct T as (P & P' & T0 & T1 & t0 & t1 & Q1 & Q2 & _ & _ & Q3 & _).
  1-2: apply histX_orderly. 1-2: assumption. 1-2: assumption.
  - apply (selX_ok [] I0).
  - apply (meantX [] I0).
  - apply (selX_ok _ I1).
  - apply (meantX _ I1).
  - unfold one_more_text. fold (modelX []) (modelX ["1 @ A"]). rewrite A3, B3, A2, B2, B4. repeat split.
  - exact A2.
  - fold (modelX []). rewrite A3. reflexivity.
  - fold (modelX []). rewrite A3. reflexivity.
  - cbn; lia.
  - apply rowX.
  - exists (0 + 5)%R. cbn; auto.
  - cbn; lia.
  - intros [|[|c]] l H; try (destruct c; discriminate); cbn in H; injection H as <-; reflexivity.
  - intros sofar. cbn. reflexivity.
  - exists out, out', P, P', T0, T1, t0, t1. rewrite R1, R2. repeat (split; [assumption || reflexivity|]). apply Q3. lia.
Qed.
(** the constant without a filter *)
Example C116_met_all : exists out out' P T terms terms',
  snd (run_stochastic_all envX (mheap envX (worldX [])) (mcont envX (worldX []) 0) (mw_tabs (worldX [])) (modelX []) None true false true) = Ok out /\
  snd (run_stochastic_all envX (mheap envX (worldX ["1"])) (mcont envX (worldX ["1"]) 0) (mw_tabs (worldX ["1"])) (modelX ["1"]) None true false true) = Ok out' /\
  nth_error out 0 = Some (combine colsX P, Fin T, terms) /\ nth_error out' 0 = Some (combine colsX P, Fin (exp 1 * T), terms').
Proof.
  assert (I0 : In [] [[]; ["1 @ A"]; ["1"]]) by (cbn; auto). assert (I1 : In ["1"] [[]; ["1 @ A"]; ["1"]]) by (cbn; auto).
  destruct (runX_returns [] I0 false true) as (ts1 & m1 & out & R1). destruct (runX_returns _ I1 false true) as (ts2 & m2 & out' & R2).
  destruct (partsX []) as (A1 & A2 & A3 & _). destruct (partsX ["1"]) as (B1 & B2 & B3 & B4).
  pose proof (C116_constant_everywhere envX opsX backX envX_computes envX_laws envX_null (histX []) (histX ["1"]) 0 0 None None true true false false true true
    ts1 m1 out ts2 m2 out' (simpleX []) (xsX []) (simpleX ["1"]) (xsX ["1"]) "1" ["u1"] colsX 1%R 0 [Some (0 + 5)%R; Some (0 + 5)%R]) as T. namedX T.
  destruct T as (P & T0 & t0 & t1 & Q1 & Q2 & _).
  1-2: apply histX_orderly. 1-2: assumption. 1-2: assumption.
  - apply (selX_ok [] I0).
  - apply (meantX [] I0).
  - apply (selX_ok _ I1).
  - apply (meantX _ I1).
  - unfold one_more_text. fold (modelX []) (modelX ["1"]). rewrite A3, B3, A2, B2, B4. repeat split.
  - exact A2.
  - fold (modelX []). rewrite A3. reflexivity.
  - fold (modelX []). rewrite A3. reflexivity.
  - cbn; lia.
  - apply rowX.
  - exists (0 + 5)%R. cbn; auto.
  - intros [|[|c]] l H; try (destruct c; discriminate); cbn in H; injection H as <-; split; try reflexivity; intros sofar; cbn; reflexivity.
  - exists out, out', P, T0, t0, t1. rewrite R1, R2. repeat (split; [assumption || reflexivity|]). assumption.
Qed.
