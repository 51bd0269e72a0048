(** C119: models whose nests have the scale 1, in whole runs and in exact arithmetic. *)
From Coq Require Import Reals Lra Sorted.
From Verif Require Import Prelude Arith CoreModel TreeModel DictProofs ParModel ExprModel SpecExpr ExprProofs ExprUses ExprMeaning ExprContainer ExprWorld ScopeModel SpecScope ScopeProofs ModelModel ModelProofs SpecModel KernelProofs EvalProofs ModelExample PropState ModelWorld ModelHist ModelTabs RunProofs PropUtility PropExpr SpecSampling SamplingProofs SpecNested SpecTree NestedProofs NestedExact TreeProofs TreeMore TreeHist RunOut SpecEnd EndProofs ParProofs OutProofs RunResult EndExample PropEnd SpecLogit MnlProofs PropMultinomial PropNested SpecCalc NestedCalc PropNestedCalc PropConst PropOwn PropOdds.
Local Open Scope string_scope.
Local Open Scope nat_scope.
Local Open Scope list_scope.

(** every nest has the scale 1 *)
Definition unit_scales (t : tree XR) : Prop :=
  forall i nd, in_model t i -> nth_error (t_heap t) i = Some nd -> has_child t i -> nd_scale nd = Fin 1.
(** [ks] are the positions of the elemental choices, in order *)
Definition end_positions (t : tree XR) (ks : list nat) : Prop := StronglySorted lt ks /\ forall k, In k ks <-> end_node XR t k.

Lemma sorted_same (a : list nat) : forall b, StronglySorted lt a -> StronglySorted lt b -> (forall k, In k a <-> In k b) -> a = b.
Proof.
  induction a as [|x a IH]; intros [|y b] Sa Sb H; auto.
  - exfalso. apply (H y). now left.
  - exfalso. apply (proj1 (H x)). now left.
  - inversion Sa as [|? ? Sa' Fa]; subst. inversion Sb as [|? ? Sb' Fb]; subst. rewrite Forall_forall in Fa, Fb.
    assert (x = y). { destruct (proj1 (H x) (or_introl eq_refl)) as [|I]; auto. destruct (proj2 (H y) (or_introl eq_refl)) as [|J]; auto. specialize (Fa _ J). specialize (Fb _ I). lia. }
    subst y. f_equal. apply IH; auto. intros k. split; intros I.
    + destruct (proj1 (H k) (or_intror I)) as [<-|]; auto. specialize (Fa _ I). lia.
    + destruct (proj2 (H k) (or_intror I)) as [<-|]; auto. specialize (Fb _ I). lia.
Qed.

Section Tree.
  Context (t : tree XR) (INV : inv XR t) (nl : nat) (DP : depth t = Ok nl) (Hd : 1 < nl) (VT : validate_tree t = Ok tt).
  Notation n := (length (t_all t)).
  Lemma unit_row cols (us : list util) scaled chk o ks : choices t = Ok cols -> length us = n -> unit_scales t ->
    (forall c, c < n -> ~ end_node XR t c -> nth c us None = Some 0%R) -> end_positions t ks -> let vs := map (fun k => nth k us None) ks in some_feasible vs ->
    stochastic_outputs t (map as_x us) scaled chk = Ok o ->
    fst (fst o) = map (fun k => (nth k cols (Flat ""), Fin (mnl vs (nth k us None)))) ks /\ snd (fst o) = Fin (SpecLogit.total vs).
  Proof using INV DP Hd VT.
    intros CH LU US NZ [KS KE] vs SF H. unfold stochastic_outputs in H. rewrite (tab_row t INV nl DP Hd) in H. destruct (tab_scales t INV) as (_ & LS & PS). pose proof (tab_wf t INV nl DP) as WF.
    assert (HC : forall i, i < n -> children n (tab_h t) i <> [] -> nth i (tab_sc t) 0%R = 1%R /\ nth i us None = Some 0%R).
    { intros i Hi C. assert (NE : ~ end_node XR t i) by (intros Q; apply (tab_end t INV nl DP) in Q; tauto). split; [|now apply NZ].
      rewrite all_ids in Hi. destruct (nth_error (ids t) i) as [j|] eqn:Ej; [|apply nth_error_None in Ej; lia]. pose proof (nth_error_In _ _ Ej) as Ij.
      assert (NS : nth i (tab_sc t) 0%R = unfin (exp_sc XR t j)) by (apply nth_error_nth; unfold tab_sc; rewrite nth_error_map, Ej; reflexivity). rewrite NS.
      destruct (c_node XR t (proj1 INV) j Ij) as (nd & EN & _ & _). unfold exp_sc. rewrite EN. destruct (is_parent (t_heap t) j) eqn:Q; [|reflexivity].
      rewrite (US j nd (proj2 (in_model_stored XR t j) Ij) EN (proj2 (has_child_iff XR t j INV Ij) Q)). reflexivity. }
    pose proof (C16_collapse_to_multinomial n (tab_h t) (tab_lv t) (tab_bt t) scaled (tab_sc t) us chk WF (conj LS PS) LU HC) as C16.
    destruct (nested_real n (tab_h t) (tab_lv t) (tab_bt t) scaled (tab_sc t) WF (conj LS PS) us LU chk) as (e & q & He & Hq & E1). rewrite E1 in H, C16.
    match type of H with context [if ?b then _ else _] => destruct b end; [discriminate|]. cbn [rbind] in H. rewrite DP in H. cbn [rbind] in H.
    set (P := outp n (tab_h t) q) in *. assert (LP : length (map Fin P) = n) by (unfold P, outp; now rewrite !map_length, seq_length).
    destruct (frame_row_ends XR t INV nl DP VT (map Fin P) cols CH LP) as (row & FR & (ks' & KS' & KE' & ER)). rewrite FR, CH in H. cbn [rbind] in H. injection H as <-. cbn [fst snd].
    assert (KK : ks' = ks) by (apply sorted_same; auto; intros k; rewrite KE', KE; tauto). subst ks'.
    assert (EL : PropNested.elemental n (tab_h t) = ks).
    { apply sorted_same; auto; [apply filter_sorted|]. intros k. unfold PropNested.elemental. rewrite filter_In, in_seq, KE, (tab_end t INV nl DP). destruct (children n (tab_h t) k); split; intros (A & B); split; auto; try lia; discriminate. }
    rewrite EL in C16. fold vs in C16. rewrite (C06_logit_formula vs chk SF) in C16. destruct C16 as [C1 C2]. split; [|now rewrite C2].
    rewrite ER. apply map_ext_in. intros k I. f_equal. unfold vs in C1 at 2. rewrite map_map in C1. pose proof (ext_in_map C1 k I) as Q. cbv beta in Q. change (Fin (mnl vs (nth k us None))) with (Fin (expu (nth k us None) / SpecLogit.total vs)). etransitivity; [|symmetry; exact Q].
    apply KE, (tab_end t INV nl DP) in I. apply nth_indep. eapply Nat.lt_le_trans; [apply I|]. apply Nat.eq_le_incl. symmetry. exact LP.
  Qed.
End Tree.

Section Whole.
  Context {L D N : Type} (E : env L XR D (val N)) (O : ops L N) (as_num : val N -> option xr).
  Notation mop := (mop E).
  Notation start := (new_mworld E).
  Context (NC : numexpr_computes E O as_num) (FL : frame_laws E) (NUL : ev_num E (ev_nan E) = VNull).

  (** When every nest has the scale 1 and the expressions that apply to it add up to 0, the run returns the logit probabilities of
      the elemental choices alone, and their total. *)
  Theorem C119_unit_scales_give_the_logit (ops : list mop) i group clear scale check ts1 m1 out simple xs d cols nl r (uu : list (option R)) ks :
    let w := mrun E start ops in let m := model E w i in
    orderly_history E start ops -> m_utils m = None ->
    run_stochastic_all E (mheap E w) (mcont E w i) (mw_tabs w) m group clear scale check = (ts1, m1, Ok out) ->
    selection (mheap E w) (mcont E w i) group = Ok (simple, xs) -> (forall y, In y xs -> meant E simple y) ->
    m_du m = Some d -> choices (m_tree m) = Ok cols -> depth (m_tree m) = Ok nl -> 1 < nl ->
    r < length d -> texts_row E O as_num (m_scope m) nl cols r (map (@e_raw L) xs) (map as_x uu) ->
    unit_scales (m_tree m) -> end_positions (m_tree m) ks ->
    (forall c, c < length cols -> ~ In c ks -> nth c uu None = Some 0%R) ->
    let vs := map (fun k => nth k uu None) ks in some_feasible vs ->
    exists terms, nth_error out r = Some (map (fun k => (nth k cols (Flat ""), Fin (mnl vs (nth k uu None)))) ks, Fin (SpecLogit.total vs), terms).
  Proof.
    intros w m OH MU RR S MT DU CH DP Hd Hr TR US KS NZ vs SF.
    assert (LU : length uu = length cols) by (destruct TR as [Q _]; now rewrite map_length in Q).
    unfold run_stochastic_all in RR. destruct (run_utilities E (mheap E w) (mcont E w i) (mw_tabs w) m group clear) as [[ta ma] [ta'|e]] eqn:RU; [|discriminate].
    injection RR as <- <- RR. destruct (rows_are_texts E O as_num NC FL NUL ops i group clear ta ma ta' simple xs d cols nl OH MU RU S MT DU CH DP) as (A1 & A2 & IV & V & LC & _ & TX). fold w m in A1, A2, IV, V, LC, TX.
    apply map_res_ok in RR. destruct RR as [_ RR]. destruct (RR r _ (TX r _ Hr TR)) as (o & SO & NO). rewrite A1 in SO.
    destruct (unit_row (m_tree m) IV nl DP Hd V cols uu scale check o ks CH (eq_trans LU LC) US) as [Q1 Q2]; auto.
    { intros c Hc NE. apply NZ; [congruence|]. intros I. apply NE. now apply (proj2 KS). }
    destruct o as [[row top] terms]. cbn [fst snd] in *. subst row top. eauto.
  Qed.

  (** So the run of a model without nests that gives the elemental choices the same utilities returns the same numbers. *)
  Theorem C119_same_as_without_nests (ops ops' : list mop) i j group group' clear clear' scale scale' check check' ts1 m1 out ts2 m2 out' simple xs simple' xs' d d' cols cols' nl r r' (uu : list (option R)) ks :
    let w := mrun E start ops in let m := model E w i in let w' := mrun E start ops' in let m' := model E w' j in
    orderly_history E start ops -> orderly_history E start ops' -> m_utils m = None -> m_utils m' = None ->
    run_stochastic_all E (mheap E w) (mcont E w i) (mw_tabs w) m group clear scale check = (ts1, m1, Ok out) ->
    run_stochastic_all E (mheap E w') (mcont E w' j) (mw_tabs w') m' group' clear' scale' check' = (ts2, m2, Ok out') ->
    selection (mheap E w) (mcont E w i) group = Ok (simple, xs) -> (forall y, In y xs -> meant E simple y) ->
    selection (mheap E w') (mcont E w' j) group' = Ok (simple', xs') -> (forall y, In y xs' -> meant E simple' y) ->
    m_du m = Some d -> choices (m_tree m) = Ok cols -> depth (m_tree m) = Ok nl -> 1 < nl -> r < length d ->
    m_du m' = Some d' -> choices (m_tree m') = Ok cols' -> depth (m_tree m') = Ok 1 -> r' < length d' ->
    texts_row E O as_num (m_scope m) nl cols r (map (@e_raw L) xs) (map as_x uu) ->
    unit_scales (m_tree m) -> end_positions (m_tree m) ks ->
    (forall c, c < length cols -> ~ In c ks -> nth c uu None = Some 0%R) ->
    let vs := map (fun k => nth k uu None) ks in some_feasible vs ->
    texts_row E O as_num (m_scope m') 1 cols' r' (map (@e_raw L) xs') (map as_x vs) ->
    exists row row' T terms terms', nth_error out r = Some (row, T, terms) /\ nth_error out' r' = Some (row', T, terms') /\ map snd row = map snd row' /\ map fst row = map (fun k => nth k cols (Flat "")) ks /\ map fst row' = cols'.
  Proof.
    intros w m w' m' OH OH' MU MU' RR RR' S MT S' MT' DU CH DP Hd Hr DU' CH' DP' Hr' TR US KS NZ vs SF TR'.
    destruct (C119_unit_scales_give_the_logit ops i group clear scale check ts1 m1 out simple xs d cols nl r uu ks OH MU RR S MT DU CH DP Hd Hr TR US KS NZ SF) as [terms Q1].
    pose proof (flat_row E O as_num NC FL NUL ops' j group' clear' scale' check' ts2 m2 out' simple' xs' vs d' cols' r' OH' MU' RR' S' MT' DU' CH' DP' Hr' TR' SF) as Q2.
    assert (LV : length cols' = length vs) by (destruct TR' as [Q _]; now rewrite map_length in Q).
    do 5 eexists. split; [exact Q1|]. split; [exact Q2|]. rewrite !map_map. cbn [fst snd]. split; [|split; [reflexivity|]].
    - assert (G : forall (a : list label) (b : list xr), length a = length b -> map snd (combine a b) = b) by (clear; induction a as [|x a IH]; intros [|y b] H; try discriminate; cbn; auto; f_equal; apply IH; cbn in H; lia).
      rewrite G by (now rewrite map_length). assert (GM : forall g : option R -> xr, map (fun k => g (nth k uu None)) ks = map g vs) by (intros g; unfold vs; now rewrite map_map). apply (GM (fun u => Fin (mnl vs u))).
    - assert (G : forall (a : list label) (b : list xr), length a = length b -> map fst (combine a b) = a) by (clear; induction a as [|x a IH]; intros [|y b] H; try discriminate; cbn; auto; f_equal; apply IH; cbn in H; lia).
      apply G. now rewrite map_length.
  Qed.
End Whole.
Print Assumptions C119_unit_scales_give_the_logit.
Print Assumptions C119_same_as_without_nests.

(** ** Example: A (a nest with the choices C and D) and B, with the expressions [x @ B] and [1 @ A.C]; and the choices A, B and C with [x @ A] and [1 @ B]. *)
Definition restU (texts : list string) : list (mop envX) :=
  [MUnits envX 0 ["u1"]; MDeclare envX 0 "x" (DeclVector 0); MAssign envX 0 "x" (VSeries (num:=xr) (FR:=framesX) ["u1"] [VNum (Fin 5)])] ++ map (fun x => MAppend envX 0 x None) texts.
Definition flatU := ["x @ A"; "1 @ B"].
Definition nestU := ["x @ B"; "1 @ A.C"].
Definition histU (nest : bool) : list (mop envX) :=
  [MNew envX; MTree envX 0 (@AddChoices XR ["A"; "B"] false None)] ++ (if nest then nest_calls else [MTree envX 0 (@AddChoices XR ["C"] false None)]) ++ restU (if nest then nestU else flatU).
Definition worldU (nest : bool) := mrun envX (if nest then world2N else world1O) (restU (if nest then nestU else flatU)).
Lemma worldU_is nest : mrun envX (new_mworld envX) (histU nest) = worldU nest.
Proof. unfold worldU. destruct nest; [rewrite <- world2N_is, <- worldM_is|rewrite <- world1O_is]; rewrite <- world1X_is; reflexivity. Qed.
Definition modelU nest := model envX (worldU nest) 0.
Lemma histU_orderly nest : orderly_history envX (new_mworld envX) (histU nest).
Proof.
  unfold histU, restU, nestU, flatU, nest_calls. destruct nest; cbn [app map orderly_history].
  all: set (w0 := mstep envX (new_mworld envX) (MNew envX)).
  all: assert (W1 : mstep envX w0 (MTree envX 0 (@AddChoices XR ["A"; "B"] false None)) = world1X) by (rewrite <- world1X_is; reflexivity).
  all: rewrite W1, ?worldM_is, ?world2N_is, ?world1O_is; unfold w0; clear W1 w0.
  all: repeat match goal with |- _ /\ _ => split end; try exact I; try (intros n s []; fail).
  all: try (unfold orderly; try exact I; try reflexivity).
  all: split; try (intros n s []; fail).
  all: try (split; [repeat constructor; cbn; intuition discriminate|cbn; tauto]).
  all: try (exists "A"; split; [vm_compute; auto|]; intros H; exfalso; vm_compute in H; intuition discriminate).
  split; [repeat constructor; cbn; tauto|]. intros name [<-|[]] K. vm_compute in K. intuition discriminate.
Qed.
Definition selU nest := selection (mheap envX (worldU nest)) (mcont envX (worldU nest) 0) None.
Definition simpleU nest : list string := match selU nest with Ok (s, _) => s | Err _ => [] end.
Definition xsU nest : list (@expression nat) := match selU nest with Ok (_, xs) => xs | Err _ => [] end.
Definition runU nest := run_utilities envX (mheap envX (worldU nest)) (mcont envX (worldU nest) 0) (mw_tabs (worldU nest)) (modelU nest) None true.
Lemma selU_ok nest : selU nest = Ok (simpleU nest, xsU nest) /\ map (@e_raw nat) (xsU nest) = (if nest then nestU else flatU) /\ simpleU nest = ["x"].
Proof. destruct nest; vm_compute; auto. Qed.
Lemma meantU nest : forall y, In y (xsU nest) -> meant envX (simpleU nest) y.
Proof.
  intros y Iy. rewrite (proj2 (proj2 (selU_ok nest))).
  destruct nest; match type of Iy with In _ ?l => let v := eval vm_compute in l in change (In y v) in Iy end; repeat (destruct Iy as [<-|Iy]; [|]); try destruct Iy.
  all: split; [split; intros z Z; cbn in Z; intuition subst; reflexivity|]; split; [intros name us sub ct I1 I2 NF; cbn in I1; intuition|].
  all: intros body flt tree SF PP; vm_compute in SF; injection SF as <- <-; vm_compute in PP; injection PP as <-; split; try (intros z Z; cbn in Z; intuition subst; cbn; auto; fail).
  all: cbn; intuition; now constructor.
Qed.
Lemma partsU nest : m_utils (modelU nest) = None /\ m_du (modelU nest) = Some ["u1"] /\ m_tree (modelU nest) = (if nest then treeN else treeO) /\ m_scope (modelU nest) = [("x", SVector false (Some [VNum (Fin 5)]))].
Proof. destruct nest; unfold modelU, worldU, restU; repeat split; vm_compute; reflexivity. Qed.
Definition uuU : list (option R) := [Some 0; Some (0 + 5); Some (0 + INR 1); Some 0]%R.
Definition vsU : list (option R) := [Some (0 + 5); Some (0 + INR 1); Some 0]%R.
Definition colsF : list label := [Flat "A"; Flat "B"; Flat "C"].
Lemma rowU_nest : texts_row envX opsX backX (m_scope (modelU true)) 2 colsN 0 (map (@e_raw nat) (xsU true)) (map as_x uuU).
Proof.
  rewrite (proj1 (proj2 (selU_ok true))), (proj2 (proj2 (proj2 (partsU true)))).
  split; [reflexivity|]. intros [|[|[|[|c]]]] l H; try (destruct c; discriminate); cbn in H; injection H as <-; reflexivity.
Qed.
Lemma rowU_flat : texts_row envX opsX backX (m_scope (modelU false)) 1 colsF 0 (map (@e_raw nat) (xsU false)) (map as_x vsU).
Proof.
  rewrite (proj1 (proj2 (selU_ok false))), (proj2 (proj2 (proj2 (partsU false)))).
  split; [reflexivity|]. intros [|[|[|c]]] l H; try (destruct c; discriminate); cbn in H; injection H as <-; reflexivity.
Qed.
Lemma runU_returns nest scale : exists ts m out,
  run_stochastic_all envX (mheap envX (worldU nest)) (mcont envX (worldU nest) 0) (mw_tabs (worldU nest)) (modelU nest) None true scale false = (ts, m, Ok out).
Proof.
  unfold run_stochastic_all. fold (runU nest). destruct (partsU nest) as (A1 & A2 & A3 & A4). assert (IV : inv XR (m_tree (modelU nest))).
  { unfold modelU. rewrite <- worldU_is. assert (GD : good envX (model envX (mrun envX (new_mworld envX) (histU nest)) 0)) by (apply good_all, history_good; first [exact envX_laws|apply histU_orderly|constructor]). exact (proj1 GD). }
  rewrite A3 in IV. assert (Q : exists row, snd (runU nest) = Ok [row]) by (destruct nest; eexists; vm_compute; no_nan; reflexivity).
  destruct Q as [row Q]. destruct (runU nest) as [[ts m] o] eqn:RU. cbn [snd] in Q. subst o.
  pose proof (rows_are_texts envX opsX backX envX_computes envX_laws envX_null (histU nest) 0 None true ts m [row] (simpleU nest) (xsU nest) ["u1"] (if nest then colsN else colsF) (if nest then 2 else 1)) as T.
  cbv zeta in T. rewrite !worldU_is in T. fold (modelU nest) in T.
  destruct T as (T1 & _ & _ & _ & _ & _ & TX); try assumption; try (apply histU_orderly); try apply selU_ok; try (apply meantU); try (rewrite A3; destruct nest; reflexivity).
  rewrite A3 in T1. cbn [map_res rbind]. destruct nest.
  - specialize (TX 0 _ (le_n 1) rowU_nest). injection TX as ->. rewrite T1.
    destruct (row_returns treeN IV 2 eq_refl (le_n 2) eq_refl colsN uuU scale eq_refl eq_refl) as [o Q]. match goal with |- context [stochastic_outputs ?a ?b ?c ?d] => replace (stochastic_outputs a b c d) with (@Ok (list (label * num XR) * num XR * list (label * num XR)) o) by (symmetry; exact Q) end. cbn [rbind]. eauto.
  - specialize (TX 0 _ (le_n 1) rowU_flat). injection TX as ->.
    assert (DP : depth (m_tree m) = Ok 1 /\ choices (m_tree m) = Ok colsF) by (rewrite T1; split; reflexivity). destruct DP as [DP CH].
    unfold stochastic_outputs, row_outputs. rewrite DP, CH. cbn [rbind Nat.ltb Nat.leb]. assert (Q : multinomial_probabilities XR (map as_x vsU) false = Ok (map (fun u => Fin (mnl vsU u)) vsU, Fin (SpecLogit.total vsU), map (fun u => Fin (expu u)) vsU)) by (apply C06_logit_formula; exists (0 + 5)%R; cbn; auto).
    match goal with |- context [multinomial_probabilities XR ?a ?b] => match type of Q with _ = ?v => replace (multinomial_probabilities XR a b) with v by (symmetry; exact Q) end end. cbn [rbind]. eauto.
Qed.
Example C119_met : exists out out' row row' T terms terms',
  snd (run_stochastic_all envX (mheap envX (worldU true)) (mcont envX (worldU true) 0) (mw_tabs (worldU true)) (modelU true) None true true false) = Ok out /\
  snd (run_stochastic_all envX (mheap envX (worldU false)) (mcont envX (worldU false) 0) (mw_tabs (worldU false)) (modelU false) None true true false) = Ok out' /\
  nth_error out 0 = Some (row, T, terms) /\ nth_error out' 0 = Some (row', T, terms') /\ map snd row = map snd row' /\
  map fst row = [Tup ["B"; "."]; Tup ["A"; "C"]; Tup ["A"; "D"]] /\ map fst row' = colsF.
Proof.
  destruct (runU_returns true true) as (ts1 & m1 & out & R1). destruct (runU_returns false true) as (ts2 & m2 & out' & R2).
  destruct (partsU true) as (A1 & A2 & A3 & A4). destruct (partsU false) as (B1 & B2 & B3 & B4).
  pose proof (C119_same_as_without_nests envX opsX backX envX_computes envX_laws envX_null (histU true) (histU false) 0 0 None None true true true true false false
    ts1 m1 out ts2 m2 out' (simpleU true) (xsU true) (simpleU false) (xsU false) ["u1"] ["u1"] colsN colsF 2 0 0 uuU [1; 2; 3]) as T.
  cbv zeta in T. rewrite !worldU_is in T. fold (modelU true) (modelU false) in T. rewrite A3, B3 in T.
  destruct T as (row & row' & TT & terms & terms' & Q1 & Q2 & Q3 & Q4 & Q5); try assumption; try reflexivity; try (apply histU_orderly); try apply selU_ok; try (apply meantU); try lia; try (cbn; lia).
  - apply rowU_nest.
  - intros i nd _ H (c & nc & _ & H2 & H3). destruct i as [|[|[|[|i]]]]; cbn in H; try (injection H as <-; reflexivity). destruct i; discriminate H.
  - split; [repeat constructor|]. intros k. split.
    + intros [<-|[<-|[<-|[]]]]; do 2 eexists; (split; [reflexivity|]); intros (c & nd & H1 & H2 & H3); destruct c as [|[|[|[|c]]]]; cbn in H2; try (injection H2 as <-; discriminate H3); destruct c; discriminate H2.
    + intros (key & i & H & NC). destruct k as [|[|[|[|k]]]]; cbn; auto; [|destruct k; discriminate H]. cbn in H. injection H as <- <-. exfalso. apply NC. exists 2. eexists. split; [exists "A.C"; cbn; auto|split; reflexivity].
  - intros [|[|[|[|c]]]] Hc NI; [reflexivity|exfalso; apply NI; cbn; auto..|cbn in Hc; lia].
  - exists (0 + 5)%R. cbn. auto.
  - apply rowU_flat.
  - exists out, out', row, row', TT, terms, terms'. rewrite R1, R2. repeat (split; [assumption || reflexivity|]). exact Q5.
Qed.
