(** Whole runs: the lemmas behind C82-C84. *)
From Verif Require Import Prelude Arith CoreModel TreeModel DictProofs ParModel ExprModel SpecExpr ExprProofs ExprUses ExprMeaning ExprContainer ExprWorld ScopeModel SpecScope ScopeProofs ModelModel ModelProofs SpecModel KernelProofs EvalProofs ModelExample PropState ModelWorld ModelHist ModelTabs RunProofs PropUtility PropExpr SpecEnd.
Local Open Scope string_scope.
Local Open Scope nat_scope.
Local Open Scope list_scope.

(** what numexpr computes depends on the names in the expression only *)
Section Local.
  Context {L N : Type} (O : ops L N).
  Lemma neval_local : forall (e : expr L) (rho1 rho2 : string -> option (val N)),
    (forall x, In x (free_names e) -> rho1 x = rho2 x) -> neval O rho1 e = neval O rho2 e.
  Proof.
    fix IH 1. intros e rho1 rho2 H.
    assert (AL : forall args, (forall x, In x (concat (map free_names args)) -> rho1 x = rho2 x) -> map (neval O rho1) args = map (neval O rho2) args).
    { fix IHl 1. intros [|a args] H'; cbn; [reflexivity|]. f_equal; [apply IH; intros; apply H'; cbn; apply in_or_app; auto|apply IHl; intros; apply H'; cbn; apply in_or_app; auto]. }
    destruct e as [x|n|s|s|k|v a|f args kws|op a|op vs|l ops rs|op l r0|ks vs|k|k l]; cbn [neval free_names] in *; auto.
    - apply H. simpl; auto.
    - destruct f; auto. destruct kws; auto. rewrite AL; auto. intros y I. apply H. apply in_or_app. auto.
    - destruct op; auto; rewrite (IH a rho1 rho2); auto.
    - destruct ops as [|o [|o' ops]], rs as [|b [|b' rs]]; auto. rewrite (IH l rho1 rho2), (IH b rho1 rho2); auto; intros y I; apply H; cbn; apply in_or_app; [right; apply in_or_app|]; auto.
    - rewrite (IH l rho1 rho2), (IH r0 rho1 rho2); auto; intros y I; apply H; apply in_or_app; auto.
  Qed.
End Local.

Section End.
  Context {L : Type} {F : arith} {D N : Type} (E : env L F D (val N)) (O : ops L N) (as_num : val N -> option (num F)).
  Notation num := (num F).
  Notation FR := (ev_frames E).
  Notation symbol := (symbol (num:=num) FR).
  Notation expression := (@expression L).
  Notation cm := (cm E).
  Notation dget := (dget String.eqb).

  Lemma computes_local : numexpr_computes E O as_num -> numexpr_local E.
  Proof. intros NC e rho1 rho2 H. rewrite !NC. now rewrite (neval_local O e rho1 rho2 H). Qed.

  (** the conditions on an expression *)
  Definition meant (simple : list string) (x : expression) : Prop :=
    plain_names simple x /\ deep_aggregations x /\
    forall body flt tree, split_filter (e_raw x) = Ok (body, flt) -> ev_parse E body = Ok tree ->
      neg_plain tree /\ forall y, In y (hidden_names tree) -> reserved y = true \/ In y simple.

  Context (scope : dict string symbol) (nl : nat) (cols : list label) (simple : list string) (n r c : nat).
  Context (AL : aligned E n (length cols) scope) (Hr : r < n) (Hc : c < length cols).
  Context (SI : forall y, In y simple -> reserved y = false -> exists s d, dget scope y = Some s /\ filled FR s = true /\ get_simple FR s = Ok d).
  Context (NUL : ev_num E (ev_nan E) = VNull).

  Lemma simple_defined y s d : dget scope y = Some s -> filled FR s = true -> get_simple FR s = Ok d -> exists v, symbol_cell E s r c = Some v.
  Proof.
    intros G FS GS. pose proof (in_aligned E _ _ _ _ _ AL G) as A. destruct s as [[v|]|[|] [v|]|o ma al t|o rc rr fi [[j m]|]]; cbn in *; try discriminate.
    - eauto.
    - destruct (nth_error v c) eqn:Q; [eauto|]. apply nth_error_None in Q. lia.
    - destruct (nth_error v r) eqn:Q; [eauto|]. apply nth_error_None in Q. lia.
    - destruct A as [_ [R1 R2]]. unfold at2. destruct (nth_error m r) as [row|] eqn:Q; [|apply nth_error_None in Q; lia]. rewrite Forall_forall in R2.
      pose proof (R2 row (nth_error_In _ _ Q)). destruct (nth_error row c) eqn:Q'; [eauto|]. apply nth_error_None in Q'. lia.
  Qed.
  Lemma chain_defined y s ct d : dget scope y = Some s -> get_chain FR s ct = Ok d -> (ch_func ct <> None -> 2 <= length (ch_chain ct)) ->
    exists v, attribute_cell E s ct r c = Some v /\ path_value E s (rev (ch_chain ct)) (ch_func ct) r c = Some v.
  Proof.
    intros G GC DP. pose proof (in_aligned E _ _ _ _ _ AL G) as A. unfold get_chain in GC. destruct s as [v|o v|o ma al t|o rc rr fi m]; try discriminate.
    apply rbind_ok in GC. destruct GC as (l & GC & _). destruct t as [t|]; [|destruct (ch_chain ct) as [|a [|b p]]; discriminate]. destruct A as [A1 [A2 A3]].
    assert (NE : forall l' : list (val N), length l' = length (fr_index FR t) -> exists v, nth_error l' (if o then c else r) = Some v).
    { intros l' Q. destruct (nth_error l' (if o then c else r)) as [v|] eqn:NN; [eauto|]. apply nth_error_None in NN. destruct o; lia. }
    unfold attribute_cell, path_value, at_entry. destruct (ch_chain ct) as [|a [|b p]] eqn:CH; [discriminate| |].
    - destruct (ch_func ct) as [fn|] eqn:FN; [cbn in DP; assert (2 <= 1) by (apply DP; discriminate); lia|]. cbn. rewrite GC. destruct (NE l (A2 a l GC)) as [v ->]. eauto.
    - apply rbind_ok in GC. destruct GC as (_ & _ & GC). destruct (NE l (A3 _ _ l GC)) as [v NV]. exists v. rewrite GC. split; auto.
      assert (RV : exists y1 y2 q, rev (a :: b :: p) = y1 :: y2 :: q).
      { destruct (rev (a :: b :: p)) as [|y1 [|y2 q]] eqn:Q; eauto; apply (f_equal (@length string)) in Q; rewrite rev_length in Q; discriminate. }
      destruct RV as (y1 & y2 & q & RV). rewrite RV, <- RV, rev_involutive, GC. exact NV.
  Qed.
  Lemma literal_defined lit arr : expand_literal (nzero F) (ev_f32 E) nl (map label_parts cols) lit = Ok arr -> exists v, nth_error arr c = Some v.
  Proof.
    intros EX. apply expand_length in EX. rewrite map_length in EX. destruct (nth_error arr c) eqn:Q; [eauto|]. apply nth_error_None in Q. lia.
  Qed.

  (** the dictionary of meanings reads the symbols as the data are *)
  Lemma meaning_reads x acc rho : ready E scope nl cols simple x -> meaning E scope nl cols simple x acc r c rho ->
    incl (e_symbols x) simple -> deep_aggregations x ->
    reads (cell_symbols E scope nl cols r c acc) (e_chains x) (e_dl x) (e_symbols x) rho /\
    forall y, reserved y = true \/ In y simple -> rho y = Some (s_name (cell_symbols E scope nl cols r c acc) y).
  Proof.
    intros [_ RL RC _] [M1 M2 M3 M4 M5 M6] INC DA.
    assert (NAME : forall y, reserved y = true \/ In y simple -> rho y = Some (s_name (cell_symbols E scope nl cols r c acc) y)).
    { intros y H. cbn [cell_symbols s_name]. destruct (String.eqb_spec y "OUT") as [->|N1]; auto. destruct (String.eqb_spec y "NEG_INF") as [->|N2]; auto.
      destruct (String.eqb_spec y "NAN") as [->|N3]; auto. assert (R : reserved y = false) by (apply not_true_iff_false; rewrite reserved_cases; tauto).
      destruct H as [H|H]; [congruence|]. destruct (SI y H R) as (s & d & G & FS & GS). rewrite (M4 y s H R G), G. cbn. destruct (simple_defined y s d G FS GS) as [v ->]. reflexivity. }
    split; auto. constructor.
    - now rewrite M2, NUL.
    - intros y I. apply NAME. right. now apply INC.
    - intros name us sub ct I J. destruct (RC name us I) as (s & G & U). destruct (U sub ct J) as [d GC]. rewrite (M6 name us sub ct s I J G).
      destruct (chain_defined name s ct d G GC (DA name us sub ct I J)) as (v & V1 & V2). rewrite V1. f_equal. cbn [cell_symbols s_attr s_agg].
      destruct (ch_func ct) as [[f e]|]; rewrite G; cbn [obind]; rewrite V2; reflexivity.
    - intros sub lit I. destruct (RL sub lit I) as [arr EX]. rewrite (M5 sub lit arr I EX). cbn [cell_symbols s_dict]. rewrite EX.
      destruct (literal_defined lit arr EX) as [v ->]. reflexivity.
  Qed.

  Context (NC : numexpr_computes E O as_num).
  (** one expression: the value computed is the value of the text *)
  Lemma text_value_computed x acc rho v : parsed (ev_fn E) (ev_parse E) x -> ready E scope nl cols simple x -> meaning E scope nl cols simple x acc r c rho ->
    incl (e_symbols x) simple -> meant simple x ->
    text_value E O as_num scope nl cols r c (e_raw x) acc = Some v -> ev_ne E (e_trans x) rho = Some v.
  Proof.
    intros (si & ch & sets & P) RD M INC (_ & DA & MT) TV. destruct (meaning_reads x acc rho RD M INC DA) as [RDS NM]. unfold text_value in TV.
    destruct (split_filter (e_raw x)) as [[body flt]|] eqn:SF; [|discriminate]. destruct (ev_parse E body) as [tree|] eqn:PP; [|discriminate].
    destruct (MT body flt tree eq_refl PP) as [NP HN]. destruct (pyval O (cell_symbols E scope nl cols r c acc) tree) as [z|] eqn:PV; [|discriminate]. cbn in TV.
    rewrite NC. rewrite (C32_rewriting_preserves_meaning_partial L N (ev_fn E) (ev_parse E) O (cell_symbols E scope nl cols r c acc) (e_raw x) body flt tree si ch sets x rho z SF PP P NP RDS); auto.
  Qed.
  Lemma text_applies_parsed l x : parsed (ev_fn E) (ev_parse E) x -> text_applies nl l (e_raw x) = applies nl l x.
  Proof using Type.
    intros (si & ch & sets & P). unfold parse in P. unfold text_applies, applies. destruct (split_filter (e_raw x)) as [[body flt]|]; [|injection P as _ P; discriminate].
    destruct (ev_parse E body) as [tree|]; [|injection P as _ P; discriminate]. destruct (visit (ev_fn E) tree _) as [st [tr|]]; [|injection P as _ P; discriminate].
    injection P as _ P. rewrite <- P. reflexivity.
  Qed.
  Lemma texts_total_computed l : forall xs acc (rho : expression -> num -> string -> option (val N)) z,
    (forall x, In x xs -> parsed (ev_fn E) (ev_parse E) x /\ ready E scope nl cols simple x /\ incl (e_symbols x) simple /\ meant simple x) ->
    (forall x a, In x xs -> meaning E scope nl cols simple x a r c (rho x a)) ->
    texts_total E O as_num scope nl cols r c l (map (@e_raw L) xs) acc = Some z ->
    total (applies nl l) (fun x a => ev_ne E (e_trans x) (rho x a)) xs acc = Some z.
  Proof.
    induction xs as [|x xs IH]; intros acc rho z H M T; cbn in *; auto. destruct (H x (or_introl eq_refl)) as (P & RD & INC & MT).
    rewrite (text_applies_parsed l x P) in T. destruct (applies nl l x); [|apply IH; auto].
    destruct (text_value E O as_num scope nl cols r c (e_raw x) acc) as [v|] eqn:TV; [|discriminate]. cbn in T.
    rewrite (text_value_computed x acc (rho x acc) v P RD (M x acc (or_introl eq_refl)) INC MT TV). apply IH; auto.
  Qed.
End End.
