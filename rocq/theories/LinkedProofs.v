(** C88: chains of attributes in utility expressions follow the keys of linked frames. *)
From Coq Require Import Sorted.
From Verif Require Import Prelude DictProofs Arith ExprModel SpecExpr TreeModel ScopeModel SpecScope ScopeProofs ModelModel SpecModel ModelHist SpecEnd.
From Verif Require Import LdfModel SpecLdf LdfProofs LdfKeys LdfReads LdfInv LdfGood LdfLookup LdfLinks LdfSim LdfSlice LdfGroups PropLookup PropAgg PropReads LdfCols LdfTables SpecLinked.
Local Open Scope string_scope.
Local Open Scope nat_scope.
Local Open Scope list_scope.

Lemma sorted_same_elements : forall l1 l2, StronglySorted lt l1 -> StronglySorted lt l2 -> (forall j, In j l1 <-> In j l2) -> l1 = l2.
Proof.
  induction l1 as [|a l1 IH]; intros [|b l2] S1 S2 H; auto.
  - exfalso. apply (proj2 (H b)). now left.
  - exfalso. apply (proj1 (H a)). now left.
  - inversion_clear S1 as [|? ? A1 A2]. inversion_clear S2 as [|? ? B1 B2]. rewrite Forall_forall in A2, B2.
    assert (a = b). { destruct (proj1 (H a) (or_introl eq_refl)) as [|I]; auto. destruct (proj2 (H b) (or_introl eq_refl)) as [|J]; auto. specialize (B2 _ I). specialize (A2 _ J). lia. }
    subst b. f_equal. apply IH; auto. intros j. split; intros I.
    + destruct (proj1 (H j) (or_intror I)); auto. subst. specialize (A2 _ I). lia.
    + destruct (proj2 (H j) (or_intror I)); auto. subst. specialize (B2 _ I). lia.
Qed.
Lemma listing_unique P l1 l2 : listing P l1 -> listing P l2 -> l1 = l2.
Proof. intros [A1 A2] [B1 B2]. apply sorted_same_elements; auto. intros j. rewrite A2, B2. reflexivity. Qed.
Lemma values_at_unique {A} (vals : list A) js v1 : values_at vals js v1 -> forall v2, values_at vals js v2 -> v1 = v2.
Proof. induction 1 as [|j v js v1 H F IH]; intros v2 H2; inversion H2; subst; auto. f_equal; [congruence|auto]. Qed.

Section Linked.
  Context {L N : Type} (E : venv L (val N)) (fuel : nat) (lab : string -> val N).
  Hypothesis veq_spec : forall a b, v_eq E a b = true <-> a = b.
  Context (F : arith) (label : label -> list (val N)) (number : num F -> val N) (nan ninf : num F) (f32 : bool -> L -> num F) (ne : expr L -> (string -> option (val N)) -> option (num F)).
  Notation T := (tenv E fuel lab F label number nan ninf f32 ne).

  Lemma entry_of d out cv v' i v : cellwise E d cv -> converts E (d, out) v' -> nth_error out i = Some v -> nth_error v' i = Some (cv v).
  Proof. intros HC [d' H] HN. destruct (HC out) as [d2 Q]. cbn in H. rewrite Q in H. injection H as _ <-. rewrite nth_error_map, HN. reflexivity. Qed.
  Lemma converted d out cv : cellwise E d cv -> converts E (d, out) (map cv out).
  Proof. intros HC. destruct (HC out) as [d' H]. exists d'. exact H. Qed.

  Theorem chains_follow_the_keys strict o ma al os f (TB : tabular strict (after E fuel os) f) p fn r c v :
    orderly_run E fuel (new_lworld E) os ->
    let row := if o : bool then c else r in
    linked_value E fuel (after E fuel os) f p fn row v -> row < nrows (frame_of E fuel (os, f)) ->
    path_value (T strict) (STable (num:=num F) (FR:=tables E fuel lab strict) o ma al (Some (exist _ (os, f) TB))) p fn r c = Some v.
  Proof using veq_spec.
    intros HO row H HB. set (w := after E fuel os) in *.
    assert (HF : is_frame w f (frame_of E fuel (os, f))) by exact (frame_of_is E fuel strict (os, f) TB).
    pose proof (orderly_good E veq_spec _ _ HO) as HG. fold w in HG.
    assert (HR : reachable E fuel w) by (exists os; reflexivity). pose proof (reachable_ok E _ _ HR) as HW.
    (* enough: what the table gives at the row *)
    assert (ENOUGH : forall q l, p = q -> table_walk E fuel (os, f) (rev q) fn = Ok l -> nth_error l row = Some v ->
      path_value (T strict) (STable (num:=num F) (FR:=tables E fuel lab strict) o ma al (Some (exist _ (os, f) TB))) p fn r c = Some v).
    { intros q l -> W1 W2. unfold path_value. cbn [ev_frames tenv fr_col fr_walk tables proj1_sig].
      assert (Q : at_entry o (match q, fn with [a], None => table_col E fuel (os, f) a | _, _ => table_walk E fuel (os, f) (rev q) fn end) r c = Some v); [|exact Q].
      destruct q as [|a [|b q]], fn; try (rewrite W1; exact W2). rewrite col_walk. cbn in W1. rewrite W1. exact W2. }
    inversion H as [fr a d vals cv i v0 Hf Hl Hc Hv HC|path g gr a d vals cv i j v0 y Hp HL Hg Hl Hc HY HRe Hv HC|path g gr a d vals cv i y Hp HL Hg Hl Hc HY HRe HC|path g s lk gr tr func fn0 e d vals y cv i v0 Hp HL Hk Ha Hfl Hg Ht HE HN Hfn HD HA HY HV HC]; subst.
    - apply (ENOUGH [a] (map cv vals) eq_refl); [|rewrite nth_error_map, Hv; reflexivity]. apply walk_reads. exists (d, vals). split; [|now apply converted]. rewrite rev_involutive.
      change (snd (lstep E fuel w (LRead f [a])) = Ok (RCol (d, vals))). cbn [lstep subscript]. unfold frame_item. pose proof Hf as Hf'. apply get_frame_is in Hf'. rewrite Hf'. cbn [rbind].
      assert (Hs : dget String.eqb (f_links fr) a = None). { destruct (dget String.eqb (f_links fr) a) as [lk|] eqn:Ed; auto. exfalso. apply (Hl lk). exists fr. auto. }
      rewrite Hs. unfold get_column. unfold is_column in Hc. rewrite Hc. reflexivity.
    - destruct (C61_chained_lookups_follow_the_keys E fuel os f path g gr a d vals y veq_spec HO Hp HL Hg Hc Hl HY) as (w' & out & R1 & (fr & F1 & F2 & F3) & _). fold w in R1, F1, F3.
      rewrite (is_frame_unique _ _ _ _ F1 HF) in *. destruct (F3 row HB) as (o' & P1 & P2 & P3). rewrite <- (P2 _ HRe) in P3.
      apply (ENOUGH (path ++ [a]) (map cv out) eq_refl); [|rewrite nth_error_map, P3, Hv; reflexivity].
      apply walk_reads. exists (d, out). split; [|now apply converted]. rewrite rev_involutive. change (snd (lstep E fuel w (LRead f (path ++ [a]))) = Ok (RCol (d, out))). now rewrite R1.
    - destruct (C61_chained_lookups_follow_the_keys E fuel os f path g gr a d vals y veq_spec HO Hp HL Hg Hc Hl HY) as (w' & out & R1 & (fr & F1 & F2 & F3) & _). fold w in R1, F1, F3.
      rewrite (is_frame_unique _ _ _ _ F1 HF) in *. destruct (F3 row HB) as (o' & P1 & P2 & P3). rewrite <- (P2 _ HRe) in P3.
      apply (ENOUGH (path ++ [a]) (map cv out) eq_refl); [|rewrite nth_error_map, P3; reflexivity].
      apply walk_reads. exists (d, out). split; [|now apply converted]. rewrite rev_involutive. change (snd (lstep E fuel w (LRead f (path ++ [a]))) = Ok (RCol (d, out))). now rewrite R1.
    - destruct (C63_aggregates_over_the_matching_rows E veq_spec fuel os f path g s lk _ gr tr (XTree e) fn0 (v_m1 E) d vals y HO HL Hk Ha Hfl HF Hg Ht HE HN HD HA HY) as (w' & out & R1 & _ & F2 & F3). fold w in R1, F3.
      destruct (F3 row HB) as (o' & P1 & P2 & P3).
      assert (P4 : nth_error out row = Some v0).
      { destruct HV as [[Q1 ->]|(j & js & vs & Q1 & Q2 & Q3 & ->)]; rewrite <- (P2 _ Q1) in P3; [exact P3|]. destruct P3 as (js' & vs' & M1 & M2 & M3).
        pose proof (listing_unique _ _ _ M1 Q2) as ->. rewrite (values_at_unique _ _ _ M2 _ Q3) in M3. exact M3. }
      apply (ENOUGH (path ++ [s]) (map cv out) eq_refl); [|rewrite nth_error_map, P4; reflexivity].
      apply walk_aggregates. exists fn0, (v_aggtype E fn0 d, out). split; [exact Hfn|]. split; [|now apply converted]. rewrite rev_involutive.
      change (snd (lstep E fuel w (LAgg f (path ++ [s]) fn0 (XTree e) (v_m1 E))) = Ok (RCol (v_aggtype E fn0 d, out))). now rewrite R1.
  Qed.
End Linked.
