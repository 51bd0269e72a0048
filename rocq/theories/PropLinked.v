(** C88: utilities of a choice model whose tables are linked frames follow the keys. *)
From Coq Require Import ZArith Floats.SpecFloat.
From Flocq Require Import Core.Core IEEE754.BinarySingleNaN.
From Verif Require Import Prelude DictProofs Arith ExprModel SpecExpr TreeModel ScopeModel SpecScope ScopeProofs ModelModel SpecModel ModelExample ModelHist ModelInv SpecEnd EndProofs PropEnd.
From Verif Require Import LdfModel SpecLdf LdfProofs LdfKeys LdfReads LdfInv LdfGood LdfLookup LdfLinks LdfSim LdfSlice LdfGroups PropLookup PropAgg PropReads LdfCols LdfTables PropTables SpecLinked LinkedProofs.
Local Open Scope string_scope.
Local Open Scope nat_scope.
Local Open Scope list_scope.

Section Linked.
  Context {L N : Type} (E : venv L (val N)) (fuel : nat) (lab : string -> val N).
  Hypothesis veq_spec : forall a b, v_eq E a b = true <-> a = b.
  Context (F : arith) (label : label -> list (val N)) (number : num F -> val N) (nan ninf : num F) (f32 : bool -> L -> num F) (ne : expr L -> (string -> option (val N)) -> option (num F)).
  Notation T := (tenv E fuel lab F label number nan ninf f32 ne).
  Context (O : ops L N) (as_num : val N -> option (num F)) (strict : bool).

  (** a symbol that holds the frame [f] of the history [os] *)
  Definition holds_frame (o : bool) (ma : list string) (al : bool) (os : list (@lop L (val N))) (f : nat) (TB : tabular strict (after E fuel os) f) : symbol (num:=num F) (tables E fuel lab strict) :=
    STable (num:=num F) (FR:=tables E fuel lab strict) o ma al (Some (exist (fun t => tabular strict (world_of E fuel t) (snd t)) (os, f) TB)).

  (** In the meaning of the texts (C82), [name.link1. ... .column] stands for the value that following the keys
      finds, and [name.link1. ... .linkn.f(e)] for the aggregate over the matching rows. *)
  Theorem C88_chains_follow_the_keys (scope : dict string (symbol (num:=num F) (tables E fuel lab strict))) nl cols r c sofar name o ma al os f TB p v :
    dget String.eqb scope name = Some (holds_frame o ma al os f TB) -> orderly_run E fuel (new_lworld E) os ->
    let row := if o : bool then c else r in
    row < nrows (frame_of E fuel (os, f)) ->
    let S := cell_symbols (T strict) scope nl cols r c sofar in
    (linked_value E fuel (after E fuel os) f p None row v -> s_attr S name p = v) /\
    (forall func e, linked_value E fuel (after E fuel os) f p (Some (func, e)) row v -> s_agg S name p func e = v).
  Proof using veq_spec.
    intros G HO row HB S. assert (Q : forall fn, linked_value E fuel (after E fuel os) f p fn row v ->
      the (obind (dget String.eqb scope name) (fun s => path_value (T strict) s p fn r c)) = v).
    { intros fn LV. rewrite G. cbn [obind]. pose proof (chains_follow_the_keys E fuel lab veq_spec F label number nan ninf f32 ne strict o ma al os f TB p fn r c v HO LV HB) as PV.
      exact (f_equal the PV). }
    split; [intros LV; exact (Q None LV)|intros func e LV; exact (Q (Some (func, e)) LV)].
  Qed.

  (** End to end: the utility of a model whose only expression is such a chain *)
  Hypothesis NC : numexpr_computes (T strict) O as_num.
  Hypothesis CL : conv_length E.
  Hypothesis NUL : number nan = VNull.
  (** the text reads [name], the attributes [p] and, if [fn] is given, the aggregation [fn] *)
  Definition reads_chain (tree : expr L) (name : string) (p : list string) (fn : option (string * expr L)) : Prop :=
    match fn with
    | None => (exists a b, tree = EAttr a b) /\ dotted tree = Some (name, p)
    | Some (func, e) => exists a, tree = ECall (EAttr a func) [e] [] /\ dotted a = Some (name, p)
    end.
  Theorem C88_utilities_follow_the_keys (ops : list (mop (T strict))) i group clear ts' m' t simple x d cols nl body tree name p fn o ma al os f TB r c l v u :
    let M := T strict in let w := mrun M (new_mworld M) ops in let m := model M w i in
    orderly_history M (new_mworld M) ops -> m_utils m = None ->
    run_utilities M (mheap M w) (mcont M w i) (mw_tabs w) m group clear = (ts', m', Ok t) ->
    selection (mheap M w) (mcont M w i) group = Ok (simple, [x]) -> meant M simple x ->
    m_du m = Some d -> choices (m_tree m) = Ok cols -> depth (m_tree m) = Ok nl ->
    split_filter (e_raw x) = Ok (body, None) -> v_parse E body = Ok tree -> reads_chain tree name p fn ->
    dget String.eqb (m_scope m) name = Some (holds_frame o ma al os f TB) -> orderly_run E fuel (new_lworld E) os ->
    let row := if o : bool then c else r in row < nrows (frame_of E fuel (os, f)) ->
    r < length d -> nth_error cols c = Some l ->
    linked_value E fuel (after E fuel os) f p fn row v -> as_num v = Some u -> tcell t r c = nadd F (nzero F) u.
  Proof using veq_spec NC CL NUL.
    intros M w m OH MU R S MT DU CH DP SF PP RC G HO row HB Hr Hc LV AN.
    assert (FL : frame_laws M) by (apply tables_obey_frame_laws; auto).
    destruct (C82_utilities_mean_the_texts M O as_num NC FL NUL ops i group clear ts' m' t simple [x] d cols nl OH MU R S) as [_ H]; auto.
    { intros y [<-|[]]. exact MT. }
    apply (H r c l _ Hr Hc). cbn [map texts_total]. unfold text_applies. rewrite SF. unfold text_value. rewrite SF.
    assert (PP' : ev_parse M body = Ok tree) by exact PP. rewrite PP'.
    destruct (C88_chains_follow_the_keys (m_scope m) nl cols r c (nzero F) name o ma al os f TB p v G HO HB) as [A B]. fold M in A, B.
    assert (PY : pyval O (cell_symbols M (m_scope m) nl cols r c (nzero F)) tree = Some v).
    { destruct fn as [[func e]|]; cbn in RC.
      - destruct RC as (a & -> & D). cbn [pyval]. rewrite D. cbn [obind]. f_equal. now apply B.
      - destruct RC as [(a & b & ->) D]. cbn [pyval]. rewrite D. cbn [obind]. f_equal. now apply A. }
    pose proof (f_equal (fun z => obind z as_num) PY) as PZ. cbn [obind] in PZ. rewrite AN in PZ.
    match goal with |- obind ?a _ = _ => replace a with (Some u) end. reflexivity.
  Qed.
End Linked.
Print Assumptions C88_chains_follow_the_keys.
Print Assumptions C88_utilities_follow_the_keys.

(** ** Examples *)
From Verif Require Import EndExample.
Definition veq3 (a b : val Z) : bool :=
  match a, b with VNum x, VNum y => Z.eqb x y | VNull, VNull => true | VBool x, VBool y => Bool.eqb x y | VStr x, VStr y => String.eqb x y | _, _ => false end.
Lemma veq3_spec a b : veq3 a b = true <-> a = b.
Proof.
  destruct a, b; cbn; split; intros H; try discriminate; auto.
  all: try (apply Bool.eqb_prop in H; now subst); try (apply String.eqb_eq in H; now subst); try (apply Z.eqb_eq in H; now subst).
  all: injection H as ->; auto using Bool.eqb_reflx, String.eqb_refl, Z.eqb_refl.
Qed.
Definition numbers3 (l : list (val Z)) : list Z := flat_map (fun c => match c with VNum x => [x] | _ => [] end) l.
Definition whole3 (d : dtype) : bool := match d with DInt | DUint | DBool => true | _ => false end.
Definition p_household_income : expr Z := EAttr (EAttr (EName "p") "household") "income".
Definition p_members_age : expr Z := ECall (EAttr (EAttr (EAttr (EName "p") "household") "members") "sum") [EName "age"] [].
Definition venv3 : venv Z (val Z) := {|
  v_eq := veq3; v_null := fun c => match c with VNull => true | _ => false end; v_nan := VNull; v_ninf := VNull; v_m1 := VNum (-1)%Z;
  v_store := fun d x => match x with VNull => if whole3 d then Err ValueError else Ok VNull | v => Ok v end;
  v_default := fun d => if whole3 d then VNum 0%Z else VNull;
  v_upcast := fun d => if whole3 d then DFloat else d;
  v_agg := fun f l => match f with FSum => VNum (fold_left Z.add (numbers3 l) 0%Z) | _ => VNull end;
  v_aggtype := fun f d => d;
  v_conv := fun d l => Ok (OCol d l);
  v_ne := fun e env => match e with EName s => match env s with Some o => Ok o | None => Err KeyError end | _ => Err TypeError end;
  v_eval := fun a env => Err TypeError;
  v_dtype := fun _ => DInt; v_fn := fun _ => false;
  v_parse := fun s => if String.eqb s "p.household.income" then Ok p_household_income else if String.eqb s "p.household.members.sum(age)" then Ok p_members_age else Ok (EName s) |}.
Definition row3 (z : Z) : list (val Z) := [VNum z].
Definition ints3 (l : list Z) : dtype * list (val Z) := (DInt, map VNum l).
Definition people3 : list (@lop Z (val Z)) :=
  [ LNew true [None] [row3 1; row3 2; row3 3; row3 4] [("age", ints3 [30; 40; 5; 70]%Z); ("hh", ints3 [10; 11; 10; 99]%Z)];
    LNew true [Some "hid"] [row3 10; row3 11; row3 12] [("income", ints3 [100; 200; 300]%Z)];
    LLink 0 1 "household" (LArgs ANone ANone (AStr "hh") ANone ANone ANone) true;
    LLink 1 0 "members" (LArgs ANone ANone ANone (AStr "hh") ANone ANone) true ].
Lemma people3_orderly : orderly_run venv3 3 (new_lworld venv3) people3.
Proof. vm_compute. repeat split. Qed.
Lemma people3_table : tabular false (after venv3 3 people3) 0.
Proof. apply orderly_frames_are_tables; [exact veq3_spec|exact people3_orderly|eexists; vm_compute; reflexivity]. Qed.
Definition back3 (v : val Z) : option float64 := match v with VNum z => Some (flz z) | VNull => Some B754_nan | _ => None end.
Definition O3 : ops Z Z := Ops (fun z => z) (fun _ _ _ => None) (fun _ _ _ => None) (fun _ => None) (fun _ => None) (fun _ => None) (fun _ _ => None).
Definition env3 : env Z F1 (list (val Z)) (val Z) :=
  tenv venv3 3 VStr F1 (fun _ => [VNull]) (fun _ => VNull) B754_nan (B754_infinity true) (fun _ => flz) (fun e rho => obind (neval O3 rho e) back3) false.
Lemma env3_computes : numexpr_computes env3 O3 back3.
Proof. intros e rho. reflexivity. Qed.
Lemma conv3_length : conv_length venv3.
Proof. intros d l d' l' H. cbn in H. now injection H as _ <-. Qed.
Definition symbol3 := holds_frame venv3 3 VStr F1 false false [] true people3 0 people3_table.
Definition history3 (text : string) : list (mop env3) :=
  [MNew env3; MTree env3 0 (@AddChoices F1 ["A"; "B"] false None); MUnits env3 0 [row3 1; row3 2; row3 3; row3 4];
   MDeclare env3 0 "p" (DeclTable 0 [] true); MAssign env3 0 "p" (@VFrame _ _ _ _ (ev_frames env3) (exist _ (people3, 0) people3_table)); MAppend env3 0 text None].
Definition utilities3 (text : string) : res (list (list spec_float)) :=
  let w := mrun env3 (new_mworld env3) (history3 text) in
  rmap (map (map B2SF)) (snd (run_utilities env3 (mheap env3 w) (mcont env3 w 0) (mw_tabs w) (model env3 w 0) None false)).
(** person 1 and 3 live in household 10, person 2 in household 11; household 99 of person 4 does not exist *)
Example C88_runs :
  utilities3 "p.household.income" = Ok (map (fun z => [B2SF (flz z); B2SF (flz z)]) [100; 200; 100; 0]%Z) /\
  utilities3 "p.household.members.sum(age)" = Ok (map (fun z => [B2SF (flz z); B2SF (flz z)]) [35; 40; 35; -1]%Z).
Proof. split; vm_compute; reflexivity. Qed.
Lemma world_frames3 : exists fr0 fr1, is_frame (after venv3 3 people3) 0 fr0 /\ is_frame (after venv3 3 people3) 1 fr1 /\ nrows fr0 = 4 /\ nrows fr1 = 3 /\
  is_column fr1 "income" (ints3 [100; 200; 300]%Z) /\ is_column fr0 "age" (ints3 [30; 40; 5; 70]%Z) /\ is_column fr0 "hh" (ints3 [10; 11; 10; 99]%Z) /\
  f_index fr1 = [row3 10; row3 11; row3 12] /\ f_ldf fr0 = true.
Proof. eexists; eexists. split; [vm_compute; reflexivity|]. split; [vm_compute; reflexivity|]. vm_compute. repeat split. Qed.

Lemma link3 f name lk : is_link (after venv3 3 people3) f name lk -> exists fr, is_frame (after venv3 3 people3) f fr /\ dget String.eqb (f_links fr) name = Some lk.
Proof. auto. Qed.
Notation w3 := (after venv3 3 people3).
Lemma conv3 d : cellwise venv3 d (fun v => v).
Proof. intros l. exists d. cbn. now rewrite map_id. Qed.
(** the values of the two texts for persons 1 and 4, by the keys *)
Example C88_by_the_keys :
  linked_value venv3 3 w3 0 ["household"; "income"] None 0 (VNum 100%Z) /\
  linked_value venv3 3 w3 0 ["household"; "income"] None 3 (VNum 0%Z) /\
  linked_value venv3 3 w3 0 ["household"; "members"] (Some ("sum", EName "age")) 0 (VNum 35%Z).
Proof.
  assert (HL : exists lk, is_link w3 0 "household" lk /\ lk_agg lk = false /\ lk_flat lk <> None /\ lk_other lk = 1 /\ lk_self lk = Meta (Some [LName "hh"]) false /\ lk_target lk = Meta None true).
  { eexists. split; [eexists; split; [vm_compute; reflexivity|vm_compute; reflexivity]|]. vm_compute. repeat split; discriminate. }
  destruct HL as (lk & L1 & L2 & L3 & L4 & L5 & L6). destruct world_frames3 as (fr0 & fr1 & H0 & H1 & N0 & N1 & CI & CA & CH & IX & LD).
  assert (LO : lookups w3 0 ["household"] 1). { apply lookups_on with lk fr0 fr1; auto; [now left|now rewrite L4|congruence|rewrite L4; constructor]. }
  assert (KEY : forall i k, row_key fr0 (Meta (Some [LName "hh"]) false) i k -> exists z, nth_error [10; 11; 10; 99]%Z i = Some z /\ k = row3 z).
  { intros i k HK. unfold row_key in HK. cbn [me_labels me_rows] in HK. inversion HK as [|? v ? k' Hv Hk]; subst. inversion Hk; subst. destruct Hv as (s & d & vals & Q1 & Q2 & Q3). injection Q1 as <-. unfold is_column in *. rewrite CH in Q2. injection Q2 as <- <-.
    do 4 (destruct i as [|i]; [cbn in Q3; injection Q3 as <-; eexists; split; reflexivity|]). destruct i; discriminate. }
  assert (KEY' : forall i z, nth_error [10; 11; 10; 99]%Z i = Some z -> row_key fr0 (Meta (Some [LName "hh"]) false) i (row3 z)).
  { intros i z HZ. unfold row_key. cbn [me_labels me_rows]. constructor; [|constructor]. exists "hh", DInt, (map VNum [10; 11; 10; 99]%Z). split; [reflexivity|]. split; [exact CH|]. rewrite nth_error_map, HZ. reflexivity. }
  assert (M0 : matches w3 0 lk 0 0). { exists fr0, fr1, (row3 10). rewrite L4, L5, L6. split; auto. split; auto. split; [now apply KEY'|]. unfold row_key. cbn. now rewrite IX. }
  assert (R0 : reach w3 0 ["household"] 0 (Some 0)) by (apply reach_on with lk 0; auto; rewrite L4; constructor).
  assert (R3 : reach w3 0 ["household"] 3 None).
  { apply reach_missing with lk; auto. intros j (a & b & k & A & B & C & D). rewrite L4, L5, L6 in *. rewrite (is_frame_unique _ _ _ _ A H0) in C. rewrite (is_frame_unique _ _ _ _ B H1) in D.
    destruct (KEY _ _ C) as (z & Z1 & ->). cbn in Z1. injection Z1 as <-. unfold row_key in D. cbn in D. rewrite IX in D. do 3 (destruct j as [|j]; [discriminate|]). destruct j; discriminate. }
  assert (NL : forall lk', ~ is_link w3 1 "income" lk').
  { intros lk' (fr & F1 & F2). rewrite (is_frame_unique _ _ _ _ F1 H1) in F2. clear - F2 H1. unfold is_frame in H1. vm_compute in H1. injection H1 as <-. discriminate. }
  assert (ST : v_store venv3 DInt (fill_of w3 fr1 "income" DInt) = Ok (VNum 0%Z)). { clear - H1. unfold is_frame in H1. vm_compute in H1. injection H1 as <-. reflexivity. }
  split; [|split].
  - change (VNum 100%Z) with ((fun v : val Z => v) (VNum 100%Z)). change ["household"; "income"] with (["household"] ++ ["income"]).
    eapply lv_found with (g := 1) (gr := fr1) (d := DInt) (j := 0); eauto using conv3; try discriminate; reflexivity.
  - change (VNum 0%Z) with ((fun v : val Z => v) (VNum 0%Z)). change ["household"; "income"] with (["household"] ++ ["income"]).
    eapply lv_unlinked with (g := 1) (gr := fr1) (d := DInt); eauto using conv3. discriminate.
  - assert (HM : exists mk, is_link w3 1 "members" mk /\ lk_agg mk = true /\ lk_flat mk <> None /\ lk_other mk = 0 /\ lk_self mk = Meta None true /\ lk_target mk = Meta (Some [LName "hh"]) false).
    { eexists. split; [eexists; split; [vm_compute; reflexivity|vm_compute; reflexivity]|]. vm_compute. repeat split; discriminate. }
    destruct HM as (mk & K1 & K2 & K3 & K4 & K5 & K6).
    change (VNum 35%Z) with ((fun v : val Z => v) (VNum 35%Z)). change ["household"; "members"] with (["household"] ++ ["members"]).
    apply lv_aggregate with (g := 1) (lk := mk) (gr := fr1) (tr := fr0) (fn := FSum) (d := DInt) (vals := map VNum [30; 40; 5; 70]%Z) (y := VNum (-1)%Z); auto using conv3; try discriminate.
    + now rewrite K4.
    + congruence.
    + rewrite K6. intros j k HK. destruct (KEY _ _ HK) as (z & _ & ->). reflexivity.
    + rewrite K4. eapply a_tree; [exact H0|exact LD|]. vm_compute. reflexivity.
    + split; [reflexivity|discriminate].
    + right. exists 0, [0; 2], [VNum 30%Z; VNum 5%Z]. split; [exact R0|]. split; [|split; [repeat constructor|reflexivity]].
      split; [repeat constructor|]. intros j. split.
      * intros I. exists fr1, fr0, (row3 10). rewrite K4, K5, K6. split; auto. split; auto. split; [unfold row_key; cbn; now rewrite IX|]. apply KEY'. cbn in I. destruct I as [<-|[<-|[]]]; reflexivity.
      * intros (a & b & k & A & B & C & D). rewrite K4, K5, K6 in *. rewrite (is_frame_unique _ _ _ _ A H1) in C. rewrite (is_frame_unique _ _ _ _ B H0) in D.
        unfold row_key in C. cbn in C. rewrite IX in C. cbn in C. injection C as <-. destruct (KEY _ _ D) as (z & Z1 & Z2). injection Z2 as <-.
        do 4 (destruct j as [|j]; [cbn in Z1; try discriminate; cbn; auto|]). destruct j; discriminate.
Qed.

(** the hypotheses of C88_utilities_follow_the_keys *)
Definition world3 : mworld env3 := mrun env3 (new_mworld env3) (history3 "p.household.income").
Definition model3 := model env3 world3 0.
Definition run3 := run_utilities env3 (mheap env3 world3) (mcont env3 world3 0) (mw_tabs world3) model3 None true.
Definition selection3 := selection (mheap env3 world3) (mcont env3 world3 0) None.
Lemma world3_is : mrun env3 (new_mworld env3) (history3 "p.household.income") = world3.
Proof. unfold world3. reflexivity. Qed.
Lemma model3_is : model env3 world3 0 = model3.
Proof. unfold model3. reflexivity. Qed.
Lemma history3_orderly text : orderly_history env3 (new_mworld env3) (history3 text).
Proof.
  unfold history3. cbn [orderly_history]. repeat match goal with |- _ /\ _ => split end; try exact I; try (intros n s []; fail).
  all: unfold orderly; try exact I; try reflexivity.
  split; [split; [repeat constructor; cbn; intuition discriminate|cbn; tauto]|intros n s []].
Qed.
Definition x3 : @expression Z := match selection3 with Ok (_, [x]) => x | _ => Expression "" (EName "") [] [] None [] end.
Lemma selection3_ok : selection (mheap env3 world3) (mcont env3 world3 0) None = Ok ([], [x3]) /\ e_raw x3 = "p.household.income".
Proof. vm_compute. auto. Qed.
Lemma x3_meant : meant env3 [] x3.
Proof.
  set (x := x3). vm_compute in x. subst x. split; [split; intros y Y; cbn in Y; intuition subst; reflexivity|]. split.
  - intros name us sub ct I1 I2 NF. cbn in I1. intuition. match goal with H : (_, _) = (name, us) |- _ => injection H as <- <- end. cbn in I2. intuition. match goal with H : (_, _) = (sub, ct) |- _ => injection H as <- <- end. cbn in NF. congruence.
  - intros body flt tree SF PP. vm_compute in SF. injection SF as <- <-. vm_compute in PP. injection PP as <-. split; [cbn; intuition|]. intros y Y. cbn in Y. intuition.
Qed.
Lemma scope3 : dget String.eqb (m_scope model3) "p" = Some symbol3.
Proof. exact_no_check (eq_refl (Some symbol3)). Qed.
Example C88_hypotheses : forall t, snd run3 = Ok t -> tcell t 0 0 = nadd F1 (nzero F1) (flz 100) /\ tcell t 3 1 = nadd F1 (nzero F1) (flz 0).
Proof.
  intros t RT. destruct run3 as [[ts' m'] rt] eqn:RE. cbn [snd] in RT. subst rt. unfold run3 in RE.
  assert (MU : m_utils model3 = None) by (vm_compute; reflexivity).
  assert (DU : m_du model3 = Some [row3 1; row3 2; row3 3; row3 4]) by (vm_compute; reflexivity).
  assert (CH : choices (m_tree model3) = Ok [Flat "A"; Flat "B"]) by (vm_compute; reflexivity).
  assert (DP : depth (m_tree model3) = Ok 1) by (vm_compute; reflexivity).
  pose proof scope3 as SC.
  destruct C88_by_the_keys as (V1 & V2 & _). destruct selection3_ok as [S1 S2].
  assert (SF : split_filter (e_raw x3) = Ok ("p.household.income", None)) by (rewrite S2; vm_compute; reflexivity).
  assert (NR : nrows (frame_of venv3 3 (people3, 0)) = 4) by (vm_compute; reflexivity).
  assert (RC : reads_chain p_household_income "p" ["household"; "income"] None) by (split; [eexists; eexists; reflexivity|reflexivity]).
  pose proof (C88_utilities_follow_the_keys venv3 3 VStr veq3_spec F1 (fun _ => [VNull]) (fun _ => VNull) B754_nan (B754_infinity true) (fun _ => flz) (fun e rho => obind (neval O3 rho e) back3)
    O3 back3 false env3_computes conv3_length eq_refl (history3 "p.household.income") 0 None true ts' m' t [] x3 [row3 1; row3 2; row3 3; row3 4] [Flat "A"; Flat "B"] 1 "p.household.income" p_household_income "p" ["household"; "income"] None false [] true people3 0 people3_table) as H.
  fold env3 in H. cbv zeta in H. rewrite world3_is, model3_is in H.
  split.
  - refine (H 0 0 (Flat "A") (VNum 100%Z) (flz 100) (history3_orderly _) MU RE S1 x3_meant DU CH DP SF eq_refl RC SC people3_orderly _ _ eq_refl V1 eq_refl); [rewrite NR|cbn]; lia.
  - refine (H 3 1 (Flat "B") (VNum 0%Z) (flz 0) (history3_orderly _) MU RE S1 x3_meant DU CH DP SF eq_refl RC SC people3_orderly _ _ eq_refl V2 eq_refl); [rewrite NR|cbn]; lia.
Qed.
