(** Utilities that read through linked frames: C74, and C57 for such tables. *)
From Coq Require Import ZArith Floats.SpecFloat.
From Flocq Require Import IEEE754.BinarySingleNaN.
From Verif Require Import Prelude DictProofs Arith ExprModel TreeModel ScopeModel SpecScope ScopeProofs ModelModel SpecModel ModelExample ModelHist ModelInv PropPreval PropState PropCopy CopyExamples.
From Verif Require Import LdfModel SpecLdf LdfProofs LdfKeys LdfReads LdfInv LdfGood LdfLookup LdfLinks LdfSim LdfSlice LdfGroups LdfExample PropReads PropSlice PropRows LdfCols LdfTables.
Local Open Scope string_scope.
Local Open Scope nat_scope.
Local Open Scope list_scope.

Section Tabs.
  Context {L V : Type} (E : venv L V) (fuel : nat) (lab : string -> V).
  Hypothesis veq_spec : forall a b, v_eq E a b = true <-> a = b.
  Context (F : arith) (label : label -> list V) (number : num F -> V) (nan ninf : num F) (f32 : bool -> L -> num F) (ne : expr L -> (string -> option V) -> option (num F)).
  Notation T := (tenv E fuel lab F label number nan ninf f32 ne).

  (** ** Any frame of an orderly history is a table *)
  Theorem orderly_frames_are_tables os f : orderly_run E fuel (new_lworld E) os -> (exists fr, is_frame (after E fuel os) f fr) -> tabular false (after E fuel os) f.
  Proof using veq_spec.
    intros HO HF. split; auto. intros name lk fr Hf HL. split; [|discriminate]. intros flat EF.
    destruct (orderly_good E veq_spec fuel os HO _ _ _ HL) as (fr0 & gr & sk & ok & G). assert (fr0 = fr) as -> by (eapply is_frame_unique; [apply G|exact Hf]).
    destruct (gd_flat _ _ _ _ _ _ _ _ G _ EF) as [-> _]. rewrite map_length.
    apply (ikeys_spec E (lk_self lk) fr sk); [|apply G]. eapply (reachable_ok E fuel); [now exists os|exact Hf].
  Qed.
  Theorem preindexed_frames_are_tables os f : orderly_run E fuel (new_lworld E) os -> (exists fr, is_frame (after E fuel os) f fr) -> preindexed (after E fuel os) f -> tabular true (after E fuel os) f.
  Proof using veq_spec.
    intros HO HF HP. destruct (orderly_frames_are_tables os f HO HF) as [H1 H2]. split; auto. intros name lk fr Hf HL. split; [eapply H2; eauto|]. intros _. split; [eapply HP; eauto|].
    destruct (orderly_good E veq_spec fuel os HO _ _ _ HL) as (fr0 & gr & sk & ok & G). split; [apply (paired_links E fuel os _ _ _ HL)|apply G].
  Qed.

  (** * C74 *)
  (** one link: whatever the function, the utility expression cannot be evaluated *)
  Theorem C74_one_link_always_fails_refuted strict o ma al (t : table E fuel strict) name lk func :
    is_link (world_of E fuel (proj1_sig t)) (snd (proj1_sig t)) name lk ->
    get_chain (num:=num F) (tables E fuel lab strict) (STable (FR:=tables E fuel lab strict) o ma al (Some t)) (Chain [name] func) = Err AttributeError.
  Proof using.
    intros (fr & Hf & Hl). unfold get_chain. cbn. unfold table_col, frame_item. apply get_frame_is in Hf. rewrite Hf. cbn [rbind]. rewrite Hl. cbn [rbind].
    unfold make_node. destruct (lk_agg lk); [|destruct (lk_chained lk)]; reflexivity.
  Qed.
  (** a column: the function is not applied *)
  Theorem C74_function_ignored_refuted strict o ma al (t : table E fuel strict) name func :
    get_chain (num:=num F) (tables E fuel lab strict) (STable (FR:=tables E fuel lab strict) o ma al (Some t)) (Chain [name] func) =
    get_chain (num:=num F) (tables E fuel lab strict) (STable (FR:=tables E fuel lab strict) o ma al (Some t)) (Chain [name] None).
  Proof using. reflexivity. Qed.
  (** two attributes or more, in a linked frame: what the frame aggregates *)
  Theorem C74_longer_chains_aggregate_partial strict o ma al (t : table E fuel strict) a b chain func e d :
    f_ldf (frame_of E fuel (proj1_sig t)) = true ->
    get_chain (num:=num F) (tables E fuel lab strict) (STable (FR:=tables E fuel lab strict) o ma al (Some t)) (Chain (a :: b :: chain) (Some (func, e))) = Ok d <->
    exists fn c v, aggf_named func = Some fn /\
      snd (lstep E fuel (world_of E fuel (proj1_sig t)) (LAgg (snd (proj1_sig t)) (rev (a :: b :: chain)) fn (XTree e) (v_m1 E))) = Ok (RCol c) /\ converts E c v /\ d = as_array o v.
  Proof using.
    intros HL. unfold get_chain. cbn [ch_chain ch_func]. cbn [fr_linked fr_walk tables]. rewrite HL. cbn [guard rbind]. split.
    - intros H. destruct (table_walk E fuel (proj1_sig t) (a :: b :: chain) (Some (func, e))) as [v|x] eqn:W; cbn [rbind] in H; [|discriminate]. injection H as <-.
      apply walk_aggregates in W. destruct W as (fn & c & W1 & W2 & W3). exists fn, c, v. auto.
    - intros (fn & c & v & W1 & W2 & W3 & ->). assert (W : table_walk E fuel (proj1_sig t) (a :: b :: chain) (Some (func, e)) = Ok v) by (apply walk_aggregates; eauto). now rewrite W.
  Qed.

  (** * C57 for linked frames whose links are indexed *)
  Hypothesis NL : numexpr_local (T true).
  Hypothesis CL : conv_length E.
  Theorem C57_linked_tables (ops : list (mop (T true))) i mi mask ts' m' group clear clear' ts1 m1 t simple xs (CR : conv_rows E mask) :
    let E := T true in
    let w := mrun E (new_mworld E) ops in let w' := mstep E w (MSubset E i mi mask) in let j := length (mw_models w) in
    orderly_history E (new_mworld E) ops -> length mi = length mask ->
    copy_subset E (mw_tabs w) (model E w i) mi mask = (ts', Ok m') ->
    selection (mheap E w) (mcont E w i) group = Ok (simple, xs) -> (forall x, In x xs -> plain_names simple x /\ own_names x) ->
    run_utilities E (mheap E w) (mcont E w i) (mw_tabs w) (model E w i) group clear = (ts1, m1, Ok t) ->
    exists ts2 m2, run_utilities E (mheap E w') (mcont E w' j) (mw_tabs w') (model E w' j) group clear' = (ts2, m2, Ok (keep mask t)).
  Proof using veq_spec NL CL.
    apply (C57_subset_runs_on_the_rows (T true) NL (tables_obey_frame_laws E fuel lab F label number nan ninf f32 ne true veq_spec CL)).
    apply tables_obey_frame_slices; auto.
  Qed.
End Tabs.

(** ** Examples *)
Definition env1 : venv Z cell := {|
  v_eq := v_eq env0; v_null := v_null env0; v_nan := v_nan env0; v_ninf := v_ninf env0; v_m1 := v_m1 env0; v_store := v_store env0; v_default := v_default env0;
  v_upcast := v_upcast env0; v_agg := v_agg env0; v_aggtype := v_aggtype env0; v_conv := v_conv env0; v_ne := v_ne env0;
  v_eval := fun a rho => match a with XTree (EName s) => match rho s with Some (d, l) => Ok (OCol d l) | None => Err KeyError end | _ => v_eval env0 a rho end;
  v_dtype := v_dtype env0; v_fn := v_fn env0;
  v_parse := fun s =>
    if String.eqb s "h.members.sum(age)" then Ok (ECall (EAttr (EAttr (EName "h") "members") "sum") [EName "age"] [])
    else if String.eqb s "members.sum(age)" then Ok (ECall (EAttr (EName "members") "sum") [EName "age"] [])
    else if String.eqb s "p.household.members.sum(age)" then Ok (ECall (EAttr (EAttr (EAttr (EName "p") "household") "members") "sum") [EName "age"] [])
    else if String.eqb s "p.household.income" then Ok (EAttr (EAttr (EName "p") "household") "income")
    else if String.eqb s "p.age.sum(hh)" then Ok (ECall (EAttr (EAttr (EName "p") "age") "sum") [EName "hh"] [])
    else v_parse env0 s |}.
Definition fcell (c : cell) : float64 := match c with Some z => flz z | None => B754_nan end.
Definition ne1 (e : expr Z) (rho : string -> option cell) : option float64 :=
  match e with EName x => option_map fcell (rho x) | ENum z => Some (flz z) | _ => None end.
Definition tenv1 (strict : bool) : env Z (B64 (fun x => x) (fun x => x)) (list cell) cell :=
  tenv env1 3 (fun s => Some (Z.of_nat (String.length s))) (B64 (fun x => x) (fun x => x)) (fun _ => [None]) (fun _ => None) B754_nan (B754_infinity true) (fun _ => flz) ne1 strict.
Lemma ne1_local strict : numexpr_local (tenv1 strict).
Proof. intros e rho1 rho2 H. destruct e; cbn; auto. cbn in H. rewrite H; cbn; auto. Qed.

(** a model whose decision units are the rows of a frame; the frame is assigned to a symbol *)
Definition on_table strict (os : list (@lop Z cell)) (f : nat) (T : tabular strict (after env1 3 os) f) (sym : string) (texts : list string) : list (mop (tenv1 strict)) :=
  let E := tenv1 strict in
  [MNew E; MTree E 0 (@AddChoices (B64 (fun x => x) (fun x => x)) ["A"; "B"] false None); MUnits E 0 (f_index (frame_of env1 3 (os, f)));
   MDeclare E 0 sym (DeclTable 0 [] true); MAssign E 0 sym (@VFrame _ _ _ _ (ev_frames E) (exist _ (os, f) T))] ++ map (fun s => MAppend E 0 s None) texts.
Definition utilities_of strict (w : mworld (tenv1 strict)) (i : nat) : res (list (list spec_float)) :=
  rmap exact_table (snd (run_utilities (tenv1 strict) (mheap (tenv1 strict) w) (mcont (tenv1 strict) w i) (mw_tabs w) (model (tenv1 strict) w i) None false)).

(** persons and households as tables *)
Lemma people_orderly : orderly_run env1 3 (new_lworld env1) persons_households_zones.
Proof. vm_compute. repeat split. Qed.
Lemma people_preindexed : preindexed (after env1 3 persons_households_zones) 0.
Proof.
  intros name lk (fr & H1 & H2). unfold is_frame in H1. vm_compute in H1. injection H1 as <-. cbn [dget f_links] in H2. destruct (String.eqb name "household"); [|discriminate H2]. injection H2 as <-. cbn. discriminate.
Qed.
Lemma people_table : tabular true (after env1 3 persons_households_zones) 0.
Proof. apply preindexed_frames_are_tables; [exact cell_eq_spec|exact people_orderly|eexists; vm_compute; reflexivity|exact people_preindexed]. Qed.
Lemma households_table : tabular false (after env1 3 persons_households_zones) 1.
Proof. apply orderly_frames_are_tables; [exact cell_eq_spec|exact people_orderly|eexists; vm_compute; reflexivity]. Qed.

(** C74 end to end: the households' frame evaluates "members.sum(age)", the model cannot run "h.members.sum(age)" *)
Theorem C74_end_to_end_refuted :
  snd (lstep env1 3 (after env1 3 persons_households_zones) (LEval 1 "members.sum(age)" [])) = Ok (RCol (ints [35; 40; -1]%Z)) /\
  utilities_of false (mrun (tenv1 false) (new_mworld (tenv1 false)) (on_table false persons_households_zones 1 households_table "h" ["h.members.sum(age)"])) 0 = Err AttributeError.
Proof. split; vm_compute; reflexivity. Qed.
(** ... while through two links it runs, and after a column name the function is dropped *)
Example C74_two_links :
  utilities_of true (mrun (tenv1 true) (new_mworld (tenv1 true)) (on_table true persons_households_zones 0 people_table "p" ["p.household.members.sum(age)"])) 0 =
  Ok [[sfz 35; sfz 35]; [sfz 40; sfz 40]; [sfz 35; sfz 35]; [sfz (-1); sfz (-1)]] /\
  utilities_of true (mrun (tenv1 true) (new_mworld (tenv1 true)) (on_table true persons_households_zones 0 people_table "p" ["p.age.sum(hh)"])) 0 =
  Ok [[sfz 30; sfz 30]; [sfz 40; sfz 40]; [sfz 5; sfz 5]; [sfz 70; sfz 70]].
Proof. split; vm_compute; reflexivity. Qed.

(** ** C57 with linked tables *)
Definition people_model : list (mop (tenv1 true)) := on_table true persons_households_zones 0 people_table "p" ["p.household.income"; "p.household.members.sum(age)"].
Definition people_world : mworld (tenv1 true) := mrun (tenv1 true) (new_mworld (tenv1 true)) people_model.
Definition some_people : list bool := [true; false; false; true].
Example C57_linked_tables_met :
  numexpr_local (tenv1 true) /\ conv_length env1 /\ conv_rows env1 some_people /\ orderly_history (tenv1 true) (new_mworld (tenv1 true)) people_model /\
  (exists ts' m', copy_subset (tenv1 true) (mw_tabs people_world) (model (tenv1 true) people_world 0) [row 1; row 2; row 3; row 4] some_people = (ts', Ok m') /\ m_du m' = Some [row 1; row 4]) /\
  (exists simple xs, selection (mheap (tenv1 true) people_world) (mcont (tenv1 true) people_world 0) None = Ok (simple, xs) /\ length xs = 2 /\ forall x, In x xs -> plain_names simple x /\ own_names x) /\
  utilities_of true people_world 0 = Ok [[sfz 135; sfz 135]; [sfz 240; sfz 240]; [sfz 135; sfz 135]; [sfz (-1); sfz (-1)]] /\
  utilities_of true (mstep (tenv1 true) people_world (MSubset (tenv1 true) 0 [row 1; row 2; row 3; row 4] some_people)) 1 = Ok [[sfz 135; sfz 135]; [sfz (-1); sfz (-1)]].
Proof.
  split; [apply ne1_local|]. split; [intros d l d' l' H; cbn in H; injection H as _ <-; reflexivity|].
  split; [intros d l d' l' H; cbn in H; injection H as _ <-; exists d; reflexivity|].
  split. { unfold people_model, on_table. cbn [app map orderly_history].
    repeat split; try exact I; try (intros n s []); try discriminate.
    all: match goal with H : SpecTree.is_key _ _ |- _ => exfalso; cbn in H; intuition discriminate | _ => idtac end.
    repeat constructor; cbn; intuition discriminate. }
  split. { match goal with |- exists ts m, ?c = _ /\ _ => destruct c as [ts r] eqn:R; assert (Q : rmap m_du (snd c) = Ok (Some [row 1; row 4])) by (vm_compute; reflexivity) end.
    rewrite R in Q. cbn in Q. destruct r as [m|]; [|discriminate]. injection Q as Q. eauto. }
  split. { match goal with |- exists s xs, ?c = _ /\ _ => assert (Q : exists s xs, c = Ok (s, xs)) by (vm_compute; eauto) end. destruct Q as (s & xs & Q). exists s, xs. split; auto.
    vm_compute in Q. injection Q as <- <-. split; [reflexivity|].
    intros x [<-|[<-|[]]]; (split; [split; intros y Y; cbn in Y; intuition subst; auto|intros y Y; cbn in Y; intuition subst; cbn; auto]). }
  split; vm_compute; reflexivity.
Qed.

(** ... and with a link that has not been used yet: the model runs, the copy with one person does not *)
Lemma delayed_table : tabular false (after env1 3 (delayed_history ++ [LLink 0 1 "household" (to_index "hh") false])) 0.
Proof. apply orderly_frames_are_tables; [exact cell_eq_spec|vm_compute; repeat split|eexists; vm_compute; reflexivity]. Qed.
Definition delayed_model : mworld (tenv1 false) :=
  mrun (tenv1 false) (new_mworld (tenv1 false)) (on_table false (delayed_history ++ [LLink 0 1 "household" (to_index "hh") false]) 0 delayed_table "p" ["p.household.income"]).
Theorem C57_delayed_links_refuted :
  utilities_of false delayed_model 0 = Ok [[sfz 100; sfz 100]; [sfz 200; sfz 200]; [sfz 100; sfz 100]] /\
  utilities_of false (mstep (tenv1 false) delayed_model (MSubset (tenv1 false) 0 [row 1; row 2; row 3] [false; true; false])) 1 = Err ValueError.
Proof. split; vm_compute; reflexivity. Qed.
Print Assumptions C57_linked_tables.
