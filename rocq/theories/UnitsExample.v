(** C108: a case; C109: units of a subset are simulated with other random numbers. *)
From Coq Require Import Reals Lra Floats.SpecFloat.
From Flocq Require Import Core.Core IEEE754.BinarySingleNaN.
From Verif Require Import Prelude Arith CoreModel TreeModel DictProofs ParModel ExprModel SpecExpr SpecContainer ExprWorld ScopeModel SpecScope ScopeProofs ModelModel ModelProofs SpecModel KernelProofs EvalProofs ModelExample PropState ModelWorld ModelHist ModelTrees RunProofs EvalTransfer PropUtility SpecSampling OutProofs RunOut SpecDraws SpecEnd SpecIeee NestedSum PropChoice PropMoved CopyExamples SpecUnits PropUnits.
Local Open Scope string_scope.
Local Open Scope nat_scope.
Local Open Scope list_scope.
Notation idF := (B64 (fun x => x) (fun x => x)).

(** ** C108: two models of two and of three units; unit 1 has the value 5 in both, the others differ *)
Definition u_ops : list (mop idE) :=
  [MNew idE; MTree idE 0 (@AddChoices idF ["A"; "B"] false None); MUnits idE 0 ["k1"; "k2"; "k3"];
   MDeclare idE 0 "x" (DeclVector 0); MAssign idE 0 "x" (fseries (fun x => x) (fun x => x) ["k1"; "k2"; "k3"] [9; 5; 1]%Z); MAppend idE 0 "x * 2" None; MAppend idE 0 "1 @ A" None].
Definition u_world : mworld idE := mrun idE (new_mworld idE) u_ops.
Lemma u_orderly : orderly_history idE (new_mworld idE) u_ops.
Proof.
  unfold u_ops. cbn [app orderly_history].
  repeat split; try exact I; try (intros n s []); try discriminate.
  all: match goal with H : SpecTree.is_key _ _ |- _ => exfalso; cbn in H; intuition discriminate | _ => idtac end.
  repeat constructor; cbn; intuition discriminate.
Qed.
Definition u_xs : list (@expression nat) := [Expression "x * 2" (EBin Mult (EName "x") (ENum 2)) [] [] None ["x"]; Expression "1 @ A" (ENum 1) [] [] (Some "A") []].
Lemma u_scope1 : dget String.eqb (m_scope (model idE c_world 0)) "x" = Some (SVector (FR:=ev_frames idE) false (Some (map flz [3; 5]%Z))).
Proof. reflexivity. Qed.
Lemma u_scope2 : dget String.eqb (m_scope (model idE u_world 0)) "x" = Some (SVector (FR:=ev_frames idE) false (Some (map flz [9; 5; 1]%Z))).
Proof. reflexivity. Qed.
Example C108_hypotheses_met :
  orderly_history idE (new_mworld idE) c_ops /\ orderly_history idE (new_mworld idE) u_ops /\
  m_utils (model idE c_world 0) = None /\ m_utils (model idE u_world 0) = None /\
  selection (mheap idE c_world) (mcont idE c_world 0) None = Ok (["x"], u_xs) /\ selection (mheap idE u_world) (mcont idE u_world 0) None = Ok (["x"], u_xs) /\
  (forall x, In x u_xs -> plain_names ["x"] x) /\ m_tree (model idE c_world 0) = m_tree (model idE u_world 0) /\
  same_data idE (evaluated_names ["x"] u_xs) 2 (m_scope (model idE c_world 0)) 1 (m_scope (model idE u_world 0)) 1 /\
  rmap exact_table (snd (run_utilities idE (mheap idE c_world) (mcont idE c_world 0) (mw_tabs c_world) (model idE c_world 0) None false)) = Ok [[sfz 7; sfz 6]; [sfz 11; sfz 10]] /\
  rmap exact_table (snd (run_utilities idE (mheap idE u_world) (mcont idE u_world 0) (mw_tabs u_world) (model idE u_world 0) None false)) = Ok [[sfz 19; sfz 18]; [sfz 11; sfz 10]; [sfz 3; sfz 2]].
Proof.
  split; [apply c_orderly|]. split; [apply u_orderly|]. split; [vm_compute; reflexivity|]. split; [vm_compute; reflexivity|]. split; [vm_compute; reflexivity|]. split; [vm_compute; reflexivity|].
  split. { intros x [<-|[<-|[]]]; split; intros y Y; cbn in Y; intuition subst; auto. }
  split; [reflexivity|]. split.
  - intros name [H|(x & Ix & H)].
    + destruct H as [<-|[]]. rewrite u_scope1, u_scope2. split; [intros c _; reflexivity|intros ct c _; reflexivity].
    + exfalso. cbn in Ix. destruct Ix as [<-|[<-|[]]]; destruct H.
  - split; vm_compute; reflexivity.
Qed.

(** ** C109: "a unit's simulated choice does not depend on which other units are in the model" is false *)
Definition s_ops : list (mop idE) := two_choices (fun x => x) (fun x => x) ++ [MAppend idE 0 "1" None; MSubset idE 0 ["h1"; "h2"] [false; true]].
Definition s_world : mworld idE := mrun idE (new_mworld idE) s_ops.
Notation s_sto k := (run_stochastic_all idE (mheap idE s_world) (mcont idE s_world k) (mw_tabs s_world) (model idE s_world k) None true true true).
Notation s_dis G k seed ts m out := (run_discrete idE G (mheap idE s_world) (mcont idE s_world k) (mw_tabs s_world) (model idE s_world k) 1%Z true seed true false true ts m out).
Lemma s_trees : tree_history idE (new_mworld idE) s_ops.
Proof.
  apply orderly_trees. unfold s_ops, two_choices. cbn [app orderly_history].
  repeat split; try exact I; try (intros n s []); try discriminate.
  all: match goal with H : SpecTree.is_key _ _ |- _ => exfalso; cbn in H; intuition discriminate | _ => idtac end.
  repeat constructor; cbn; intuition discriminate.
Qed.
Definition s_row : list (label * spec_float) * spec_float * list (label * spec_float) :=
  let h := B2SF (f64_div f64_one (f64_add f64_one f64_one)) in ([(Flat "A", h); (Flat "B", h)], sfz 2, [(Flat "A", sfz 1); (Flat "B", sfz 1)]).
Definition exact_row (o : list (label * float64) * float64 * list (label * float64)) : list (label * spec_float) * spec_float * list (label * spec_float) :=
  (map (fun p => (fst p, B2SF (snd p))) (fst (fst o)), B2SF (snd (fst o)), map (fun p => (fst p, B2SF (snd p))) (snd o)).
Lemma s_sto0 : rmap (map exact_row) (snd (s_sto 0)) = Ok [s_row; s_row]. Proof. vm_compute. reflexivity. Qed.
Lemma s_sto1 : rmap (map exact_row) (snd (s_sto 1)) = Ok [s_row]. Proof. vm_compute. reflexivity. Qed.
(** the choice from (1/2, 1/2) *)
Definition one_half : float64 := f64_div f64_one (f64_add f64_one f64_one).
Lemma tiny_half x : f64_lt x f64_tiny = true -> f64_le x one_half = true.
Proof.
  intros H. assert (T : f64_lt f64_tiny one_half = true) by (vm_compute; reflexivity).
  destruct x as [s|s| |s m e b]; [destruct s; vm_compute; reflexivity|destruct s; [vm_compute; reflexivity|exfalso; vm_compute in H; discriminate]|exfalso; vm_compute in H; discriminate|].
  unfold f64_lt in H, T. unfold f64_le. rewrite Bltb_correct in H, T by reflexivity. rewrite Bleb_correct by reflexivity.
  apply Rle_bool_true. destruct (Rlt_bool_spec (B2R (B754_finite s m e b)) (B2R f64_tiny)) as [H1|]; [|discriminate]. destruct (Rlt_bool_spec (B2R f64_tiny) (B2R one_half)) as [H2|]; [|discriminate]. lra.
Qed.
Lemma half_once : running idF [one_half; one_half] 0 = one_half. Proof. apply B2SF_inj. vm_compute. reflexivity. Qed.
Lemma pick_half (P : list float64) (x : float64) k : map (@B2SF 53 1024) P = [B2SF one_half; B2SF one_half] -> chosen idF 1 P x k ->
  k = (if f64_le x one_half then 0 else 1).
Proof.
  intros H C. destruct P as [|p [|q [|]]]; try discriminate. cbn [map] in H. pose proof (f_equal (hd S754_nan) H) as H1. pose proof (f_equal (fun l => hd S754_nan (tl l)) H) as H2. cbn [hd tl] in H1, H2. apply B2SF_inj in H1, H2. subst p q. clear H.
  unfold chosen in C. cbn [Nat.eqb] in C. cbv zeta in C. cbn [length] in C.
  assert (Q : nle idF (if nlt idF x (ntiny idF) then ntiny idF else x) (running idF [one_half; one_half] 0) = f64_le x one_half).
  { rewrite half_once. change (f64_le (if f64_lt x f64_tiny then f64_tiny else x) one_half = f64_le x one_half). destruct (f64_lt x f64_tiny) eqn:T; auto. rewrite (tiny_half x T). vm_compute. reflexivity. }
  destruct C as [K C]. destruct (f64_le x one_half).
  - destruct C as [[C1 C2]|[-> C2]].
    + destruct k as [|k]; auto. exfalso. specialize (C2 0 (Nat.lt_0_succ k)). exact (Bool.diff_true_false (eq_trans (eq_sym Q) C2)).
    + exfalso. specialize (C2 0 (Nat.lt_0_succ 1)). exact (Bool.diff_true_false (eq_trans (eq_sym Q) C2)).
  - destruct C as [[C1 C2]|[-> C2]]; [|reflexivity]. destruct k as [|[|k]]; auto; [|lia]. exfalso. exact (Bool.diff_true_false (eq_trans (eq_sym C1) Q)).
Qed.
Lemma s_choices0 : choices (m_tree (model idE s_world 0)) = Ok [Flat "A"; Flat "B"]. Proof. vm_compute. reflexivity. Qed.
Lemma s_choices1 : choices (m_tree (model idE s_world 1)) = Ok [Flat "A"; Flat "B"]. Proof. vm_compute. reflexivity. Qed.
Lemma nth_map_some {A B} (f : A -> B) l r y : nth_error (map f l) r = Some y -> exists x, nth_error l r = Some x /\ f x = y.
Proof. rewrite nth_error_map. destruct (nth_error l r) as [x|]; [|discriminate]. intros H. injection H as H. eauto. Qed.
(** the choice of unit [r] of model [i], from the random number at its position *)
Lemma s_simulated (G : generator idF) i r n seed ts m result logsums : choices (m_tree (model idE s_world i)) = Ok [Flat "A"; Flat "B"] ->
  rmap (map exact_row) (snd (s_sto i)) = Ok (repeat s_row n) -> r < n ->
  s_dis G i seed ts m (Ok (result, logsums)) ->
  result_entry result r 0 = Some (Lab (if f64_le (kth_uniform G (gseed G seed) r) one_half then Flat "A" else Flat "B")).
Proof.
  intros CH ST Hr R. destruct (s_sto i) as [[ts1 m1] [out|]] eqn:RS; [|discriminate ST]; unfold rmap in ST; cbn [snd] in ST. injection ST as ST.
  destruct (runs_share (fun x => x) (fun x => x) idE (e_local _ _ _ _) G s_ops i 1 true seed true false true ts1 m1 ts m out result logsums s_trees RS R) as (_ & _ & d & cols & nl & _ & CH' & _ & _ & LC & _ & LO & _ & _ & X).
  fold s_world in CH', LC, X. rewrite CH in CH'. injection CH' as <-.
  assert (EO : nth_error (map exact_row out) r = Some s_row). { rewrite ST. clear - Hr. revert r Hr. induction n as [|n IH]; intros [|r] Hr; try lia; cbn; auto. apply IH. lia. }
  apply nth_map_some in EO. destruct EO as ([[row top] terms] & NO & EO). injection EO as EO _ _.
  destruct (X r row top terms NO) as (_ & us & P & _ & _ & LP & _ & (ks & SS & KS & ER) & DJ). destruct (DJ 0 (le_n 1)) as (k & e & CK & RE & SH).
  assert (KB : forall k, In k ks -> k < 2). { intros k0 I0. apply KS in I0. destruct I0 as (key & id & I0 & _). change 2 with (length [Flat "A"; Flat "B"]). rewrite LC. apply nth_error_Some. congruence. }
  assert (PH : map (@B2SF 53 1024) P = [B2SF one_half; B2SF one_half]).
  { cbn [fst snd] in EO. rewrite ER, map_map in EO. destruct ks as [|a [|b [|]]]; cbn [map fst snd] in EO; try discriminate EO. injection EO as A1 A2 A3 A4.
    inversion SS as [|? ? _ SL]; subst. inversion SL; subst. pose proof (KB a (or_introl eq_refl)). pose proof (KB b (or_intror (or_introl eq_refl))). assert (a = 0) by lia. assert (b = 1) by lia. subst a b.
    destruct P as [|p [|q [|]]]; try discriminate. cbn [nth] in A2, A4. cbn [map]. now rewrite A2, A4. }
  pose proof (pick_half P _ k PH CK) as K. unfold random_number in K. cbn [Nat.eqb] in K. unfold shows in SH. destruct SH as (l & NL & ->). rewrite RE. f_equal. f_equal.
  rewrite K in NL. destruct (f64_le (kth_uniform G (gseed G seed) r) one_half); cbn in NL; congruence.
Qed.
(** Unit h2 has the same probabilities in the model of h1 and h2 and in its subset {h2}.  With any generator and seed whose first
    uniform number is at most 1/2 and whose second is not, every run of the first gives it B, every run of the second A. *)
Theorem C109_choice_in_subset_refuted (G : generator idF) seed :
  f64_le (kth_uniform G (gseed G seed) 0) one_half = true -> f64_le (kth_uniform G (gseed G seed) 1) one_half = false ->
  m_du (model idE s_world 0) = Some ["h1"; "h2"] /\ m_du (model idE s_world 1) = Some ["h2"] /\
  rmap (map exact_row) (snd (s_sto 0)) = Ok [s_row; s_row] /\ rmap (map exact_row) (snd (s_sto 1)) = Ok [s_row] /\
  (exists ts m result logsums, s_dis G 0 seed ts m (Ok (result, logsums))) /\ (exists ts m result logsums, s_dis G 1 seed ts m (Ok (result, logsums))) /\
  (forall ts m result logsums, s_dis G 0 seed ts m (Ok (result, logsums)) -> result_entry result 1 0 = Some (Lab (Flat "B"))) /\
  (forall ts m result logsums, s_dis G 1 seed ts m (Ok (result, logsums)) -> result_entry result 0 0 = Some (Lab (Flat "A"))).
Proof.
  intros U0 U1. split; [vm_compute; reflexivity|]. split; [vm_compute; reflexivity|]. split; [exact s_sto0|]. split; [exact s_sto1|].
  assert (EX : forall i n, rmap (map exact_row) (snd (s_sto i)) = Ok (repeat s_row n) -> exists ts m result logsums, s_dis G i seed ts m (Ok (result, logsums))).
  { intros i n ST. destruct (s_sto i) as [[ts1 m1] [out|]] eqn:RS; [|discriminate ST]; unfold rmap in ST; cbn [snd] in ST.
    destruct (C96_discrete_returns (fun x => x) (fun x => x) idE (e_local _ _ _ _) G s_ops i 1 true seed true false true ts1 m1 out s_trees (le_n 1) RS) as [[o RO] OK].
    pose proof (OK _ _ _ RO) as O1. destruct o as [[result logsums]|]; [|discriminate O1]. exists ts1, m1, result, logsums. exact RO. }
  split; [exact (EX 0 2 s_sto0)|]. split; [exact (EX 1 1 s_sto1)|]. split.
  - intros ts m result logsums R. rewrite (s_simulated G 0 1 2 seed ts m result logsums s_choices0 s_sto0 (le_n 2) R). now rewrite U1.
  - intros ts m result logsums R. rewrite (s_simulated G 1 0 1 seed ts m result logsums s_choices1 s_sto1 (le_n 1) R). now rewrite U0.
Qed.
(** such a generator *)
Definition two_numbers : generator idF := Generator idF bool (fun _ => true) (fun first => (if first then one_half else f64_one, false)) (fun s => (0%Z, s)).
Example C109_generator_exists : f64_le (kth_uniform two_numbers (gseed two_numbers 7) 0) one_half = true /\ f64_le (kth_uniform two_numbers (gseed two_numbers 7) 1) one_half = false.
Proof. split; vm_compute; reflexivity. Qed.
Print Assumptions C108_same_data_same_utilities.
Print Assumptions C108_same_data_same_probabilities.
Print Assumptions C108_same_data_same_choices.
Print Assumptions C109_choice_in_subset_refuted.
