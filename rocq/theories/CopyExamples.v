(** Properties C56 and C57: a counterexample, and cases that meet the hypotheses. *)
From Flocq Require Import IEEE754.BinarySingleNaN.
From Verif Require Import Prelude Arith CoreModel TreeModel DictProofs ParModel ExprModel SpecExpr SpecContainer ExprWorld ScopeModel SpecScope ScopeProofs ModelModel ModelProofs SpecModel KernelProofs EvalProofs ModelExample PropState ModelWorld ModelHist ModelTabs ExprSets ModelInv RunProofs EvalTransfer PropUtility PropRerun PropPreval PropCopy PropIsolation.
Local Open Scope string_scope.
Local Open Scope nat_scope.
Local Open Scope list_scope.

(** ** Where a copy does not run like its original *)
(** "-x" does not register its name (C33).  In the original, [x] is still registered from a dropped group and the run
    succeeds; the copy registers the names of its own expressions only, and its run raises KeyError. *)
Definition fneg : float64 -> float64 := @Bopp 53 1024.
Definition negE : env nat (B64 (fun x => x) (fun x => x)) string float64 :=
  Env nat (B64 (fun x => x) (fun x => x)) string float64 (ev_eq idE) (ev_label idE) (ev_num idE) (ev_nan idE) (ev_ninf idE) (ev_f32 idE)
      (fun e rho => match e with EUn USub a => option_map fneg (ev_ne idE a rho) | _ => ev_ne idE e rho end) (ev_fn idE)
      (fun s => if String.eqb s "-x" then Ok (EUn USub (EName "x")) else ev_parse idE s) (ev_frames idE).
Theorem C56_hidden_name_refuted : exists ops : list (mop negE),
  let w := mrun negE (new_mworld negE) ops in let w' := mstep negE w (MCopy negE 0 default_flags) in
  rmap exact_table (snd (run_utilities negE (mheap negE w) (mcont negE w 0) (mw_tabs w) (model negE w 0) None false)) = Ok [[sfz (-3); sfz (-3)]; [sfz (-5); sfz (-5)]] /\
  map e_raw (iter (mheap negE w') (mcont negE w' 1) true) = map e_raw (iter (mheap negE w) (mcont negE w 0) true) /\
  snd (run_utilities negE (mheap negE w') (mcont negE w' 1) (mw_tabs w') (model negE w' 1) None false) = Err KeyError.
Proof.
  exists [MNew negE; MTree negE 0 (@AddChoices (B64 (fun x => x) (fun x => x)) ["A"; "B"] false None); MUnits negE 0 ["h1"; "h2"];
     MDeclare negE 0 "x" (DeclVector 0); MAssign negE 0 "x" (fseries (fun x => x) (fun x => x) ["h1"; "h2"] [3; 5]%Z);
     MAppend negE 0 "x" (Some "g"); MAppend negE 0 "-x" None; MDropGroup negE 0 "g"].
  cbv zeta. split; [vm_compute; reflexivity|]. split; vm_compute; reflexivity.
Qed.
Print Assumptions C56_hidden_name_refuted.

(** ** The frames of the example obey the laws of [frame_slices] *)
Lemma e_frame_slices (F : arith) lit nan ninf : forall mask, frame_slices (eenv F lit nan ninf) mask.
Proof.
  intros mask. constructor; cbn; auto; [|discriminate]. intros t a v _. unfold ef_col. cbn. destruct (position String.eqb (ef_columns F t) a); cbn; [|discriminate].
  intros H. injection H as <-. now rewrite keep_map.
Qed.

(** ** The hypotheses are met *)
Definition c_ops : list (mop idE) := two_choices (fun x => x) (fun x => x) ++ [MAppend idE 0 "x * 2" None; MAppend idE 0 "1 @ A" (Some "g")].
Definition c_world : mworld idE := mrun idE (new_mworld idE) c_ops.
Lemma c_orderly : orderly_history idE (new_mworld idE) c_ops.
Proof.
  unfold c_ops, two_choices. cbn [app orderly_history].
  repeat split; try exact I; try (intros n s []); try discriminate.
  all: match goal with H : SpecTree.is_key _ _ |- _ => exfalso; cbn in H; intuition discriminate | _ => idtac end.
  repeat constructor; cbn; intuition discriminate.
Qed.
Lemma c_names : exists simple xs, selection (mheap idE c_world) (mcont idE c_world 0) None = Ok (simple, xs) /\ length xs = 2 /\ forall x, In x xs -> plain_names simple x /\ own_names x.
Proof.
  exists ["x"], [Expression "x * 2" (EBin Mult (EName "x") (ENum 2)) [] [] None ["x"]; Expression "1 @ A" (ENum 1) [] [] (Some "A") []].
  split; [vm_compute; reflexivity|]. split; [reflexivity|].
  intros x [<-|[<-|[]]]; (split; [split; intros y Y; cbn in Y; intuition subst; auto|intros y Y; cbn in Y; intuition subst; cbn; auto]).
Qed.
Definition shape {A} (r : res (list (list A))) : res (list nat) := rmap (map (@length A)) r.
(** C56: a model of two choices, two decision units and two expressions, copied, and a run that succeeds *)
Example C56_hypotheses_met :
  numexpr_local idE /\ frame_laws idE /\ orderly_history idE (new_mworld idE) c_ops /\
  (exists simple xs, selection (mheap idE c_world) (mcont idE c_world 0) None = Ok (simple, xs) /\ length xs = 2 /\ forall x, In x xs -> plain_names simple x /\ own_names x) /\
  rmap exact_table (snd (run_utilities idE (mheap idE c_world) (mcont idE c_world 0) (mw_tabs c_world) (model idE c_world 0) None false)) = Ok [[sfz 7; sfz 6]; [sfz 11; sfz 10]].
Proof.
  split; [apply e_local|]. split; [apply e_frame_laws|]. split; [apply c_orderly|]. split; [apply c_names|]. vm_compute. reflexivity.
Qed.
(** C57: the mask keeps the second decision unit *)
Example C57_hypotheses_met : frame_slices idE [false; true] /\ length ["h1"; "h2"] = length [false; true] /\
  (exists ts' m', copy_subset idE (mw_tabs c_world) (model idE c_world 0) ["h1"; "h2"] [false; true] = (ts', Ok m') /\ m_du m' = Some ["h2"]).
Proof.
  split; [apply e_frame_slices|]. split; [reflexivity|].
  destruct (copy_subset idE (mw_tabs c_world) (model idE c_world 0) ["h1"; "h2"] [false; true]) as [ts r] eqn:R.
  assert (Q : rmap m_du (snd (copy_subset idE (mw_tabs c_world) (model idE c_world 0) ["h1"; "h2"] [false; true])) = Ok (Some ["h2"])) by (vm_compute; reflexivity).
  rewrite R in Q. cbn in Q. destruct r as [m|]; [|discriminate]. injection Q as Q. eauto.
Qed.
(** isolation: a copy is changed in every way, the original still gives its utilities *)
Definition c_changes : list (mop idE) :=
  [MCopy idE 0 default_flags; MAppend idE 1 "x" None; MPreval idE 1 "g" true true; MClearScope idE 1; MUnits idE 1 ["h3"]; MTree idE 1 (@AddChoice (B64 (fun x => x) (fun x => x)) "C" (flz 1))].
Example C56_isolation_met : 0 < length (mw_models c_world) /\ Forall (fun o => called_on idE o <> Some 0) c_changes /\
  m_du (model idE (mrun idE c_world c_changes) 1) = Some ["h3"].
Proof. split; [vm_compute; lia|]. split; [repeat constructor; discriminate|vm_compute; reflexivity]. Qed.
