(** C38, C39: dict literals (cheval/parsing/expressions.py 54-107, ast_transformer.py 174-204). *)
From Coq Require Import Permutation Reals Lra.
From Flocq Require Import Core.Core IEEE754.BinarySingleNaN.
From Verif Require Import Prelude Arith ExprModel SpecExpr SpecDict ExprProofs ExprMeaning ExprDict.
Local Open Scope string_scope.
Local Open Scope nat_scope.
Local Open Scope list_scope.

(** ** [np.float32] of a Python float, stored in an array of float64 *)
Definition float32 := binary_float 24 128.
Definition to32 (x : float64) : float32 :=
  match x with
  | B754_finite s m e _ => binary_normalize 24 128 (eq_refl : (0 < 24)%Z) (eq_refl : (24 < 128)%Z) mode_NE (SpecFloat.cond_Zopp s (Zpos m)) e s
  | B754_zero s => B754_zero s
  | B754_infinity s => B754_infinity s
  | B754_nan => B754_nan
  end.
Definition of32 (x : float32) : float64 :=
  match x with
  | B754_finite s m e _ => binary_normalize 53 1024 (eq_refl : (0 < 53)%Z) (eq_refl : (53 < 1024)%Z) mode_NE (SpecFloat.cond_Zopp s (Zpos m)) e s
  | B754_zero s => B754_zero s
  | B754_infinity s => B754_infinity s
  | B754_nan => B754_nan
  end.
(** the literal [x], negated or not, as it arrives in the array (ast_transformer.py 190, 192) *)
Definition signed (neg : bool) (x : float64) : float64 := if neg then Bopp x else x.
Definition stored (neg : bool) (x : float64) : float64 := of32 (to32 (signed neg x)).

(** * C38 *)

(** In a flat model the literal yields, for every choice, the last value given for it (rounded to
    float32, [stored]) and 0 if none is given; it is accepted exactly if every key is the name of a
    choice. *)
Theorem C38_flat_literal_partial (choices : list string) (lit : list (list string * (bool * float64))) :
  NoDup choices ->
  (Forall (fun e => exists c, fst e = [c] /\ In c choices) lit ->
   expand_literal f64_zero stored 1 (map (fun c => [c]) choices) lit = Ok (map (flat_value f64_zero stored lit) choices)) /\
  (~ Forall (fun e => exists c, fst e = [c] /\ In c choices) lit ->
   exists x, expand_literal f64_zero stored 1 (map (fun c => [c]) choices) lit = Err x /\ (x = KeyError \/ x = AssertionError)).
Proof. intros N. apply (expand_flat f64_zero stored choices N). Qed.
Print Assumptions C38_flat_literal_partial.

(** In a nested model a key A.B gives its value to the node A.B only, a key A.B._ to every node strictly
    below A.B and resets A.B itself to 0 (see [concerns] and C39), in the order of the entries; it is
    accepted exactly if every key names a node. *)
Theorem C38_nested_literal_partial (n : nat) (nodes : list (list string)) (lit : list (list string * (bool * float64))) :
  n <> 1 -> tree_paths n nodes -> Forall (fun e => ~ In "." (fst e)) lit ->
  (Forall (fun e => In (about (fst e)) nodes) lit ->
   expand_literal f64_zero stored n (map (padded n) nodes) lit = Ok (map (node_value f64_zero stored lit) nodes)) /\
  (~ Forall (fun e => In (about (fst e)) nodes) lit -> expand_literal f64_zero stored n (map (padded n) nodes) lit = Err KeyError).
Proof. intros N T D. apply (expand_nested f64_zero stored n nodes N T lit D). Qed.
Print Assumptions C38_nested_literal_partial.

(** The keys a parsed dict display can have contain no "." *)
Definition fl (m e : Z) : float64 := binary_normalize 53 1024 _ _ mode_NE m e false.
Definition ex_nodes : list (list string) := [["A"]; ["D"]; ["I"]; ["A"; "B"]; ["A"; "C"]; ["D"; "E"]; ["D"; "E"; "F"]; ["D"; "E"; "G"]].
Definition ex_lit : list (list string * (bool * float64)) :=
  [(["D"; "_"], (false, fl 2 0)); (["D"], (false, fl 7 0)); (["A"; "B"], (true, fl 3 0)); (["D"; "E"; "F"], (false, fl 5 0))].
Example C38_hypotheses_met :
  tree_paths 3 ex_nodes /\ Forall (fun e => ~ In "." (fst e)) ex_lit /\ Forall (fun e => In (about (fst e)) ex_nodes) ex_lit /\
  map (fun v => B2SF v) (map (node_value f64_zero stored ex_lit) ex_nodes)
  = map (fun v => B2SF v) [f64_zero; fl 7 0; f64_zero; fl (-3) 0; f64_zero; fl 2 0; fl 5 0; fl 2 0].
Proof.
  split; [|split; [|split]].
  - split.
    + repeat constructor; simpl; intuition discriminate.
    + repeat constructor; simpl; try discriminate; try lia; intuition discriminate.
  - repeat constructor; simpl; intuition discriminate.
  - repeat constructor; simpl; tauto.
  - vm_compute. reflexivity.
Qed.
Example C38_flat_hypotheses_met : NoDup ["A"; "B"] /\
  Forall (fun e : list string * (bool * float64) => exists c, fst e = [c] /\ In c ["A"; "B"]) [(["B"], (false, fl 1 0)); (["B"], (true, fl 5 0))].
Proof.
  split; [repeat constructor; simpl; intuition discriminate|].
  repeat constructor; exists "B"; simpl; auto.
Qed.

(** "The stated value" is false: the values go through float32, 0.1 does not survive. *)
Definition tenth : float64 := fl 3602879701896397 (-55).
Theorem C38_stated_value_refuted :
  exists lit : list (list string * (bool * float64)), lit = [(["A"], (false, tenth))] /\
    exists v, expand_literal f64_zero stored 1 [["A"]; ["B"]] lit = Ok [v; f64_zero] /\ Beqb v tenth = false /\ Bltb tenth v = true.
Proof.
  eexists. split; [reflexivity|]. exists (stored false tenth). split; [reflexivity|]. vm_compute. auto.
Qed.
Print Assumptions C38_stated_value_refuted.

(** It is true of the values float32 can represent. *)
Theorem C38_representable_values_exact (neg : bool) (x : float64) :
  is_finite x = true ->
  generic_format radix2 (FLT_exp (-149) 24) (B2R x) -> (Rabs (B2R x) < bpow radix2 128)%R ->
  is_finite (stored neg x) = true /\ B2R (stored neg x) = (if neg then - B2R x else B2R x)%R.
Proof.
  assert (K : forall y : float64, is_finite y = true -> generic_format radix2 (FLT_exp (-149) 24) (B2R y) -> (Rabs (B2R y) < bpow radix2 128)%R ->
    is_finite (to32 y) = true /\ B2R (to32 y) = B2R y).
  { intros [s|s| |s m e B] F G H; try discriminate; [split; reflexivity|]. unfold to32.
    pose proof (binary_normalize_correct 24 128 eq_refl eq_refl mode_NE (SpecFloat.cond_Zopp s (Zpos m)) e s) as C.
    assert (E : F2R (Float radix2 (SpecFloat.cond_Zopp s (Zpos m)) e) = B2R (B754_finite s m e B)) by reflexivity.
    cbv zeta in C. rewrite E in C. rewrite round_generic in C; [|apply valid_rnd_round_mode|exact G].
    rewrite Rlt_bool_true in C by exact H. destruct C as (C1 & C2 & _). auto. }
  assert (K2 : forall y : float32, is_finite y = true -> is_finite (of32 y) = true /\ B2R (of32 y) = B2R y).
  { intros [s|s| |s m e B] F; try discriminate; [split; reflexivity|]. unfold of32.
    pose proof (binary_normalize_correct 53 1024 eq_refl eq_refl mode_NE (SpecFloat.cond_Zopp s (Zpos m)) e s) as C.
    assert (E : F2R (Float radix2 (SpecFloat.cond_Zopp s (Zpos m)) e) = B2R (B754_finite s m e B)) by reflexivity.
    cbv zeta in C. rewrite E in C.
    assert (G : generic_format radix2 (SpecFloat.fexp 53 1024) (B2R (B754_finite s m e B))).
    { apply (generic_inclusion_mag radix2 (SpecFloat.fexp 24 128) (SpecFloat.fexp 53 1024)); [|apply generic_format_B2R].
      intros _. unfold SpecFloat.fexp, SpecFloat.emin. lia. }
    rewrite round_generic in C; [|apply valid_rnd_round_mode|exact G].
    rewrite Rlt_bool_true in C.
    - destruct C as (C1 & C2 & _). auto.
    - eapply Rlt_trans; [apply abs_B2R_lt_emax|]. apply bpow_lt. lia. }
  intros F G H. unfold stored. assert (FS : is_finite (signed neg x) = true) by (unfold signed; destruct neg; auto; now rewrite is_finite_Bopp).
  assert (VS : B2R (signed neg x) = (if neg then - B2R x else B2R x)%R) by (unfold signed; destruct neg; auto; apply B2R_Bopp).
  destruct (K (signed neg x) FS) as [A B].
  - rewrite VS. destruct neg; auto. now apply generic_format_opp.
  - rewrite VS. destruct neg; auto. now rewrite Rabs_Ropp.
  - destruct (K2 _ A) as [A' B']. split; auto. congruence.
Qed.
Print Assumptions C38_representable_values_exact.
(** and an integer below 2^24 is one of them *)
Example C38_representable_met : is_finite (fl 7 0) = true /\ generic_format radix2 (FLT_exp (-149) 24) (B2R (fl 7 0)) /\ (Rabs (B2R (fl 7 0)) < bpow radix2 128)%R.
Proof.
  split; [reflexivity|].
  assert (E : B2R (fl 7 0) = 7%R).
  { unfold fl. pose proof (binary_normalize_correct 53 1024 prec53_gt_0 prec53_lt_1024 mode_NE 7 0 false) as C. cbv zeta in C.
    assert (F7 : F2R (Float radix2 7 0) = 7%R) by (unfold F2R; simpl; lra). rewrite F7 in C.
    rewrite round_generic in C; [|apply valid_rnd_round_mode|].
    - rewrite Rlt_bool_true in C; [apply C|]. rewrite Rabs_pos_eq by lra. apply Rlt_le_trans with (bpow radix2 3); [simpl; lra|]. apply bpow_le. lia.
    - rewrite <- F7. apply (generic_format_FLT radix2 (-1074) 53). exists (Float radix2 7 0); auto; simpl; lia. }
  rewrite E. split.
  - replace 7%R with (F2R (Float radix2 7 0)) by (unfold F2R; simpl; lra).
    apply generic_format_FLT. exists (Float radix2 7 0); auto; simpl; lia.
  - rewrite Rabs_pos_eq by lra. apply Rlt_le_trans with (bpow radix2 3); [simpl; lra|]. apply bpow_le. lia.
Qed.

(** * C39 *)

(** Reordering the entries of a literal (no key twice) changes nothing if no node is concerned by two
    of them. *)
Theorem C39_order_of_entries_partial (n : nat) (nodes : list (list string)) (lit lit' : list (list string * (bool * float64))) :
  n <> 1 -> tree_paths n nodes -> Forall (fun e => ~ In "." (fst e)) lit ->
  Permutation lit lit' -> NoDup (map fst lit) ->
  (forall e e' p, In e lit -> In e' lit -> fst e <> fst e' -> In p nodes ->
     concerns (fst e) p = Nothing \/ concerns (fst e') p = Nothing) ->
  expand_literal f64_zero stored n (map (padded n) nodes) lit = expand_literal f64_zero stored n (map (padded n) nodes) lit'.
Proof.
  intros N T D P ND H.
  assert (D' : Forall (fun e => ~ In "." (fst e)) lit').
  { rewrite Forall_forall in *. intros e I. apply D. apply (Permutation_in _ (Permutation_sym P)). exact I. }
  destruct (expand_nested f64_zero stored n nodes N T lit D) as [A B].
  destruct (expand_nested f64_zero stored n nodes N T lit' D') as [A' B'].
  destruct (Forall_dec (fun e : list string * (bool * float64) => In (about (fst e)) nodes)
              (fun e => in_dec (list_eq_dec string_dec) (about (fst e)) nodes) lit) as [F|F].
  - assert (F' : Forall (fun e : list string * (bool * float64) => In (about (fst e)) nodes) lit').
    { rewrite Forall_forall in *. intros e I. apply F. apply (Permutation_in _ (Permutation_sym P)). exact I. }
    rewrite A, A' by auto. f_equal. apply map_ext_in. intros p Hp. apply node_value_perm; auto.
  - assert (F' : ~ Forall (fun e : list string * (bool * float64) => In (about (fst e)) nodes) lit').
    { intros X. apply F. rewrite Forall_forall in *. intros e I. apply X. apply (Permutation_in _ P). exact I. }
    now rewrite B, B'.
Qed.
Print Assumptions C39_order_of_entries_partial.

(** In a flat model the order never matters. *)
Theorem C39_order_of_entries_flat (choices : list string) (lit lit' : list (list string * (bool * float64))) :
  NoDup choices -> Permutation lit lit' -> NoDup (map fst lit) ->
  Forall (fun e => exists c, fst e = [c] /\ In c choices) lit ->
  expand_literal f64_zero stored 1 (map (fun c => [c]) choices) lit = expand_literal f64_zero stored 1 (map (fun c => [c]) choices) lit'.
Proof.
  intros N P ND F. destruct (C38_flat_literal_partial choices lit N) as [A _]. destruct (C38_flat_literal_partial choices lit' N) as [A' _].
  rewrite A by auto. rewrite A'.
  - f_equal. apply map_ext. intros c. unfold flat_value.
    assert (K : forall (l : list (list string * (bool * float64))), NoDup (map fst l) -> forall k v, last_value k l = Some v <-> In (k, v) l).
    { clear. induction l as [|[k' v'] l IH]; intros N k v; simpl; [split; [discriminate|tauto]|].
      simpl in N. inversion N as [|? ? N1 N2]; subst. specialize (IH N2).
      destruct (last_value k l) as [w|] eqn:E.
      - pose proof (proj1 (IH k w) E) as I. split.
        + intros X; injection X as <-. auto.
        + intros [X|X]; [injection X as -> ->; exfalso; apply N1; apply (in_map fst) in I; exact I|].
          apply (IH k v) in X. congruence.
      - destruct (list_eq_dec string_dec k k') as [->|NE]; split.
        + intros X; injection X as ->. auto.
        + intros [X|X]; [congruence|]. apply IH in X. congruence.
        + discriminate.
        + intros [X|X]; [congruence|]. apply IH in X. congruence. }
    assert (E : last_value [c] lit = last_value [c] lit').
    { destruct (last_value [c] lit) as [v|] eqn:E1.
      - apply (K lit ND) in E1. symmetry. apply K; [|apply (Permutation_in _ P); exact E1]. eapply Permutation_NoDup; [apply Permutation_map; exact P|exact ND].
      - destruct (last_value [c] lit') as [v|] eqn:E2; auto. apply K in E2; [|eapply Permutation_NoDup; [apply Permutation_map; exact P|exact ND]].
        apply (Permutation_in _ (Permutation_sym P)) in E2. apply (K lit ND) in E2. congruence. }
    now rewrite E.
  - rewrite Forall_forall in *. intros e I. apply F. apply (Permutation_in _ (Permutation_sym P)). exact I.
Qed.
Print Assumptions C39_order_of_entries_flat.

Example C39_hypotheses_met :
  let lit := [(["A"], (false, fl 1 0)); (["D"; "_"], (false, fl 2 0))] : list (list string * (bool * float64)) in
  NoDup (map fst lit) /\
  (forall e e' p, In e lit -> In e' lit -> fst e <> fst e' -> In p ex_nodes ->
     concerns (fst e) p = Nothing \/ concerns (fst e') p = Nothing).
Proof.
  split; [repeat constructor; simpl; intuition discriminate|].
  intros e e' p [<-|[<-|[]]] [<-|[<-|[]]] NE Hp; cbn [fst] in *; try congruence;
    simpl in Hp; repeat (destruct Hp as [<-|Hp]; [vm_compute; auto|]); destruct Hp.
Qed.

(** C39 is false: A and the children of A (A._) are different nodes, but the entry for A._ resets A, so
    that {A: 1, A._: 2} and {A._: 2, A: 1} differ. *)
Theorem C39_order_of_entries_refuted :
  exists a b : list (list string * (bool * float64)),
    a = [(["A"], (false, fl 1 0)); (["A"; "_"], (false, fl 2 0))] /\ Permutation a b /\
    match expand_literal f64_zero stored 2 [["A"; "."]; ["A"; "B"]] a, expand_literal f64_zero stored 2 [["A"; "."]; ["A"; "B"]] b with
    | Ok u, Ok v => map (fun x => B2SF x) u = map (fun x => B2SF x) [f64_zero; fl 2 0] /\ map (fun x => B2SF x) v = map (fun x => B2SF x) [fl 1 0; fl 2 0]
    | _, _ => False
    end.
Proof.
  eexists. exists [(["A"; "_"], (false, fl 2 0)); (["A"], (false, fl 1 0))]. split; [reflexivity|]. split; [apply perm_swap|].
  vm_compute. auto.
Qed.
Print Assumptions C39_order_of_entries_refuted.
