(** Property C36, exactly: when the generated names clash. *)
From Coq Require Import Ascii DecimalString Decimal DecimalNat.
From Verif Require Import Prelude DictProofs ExprModel SpecExpr ExprProofs ExprUses ExprMeaning ExprContainer ExprNames ExprCounts PropExpr.
Local Open Scope string_scope.
Local Open Scope nat_scope.
Local Open Scope list_scope.

(** how often [y] is used with attributes *)
Definition usages (L : Type) (tree : expr L) (y : string) : nat := count_occ string_dec (chain_uses tree) y.

(** The names generated for an expression are pairwise distinct exactly when there are no two symbols
    of which one with the decimal numeral of one of its usages appended reads like the other with that
    of one of its own. *)
Theorem C36_names_distinct_iff
  (L : Type) (nfn : string -> bool) (pyparse : string -> res (expr L)) text body flt tree simple chained sets x :
  split_filter text = Ok (body, flt) -> pyparse body = Ok tree ->
  parse nfn pyparse text simple chained = (sets, Ok x) ->
  (NoDup (sub_names (e_chains x) ++ dkeys (e_dl x)) <->
   forall y z i j, i < usages L tree y -> j < usages L tree z -> (y ++ dec i = z ++ dec j)%string -> y = z).
Proof.
  intros SF PP P. destruct sets as [s' c']. apply parse_ok in P. destruct P as (e & st & T' & Vi & _ & _ & E1 & E2 & E3 & _).
  assert (e = tree) by (unfold tree_of in T'; rewrite SF, PP in T'; congruence). subst e.
  destruct (visit_inv _ _ _ _ _ Vi (wf_init simple chained)) as (W & _ & _). rewrite E1, E2, (wf_subs_iff st W).
  assert (HU : forall y, used y (v_ch st) = usages L tree y).
  { intros y. pose proof (visit_ycounts nfn y tree (VSt simple chained [] [] [])) as C. rewrite Vi in C. exact (C (wf_init simple chained) eq_refl). }
  split; intros H y z i j Hi Hj; apply H; rewrite ?HU in *; auto.
Qed.
(** so they are, when no symbol is used more than ten times with attributes *)
Theorem C36_up_to_ten_usages
  (L : Type) (nfn : string -> bool) (pyparse : string -> res (expr L)) text body flt tree simple chained sets x :
  split_filter text = Ok (body, flt) -> pyparse body = Ok tree ->
  parse nfn pyparse text simple chained = (sets, Ok x) ->
  (forall y, usages L tree y <= 10) ->
  NoDup (sub_names (e_chains x) ++ dkeys (e_dl x)).
Proof.
  intros SF PP P H. apply (C36_names_distinct_iff _ _ _ _ _ _ _ _ _ _ _ SF PP P). intros y z i j Hi Hj HE.
  destruct (dec_one i) as (c & Hc); [specialize (H y); lia|]. destruct (dec_one j) as (d & Hd); [specialize (H z); lia|].
  apply (f_equal chars) in HE. rewrite !chars_app, Hc, Hd in HE. apply app_inj_tail in HE. apply chars_inj, HE.
Qed.
(** symbols that end in digits: up to ten usages are fine, the eleventh usage of [a] is not *)
Example C36_exact_applies :
  (let tree := EBin Add (EAttr (EName "a") "p") (EAttr (EName "a1") "p") : expr nat in forall y, usages nat tree y <= 10) /\
  (0 < usages nat clash_tree "a1" /\ 10 < usages nat clash_tree "a" /\ ("a1" ++ dec 0 = "a" ++ dec 10)%string).
Proof.
  split; [|vm_compute; repeat split; lia]. intros tree y. unfold usages. etransitivity; [apply count_occ_bound|]. vm_compute. lia.
Qed.
