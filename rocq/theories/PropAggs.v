(** C112: the aggregations expressions accept (ast_transformer.py 19-21, 255-285;
    ldf/api.py 24-26). *)
From Coq Require Import Ascii.
From Verif Require Import Prelude DictProofs ExprModel SpecExpr ExprNull ExprProofs ExprUses LdfModel.
Local Open Scope string_scope.
Local Open Scope nat_scope.
Local Open Scope list_scope.

(** The aggregations of linked frames that LinkedDataFrame.md describes, without [nth], which is not
    an aggregation over one number per row. *)
Definition documented_aggs : list string :=
  ["max"; "min"; "mean"; "median"; "prod"; "std"; "sum"; "var"; "quantile"; "count"; "first"; "last"].
(** ... and those an expression may use *)
Definition usable_aggs : list string :=
  ["count"; "first"; "last"; "max"; "min"; "mean"; "median"; "prod"; "std"; "sum"; "var"].

Lemma documented_named f : In f documented_aggs <-> aggf_named f <> None.
Proof.
  unfold documented_aggs, aggf_named. cbn [dget]. split.
  - simpl. intros H. repeat (destruct H as [<-|H]; [vm_compute; discriminate|]). destruct H.
  - simpl. repeat match goal with |- context[String.eqb ?a f] => destruct (String.eqb_spec a f); [intros _; tauto|] end.
    repeat match goal with |- context[String.eqb f ?a] => destruct (String.eqb_spec f a); [intros _; subst; tauto|] end. congruence.
Qed.

Lemma supported_usable f : supported_agg f = true <-> In f usable_aggs.
Proof. unfold supported_agg. fold usable_aggs. now rewrite mem_iff. Qed.

(** An expression [t.a...f(e)] is accepted exactly when [f] is a usable aggregation, there is an
    argument, no keyword argument, and [t] is not in use as a symbol by itself; anything else than
    an aggregation that is usable is rejected as unsupported, whatever the rest. *)
Theorem C112_accepted_aggregations
  (L : Type) (nfn : string -> bool) (pyparse : string -> res (expr L)) text body flt name path callee func args kws simple chained :
  split_filter text = Ok (body, flt) ->
  pyparse body = Ok (ECall (EAttr callee func) args kws) -> dotted callee = Some (name, path) ->
  ((exists x, snd (parse nfn pyparse text simple chained) = Ok x) <->
   In func usable_aggs /\ args <> [] /\ kws = [] /\ ~ In name simple) /\
  (~ In func usable_aggs -> snd (parse nfn pyparse text simple chained) = Err UnsupportedSyntax).
Proof.
  intros SF PP D. unfold parse. rewrite SF, PP. cbn [visit visit_method attr_name].
  unfold visit_method. cbn [attr_name].
  assert (A := attr_name_spec callee).
  destruct (attr_name callee) as [[y c]|y]; [|destruct A as [A _]; rewrite D in A; discriminate A].
  rewrite D in A. injection A as -> ->.
  cbn [rbind]. rewrite <- supported_usable. destruct (supported_agg func); cbn [negb].
  2:{ split; [|reflexivity]. split; [intros [x E]; discriminate E|intros [E _]; discriminate E]. }
  split; [|intros H; exfalso; now apply H].
  destruct kws as [|kw kws]; cbn [length Nat.eqb negb].
  2:{ split; [intros [x E]; discriminate E|intros (_ & _ & E & _); discriminate E]. }
  destruct args as [|a args].
  { split; [intros [x E]; discriminate E|intros (_ & E & _); now elim E]. }
  unfold add_chain. cbn [v_simple]. destruct (mem y simple) eqn:M.
  - apply mem_iff in M. split; [intros [x E]; discriminate E|intros (_ & _ & _ & E); now elim E].
  - assert (~ In y simple) by (rewrite <- mem_iff, M; discriminate). split; [|intros _; cbn; eauto].
    intros _. repeat split; auto; discriminate.
Qed.
Print Assumptions C112_accepted_aggregations.

(** The property itself, "every aggregation of linked frames can be used in expressions", is false:
    [quantile] is a documented aggregation, but every expression that uses it is rejected. *)
Theorem C112_every_aggregation_refuted :
  exists f, In f documented_aggs /\
    forall (L : Type) (nfn : string -> bool) (pyparse : string -> res (expr L)) text body flt name path callee args kws simple chained,
      split_filter text = Ok (body, flt) ->
      pyparse body = Ok (ECall (EAttr callee f) args kws) -> dotted callee = Some (name, path) ->
      snd (parse nfn pyparse text simple chained) = Err UnsupportedSyntax.
Proof.
  exists "quantile". split; [unfold documented_aggs; simpl; tauto|].
  intros L nfn pyparse text body flt name path callee args kws simple chained SF PP D.
  apply (proj2 (C112_accepted_aggregations _ nfn _ _ _ _ _ _ _ _ _ _ simple chained SF PP D)).
  unfold usable_aggs. simpl. intros H. repeat (destruct H as [H|H]; [discriminate H|]). exact H.
Qed.
Print Assumptions C112_every_aggregation_refuted.

(** It is the only one missing. *)
Theorem C112_all_but_quantile : forall f, In f usable_aggs <-> In f documented_aggs /\ f <> "quantile".
Proof.
  intros f. unfold usable_aggs, documented_aggs. split.
  - intros H. simpl in H. split; [simpl; tauto|]. repeat (destruct H as [<-|H]; [discriminate|]). destruct H.
  - intros [H N]. simpl in *. intuition (subst; try congruence; tauto).
Qed.

(** [zones.trips.mean(distance)] with a plain [b] in use before. *)
Example C112_hypotheses_met :
  let callee : expr Z := EAttr (EName "zones") "trips" in
  let pyparse (s : string) := Ok (ECall (EAttr callee "mean") [EName "distance"] []) in
  dotted callee = Some ("zones", ["trips"]) /\
  exists x, snd (parse (fun _ => true) pyparse "zones.trips.mean(distance)" ["b"] []) = Ok x /\
    e_trans x = EName "__sub_zones0".
Proof. split; [reflexivity|]. eexists. split; vm_compute; reflexivity. Qed.
