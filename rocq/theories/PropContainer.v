(** C34, C35, C41, C42: expression containers (cheval/api.py 113-241). *)
From Coq Require Import Permutation.
From Verif Require Import Prelude DictProofs ExprModel SpecExpr SpecContainer ExprProofs ExprUses ExprContainer ExprWorld.
Local Open Scope string_scope.
Local Open Scope nat_scope.
Local Open Scope list_scope.

(** The parser used in the examples *)
Definition cx_parse (s : string) : res (expr nat) :=
  if String.eqb s "x" then Ok (EName "x")
  else if String.eqb s "x.y" then Ok (EAttr (EName "x") "y")
  else if String.eqb s "x + foo(1)" then Ok (EBin Add (EName "x") (ECall (EName "foo") [ENum 1] []))
  else if String.eqb s "a * b.c" then Ok (EBin Mult (EName "a") (EAttr (EName "b") "c"))
  else if String.eqb s "1" then Ok (ENum 1)
  else Err SyntaxErr.
Definition cx_fn (s : string) : bool := String.eqb s "log".
Notation cx_run := (crun (L:=nat) cx_fn cx_parse new_world).
Notation cx_raw := (map (@e_raw nat)).

(** * C41: what the containers hold *)

(** For every history of new / append (accepted or rejected) / clear / drop_group / copy on any number of
    containers, the containers hold what plain, unshared containers given the same accepted
    expressions hold: iteration is the ungrouped expressions in order of appending, then the groups in
    order of first use; get_group returns the expressions of the group or raises KeyError. *)
Theorem C41_containers_hold_what_was_appended (L : Type) nfn (pyparse : string -> res (expr L)) ops i :
  Forall no_add ops ->
  let w := crun nfn pyparse new_world ops in
  let plain := nth i (p_run (plain_trace nfn pyparse new_world ops)) empty_container in
  length (w_conts w) = length (p_run (plain_trace nfn pyparse new_world ops)) /\
  iter (w_heap w) (cont w i) true = p_all plain /\
  iter (w_heap w) (cont w i) false = p_ungrouped plain /\
  tolist (cont w i) = p_ungrouped plain /\
  (forall g, match get_group (w_heap w) (cont w i) g with
             | Ok s => p_group g (p_groups plain) = Some (sg_exprs s)
             | Err x => x = KeyError /\ p_group g (p_groups plain) = None
             end) /\
  (forall g, snd (drop_group (cont w i) g) = match p_group g (p_groups plain) with Some _ => Ok tt | None => Err KeyError end).
Proof.
  intros F w plain. destruct (run_view nfn pyparse ops new_world own_new F) as [O V].
  fold w in V, O. change (wview new_world) with (@nil (plain_container (@expression L))) in V.
  assert (LEN : length (w_conts w) = length (p_run (plain_trace nfn pyparse new_world ops))).
  { unfold p_run. rewrite <- V. unfold wview. now rewrite map_length. }
  assert (E : plain = view (w_heap w) (cont w i)).
  { unfold plain, p_run. rewrite <- V. unfold wview. destruct (lt_dec i (length (w_conts w))) as [H|H].
    - now rewrite (nth_map_lt _ _ i new_container).
    - rewrite nth_overflow by (rewrite map_length; lia). unfold cont. rewrite nth_overflow by lia. reflexivity. }
  split; auto. rewrite E. split; [symmetry; apply p_all_view|]. split; [unfold iter; apply app_nil_r|]. split; [reflexivity|]. split.
  - intros g. unfold get_group. simpl. rewrite p_group_view. destruct (dget String.eqb (c_subs (cont w i)) g); auto.
  - intros g. unfold drop_group, dmem. simpl. rewrite p_group_view. destruct (dget String.eqb (c_subs (cont w i)) g); reflexivity.
Qed.
Print Assumptions C41_containers_hold_what_was_appended.

Definition cx_hist : list cop :=
  [ONew; OAppend 0 "x" None; OAppend 0 "1" (Some "g"); OAppend 0 "x.y" None; OAppend 0 "a * b.c" (Some "f"); OAppend 0 "x" (Some "g");
   OCopy 0; OAppend 1 "1" (Some "f"); ODrop 0 "f"; ODrop 0 "zz"].
Example C41_hypotheses_met : Forall no_add cx_hist /\
  cx_raw (iter (w_heap (cx_run cx_hist)) (cont (cx_run cx_hist) 0) true) = ["x"; "1"; "x"] /\
  cx_raw (iter (w_heap (cx_run cx_hist)) (cont (cx_run cx_hist) 1) true) = ["x"; "1"; "x"; "a * b.c"; "1"].
Proof. split; [repeat constructor|]. vm_compute. auto. Qed.

(** drop_group removes only that group, and a rejected append changes no expression *)
Theorem C41_drop_removes_only_the_group (X : Type) (c : plain_container X) g h :
  p_ungrouped (p_drop g c) = p_ungrouped c /\
  p_group g (p_groups (p_drop g c)) = None /\
  (h <> g -> p_group h (p_groups (p_drop g c)) = p_group h (p_groups c)).
Proof.
  split; [reflexivity|]. unfold p_drop. simpl. split.
  - induction (p_groups c) as [|[n xs] t IH]; simpl; auto. destruct (string_dec n g); simpl; auto.
    destruct (string_dec n g); [congruence|]. exact IH.
  - intros NE. induction (p_groups c) as [|[n xs] t IH]; simpl; auto. destruct (string_dec n g) as [->|]; simpl.
    + destruct (string_dec g h); [congruence|]. exact IH.
    + destruct (string_dec n h); auto.
Qed.
(** appending to a group changes only that group *)
Theorem C41_append_changes_only_the_group (X : Type) (x : X) (c : plain_container X) g h :
  p_group g (p_groups (p_append x (Some g) c)) = Some (match p_group g (p_groups c) with Some xs => xs | None => [] end ++ [x]) /\
  p_ungrouped (p_append x (Some g) c) = p_ungrouped c /\
  (h <> g -> p_group h (p_groups (p_append x (Some g) c)) = p_group h (p_groups c)).
Proof.
  split; [|split; [reflexivity|]]; simpl.
  - induction (p_groups c) as [|[n xs] t IH]; simpl; [destruct (string_dec g g); congruence|].
    destruct (string_dec n g) as [->|]; simpl; [destruct (string_dec g g); congruence|]. destruct (string_dec n g); [congruence|]. exact IH.
  - intros NE. induction (p_groups c) as [|[n xs] t IH]; simpl; [destruct (string_dec g h); congruence|].
    destruct (string_dec n g) as [->|]; simpl; [destruct (string_dec g h); congruence|]. destruct (string_dec n h); auto.
Qed.
Print Assumptions C41_append_changes_only_the_group.

(** * C42: aliasing *)

(** An operation on one container never changes what another one holds, in histories without [+]. *)
Definition target (o : cop) : option nat :=
  match o with OAppend i _ _ | OClear i | ODrop i _ => Some i | _ => None end.
Theorem C42_no_aliasing_partial (L : Type) nfn (pyparse : string -> res (expr L)) ops o i :
  Forall no_add ops -> no_add o -> target o <> Some i ->
  let w := crun nfn pyparse new_world ops in
  let w' := cstep nfn pyparse w o in
  i < length (w_conts w) ->
  iter (w_heap w') (cont w' i) true = iter (w_heap w) (cont w i) true /\
  tolist (cont w' i) = tolist (cont w i) /\
  (forall g, match get_group (w_heap w) (cont w i) g, get_group (w_heap w') (cont w' i) g with
             | Ok s, Ok s' => sg_exprs s' = sg_exprs s
             | Err x, Err y => x = y
             | _, _ => False
             end).
Proof.
  intros F NA T w w' Hi. destruct (run_view nfn pyparse ops new_world own_new F) as [O _]. fold w in O.
  destruct (step_view nfn pyparse w o O NA) as [O' V']. fold w' in O', V'.
  assert (E : view (w_heap w') (cont w' i) = view (w_heap w) (cont w i)).
  { assert (LW : length (w_conts w) <= length (w_conts w')).
    { rewrite <- (map_length (view (w_heap w')) (w_conts w')), <- (map_length (view (w_heap w)) (w_conts w)).
      fold (wview w) (wview w'). rewrite V'. destruct o as [|j e g|j|j g|j|j k keys]; simpl; try (rewrite app_length; lia); try (rewrite upd_length; lia); try lia.
      destruct (snd (parse nfn pyparse e _ _)); simpl; rewrite ?upd_length; lia. }
    transitivity (nth i (wview w') empty_container); [unfold wview; rewrite (nth_map_lt _ _ i new_container) by lia; reflexivity|].
    transitivity (nth i (wview w) empty_container); [|unfold wview; rewrite (nth_map_lt _ _ i new_container) by lia; reflexivity].
    assert (HL : i < length (wview w)) by (unfold wview; now rewrite map_length).
    rewrite V'. destruct o as [|j e g|j|j g|j|j k keys]; simpl in *; try contradiction.
    - now apply app_nth1.
    - destruct (snd (parse nfn pyparse e _ _)); simpl; auto. apply nth_upd_neq. congruence.
    - apply nth_upd_neq. congruence.
    - apply nth_upd_neq. congruence.
    - now apply app_nth1. }
  split; [rewrite <- !p_all_view; congruence|]. split; [exact (f_equal p_ungrouped E)|].
  intros g. pose proof (p_group_view (w_heap w) (c_subs (cont w i)) g) as A. pose proof (p_group_view (w_heap w') (c_subs (cont w' i)) g) as B.
  assert (EG : groups_view (w_heap w') (c_subs (cont w' i)) = groups_view (w_heap w) (c_subs (cont w i))) by exact (f_equal p_groups E).
  rewrite EG in B. unfold get_group.
  destruct (dget String.eqb (c_subs (cont w i)) g), (dget String.eqb (c_subs (cont w' i)) g); auto; congruence.
Qed.
Print Assumptions C42_no_aliasing_partial.

Example C42_hypotheses_met : Forall no_add cx_hist /\ no_add (OAppend 1 "1" (Some "g")) /\
  target (OAppend 1 "1" (Some "g")) <> Some 0 /\ 0 < length (w_conts (cx_run cx_hist)).
Proof. split; [repeat constructor|]. split; [exact I|]. split; [discriminate|]. vm_compute. lia. Qed.

(** C42 is false for [+]: a group present in one operand only is the same object in the sum. *)
Theorem C42_no_aliasing_refuted :
  let w := cx_run [ONew; ONew; OAppend 0 "1" (Some "g"); OAdd 0 1 ["g"]] in
  let w' := cstep cx_fn cx_parse w (OAppend 2 "x" (Some "g")) in
  cx_raw (iter (w_heap w) (cont w 0) true) = ["1"] /\ cx_raw (iter (w_heap w') (cont w' 0) true) = ["1"; "x"].
Proof. vm_compute. auto. Qed.
Print Assumptions C42_no_aliasing_refuted.

(** What [+] does promise: at the moment it is built, the sum holds the ungrouped expressions of both
    and, for each group, those of the first followed by those of the second; the operands are as
    before.  [keys] is the order in which Python enumerates the set of group names. *)
Definition group_of {L} (h : list (@subgroup L)) (c : @container L) (g : string) : list expression :=
  match get_group h c g with Ok s => sg_exprs s | Err _ => [] end.
Section Sum.
  Context {L : Type}.
  Notation heap := (list (@subgroup L)).
  Lemma sg_add_exprs (a b : @subgroup L) : sg_exprs (sg_add a b) = sg_exprs a ++ sg_exprs b.
  Proof. unfold sg_add. now rewrite !fold_append_exprs. Qed.
  Lemma group_of_app (h t : heap) c g : (forall n r, In (n, r) (c_subs c) -> r < length h) -> group_of (h ++ t) c g = group_of h c g.
  Proof.
    intros R. unfold group_of, get_group. destruct (dget String.eqb (c_subs c) g) as [r|] eqn:E; auto.
    apply (dget_in String.eqb String.eqb_eq) in E. apply R in E. now rewrite deref_app.
  Qed.
  Lemma add_subs_spec (a b : @container L) : forall keys (h : heap) acc h' subs,
    add_subs h a b keys acc = (h', subs) ->
    (forall n r, In (n, r) (c_subs a) -> r < length h) -> (forall n r, In (n, r) (c_subs b) -> r < length h) ->
    NoDup keys -> (forall k, In k keys -> ~ In k (dkeys acc)) ->
    (forall k, In k keys -> In k (dkeys (c_subs a)) \/ In k (dkeys (c_subs b))) ->
    exists t rs, h' = h ++ t /\ subs = acc ++ rs /\
      groups_view h' rs = map (fun k => (k, group_of h a k ++ group_of h b k)) keys.
  Proof.
    induction keys as [|k ks IH]; intros h acc h' subs E Ra Rb N D K; simpl in E.
    - injection E as <- <-. exists [], []. rewrite !app_nil_r. auto.
    - inversion N as [|? ? N1 N2]; subst.
      assert (SD : forall r m, In m ks -> ~ In m (dkeys (dset String.eqb acc k r))).
      { intros r m Hm X. unfold dkeys in X. rewrite (dset_absent String.eqb String.eqb_eq) in X by (apply D; simpl; auto).
        rewrite map_app in X. apply in_app_or in X. simpl in X. destruct X as [X|[<-|[]]]; [apply (D m); simpl; auto|auto]. }
      assert (AC : forall r, dset String.eqb acc k r = acc ++ [(k, r)]) by (intros r; apply (dset_absent String.eqb String.eqb_eq), D; simpl; auto).
      unfold group_of, get_group.
      destruct (dget String.eqb (c_subs a) k) as [ra|] eqn:Ga; destruct (dget String.eqb (c_subs b) k) as [rb|] eqn:Gb.
      + pose proof (dget_in String.eqb String.eqb_eq _ _ _ Ga) as Ia. pose proof (dget_in String.eqb String.eqb_eq _ _ _ Gb) as Ib.
        set (s := sg_add (deref h ra) (deref h rb)) in *.
        apply IH in E; auto.
        * destruct E as (t & rs & -> & -> & G). exists (s :: t), ((k, length h) :: rs). rewrite AC, <- !app_assoc. simpl. split; auto. split; auto.
          unfold groups_view in *. cbn [map fst snd]. f_equal.
          -- rewrite Ga, Gb. f_equal. replace (h ++ s :: t) with ((h ++ [s]) ++ t) by (now rewrite <- app_assoc).
             rewrite deref_app by (rewrite app_length; simpl; lia). rewrite deref_new. unfold s. apply sg_add_exprs.
          -- rewrite <- app_assoc in G. simpl in G. etransitivity; [exact G|]. apply map_ext. intros m. f_equal. f_equal; apply group_of_app; auto.
        * intros n r I. rewrite app_length. apply Ra in I. lia.
        * intros n r I. rewrite app_length. apply Rb in I. lia.
        * intros m I. apply K. simpl. auto.
      + pose proof (dget_in String.eqb String.eqb_eq _ _ _ Ga) as Ia.
        apply IH in E; auto; [|intros m I; apply K; simpl; auto].
        destruct E as (t & rs & -> & -> & G). exists t, ((k, ra) :: rs). rewrite AC, <- !app_assoc. simpl. split; auto. split; auto.
        unfold groups_view in *. cbn [map fst snd]. f_equal; [|exact G]. rewrite Ga, Gb. rewrite deref_app by (eapply Ra; eauto). now rewrite app_nil_r.
      + pose proof (dget_in String.eqb String.eqb_eq _ _ _ Gb) as Ib.
        apply IH in E; auto; [|intros m I; apply K; simpl; auto].
        destruct E as (t & rs & -> & -> & G). exists t, ((k, rb) :: rs). rewrite AC, <- !app_assoc. simpl. split; auto. split; auto.
        unfold groups_view in *. cbn [map fst snd]. f_equal; [|exact G]. rewrite Ga, Gb. rewrite deref_app by (eapply Rb; eauto). reflexivity.
      + exfalso. apply (dget_none String.eqb String.eqb_eq) in Ga, Gb. destruct (K k); simpl; auto.
  Qed.
End Sum.

Theorem C42_sum_holds_both (L : Type) nfn (pyparse : string -> res (expr L)) ops i j keys :
  Forall no_add ops ->
  let w := crun nfn pyparse new_world ops in
  NoDup keys -> (forall k, In k keys <-> In k (dkeys (c_subs (cont w i))) \/ In k (dkeys (c_subs (cont w j)))) ->
  let w' := cstep nfn pyparse w (OAdd i j keys) in
  let s := cont w' (length (w_conts w)) in
  tolist s = tolist (cont w i) ++ tolist (cont w j) /\
  iter (w_heap w') s true = tolist (cont w i) ++ tolist (cont w j)
    ++ concat (map (fun k => group_of (w_heap w) (cont w i) k ++ group_of (w_heap w) (cont w j) k) keys) /\
  (forall k, group_of (w_heap w') s k = group_of (w_heap w) (cont w i) k ++ group_of (w_heap w) (cont w j) k) /\
  (forall m, m < length (w_conts w) -> cont w' m = cont w m /\
     iter (w_heap w') (cont w' m) true = iter (w_heap w) (cont w m) true).
Proof.
  intros F w N K w' s. destruct (run_view nfn pyparse ops new_world own_new F) as [O _]. fold w in O.
  unfold s, w'. cbn [cstep]. unfold add. set (a := cont w i) in *. set (b := cont w j) in *.
  destruct (add_subs (w_heap w) a b keys []) as [h' subs] eqn:E.
  assert (Ra : forall n r, In (n, r) (c_subs a) -> r < length (w_heap w)) by (intros n r I; eapply (ow_range _ O i); eauto).
  assert (Rb : forall n r, In (n, r) (c_subs b) -> r < length (w_heap w)) by (intros n r I; eapply (ow_range _ O j); eauto).
  apply add_subs_spec in E; auto; [|intros k I; now apply K].
  destruct E as (t & rs & -> & E & G). simpl in E. subst subs.
  cbv beta iota zeta. rewrite cont_new, Nat.eqb_refl. cbn [tolist c_ungrouped w_heap c_subs].
  assert (IT : forall c, iter (w_heap w ++ t) c true = p_all (view (w_heap w ++ t) c)) by (intros c; now rewrite p_all_view).
  split; [reflexivity|]. split; [|split].
  - rewrite IT. unfold p_all, view. simpl. rewrite G, map_map, <- app_assoc. reflexivity.
  - intros k. unfold group_of at 1, get_group. simpl. pose proof (p_group_view (w_heap w ++ t) rs k) as P. rewrite G in P.
    assert (Q : p_group k (map (fun k => (k, group_of (w_heap w) a k ++ group_of (w_heap w) b k)) keys)
                = if in_dec string_dec k keys then Some (group_of (w_heap w) a k ++ group_of (w_heap w) b k) else None).
    { clear. induction keys as [|m ks IH]; simpl; auto. destruct (string_dec m k) as [->|NE]; [reflexivity|]. rewrite IH.
      destruct (in_dec string_dec k ks); reflexivity. }
    rewrite Q in P. destruct (in_dec string_dec k keys) as [I|I].
    + destruct (dget String.eqb rs k); congruence.
    + destruct (dget String.eqb rs k); [discriminate|]. unfold group_of, get_group.
      assert (X : ~ In k (dkeys (c_subs a)) /\ ~ In k (dkeys (c_subs b))) by (split; intros X; apply I, K; auto).
      destruct X as [Xa Xb]. apply (dget_none String.eqb String.eqb_eq) in Xa, Xb. now rewrite Xa, Xb.
  - intros m Hm. rewrite cont_new. destruct (Nat.eqb_spec m (length (w_conts w))); [lia|]. split; [reflexivity|].
    rewrite IT. fold (cont w m). rewrite view_app by auto. now rewrite p_all_view.
Qed.
Print Assumptions C42_sum_holds_both.
Example C42_sum_example :
  let w := cx_run [ONew; ONew; OAppend 0 "1" (Some "g"); OAppend 0 "x" None; OAppend 1 "x" (Some "g"); OAppend 1 "1" (Some "f"); OAdd 0 1 ["f"; "g"]] in
  cx_raw (iter (w_heap w) (cont w 2) true) = ["x"; "1"; "1"; "x"].
Proof. vm_compute. auto. Qed.

(** * C34 *)

(** In one container, over every history of accepted and rejected appends, drops and clears (the other
    containers of the program included): no symbol is recorded both as simple and as chained, the
    expressions it holds use symbols consistently, and every inconsistent use is rejected. *)
Theorem C34_simple_or_chained (L : Type) nfn (pyparse : string -> res (expr L)) ops i :
  Forall no_copy ops ->
  let w := crun nfn pyparse new_world ops in
  (forall x, In x (itersimple (w_heap w) (cont w i) true) -> ~ In x (iterchained (w_heap w) (cont w i) true)) /\
  (forall x y s, In x (iter (w_heap w) (cont w i) true) -> In y (iter (w_heap w) (cont w i) true) ->
     In s (e_symbols x) -> ~ In s (dkeys (e_chains y))) /\
  (forall text tree body flt g s,
     split_filter text = Ok (body, flt) -> pyparse body = Ok tree ->
     (In s (simple_uses tree) /\ In s (chain_uses tree)) \/
     (In s (simple_uses tree) /\ exists y, In y (iter (w_heap w) (cont w i) true) /\ In s (dkeys (e_chains y))) \/
     (In s (chain_uses tree) /\ exists y, In y (iter (w_heap w) (cont w i) true) /\ In s (e_symbols y)) ->
     exists x, snd (append nfn pyparse (w_heap w) (cont w i) text g) = Err x).
Proof.
  intros F w.
  assert (F' : Forall no_add ops) by (eapply Forall_impl; [|exact F]; apply no_copy_add).
  destruct (run_view nfn pyparse ops new_world own_new F') as [O _].
  pose proof (run_consistent nfn pyparse ops new_world own_new consistent_new F) as C.
  fold w in O, C.
  assert (SI : forall x, In x (itersimple (w_heap w) (cont w i) true) -> In x (c_simple (cont w i))).
  { intros x I. unfold itersimple in I. apply in_app_or in I. destruct I as [I|I]; auto. apply in_concat in I.
    destruct I as (l & I & J). apply in_map_iff in I. destruct I as (s & <- & I). unfold subs_of in I. apply in_map_iff in I.
    destruct I as (r & <- & I). apply in_vals_ex in I. destruct I as (n & I). eapply (cs_sub_s _ C i); eauto. }
  assert (CI : forall x, In x (iterchained (w_heap w) (cont w i) true) -> In x (c_chained (cont w i))).
  { intros x I. unfold iterchained in I. apply in_app_or in I. destruct I as [I|I]; auto. apply in_concat in I.
    destruct I as (l & I & J). apply in_map_iff in I. destruct I as (s & <- & I). unfold subs_of in I. apply in_map_iff in I.
    destruct I as (r & <- & I). apply in_vals_ex in I. destruct I as (n & I). eapply (cs_sub_c _ C i); eauto. }
  split; [|split].
  - intros x I J. eapply (cs_disj _ C i); eauto.
  - intros x y s Hx Hy I J. apply (cs_disj _ C i s); [apply (cs_expr _ C i x); auto|apply (cs_expr _ C i y); auto].
  - intros text tree body flt g s SF PP H. unfold append.
    destruct (parse nfn pyparse text (c_simple (cont w i)) (c_chained (cont w i))) as [[s' c'] [x|x]] eqn:P; [|simpl; eauto].
    exfalso. destruct (parse_sets _ _ _ _ _ _ _ _ P) as (S1 & S2 & _ & _ & D). specialize (D (cs_disj _ C i) s).
    destruct (parse_uses _ _ _ _ _ _ _ _ P) as (e & T & _ & _ & U3 & U4).
    assert (e = tree) by (unfold tree_of in T; rewrite SF, PP in T; congruence). subst e.
    destruct H as [[H1 H2]|[[H1 (y & Hy & Hs)]|[H1 (y & Hy & Hs)]]]; apply D; auto.
    + apply S2. apply (cs_expr _ C i y); auto.
    + apply S1. apply (cs_expr _ C i y); auto.
Qed.
Print Assumptions C34_simple_or_chained.

Example C34_hypotheses_met :
  let ops := [ONew; OAppend 0 "x" (Some "g"); OAppend 0 "x.y" None; OAppend 0 "a * b.c" None] in
  Forall no_copy ops /\ cx_raw (iter (w_heap (cx_run ops)) (cont (cx_run ops) 0) true) = ["a * b.c"; "x"].
Proof. split; [repeat constructor|]. vm_compute. auto. Qed.

(** The claim does not extend to copies, whose sets forget the groups, nor to sums. *)
Theorem C34_copy_forgets_groups :
  let w := cx_run [ONew; OAppend 0 "x" (Some "g"); OCopy 0; OAppend 1 "x.y" None] in
  In "x" (itersimple (w_heap w) (cont w 1) true) /\ In "x" (iterchained (w_heap w) (cont w 1) true) /\
  cx_raw (iter (w_heap w) (cont w 1) true) = ["x.y"; "x"].
Proof. vm_compute. auto. Qed.
Theorem C34_sum_mixes :
  let w := cx_run [ONew; ONew; OAppend 0 "x" None; OAppend 1 "x.y" None; OAdd 0 1 []] in
  In "x" (itersimple (w_heap w) (cont w 2) true) /\ In "x" (iterchained (w_heap w) (cont w 2) true).
Proof. vm_compute. auto. Qed.
Print Assumptions C34_copy_forgets_groups.

(** * C35 *)

(** A rejected append changes no expression and no group.  The two sets of symbols may grow, but only
    by symbols of the rejected expression; with two '@', or text that Python cannot parse, they do not
    grow; and every later append of an expression with no symbol in common with the rejected
    one behaves as if the rejected append had not been made. *)
Theorem C35_rejected_append_partial (L : Type) nfn (pyparse : string -> res (expr L)) h (c : container) text g h' c' x :
  append nfn pyparse h c text g = (h', c', Err x) ->
  h' = h /\ c_ungrouped c' = c_ungrouped c /\ c_subs c' = c_subs c /\
  incl (c_simple c) (c_simple c') /\ incl (c_chained c) (c_chained c') /\
  (forall tree body flt, split_filter text = Ok (body, flt) -> pyparse body = Ok tree ->
     (forall s, In s (c_simple c') -> In s (c_simple c) \/ In s (simple_uses tree)) /\
     (forall s, In s (c_chained c') -> In s (c_chained c) \/ In s (chain_uses tree))) /\
  ((is_ok (split_filter text) = false \/ exists body flt, split_filter text = Ok (body, flt) /\ is_ok (pyparse body) = false) -> c' = c) /\
  (forall text2 body2 flt2 tree2 g2,
     split_filter text2 = Ok (body2, flt2) -> pyparse body2 = Ok tree2 ->
     (forall tree body flt s, split_filter text = Ok (body, flt) -> pyparse body = Ok tree ->
        In s (simple_uses tree ++ chain_uses tree) -> ~ In s (simple_uses tree2 ++ chain_uses tree2)) ->
     snd (append nfn pyparse h' c' text2 g2) = snd (append nfn pyparse h c text2 g2) /\
     fst (fst (append nfn pyparse h' c' text2 g2)) = fst (fst (append nfn pyparse h c text2 g2)) /\
     c_ungrouped (snd (fst (append nfn pyparse h' c' text2 g2))) = c_ungrouped (snd (fst (append nfn pyparse h c text2 g2))) /\
     c_subs (snd (fst (append nfn pyparse h' c' text2 g2))) = c_subs (snd (fst (append nfn pyparse h c text2 g2)))).
Proof.
  intros A. unfold append in A. destruct (parse nfn pyparse text (c_simple c) (c_chained c)) as [[s ch] r] eqn:P.
  destruct (parse_sets _ _ _ _ _ _ _ _ P) as (S1 & S2 & S3 & S4 & S5).
  destruct r as [ex|y].
  { exfalso. destruct g as [g|]; [destruct (dget String.eqb (c_subs c) g)|]; discriminate. }
  injection A as <- <- <-. simpl.
  assert (TO : forall tree body flt, split_filter text = Ok (body, flt) -> pyparse body = Ok tree -> tree_of pyparse text = Ok tree).
  { intros tree body flt SF PP. unfold tree_of. now rewrite SF. }
  split; [reflexivity|]. split; [reflexivity|]. split; [reflexivity|]. split; [exact S1|]. split; [exact S2|]. split; [|split].
  - intros tree body flt SF PP. pose proof (TO _ _ _ SF PP) as T. split; intros z I.
    + destruct (S3 z I) as [|(e & E & U)]; auto. right. congruence.
    + destruct (S4 z I) as [|(e & E & U)]; auto. right. congruence.
  - intros H. unfold parse in P. destruct (split_filter text) as [[body flt]|z].
    + destruct H as [H|(b & f & E & H)]; [discriminate|]. injection E as <- <-. destruct (pyparse body); [discriminate|].
      injection P as <- <- _. destruct c; reflexivity.
    + injection P as <- <- _. destruct c; reflexivity.
  - intros text2 body2 flt2 tree2 g2 SF2 PP2 NI.
    assert (E : snd (parse nfn pyparse text2 s ch) = snd (parse nfn pyparse text2 (c_simple c) (c_chained c))).
    { apply parse_frame. intros e z T U. unfold tree_of in T. rewrite SF2 in T. assert (e = tree2) by congruence. subst e.
      assert (NO : forall e, tree_of pyparse text = Ok e -> ~ (In z (simple_uses e) \/ In z (chain_uses e))).
      { intros e T1 Z. unfold tree_of in T1. destruct (split_filter text) as [[b f]|] eqn:SF; [|discriminate].
        apply (NI e b f z); auto; apply in_or_app; auto. }
      split; split; auto.
      - intros I. destruct (S3 z I) as [|(e & E & V)]; auto. exfalso. apply (NO e E). auto.
      - intros I. destruct (S4 z I) as [|(e & E & V)]; auto. exfalso. apply (NO e E). auto. }
    unfold append. simpl.
    destruct (parse nfn pyparse text2 s ch) as [[s1 c1] r1], (parse nfn pyparse text2 (c_simple c) (c_chained c)) as [[s2 c2] r2].
    simpl in E. subst r2. destruct r1 as [ex|z]; simpl; auto.
    destruct g2 as [g2|]; simpl; auto. destruct (dget String.eqb (c_subs c) g2); simpl; auto.
Qed.
Print Assumptions C35_rejected_append_partial.

Example C35_hypotheses_met : exists h c x, append cx_fn cx_parse [] new_container "x + foo(1)" None = (h, c, Err x) /\
  snd (append cx_fn cx_parse h c "a * b.c" None) = Ok tt.
Proof. eexists; eexists; eexists. vm_compute. auto. Qed.

(** C35 is false: x + foo(1) is rejected because of foo, but x stays recorded as a simple symbol, so
    that x.y, accepted by the container before, is rejected afterwards. *)
Theorem C35_rejected_append_refuted :
  exists h c x y, append cx_fn cx_parse [] new_container "x + foo(1)" None = (h, c, Err x) /\
    snd (append cx_fn cx_parse [] new_container "x.y" None) = Ok tt /\
    snd (append cx_fn cx_parse h c "x.y" None) = Err y.
Proof. do 4 eexists. vm_compute. auto. Qed.
Print Assumptions C35_rejected_append_refuted.
