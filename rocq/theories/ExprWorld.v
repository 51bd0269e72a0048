(** Histories of container operations: proofs. *)
From Verif Require Import Prelude DictProofs ExprModel SpecExpr SpecContainer ExprProofs ExprUses ExprContainer.
Set Default Proof Using "Type".
Local Open Scope string_scope.
Local Open Scope nat_scope.
Local Open Scope list_scope.

Section World.
  Context {L : Type} (nfn : string -> bool) (pyparse : string -> res (expr L)).
  Notation expression := (@expression L).
  Notation container := (@container L).
  Notation heap := (list (@subgroup L)).
  Notation world := (@world L).
  Notation parse := (parse nfn pyparse).
  Notation cstep := (cstep nfn pyparse).
  Notation crun := (crun nfn pyparse).
  Notation append := (append nfn pyparse).

  (** the container as a plain value *)
  Definition groups_view (h : heap) (s : dict string nat) : list (string * list expression) :=
    map (fun p => (fst p, sg_exprs (deref h (snd p)))) s.
  Definition view (h : heap) (c : container) : plain_container expression :=
    PlainContainer (c_ungrouped c) (groups_view h (c_subs c)).
  Definition wview (w : world) : list (plain_container expression) := map (view (w_heap w)) (w_conts w).

  (** which operation on plain containers an operation amounts to *)
  Definition plain_of (w : world) (o : cop) : list (plain_op expression) :=
    match o with
    | ONew => [PNew]
    | OAppend i e g =>
        match snd (parse e (c_simple (cont w i)) (c_chained (cont w i))) with
        | Ok x => [PAppend i x g]
        | Err _ => [PRejected i]
        end
    | OClear i => [PClear i]
    | ODrop i g => [PDrop i g]
    | OCopy i => [PCopy i]
    | OAdd _ _ _ => []
    end.
  Fixpoint plain_trace (w : world) (ops : list cop) : list (plain_op expression) :=
    match ops with [] => [] | o :: t => plain_of w o ++ plain_trace (cstep w o) t end.

  Definition no_add (o : cop) : Prop := match o with OAdd _ _ _ => False | _ => True end.

  (** subgroups belong to one container, under one name *)
  Definition refs (w : world) (i : nat) : dict string nat := c_subs (cont w i).
  Record own (w : world) : Prop := Own {
    ow_range : forall i n r, In (n, r) (refs w i) -> r < length (w_heap w);
    ow_keys : forall i, NoDup (dkeys (refs w i));
    ow_vals : forall i, NoDup (dvals (refs w i));
    ow_sep : forall i j n m r, In (n, r) (refs w i) -> In (m, r) (refs w j) -> i = j
  }.

  Lemma own_new : own new_world.
  Proof. clear nfn pyparse. split; unfold refs, cont; simpl; intros i; destruct i; simpl; try tauto; try constructor. Qed.

  Lemma nth_app_one {A} (l : list A) x d j : nth j (l ++ [x]) d = if j =? length l then x else nth j l d.
  Proof.
    destruct (Nat.eqb_spec j (length l)) as [->|N].
    - rewrite app_nth2, Nat.sub_diag; auto.
    - destruct (lt_dec j (length l)); [now apply app_nth1|].
      rewrite (nth_overflow l) by lia. apply nth_overflow. rewrite app_length. simpl. lia.
  Qed.
  Lemma nth_upd_id {A} (l : list A) i x d : nth i l d = x -> upd l i x = l.
  Proof.
    revert i; induction l as [|a l IH]; intros [|i]; simpl; auto.
    - now intros ->.
    - intros H. f_equal. auto.
  Qed.
  Lemma nth_upd_any {A} (l : list A) i j x d : nth j (upd l i x) d = if (i =? j) && (j <? length l) then x else nth j l d.
  Proof.
    destruct (Nat.ltb_spec j (length l)) as [H|H].
    - destruct (Nat.eqb_spec i j) as [->|N]; simpl; [now apply nth_upd_eq|now apply nth_upd_neq].
    - rewrite andb_false_r. rewrite !nth_overflow; auto. now rewrite upd_length.
  Qed.
  Lemma map_upd {A B} (f : A -> B) l i x : map f (upd l i x) = upd (map f l) i (f x).
  Proof. revert i; induction l as [|a l IH]; intros [|i]; simpl; auto. now rewrite IH. Qed.

  Lemma cont_upd (h : heap) cs i c j : cont (World h (upd cs i c)) j = if (i =? j) && (j <? length cs) then c else nth j cs new_container.
  Proof. apply nth_upd_any. Qed.
  Lemma cont_new (h : heap) cs c j : cont (World h (cs ++ [c])) j = if j =? length cs then c else nth j cs new_container.
  Proof. apply nth_app_one. Qed.

  (** ** Views and the heap *)
  Lemma groups_view_ext (h h' : heap) s : (forall n r, In (n, r) s -> sg_exprs (deref h' r) = sg_exprs (deref h r)) ->
    groups_view h' s = groups_view h s.
  Proof.
    intros H. unfold groups_view. apply map_ext_in. intros [n r] I. simpl. now rewrite (H n r I).
  Qed.
  Lemma deref_app (h s : heap) r : r < length h -> deref (h ++ s) r = deref h r.
  Proof. intros H. unfold deref. now apply app_nth1. Qed.
  Lemma deref_new (h : heap) s : deref (h ++ [s]) (length h) = s.
  Proof. unfold deref. now rewrite nth_app_one, Nat.eqb_refl. Qed.

  Lemma add_to_absent (g : string) x (h : heap) s : ~ In g (dkeys s) ->
    add_to g x (groups_view h s) = groups_view h s ++ [(g, [x])].
  Proof. clear nfn pyparse.
    induction s as [|[n r] s IH]; simpl; intros H; auto.
    destruct (string_dec n g); [tauto|]. rewrite IH; auto.
  Qed.
  Lemma add_to_present (g : string) x (h : heap) s r : NoDup (dvals s) -> r < length h ->
    dget String.eqb s g = Some r ->
    add_to g x (groups_view h s) = groups_view (upd h r (sg_append (deref h r) x)) s.
  Proof.
    intros N R. induction s as [|[n r'] s IH]; [discriminate|]. cbn [dget]. simpl in N. inversion N as [|? ? N1 N2]; subst.
    destruct (String.eqb_spec g n) as [<-|NE].
    - intros E; injection E as ->. cbn [groups_view map add_to fst snd]. destruct (string_dec g g); [|congruence].
      f_equal.
      + f_equal. unfold deref at 2. rewrite nth_upd_eq by auto. reflexivity.
      + symmetry. apply groups_view_ext. intros m r' I. unfold deref. rewrite nth_upd_neq; auto.
        intros <-. apply N1. apply in_vals in I. exact I.
    - intros E. cbn [groups_view map add_to fst snd]. destruct (string_dec n g); [congruence|].
      f_equal.
      + f_equal. unfold deref. rewrite nth_upd_neq; auto. intros <-. apply N1. apply (dget_in String.eqb String.eqb_eq) in E.
        apply in_vals in E. exact E.
      + apply IH; auto.
  Qed.
  Lemma drop_view (g : string) (h : heap) s : NoDup (dkeys s) ->
    filter (fun p => negb (if string_dec (fst p) g then true else false)) (groups_view h s) = groups_view h (ddel String.eqb s g).
  Proof.
    induction s as [|[n r] s IH]; simpl; intros N; auto. inversion N as [|? ? N1 N2]; subst.
    destruct (string_dec n g) as [->|NE]; simpl.
    - rewrite String.eqb_refl. rewrite IH by auto. now rewrite (ddel_absent String.eqb String.eqb_eq).
    - destruct (String.eqb_spec g n); [congruence|]. simpl. f_equal. auto.
  Qed.

  Lemma ddel_vals_nodup (d : dict string nat) g : NoDup (dvals d) -> NoDup (dvals (ddel String.eqb d g)).
  Proof.
    assert (K : forall (t : dict string nat) x, In x (dvals (ddel String.eqb t g)) -> In x (dvals t)).
    { induction t as [|[n' r'] t IH]; simpl; auto. intros x. destruct (String.eqb g n'); simpl; auto. intros [H|H]; auto. }
    induction d as [|[n r] t IH]; simpl; intros N; [constructor|]. inversion N; subst.
    destruct (String.eqb g n); auto. simpl. constructor; auto.
  Qed.

  (** ** copying *)
  Lemma fold_append_exprs : forall xs s, sg_exprs (fold_left sg_append xs s : @subgroup L) = sg_exprs s ++ xs.
  Proof. induction xs as [|x xs IH]; intros s; simpl; [now rewrite app_nil_r|]. rewrite IH. simpl. now rewrite <- app_assoc. Qed.
  Lemma copy_subs_spec : forall (l : list (string * nat)) (h : heap) acc h' subs,
    copy_subs h l acc = (h', subs) ->
    (forall n r, In (n, r) l -> r < length h) -> NoDup (map fst l) -> (forall n, In n (map fst l) -> ~ In n (dkeys acc)) ->
    exists t rs, h' = h ++ t /\ subs = acc ++ rs /\ map fst rs = map fst l /\ NoDup (map snd rs) /\
      (forall n r, In (n, r) rs -> length h <= r < length h') /\
      groups_view h' rs = groups_view h l.
  Proof. clear nfn pyparse.
    induction l as [|[n r] l IH]; intros h acc h' subs E R N D; simpl in E.
    - injection E as <- <-. exists [], []. rewrite !app_nil_r. simpl. repeat split; auto; try constructor; tauto.
    - simpl in N. inversion N as [|? ? N1 N2]; subst.
      set (s := fold_left sg_append (sg_exprs (deref h r)) (new_subgroup n)) in *.
      apply IH in E.
      + destruct E as (t & rs & -> & -> & K & V & B & G).
        exists (s :: t), ((n, length h) :: rs). rewrite <- app_assoc. simpl. split; auto. split.
        { rewrite (dset_absent String.eqb String.eqb_eq) by (apply D; simpl; auto). now rewrite <- app_assoc. }
        rewrite app_length in B. simpl in B.
        assert (F : ~ In (length h) (map snd rs)).
        { intros I. apply in_map_iff in I. destruct I as ([m q] & Q & I). simpl in Q. subst q. apply B in I. lia. }
        split; [simpl; congruence|]. split; [simpl; constructor; auto|]. split.
        * rewrite app_length. simpl. intros m q [X|X]; [injection X as <- <-; lia|].
          apply B in X. rewrite !app_length in X. simpl in X. lia.
        * cbn [groups_view map fst snd]. f_equal.
          -- f_equal. replace (h ++ s :: t) with ((h ++ [s]) ++ t) by (now rewrite <- app_assoc).
             rewrite deref_app by (rewrite app_length; simpl; lia). rewrite deref_new. unfold s. rewrite fold_append_exprs. reflexivity.
          -- rewrite <- app_assoc in G. simpl in G. fold (groups_view (h ++ s :: t) rs). fold (groups_view h l). etransitivity; [exact G|]. apply groups_view_ext. intros m q I. f_equal. apply deref_app. apply (R m q). simpl. auto.
      + intros m q I. rewrite app_length. simpl. assert (q < length h) by (apply (R m q); simpl; auto). lia.
      + auto.
      + intros m I X. unfold dkeys in X. rewrite (dset_absent String.eqb String.eqb_eq) in X by (apply D; simpl; auto).
        rewrite map_app in X. apply in_app_or in X. simpl in X. destruct X as [X|[<-|[]]].
        * apply (D m); simpl; auto.
        * auto.
  Qed.

  (** ** One step *)
  Lemma own_same_refs w h' cs' : own w -> length (w_heap w) <= length h' ->
    (forall i, refs (World h' cs') i = refs w i) -> own (World h' cs').
  Proof.
    intros [O1 O2 O3 O4] Hl H. split; intros i; rewrite ?H; auto.
    - intros n r I. apply O1 in I. simpl. lia.
    - intros j n m r. rewrite H. apply O4.
  Qed.

  Lemma wview_upd w i c h' v :
    (forall j, j < length (w_conts w) -> j <> i -> view h' (cont w j) = view (w_heap w) (cont w j)) ->
    (i < length (w_conts w) -> view h' c = v) ->
    wview (World h' (upd (w_conts w) i c)) = upd (wview w) i v.
  Proof.
    intros H1 H2. unfold wview. simpl. apply (list_eq_nth empty_container).
    - now rewrite map_length, !upd_length, map_length.
    - intros j Hj. rewrite map_length, upd_length in Hj.
      rewrite (nth_map_lt (view h') _ j new_container) by (now rewrite upd_length).
      rewrite !nth_upd_any, map_length. destruct (Nat.ltb_spec j (length (w_conts w))); [|lia].
      destruct (Nat.eqb_spec i j) as [->|N]; simpl.
      + auto.
      + rewrite (nth_map_lt (view (w_heap w)) _ j new_container) by auto. apply H1; auto.
  Qed.

  Lemma view_other w i j r s n0 : own w -> i <> j -> In (n0, r) (refs w i) ->
    view (upd (w_heap w) r s) (cont w j) = view (w_heap w) (cont w j).
  Proof.
    intros O NE I. unfold view. f_equal. apply groups_view_ext. intros n q J. unfold deref. rewrite nth_upd_neq; auto.
    intros <-. apply NE. eapply (ow_sep _ O i j); eauto.
  Qed.
  Lemma view_app w j s : own w -> view (w_heap w ++ s) (cont w j) = view (w_heap w) (cont w j).
  Proof.
    intros O. unfold view. f_equal. apply groups_view_ext. intros n q J. f_equal. apply deref_app. eapply ow_range; eauto.
  Qed.

  Lemma step_view w o : own w -> no_add o -> own (cstep w o) /\ wview (cstep w o) = fold_left p_step (plain_of w o) (wview w).
  Proof.
    intros O NA. destruct o as [|i e g|i|i g|i|i j keys]; [| | | | |contradiction].
    - (* new *) simpl. split.
      + apply (own_same_refs w); auto. intros j. unfold refs, cont. simpl. rewrite nth_app_one.
        destruct (Nat.eqb_spec j (length (w_conts w))) as [->|]; auto. now rewrite nth_overflow by lia.
      + unfold wview. simpl. now rewrite map_app.
    - (* append *) cbn [ExprModel.cstep plain_of]. unfold ExprModel.append. set (c := cont w i).
      destruct (parse e (c_simple c) (c_chained c)) as [[s ch] [x|x]] eqn:P.
      2:{ (* rejected *) simpl. split.
        - apply (own_same_refs w); auto. intros j. unfold refs. rewrite cont_upd.
          destruct (Nat.eqb_spec i j) as [<-|]; simpl; auto. destruct (i <? length (w_conts w)); reflexivity.
        - rewrite (wview_upd w i _ _ (view (w_heap w) (cont w i))).
          + apply (nth_upd_id _ _ _ (view (w_heap w) new_container)). unfold wview, cont. apply map_nth.
          + auto.
          + reflexivity. }
      destruct g as [g|].
      2:{ (* no group *) simpl. split.
        - apply (own_same_refs w); auto. intros j. unfold refs. rewrite cont_upd.
          destruct (Nat.eqb_spec i j) as [<-|]; simpl; auto. destruct (i <? length (w_conts w)); reflexivity.
        - apply wview_upd; auto. intros Hi. unfold wview. rewrite (nth_map_lt _ _ i new_container) by auto. reflexivity. }
      destruct (dget String.eqb (c_subs c) g) as [r|] eqn:G.
      + (* an existing group *)
        assert (I : In (g, r) (refs w i)) by (apply (dget_in String.eqb String.eqb_eq) in G; exact G).
        assert (R : r < length (w_heap w)) by (eapply (ow_range _ O); eauto).
        simpl. split.
        * apply (own_same_refs w); auto; [now rewrite upd_length|]. intros j. unfold refs. rewrite cont_upd.
          destruct (Nat.eqb_spec i j) as [<-|]; simpl; auto. destruct (i <? length (w_conts w)); reflexivity.
        * apply wview_upd.
          -- intros j Hj NE. eapply view_other; eauto.
          -- intros Hi. unfold wview. rewrite (nth_map_lt _ _ i new_container) by auto. unfold view, p_append. simpl. f_equal.
             symmetry. apply add_to_present; auto. apply (ow_vals _ O).
      + (* a new group *)
        assert (K : ~ In g (dkeys (c_subs c))) by (now apply (dget_none String.eqb String.eqb_eq)).
        rewrite (dset_absent String.eqb String.eqb_eq) by auto.
        set (s0 := sg_append (new_subgroup g) x). cbn [fst snd]. split.
        * assert (RF : forall j, refs (World (w_heap w ++ [s0]) (upd (w_conts w) i (Container (c_ungrouped c) s ch (c_subs c ++ [(g, length (w_heap w))])))) j
            = if (i =? j) && (j <? length (w_conts w)) then c_subs c ++ [(g, length (w_heap w))] else refs w j).
          { intros j. unfold refs. rewrite cont_upd. destruct ((i =? j) && (j <? length (w_conts w))); reflexivity. }
          split; simpl.
          -- intros j n r. rewrite RF, app_length. simpl. destruct ((i =? j) && (j <? length (w_conts w))).
             ++ intros I. apply in_app_or in I. destruct I as [I|[I|[]]].
                ** apply (ow_range _ O i) in I. lia.
                ** injection I as <- <-. lia.
             ++ intros I. apply (ow_range _ O) in I. lia.
          -- intros j. rewrite RF. destruct ((i =? j) && (j <? length (w_conts w))); [|apply (ow_keys _ O)].
             unfold dkeys. rewrite map_app. simpl. apply NoDup_app_one; [apply (ow_keys _ O i)|exact K].
          -- intros j. rewrite RF. destruct ((i =? j) && (j <? length (w_conts w))); [|apply (ow_vals _ O)].
             unfold dvals. rewrite map_app. simpl. apply NoDup_app_one; [apply (ow_vals _ O i)|].
             intros I. apply in_map_iff in I. destruct I as ([n q] & E & I). simpl in E. subst q. apply (ow_range _ O i) in I. lia.
          -- intros j k n m r. rewrite !RF. intros I J.
             destruct ((i =? j) && (j <? length (w_conts w))) eqn:Bj; destruct ((i =? k) && (k <? length (w_conts w))) eqn:Bk.
             ++ apply andb_true_iff in Bj, Bk. destruct Bj as [Bj _], Bk as [Bk _]. apply Nat.eqb_eq in Bj, Bk. congruence.
             ++ apply andb_true_iff in Bj. destruct Bj as [Bj _]. apply Nat.eqb_eq in Bj. subst j.
                apply in_app_or in I. destruct I as [I|[I|[]]]; [eapply (ow_sep _ O i k); eauto|].
                injection I as <- <-. apply (ow_range _ O) in J. lia.
             ++ apply andb_true_iff in Bk. destruct Bk as [Bk _]. apply Nat.eqb_eq in Bk. subst k.
                apply in_app_or in J. destruct J as [J|[J|[]]]; [eapply (ow_sep _ O j i); eauto|].
                injection J as <- <-. apply (ow_range _ O) in I. lia.
             ++ eapply (ow_sep _ O); eauto.
        * apply wview_upd.
          -- intros j Hj NE. now apply view_app.
          -- intros Hi. unfold wview. rewrite (nth_map_lt _ _ i new_container) by auto. unfold view, p_append. simpl. f_equal.
             fold (cont w i). fold c. rewrite add_to_absent by auto. unfold groups_view at 1. rewrite map_app. simpl.
             rewrite deref_new. simpl. f_equal. apply (groups_view_ext (w_heap w)). intros n r I. f_equal. apply deref_app.
             eapply (ow_range _ O i). exact I.
    - (* clear *) simpl. split.
      + split; simpl; unfold refs.
        * intros j n r. rewrite cont_upd. destruct ((i =? j) && (j <? length (w_conts w))); simpl; [tauto|]. apply (ow_range _ O).
        * intros j. rewrite cont_upd. destruct ((i =? j) && (j <? length (w_conts w))); simpl; [constructor|]. apply (ow_keys _ O).
        * intros j. rewrite cont_upd. destruct ((i =? j) && (j <? length (w_conts w))); simpl; [constructor|]. apply (ow_vals _ O).
        * intros j k n m r. rewrite !cont_upd. destruct ((i =? j) && (j <? length (w_conts w))); simpl; [tauto|].
          destruct ((i =? k) && (k <? length (w_conts w))); simpl; [tauto|]. apply (ow_sep _ O).
      + apply wview_upd; auto.
    - (* drop *) cbn [ExprModel.cstep plain_of fold_left p_step]. unfold drop_group.
      destruct (dmem String.eqb (c_subs (cont w i)) g) eqn:M.
      + simpl. assert (RF : forall j n r, In (n, r) (refs (World (w_heap w) (upd (w_conts w) i (Container (c_ungrouped (cont w i)) (c_simple (cont w i)) (c_chained (cont w i)) (ddel String.eqb (c_subs (cont w i)) g)))) j) -> In (n, r) (refs w j)).
        { intros j n r. unfold refs. rewrite cont_upd. destruct (Nat.eqb_spec i j) as [<-|]; simpl; auto.
          destruct (i <? length (w_conts w)); simpl; auto. intros I. apply (in_ddel String.eqb String.eqb_eq) in I; [tauto|apply (ow_keys _ O)]. }
        split.
        * split; simpl.
          -- intros j n r I. apply RF in I. eapply (ow_range _ O); eauto.
          -- intros j. unfold refs. rewrite cont_upd. destruct ((i =? j) && (j <? length (w_conts w))); simpl; [|apply (ow_keys _ O)].
             apply (ddel_keys_nodup String.eqb String.eqb_eq), (ow_keys _ O).
          -- intros j. unfold refs. rewrite cont_upd. destruct ((i =? j) && (j <? length (w_conts w))); simpl; [|apply (ow_vals _ O)].
             apply ddel_vals_nodup, (ow_vals _ O i).
          -- intros j k n m r I J. apply RF in I, J. eapply (ow_sep _ O); eauto.
        * apply wview_upd; auto. intros Hi. unfold wview. rewrite (nth_map_lt _ _ i new_container) by auto.
          unfold view, p_drop. simpl. f_equal. symmetry. apply drop_view. apply (ow_keys _ O i).
      + simpl. split.
        * apply (own_same_refs w); auto. intros j. unfold refs. rewrite cont_upd.
          destruct (Nat.eqb_spec i j) as [<-|]; simpl; auto. destruct (i <? length (w_conts w)); reflexivity.
        * apply wview_upd; auto. intros Hi. unfold wview. rewrite (nth_map_lt _ _ i new_container) by auto.
          unfold view, p_drop. simpl. fold (cont w i). f_equal.
          rewrite drop_view by apply (ow_keys _ O i). rewrite (ddel_absent String.eqb String.eqb_eq); auto.
          intros I. apply (dmem_iff String.eqb String.eqb_eq) in I. congruence.
    - (* copy *) cbn [ExprModel.cstep plain_of fold_left p_step]. unfold copy.
      destruct (copy_subs (w_heap w) (c_subs (cont w i)) []) as [h' subs] eqn:E.
      apply copy_subs_spec in E.
      2:{ intros n r I. eapply (ow_range _ O i); eauto. }
      2:{ apply (ow_keys _ O i). }
      2:{ simpl. tauto. }
      destruct E as (t & rs & -> & E & K & V & B & G). simpl in E. subst subs.
      set (c' := Container _ _ _ rs).
      assert (RF : forall j, refs (World (w_heap w ++ t) (w_conts w ++ [c'])) j = if j =? length (w_conts w) then rs else refs w j).
      { intros j. unfold refs. rewrite cont_new. destruct (j =? length (w_conts w)); reflexivity. }
      split.
      * split; simpl.
        -- intros j n r. rewrite RF. destruct (j =? length (w_conts w)); intros I; [now apply B in I|].
           rewrite app_length. apply (ow_range _ O) in I. lia.
        -- intros j. rewrite RF. destruct (j =? length (w_conts w)); [|apply (ow_keys _ O)]. unfold dkeys. rewrite K. apply (ow_keys _ O i).
        -- intros j. rewrite RF. destruct (j =? length (w_conts w)); [|apply (ow_vals _ O)]. exact V.
        -- intros j k n m r. rewrite !RF. intros I J. destruct (Nat.eqb_spec j (length (w_conts w))), (Nat.eqb_spec k (length (w_conts w))); subst; auto.
           ++ apply B in I. apply (ow_range _ O) in J. lia.
           ++ apply B in J. apply (ow_range _ O) in I. lia.
           ++ eapply (ow_sep _ O); eauto.
      * unfold wview. simpl. rewrite map_app. simpl. f_equal.
        -- apply (list_eq_nth empty_container); [now rewrite !map_length|]. intros j Hj. rewrite map_length in Hj.
           rewrite !(nth_map_lt _ _ j new_container) by auto. now apply view_app.
        -- f_equal. destruct (lt_dec i (length (w_conts w))) as [Hi|Hi].
           ++ rewrite (nth_map_lt _ _ i new_container) by auto. unfold view, c'. simpl. now rewrite G.
           ++ rewrite nth_overflow by (rewrite map_length; lia). unfold view, c'. simpl. rewrite G.
              unfold cont. rewrite nth_overflow by lia. reflexivity.
  Qed.

  Lemma run_view : forall ops w, own w -> Forall no_add ops ->
    own (crun w ops) /\ wview (crun w ops) = fold_left p_step (plain_trace w ops) (wview w).
  Proof.
    induction ops as [|o ops IH]; intros w O F; [split; auto|]. inversion F; subst.
    destruct (step_view w o O H1) as [O1 V1]. cbn [plain_trace]. unfold ExprModel.crun. cbn [fold_left].
    destruct (IH (cstep w o) O1 H2) as [O2 V2]. split; [exact O2|]. rewrite fold_left_app, <- V1. exact V2.
  Qed.

  Lemma p_group_view (h : heap) (s : dict string nat) g :
    p_group g (groups_view h s) = match dget String.eqb s g with Some r => Some (sg_exprs (deref h r)) | None => None end.
  Proof.
    induction s as [|[n r] s IH]; simpl; auto. destruct (string_dec n g) as [->|N].
    - now rewrite String.eqb_refl.
    - destruct (String.eqb_spec g n); [congruence|]. exact IH.
  Qed.
  Lemma p_all_view (h : heap) c : p_all (view h c) = iter h c true.
  Proof.
    unfold p_all, view, iter, subs_of, groups_view, dvals. simpl. f_equal. f_equal. rewrite !map_map. reflexivity.
  Qed.

  (** ** The sets *)
  Definition no_copy (o : cop) : Prop := match o with OAdd _ _ _ | OCopy _ => False | _ => True end.
  Record consistent (w : world) : Prop := Consistent {
    cs_disj : forall i x, In x (c_simple (cont w i)) -> In x (c_chained (cont w i)) -> False;
    cs_sub_s : forall i n r x, In (n, r) (refs w i) -> In x (sg_simple (deref (w_heap w) r)) -> In x (c_simple (cont w i));
    cs_sub_c : forall i n r x, In (n, r) (refs w i) -> In x (sg_chained (deref (w_heap w) r)) -> In x (c_chained (cont w i));
    cs_expr : forall i x, In x (iter (w_heap w) (cont w i) true) ->
        incl (e_symbols x) (c_simple (cont w i)) /\ incl (dkeys (e_chains x)) (c_chained (cont w i))
  }.
  Lemma consistent_new : consistent new_world.
  Proof. clear nfn pyparse.
    split; intros i; unfold refs, cont; simpl; destruct i; simpl; try tauto.
  Qed.

  Lemma in_iter (h : heap) c x : In x (iter h c true) <-> In x (c_ungrouped c) \/ exists n r, In (n, r) (c_subs c) /\ In x (sg_exprs (deref h r)).
  Proof.
    unfold iter, subs_of. rewrite in_app_iff, in_concat. split; intros [H|H]; auto; right.
    - destruct H as (l & H & I). apply in_map_iff in H. destruct H as (s & <- & H). apply in_map_iff in H.
      destruct H as (r & <- & H). apply in_vals_ex in H. destruct H as (n & H). eauto.
    - destruct H as (n & r & H & I). exists (sg_exprs (deref h r)). split; auto. apply in_map, in_map.
      eapply in_vals; eauto.
  Qed.

  Lemma step_consistent w o : own w -> consistent w -> no_copy o -> consistent (cstep w o).
  Proof.
    intros O C NC. destruct o as [|i e g|i|i g|i|i j keys]; try contradiction.
    - simpl. assert (E : forall j, cont (World (w_heap w) (w_conts w ++ [new_container])) j = cont w j).
      { intros j. rewrite cont_new. destruct (Nat.eqb_spec j (length (w_conts w))) as [->|]; auto. unfold cont. now rewrite nth_overflow. }
      destruct C as [C1 C2 C3 C4]. split; unfold refs; intros j; rewrite E; [apply C1|apply C2|apply C3|apply C4].
    - cbn [ExprModel.cstep]. unfold ExprModel.append. set (c := cont w i).
      destruct (parse e (c_simple c) (c_chained c)) as [[s ch] r] eqn:P.
      destruct (parse_sets _ _ _ _ _ _ _ _ P) as (S1 & S2 & S3 & S4 & S5).
      specialize (S5 (cs_disj _ C i)).
      (* updating only the sets (and the list) *)
      assert (G : forall h' c', (forall n q, In (n, q) (c_subs c') -> In (n, q) (c_subs c) \/ (forall j, ~ In (n, q) (refs w j)) ) ->
        (forall x, In x (c_simple c') -> In x (c_chained c') -> False) ->
        (forall j n q, j <> i -> In (n, q) (refs w j) -> deref h' q = deref (w_heap w) q) ->
        (forall n q x, In (n, q) (c_subs c') -> In x (sg_simple (deref h' q)) -> In x (c_simple c')) ->
        (forall n q x, In (n, q) (c_subs c') -> In x (sg_chained (deref h' q)) -> In x (c_chained c')) ->
        (forall x, In x (iter h' c' true) -> incl (e_symbols x) (c_simple c') /\ incl (dkeys (e_chains x)) (c_chained c')) ->
        consistent (World h' (upd (w_conts w) i c'))).
      { intros h' c' _ G2 G3 G4 G5 G6.
        assert (NB : forall j, (i =? j) && (j <? length (w_conts w)) = false -> j = i -> cont w j = new_container).
        { intros j B ->. rewrite Nat.eqb_refl in B. simpl in B. apply Nat.ltb_ge in B. unfold cont. now apply nth_overflow. }
        split; unfold refs; cbn [w_heap]; intros j; rewrite cont_upd; fold (cont w j); destruct ((i =? j) && (j <? length (w_conts w))) eqn:B; auto.
        - apply (cs_disj _ C j).
        - intros n q x I X. destruct (Nat.eq_dec j i) as [->|NE].
          + rewrite (NB i B eq_refl) in I. destruct I.
          + rewrite (G3 j n q NE I) in X. eapply (cs_sub_s _ C); eauto.
        - intros n q x I X. destruct (Nat.eq_dec j i) as [->|NE].
          + rewrite (NB i B eq_refl) in I. destruct I.
          + rewrite (G3 j n q NE I) in X. eapply (cs_sub_c _ C); eauto.
        - intros x X. apply (cs_expr _ C j). destruct (Nat.eq_dec j i) as [->|NE].
          + rewrite (NB i B eq_refl) in X. destruct X.
          + apply in_iter in X. apply in_iter. destruct X as [X|(n & q & I & X)]; auto. right. exists n, q.
            rewrite (G3 j n q NE I) in X. auto. }
      destruct r as [x|x].
      2:{ apply G; auto.
        - intros n q y I X. apply S1. eapply (cs_sub_s _ C i); eauto.
        - intros n q y I X. apply S2. eapply (cs_sub_c _ C i); eauto.
        - intros y Y. destruct (cs_expr _ C i y) as [A B]; auto. split; simpl; eapply incl_tran; eauto. }
      destruct (parse_uses _ _ _ _ _ _ _ _ P) as (t & T & U1 & U2 & U3 & U4).
      assert (X1 : incl (e_symbols x) s) by (intros y Y; apply U3, U1, Y).
      assert (X2 : incl (dkeys (e_chains x)) ch) by (intros y Y; apply U4, U2, Y).
      destruct g as [g|].
      2:{ apply G; auto.
        - simpl. intros y. rewrite !in_sunion. intros [Y|Y] [Z|Z]; eauto.
        - simpl. intros n q y I X. rewrite in_sunion. left. apply S1. eapply (cs_sub_s _ C i); eauto.
        - simpl. intros n q y I X. rewrite in_sunion. left. apply S2. eapply (cs_sub_c _ C i); eauto.
        - intros y Y. apply in_iter in Y. simpl in *. assert (Z : y = x \/ In y (iter (w_heap w) c true)).
          { destruct Y as [Y|Y]; [|right; apply in_iter; auto]. apply in_app_or in Y. simpl in Y. rewrite in_iter. destruct Y as [Y|[Y|[]]]; auto. }
          destruct Z as [->|Z].
          + split; intros z I; apply in_sunion; auto.
          + destruct (cs_expr _ C i y Z) as [A B]. split; intros z I; apply in_sunion; left; auto. }
      destruct (dget String.eqb (c_subs c) g) as [r|] eqn:GT.
      + assert (I : In (g, r) (refs w i)) by (apply (dget_in String.eqb String.eqb_eq) in GT; exact GT).
        assert (R : r < length (w_heap w)) by (eapply (ow_range _ O); eauto).
        assert (D : forall q, deref (upd (w_heap w) r (sg_append (deref (w_heap w) r) x)) q = if r =? q then sg_append (deref (w_heap w) r) x else deref (w_heap w) q).
        { intros q. unfold deref. rewrite nth_upd by auto. reflexivity. }
        apply G; auto.
        * intros j n q NE J. rewrite D. destruct (Nat.eqb_spec r q) as [<-|]; auto. exfalso. apply NE. eapply (ow_sep _ O); eauto.
        * simpl. intros n q y J X. rewrite D in X. destruct (Nat.eqb_spec r q) as [<-|].
          -- simpl in X. apply in_sunion in X. destruct X as [X|X]; auto. apply S1. eapply (cs_sub_s _ C i); eauto.
          -- apply S1. eapply (cs_sub_s _ C i); eauto.
        * simpl. intros n q y J X. rewrite D in X. destruct (Nat.eqb_spec r q) as [<-|].
          -- simpl in X. apply in_sunion in X. destruct X as [X|X]; auto. apply S2. eapply (cs_sub_c _ C i); eauto.
          -- apply S2. eapply (cs_sub_c _ C i); eauto.
        * intros y Y. simpl. assert (Z : y = x \/ In y (iter (w_heap w) c true)).
          { apply in_iter in Y. rewrite in_iter. simpl in Y. destruct Y as [Y|(n & q & J & Y)]; auto. rewrite D in Y.
            destruct (Nat.eqb_spec r q) as [<-|]; [|right; right; exists n, q; auto]. simpl in Y. apply in_app_or in Y. simpl in Y.
            destruct Y as [Y|[Y|[]]]; [|auto]. right. right. exists g, r. auto. }
          destruct Z as [->|Z]; auto. destruct (cs_expr _ C i y Z) as [A B]. split; eapply incl_tran; eauto.
      + assert (K : ~ In g (dkeys (c_subs c))) by (now apply (dget_none String.eqb String.eqb_eq)).
        rewrite (dset_absent String.eqb String.eqb_eq) by auto.
        set (s0 := sg_append (new_subgroup g) x).
        assert (D : forall n q, In (n, q) (c_subs c ++ [(g, length (w_heap w))]) ->
          (In (n, q) (c_subs c) /\ deref (w_heap w ++ [s0]) q = deref (w_heap w) q) \/ deref (w_heap w ++ [s0]) q = s0).
        { intros n q J. apply in_app_or in J. destruct J as [J|[J|[]]].
          - left. split; auto. apply deref_app. eapply (ow_range _ O i); eauto.
          - right. injection J as <- <-. apply deref_new. }
        apply G; auto.
        * simpl. intros n q J. apply in_app_or in J. destruct J as [J|[J|[]]]; auto. right. injection J as <- <-. intros j X.
          apply (ow_range _ O) in X. lia.
        * intros j n q NE J. apply deref_app. eapply (ow_range _ O); eauto.
        * simpl. intros n q y J X. destruct (D n q J) as [[J' E]|E]; rewrite E in X.
          -- apply S1. eapply (cs_sub_s _ C i); eauto.
          -- apply in_sunion in X. destruct X as [[]|X]. auto.
        * simpl. intros n q y J X. destruct (D n q J) as [[J' E]|E]; rewrite E in X.
          -- apply S2. eapply (cs_sub_c _ C i); eauto.
          -- apply in_sunion in X. destruct X as [[]|X]. auto.
        * intros y Y. simpl. assert (Z : y = x \/ In y (iter (w_heap w) c true)).
          { apply in_iter in Y. rewrite in_iter. simpl in Y. destruct Y as [Y|(n & q & J & Y)]; auto.
            destruct (D n q J) as [[J' E]|E]; rewrite E in Y; [right; right; exists n, q; auto|]. simpl in Y. destruct Y as [Y|[]]; auto. }
          destruct Z as [->|Z]; auto. destruct (cs_expr _ C i y Z) as [A B]. split; eapply incl_tran; eauto.
    - simpl. destruct C as [C1 C2 C3 C4]. split; unfold refs; intros j; rewrite cont_upd; fold (cont w j);
        destruct ((i =? j) && (j <? length (w_conts w))); simpl; try tauto; [apply C1|apply C2|apply C3|apply C4].
    - cbn [ExprModel.cstep]. unfold drop_group. destruct C as [C1 C2 C3 C4].
      assert (DD : forall n r, In (n, r) (ddel String.eqb (c_subs (cont w i)) g) -> In (n, r) (c_subs (cont w i))).
      { intros n r J. apply (in_ddel String.eqb String.eqb_eq) in J; [tauto|apply (ow_keys _ O i)]. }
      destruct (dmem String.eqb (c_subs (cont w i)) g); simpl;
        (split; unfold refs; intros j; rewrite cont_upd; fold (cont w j);
         (destruct ((i =? j) && (j <? length (w_conts w))) eqn:B; [apply andb_true_iff in B; destruct B as [B _]; apply Nat.eqb_eq in B; subst j|]); simpl);
        try (apply C1); try (apply C2); try (apply C3); try (apply C4).
      + intros n r x J. apply DD in J. eapply C2; eauto.
      + intros n r x J. apply DD in J. eapply C3; eauto.
      + intros x X. apply C4. apply in_iter in X. apply in_iter. simpl in X. destruct X as [X|(n & r & J & X)]; auto. right. eauto.
  Qed.
  Lemma no_copy_add o : no_copy o -> no_add o. Proof. destruct o; simpl; auto. Qed.
  Lemma run_consistent : forall ops w, own w -> consistent w -> Forall no_copy ops -> consistent (crun w ops).
  Proof.
    induction ops as [|o ops IH]; intros w O C F; auto. inversion F; subst.
    unfold ExprModel.crun. simpl. apply IH; auto.
    - apply step_view; auto using no_copy_add.
    - now apply step_consistent.
  Qed.
End World.
