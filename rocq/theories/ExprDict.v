(** Dict literals: proofs. *)
From Coq Require Import Permutation.
From Verif Require Import Prelude DictProofs ExprModel SpecExpr SpecDict ExprProofs ExprMeaning.
Local Open Scope string_scope.
Local Open Scope nat_scope.
Local Open Scope list_scope.

Definition leqb (a b : list string) : bool := if list_eq_dec string_dec a b then true else false.

Lemma loc_nth index key i : loc index key = Some i -> nth_error index i = Some key.
Proof.
  revert i; induction index as [|k t IH]; simpl; intros i; [discriminate|].
  destruct (eq_strs k key) eqn:E.
  - apply eq_strs_spec in E. subst. intros H. injection H as <-. reflexivity.
  - destruct (loc t key) as [j|]; [|discriminate]. intros H. injection H as <-. simpl. auto.
Qed.
Lemma loc_in index key : In key index -> exists i, loc index key = Some i.
Proof.
  induction index as [|k t IH]; simpl; [tauto|]. intros H.
  destruct (eq_strs k key) eqn:E; eauto.
  destruct H as [->|H]; [exfalso; assert (eq_strs key key = true) by (now apply eq_strs_spec); congruence|].
  destruct (IH H) as [i ->]. eauto.
Qed.
Lemma loc_none index key : ~ In key index -> loc index key = None.
Proof.
  intros H. destruct (loc index key) as [i|] eqn:E; auto. apply loc_nth, nth_error_In in E. tauto.
Qed.

(** ** Arrays indexed by labels *)
Section Upd.
  Context {A V : Type} (dec : forall a b : A, {a = b} + {a <> b}).
  Lemma upd_map (g : A -> V) (l : list A) i p v : NoDup l -> nth_error l i = Some p ->
    upd (map g l) i v = map (fun q => if dec q p then v else g q) l.
  Proof.
    revert i; induction l as [|a l IH]; intros [|i] N H; simpl in *; try discriminate.
    - injection H as <-. destruct (dec a a); [|congruence]. f_equal. inversion N; subst.
      apply map_ext_in. intros q Hq. destruct (dec q a); auto. subst. tauto.
    - inversion N; subst. destruct (dec a p) as [->|]; [exfalso; apply nth_error_In in H; tauto|].
      f_equal. auto.
  Qed.
  Lemma upd_fold (f : nat -> bool) v : forall (ls : list nat) (arr : list V),
    NoDup ls -> (forall i, In i ls -> i < length arr) ->
    forall j d, nth j (fold_left (fun a i => upd a i v) ls arr) d = if in_dec Nat.eq_dec j ls then v else nth j arr d.
  Proof.
    induction ls as [|i ls IH]; intros arr N B j d; simpl; auto.
    inversion N; subst. rewrite IH; auto.
    - rewrite nth_upd by (apply B; simpl; auto).
      destruct (Nat.eq_dec i j) as [->|NE].
      + destruct (in_dec Nat.eq_dec j ls); [contradiction|]. now rewrite Nat.eqb_refl.
      + destruct (in_dec Nat.eq_dec j ls); auto. destruct (Nat.eqb_spec i j); congruence.
    - intros k Hk. rewrite upd_length. apply B. simpl. auto.
  Qed.
  Lemma upd_fold_length v : forall (ls : list nat) (arr : list V), length (fold_left (fun a i => upd a i v) ls arr) = length arr.
  Proof. induction ls as [|i ls IH]; intros arr; simpl; auto. now rewrite IH, upd_length. Qed.
End Upd.

(** ** Padded paths *)
Lemma pad_padded n p : pad n p = padded n p. Proof. reflexivity. Qed.
Lemma pad_inj p : forall q a b, ~ In "." p -> ~ In "." q -> p ++ repeat "." a = q ++ repeat "." b -> p = q.
Proof.
  induction p as [|x p IH]; intros [|y q] a b Hp Hq H; simpl in *; auto.
  - destruct a; simpl in H; [discriminate|]. injection H as <- _. tauto.
  - destruct b; simpl in H; [discriminate|]. injection H as -> _. tauto.
  - injection H as -> H. f_equal. eapply IH; eauto.
Qed.
Lemma prefixb_pad k : forall q a, ~ In "." k -> prefixb k (q ++ repeat "." a) = prefixb k q.
Proof.
  induction k as [|x k IH]; intros [|y q] a H; simpl in *; auto.
  - destruct a; simpl; auto. destruct (String.eqb_spec x "."); auto. subst. tauto.
  - rewrite IH; tauto.
Qed.
Lemma leqb_spec a b : leqb a b = true <-> a = b.
Proof. unfold leqb. destruct (list_eq_dec string_dec a b); split; congruence. Qed.
Lemma leqb_cons x k y p : leqb (x :: k) (y :: p) = andb (String.eqb x y) (leqb k p).
Proof.
  apply Bool.eq_iff_eq_true. rewrite leqb_spec, Bool.andb_true_iff, leqb_spec, String.eqb_eq. split.
  - intros E. injection E as -> ->. auto.
  - intros [-> ->]. auto.
Qed.
Lemma prefixb_below k p : prefixb k p = orb (leqb k p) (below k p).
Proof.
  revert p; induction k as [|x k IH]; intros [|y p]; try reflexivity.
  rewrite leqb_cons. cbn [prefixb below]. rewrite IH.
  destruct (String.eqb_spec x y) as [E|NE]; destruct (string_dec x y) as [E'|N']; try congruence; reflexivity.
Qed.
Lemma below_irrefl k : below k k = false.
Proof. induction k as [|x k IH]; simpl; auto. destruct (string_dec x x); auto. Qed.

Lemma before_underscore_spec key : match wildcard key with
  | Some k => before_underscore key = (k, true)
  | None => before_underscore key = (key, false)
  end.
Proof.
  induction key as [|x key IH]; simpl; auto.
  destruct (string_dec x "_") as [->|N]; [reflexivity|].
  destruct (String.eqb_spec x "_"); [congruence|].
  destruct (wildcard key) as [k|]; rewrite IH; reflexivity.
Qed.
Lemma wildcard_incl key k : wildcard key = Some k -> incl k key.
Proof.
  revert k; induction key as [|x key IH]; simpl; intros k; [discriminate|].
  destruct (string_dec x "_"); [intros H; injection H as <-; apply incl_nil_l|].
  destruct (wildcard key); [|discriminate]. intros H. injection H as <-. apply incl_cons; [left; auto|]. apply incl_tl. auto.
Qed.

Section Dict.
  Context {L V : Type} (zero : V) (f32 : bool -> L -> V).

  Section Nested.
    Context (n : nat) (nodes : list (list string)).
    Hypothesis n2 : n <> 1.
    Hypothesis TP : tree_paths n nodes.
    Notation index := (map (padded n) nodes).

    Lemma paths_nodot p : In p nodes -> ~ In "." p.
    Proof. intros H. destruct TP as [_ F]. rewrite Forall_forall in F. apply F in H. tauto. Qed.
    Lemma loc_node k : ~ In "." k ->
      match loc index (pad n k) with
      | Some i => nth_error nodes i = Some k
      | None => ~ In k nodes
      end.
    Proof.
      intros D. destruct (loc index (pad n k)) as [i|] eqn:E.
      - apply loc_nth in E. rewrite nth_error_map in E. destruct (nth_error nodes i) as [p|] eqn:P; [|discriminate].
        simpl in E. injection E as E. f_equal. apply nth_error_In in P. eapply pad_inj; [apply paths_nodot; auto|exact D|exact E].
      - intros I. destruct (loc_in index (pad n k)) as [i X]; [|congruence]. rewrite pad_padded. now apply in_map.
    Qed.

    Lemma locs_nodup key : NoDup (locs index key).
    Proof. apply NoDup_filter, seq_NoDup. Qed.
    Lemma in_locs key i : ~ In "." key -> (In i (locs index key) <-> exists p, nth_error nodes i = Some p /\ prefixb key p = true).
    Proof.
      intros D. unfold locs. rewrite filter_In, in_seq, map_length. split.
      - intros [I P]. destruct (nth_error nodes i) as [p|] eqn:E.
        + exists p. split; auto. rewrite (nth_error_nth (map (padded n) nodes) i [] (x:=padded n p)) in P.
          * unfold padded in P. now rewrite prefixb_pad in P.
          * now rewrite nth_error_map, E.
        + apply nth_error_None in E. lia.
      - intros (p & E & P). split.
        + assert (i < length nodes) by (apply nth_error_Some; congruence). lia.
        + rewrite (nth_error_nth (map (padded n) nodes) i [] (x:=padded n p)) by (now rewrite nth_error_map, E).
          unfold padded. now rewrite prefixb_pad.
    Qed.

    Lemma fold_locs (g : list string -> V) key v : ~ In "." key ->
      fold_left (fun a i => upd a i v) (locs index key) (map g nodes)
      = map (fun q => if prefixb key q then v else g q) nodes.
    Proof.
      intros D. apply (list_eq_nth v).
      - now rewrite upd_fold_length, !map_length.
      - intros i Hi. rewrite upd_fold_length, map_length in Hi.
        destruct (nth_error nodes i) as [p|] eqn:E; [|apply nth_error_None in E; lia].
        rewrite (upd_fold (fun _ => true)).
        + rewrite (nth_error_nth (map (fun q => if prefixb key q then v else g q) nodes) i v (x := if prefixb key p then v else g p))
            by (now rewrite nth_error_map, E).
          rewrite (nth_error_nth (map g nodes) i v (x := g p)) by (now rewrite nth_error_map, E).
          destruct (in_dec Nat.eq_dec i (locs index key)) as [I|I].
          * apply in_locs in I; auto. destruct I as (q & Q & P). rewrite E in Q. injection Q as <-. now rewrite P.
          * destruct (prefixb key p) eqn:P; auto. exfalso. apply I. apply in_locs; eauto.
        + apply locs_nodup.
        + intros j Hj. apply in_locs in Hj; auto. destruct Hj as (q & Q & _). rewrite map_length. apply nth_error_Some. congruence.
    Qed.

    Definition apply_entry (key : list string) (v : V) (g : list string -> V) (p : list string) : V :=
      match concerns key p with Gives => v | Resets => zero | Nothing => g p end.

    Lemma insert_nested key v g : ~ In "." key ->
      insert_dict_val zero n index key v (map g nodes)
      = if in_dec (list_eq_dec string_dec) (about key) nodes then Ok (map (apply_entry key v g) nodes) else Err KeyError.
    Proof.
      intros D. unfold insert_dict_val. destruct (Nat.eqb_spec n 1); [contradiction|].
      pose proof (before_underscore_spec key) as B. unfold about, apply_entry, concerns.
      destruct (wildcard key) as [k|] eqn:W.
      - rewrite B. assert (Dk : ~ In "." k) by (intros I; apply D; eapply wildcard_incl; eauto).
        pose proof (loc_node k Dk) as LN.
        destruct (in_dec (list_eq_dec string_dec) k nodes) as [I|I].
        + destruct (loc index (pad n k)) as [i|]; [|contradiction].
          assert (NE : locs index k <> []).
          { intros Z. assert (X : In i (locs index k)); [|rewrite Z in X; destruct X].
            apply in_locs; auto. exists k. split; auto. rewrite prefixb_below. unfold leqb. destruct (list_eq_dec string_dec k k); [auto|congruence]. }
          destruct (locs index k) as [|j js] eqn:LS; [congruence|]. rewrite <- LS. rewrite fold_locs by auto.
          rewrite (upd_map (list_eq_dec string_dec) _ nodes i k zero (proj1 TP) LN). f_equal. apply map_ext. intros q.
          destruct (list_eq_dec string_dec q k) as [E1|N1]; destruct (list_eq_dec string_dec k q) as [E|N2]; auto; try congruence.
          rewrite prefixb_below. unfold leqb. destruct (list_eq_dec string_dec k q); [congruence|]. simpl. destruct (below k q); auto.
        + destruct (loc index (pad n k)) as [i|]; [apply nth_error_In in LN; contradiction|].
          destruct (locs index k); reflexivity.
      - rewrite B. pose proof (loc_node key D) as LN.
        destruct (in_dec (list_eq_dec string_dec) key nodes) as [I|I].
        + destruct (loc index (pad n key)) as [i|]; [|contradiction].
          rewrite (upd_map (list_eq_dec string_dec) _ nodes i key v (proj1 TP) LN). f_equal. apply map_ext. intros q.
          destruct (list_eq_dec string_dec q key) as [E1|N1]; destruct (list_eq_dec string_dec key q) as [E|N2]; auto; congruence.
        + destruct (loc index (pad n key)) as [i|]; [apply nth_error_In in LN; contradiction|reflexivity].
    Qed.

    Lemma insert_all_nested (lit : @literal L) : Forall (fun e => ~ In "." (fst e)) lit -> forall g,
      (Forall (fun e => In (about (fst e)) nodes) lit ->
       insert_all zero f32 n index lit (map g nodes)
       = Ok (map (fun p => fold_left (fun acc e => match concerns (fst e) p with
                            | Gives => f32 (fst (snd e)) (snd (snd e)) | Resets => zero | Nothing => acc end) lit (g p)) nodes)) /\
      (~ Forall (fun e => In (about (fst e)) nodes) lit -> insert_all zero f32 n index lit (map g nodes) = Err KeyError).
    Proof.
      induction lit as [|[key [neg x]] lit IH]; intros D g; simpl.
      - split; auto. intros H. exfalso. apply H. constructor.
      - inversion D; subst. simpl in H1. rewrite insert_nested by auto.
        destruct (in_dec (list_eq_dec string_dec) (about key) nodes) as [I|I]; simpl.
        + destruct (IH H2 (apply_entry key (f32 neg x) g)) as [IH1 IH2]. split.
          * intros F. inversion F; subst. rewrite IH1 by auto. reflexivity.
          * intros F. apply IH2. intros F'. apply F. constructor; auto.
        + split; auto. intros F. inversion F; subst. simpl in *. contradiction.
    Qed.

    Lemma expand_nested (lit : @literal L) : Forall (fun e => ~ In "." (fst e)) lit ->
      (Forall (fun e => In (about (fst e)) nodes) lit ->
       expand_literal zero f32 n index lit = Ok (map (node_value zero f32 lit) nodes)) /\
      (~ Forall (fun e => In (about (fst e)) nodes) lit -> expand_literal zero f32 n index lit = Err KeyError).
    Proof.
      intros D. unfold expand_literal. rewrite map_length.
      replace (repeat zero (length nodes)) with (map (fun _ : list string => zero) nodes).
      - apply (insert_all_nested lit D (fun _ => zero)).
      - clear. induction nodes; simpl; congruence.
    Qed.
  End Nested.

  Section Flat.
    Context (choices : list string).
    Hypothesis ND : NoDup choices.
    Notation index := (map (fun c => [c]) choices).

    Lemma loc_flat c : match loc index [c] with Some i => nth_error choices i = Some c | None => ~ In c choices end.
    Proof.
      destruct (loc index [c]) as [i|] eqn:E.
      - apply loc_nth in E. rewrite nth_error_map in E. destruct (nth_error choices i); [|discriminate]. simpl in E. congruence.
      - intros I. destruct (loc_in index [c]) as [i X]; [|congruence]. now apply (in_map (fun c => [c])).
    Qed.

    (** the key of an entry names a choice *)
    Definition names_choice (key : list string) : Prop := exists c, key = [c] /\ In c choices.
    Lemma insert_flat c v g :
      insert_dict_val zero 1 index [c] v (map g choices)
      = if in_dec string_dec c choices then Ok (map (fun q => if string_dec q c then v else g q) choices) else Err KeyError.
    Proof.
      unfold insert_dict_val. simpl. pose proof (loc_flat c) as LF.
      destruct (in_dec string_dec c choices) as [I|I].
      - destruct (loc index [c]) as [i|]; [|contradiction].
        now rewrite (upd_map string_dec g choices i c v ND LF).
      - destruct (loc index [c]) as [i|]; [apply nth_error_In in LF; contradiction|reflexivity].
    Qed.

    Lemma insert_all_flat (lit : @literal L) : forall g,
      Forall (fun e => names_choice (fst e)) lit ->
      insert_all zero f32 1 index lit (map g choices)
      = Ok (map (fun c => match last_value [c] lit with Some (neg, x) => f32 neg x | None => g c end) choices).
    Proof.
      induction lit as [|[key [neg x]] lit IH]; intros g F.
      - reflexivity.
      - inversion F as [|? ? (c & E & I) F']; subst. simpl in E. subst key. cbn [insert_all].
        rewrite insert_flat. destruct (in_dec string_dec c choices); [|contradiction]. simpl rbind.
        rewrite IH by auto. f_equal. apply map_ext. intros q. cbn [last_value].
        destruct (last_value [q] lit) as [[n' x']|]; auto.
        destruct (list_eq_dec string_dec [q] [c]) as [E|N]; destruct (string_dec q c); auto; try congruence.
    Qed.
    Lemma insert_all_flat_err (lit : @literal L) : forall g,
      ~ Forall (fun e => names_choice (fst e)) lit ->
      exists x, insert_all zero f32 1 index lit (map g choices) = Err x /\ (x = KeyError \/ x = AssertionError).
    Proof.
      induction lit as [|[key [neg v]] lit IH]; intros g F.
      - exfalso. apply F. constructor.
      - cbn [insert_all]. unfold insert_dict_val at 1. rewrite Nat.eqb_refl.
        destruct (Nat.eqb_spec (length key) 1) as [E|E]; [|exists AssertionError; auto].
        destruct key as [|c [|? ?]]; try discriminate. pose proof (loc_flat c) as LF.
        destruct (loc index [c]) as [i|]; [|exists KeyError; auto]. simpl rbind.
        rewrite (upd_map string_dec g choices i c _ ND LF). apply IH. intros F'. apply F. constructor; auto.
        exists c. split; auto. now apply nth_error_In in LF.
    Qed.
    Lemma expand_flat (lit : @literal L) :
      (Forall (fun e => names_choice (fst e)) lit ->
       expand_literal zero f32 1 index lit = Ok (map (flat_value zero f32 lit) choices)) /\
      (~ Forall (fun e => names_choice (fst e)) lit ->
       exists x, expand_literal zero f32 1 index lit = Err x /\ (x = KeyError \/ x = AssertionError)).
    Proof.
      unfold expand_literal. rewrite map_length.
      replace (repeat zero (length choices)) with (map (fun _ : string => zero) choices) by (clear; induction choices; simpl; congruence).
      split; intros F.
      - rewrite (insert_all_flat lit _ F). reflexivity.
      - apply (insert_all_flat_err lit _ F).
    Qed.
  End Flat.

  (** ** Order of the entries *)
  Lemma fold_untouched (l : list (list string * (bool * L))) p acc :
    (forall e, In e l -> concerns (fst e) p = Nothing) ->
    fold_left (fun acc e => match concerns (fst e) p with
                            | Gives => f32 (fst (snd e)) (snd (snd e)) | Resets => zero | Nothing => acc end) l acc = acc.
  Proof.
    revert acc; induction l as [|e l IH]; intros acc H; simpl; auto.
    rewrite (H e) by (left; auto). apply IH. intros; apply H; right; auto.
  Qed.
  Lemma node_value_perm (l l' : list (list string * (bool * L))) p :
    Permutation l l' -> NoDup (map fst l) ->
    (forall e e', In e l -> In e' l -> fst e <> fst e' -> concerns (fst e) p = Nothing \/ concerns (fst e') p = Nothing) ->
    node_value zero f32 l p = node_value zero f32 l' p.
  Proof.
    unfold node_value. generalize zero at 2 4 as acc. intros acc P. revert acc. induction P as [|e l l' P IH|e e' l|l l' l'' P1 IH1 P2 IH2]; intros acc N H; simpl; auto.
    - simpl in N. inversion N; subst. apply IH; auto. intros; apply H; simpl; auto.
    - simpl in N. inversion N; subst. simpl in H2.
      assert (NE : fst e <> fst e') by (intros E; apply H2; left; auto).
      destruct (H e e') as [Z|Z]; [right; left; reflexivity|left; reflexivity|exact NE| |]; rewrite Z; reflexivity.
    - rewrite IH1 by auto. apply IH2.
      + eapply Permutation_NoDup; [apply Permutation_map; exact P1|exact N].
      + intros e e' I I' NE. apply H; auto; apply (Permutation_in _ (Permutation_sym P1)); auto.
  Qed.
End Dict.
