(** Success and result of the evaluation of utilities in terms of the values of the expressions in each
    cell; used to compare evaluations (preval, copies, subsets). *)
From Coq Require Import Permutation.
From Verif Require Import Prelude Arith CoreModel TreeModel DictProofs ParModel ExprModel SpecExpr ExprWorld ScopeModel SpecScope ScopeProofs ModelModel ModelProofs SpecModel KernelProofs EvalProofs PropState ModelWorld ModelHist ModelTabs RunProofs.
Local Open Scope string_scope.
Local Open Scope nat_scope.
Local Open Scope list_scope.

Section Totals.
  Context {L : Type} {F : arith}.
  Notation num := (num F).
  Notation expression := (@expression L).

  Lemma total_ext (app : expression -> bool) (f g : expression -> num -> option num) : forall xs acc,
    (forall x a, In x xs -> f x a = g x a) -> total app f xs acc = total app g xs acc.
  Proof.
    induction xs as [|x xs IH]; intros acc H; cbn; auto. rewrite (H x acc) by (simpl; auto).
    assert (H' : forall y a, In y xs -> f y a = g y a) by (intros; apply H; simpl; auto).
    destruct (app x); [destruct (g x acc)|]; auto.
  Qed.
  Lemma total_app (app : expression -> bool) (f : expression -> num -> option num) : forall xs ys acc,
    total app f (xs ++ ys) acc = match total app f xs acc with Some a => total app f ys a | None => None end.
  Proof. induction xs as [|x xs IH]; intros ys acc; cbn; auto. destruct (app x); [destruct (f x acc)|]; auto. Qed.
  Lemma total_perm (assoc : forall a b c : num, nadd F a (nadd F b c) = nadd F (nadd F a b) c) (comm : forall a b : num, nadd F a b = nadd F b a)
        (app : expression -> bool) (f : expression -> option num) xs ys :
    Permutation xs ys -> forall acc, total app (fun x _ => f x) xs acc = total app (fun x _ => f x) ys acc.
  Proof.
    induction 1 as [|x xs ys P IH|x y xs|xs ys zs P1 IH1 P2 IH2]; intros acc; cbn; auto.
    - destruct (app x); [destruct (f x)|]; auto.
    - destruct (app x), (app y); destruct (f x) as [a|], (f y) as [b|]; auto. f_equal. rewrite <- !assoc. f_equal. apply comm.
    - now rewrite IH1.
  Qed.
End Totals.

Section Transfer.
  Context {L : Type} {F : arith} {D cell : Type} (E : env L F D cell).
  Notation num := (num F).
  Notation FR := (ev_frames E).
  Notation symbol := (symbol (num:=num) FR).
  Notation table := (list (list num)).
  Notation tables := (list (list (list num))).
  Notation expression := (@expression L).
  Notation container := (@container L).
  Notation exprs := (list (@subgroup L)).
  Notation cm := (cm E).
  Notation dget := (dget String.eqb).

  (** the value of an expression in a cell where the utility so far is [acc] *)
  Definition xvalue (scope : dict string symbol) (nl : nat) (cols : list label) (r c : nat) (x : expression) (acc : num) : option num :=
    ev_ne E (e_trans x) (cell_meaning E scope nl cols x acc r c).

  (** [scope'] is part of [scope] *)
  Definition subscope (scope' scope : dict string symbol) : Prop := forall name s, dget scope' name = Some s -> dget scope name = Some s.
  (** the simple symbols can be evaluated *)
  Definition simple_ok (scope : dict string symbol) (simple : list string) : Prop :=
    forall y, In y simple -> reserved y = false -> exists s d, dget scope y = Some s /\ filled FR s = true /\ get_simple FR s = Ok d.

  Context (NL : numexpr_local E).
  Set Default Proof Using "Type*".

  Lemma xvalue_acc scope nl cols r c x acc acc' : ~ In "OUT" (free_names (e_trans x)) -> xvalue scope nl cols r c x acc = xvalue scope nl cols r c x acc'.
  Proof.
    intros N. apply NL. intros y I. unfold cell_meaning. destruct (String.eqb_spec y "OUT"); [subst; contradiction|reflexivity].
  Qed.

  Lemma xvalue_sub scope scope' nl cols simple' r c x acc : subscope scope' scope -> ready E scope' nl cols simple' x -> simple_ok scope' simple' ->
    xvalue scope' nl cols r c x acc = xvalue scope nl cols r c x acc.
  Proof.
    intros SB [_ RL RC RN] SO. apply NL. intros y I. unfold cell_meaning. destruct (String.eqb y "OUT") eqn:Q1; auto. destruct (String.eqb y "NAN") eqn:Q2; auto.
    destruct (String.eqb y "NEG_INF") eqn:Q3; auto.
    assert (RY : reserved y = false). { apply not_true_iff_false. rewrite reserved_cases. apply String.eqb_neq in Q1, Q2, Q3. tauto. }
    destruct (find_chain (e_chains x) y) as [[name ct]|] eqn:FC.
    - unfold find_chain in FC. destruct (find _ (e_chains x)) as [[n us]|] eqn:FD; [|discriminate]. apply find_some in FD. destruct FD as [FD _].
      destruct (dget us y); [|discriminate]. injection FC as -> ->. destruct (RC name us FD) as (s & G & _). rewrite G, (SB _ _ G). reflexivity.
    - destruct (dget (e_dl x) y) as [lit|] eqn:DL; auto. destruct (RN y I) as [R|[R|R]]; [congruence| |].
      + destruct (SO y R RY) as (s & d & G & _). rewrite G, (SB _ _ G). reflexivity.
      + exfalso. unfold substitutions in R. apply in_app_or in R. destruct R as [R|R].
        * unfold find_chain in FC. apply in_concat in R. destruct R as (ks & R & J). apply in_map_iff in R. destruct R as ([n us] & <- & R). cbn [snd] in J.
          destruct (find (fun p => mem y (dkeys (snd p))) (e_chains x)) as [[n' us']|] eqn:FD.
          -- apply find_some in FD. destruct FD as [_ FD]. apply mem_in in FD. cbn [snd] in FD. destruct (dget us' y) eqn:G; [discriminate|].
             apply (dget_none String.eqb String.eqb_eq) in G. contradiction.
          -- eapply find_none in FD; [|exact R]. cbn [snd] in FD. apply mem_in in J. congruence.
        * apply (dget_none String.eqb String.eqb_eq) in DL. contradiction.
  Qed.

  (** what [ready] needs is there in a larger scope *)
  Lemma ready_incl scope scope' nl cols simple simple' x : subscope scope' scope -> incl simple' simple -> ready E scope' nl cols simple' x -> ready E scope nl cols simple x.
  Proof.
    intros SB IN [A B C G]. constructor; auto.
    - intros name us I. destruct (C name us I) as (s & X & Y). exists s. auto.
    - intros y I. destruct (G y I) as [|[|]]; auto.
  Qed.

  (** ** The evaluation of utilities *)
  Lemma simple_ok_shared scope simple sh : shared_locals E scope simple (base_locals E) = Ok sh ->
    (forall y s, In y simple -> reserved y = false -> dget scope y = Some s -> filled FR s = true) -> simple_ok scope simple.
  Proof.
    intros SH FI y I R. pose proof (shared_get E scope simple (base_locals E) sh SH y) as SG. rewrite base_get in SG.
    pose proof R as R'. rewrite <- not_true_iff_false, reserved_cases in R. destruct (String.eqb_spec y "NAN"); [tauto|]. destruct (String.eqb_spec y "OUT"); [tauto|]. destruct (String.eqb_spec y "NEG_INF"); [tauto|].
    apply mem_in in I as M. rewrite M in SG. destruct SG as (s & d & A & B & _). exists s, d. split; auto. split; auto. eapply FI; eauto.
  Qed.

  (** a successful evaluation *)
  Record evaluated (ts : tables) (m : cm) (simple : list string) (xs : list expression) (d : list D) (cols : list label) (nl : nat) (t : table) : Prop := Evaluated {
    ed_du : m_du m = Some d;
    ed_choices : choices (m_tree m) = Ok cols;
    ed_depth : depth (m_tree m) = Ok nl;
    ed_cols : forall v, m_utils m = Some v -> length (u_cols v) = length cols;
    ed_rows : length (start_table E ts m (length d) (length cols)) = length d;
    ed_simple : simple_ok (m_scope m) simple;
    ed_ready : forall x, In x xs -> ready E (m_scope m) nl cols simple x;
    ed_rect : rectangle (length d) (length cols) t;
    ed_total : forall r c l, r < length d -> nth_error cols c = Some l ->
      total (applies nl l) (xvalue (m_scope m) nl cols r c) xs (tcell (start_table E ts m (length d) (length cols)) r c) = Some (tcell t r c);
    ed_nan : has_nan t = false
  }.
  Lemma evaluate_evaluated ts (m : cm) simple xs ts' m' u : table_ok E ts m -> tidy E m simple xs ->
    (forall y s, In y simple -> reserved y = false -> dget (m_scope m) y = Some s -> filled FR s = true) ->
    evaluate E ts m simple xs = (ts', m', Ok u) ->
    exists d cols nl, evaluated ts m simple xs d cols nl (nth (u_ref u) ts' []).
  Proof.
    intros TO TD FI EV. pose proof EV as EV'. apply evaluate_ok in EV'; auto. destruct EV' as (d & cols & nl & sh & DU & CH & DP & UC & SH & EVA & NN & LT & _).
    pose proof (evaluate_total E NL ts m simple xs ts' m' u TO TD FI EV) as (d' & cols' & nl' & Q1 & Q2 & Q3 & R0 & R1 & RD & T).
    assert (d' = d) by congruence. assert (cols' = cols) by congruence. assert (nl' = nl) by congruence. subst d' cols' nl'.
    exists d, cols, nl. constructor; auto.
    - apply R0.
    - eapply simple_ok_shared; eauto.
    - intros r c l Hr Hc. unfold xvalue. apply (T r c l Hr Hc (fun x acc => cell_meaning E (m_scope m) nl cols x acc r c)). intros x acc I. apply meaning_exists. now apply TD.
  Qed.

  Lemma has_nan_false n k (t : table) : rectangle n k t -> (forall r c, r < n -> c < k -> is_nan (tcell t r c) = false) <-> has_nan t = false.
  Proof.
    intros [R1 R2]. unfold has_nan. split.
    - intros H. apply not_true_iff_false. intros X. apply existsb_exists in X. destruct X as (row & I & X). apply existsb_exists in X. destruct X as (v & J & X).
      apply In_nth_error in I. destruct I as [r I]. apply In_nth_error in J. destruct J as [c J]. pose proof (tcell_nth t r c row v I J) as TC.
      assert (Hr : r < n) by (rewrite <- R1; apply nth_error_Some; congruence).
      assert (Hc : c < k). { rewrite Forall_forall in R2. rewrite <- (R2 row) by (eapply nth_error_In; eauto). apply nth_error_Some. congruence. }
      specialize (H r c Hr Hc). congruence.
    - intros H r c Hr Hc. apply not_true_iff_false. intros X. rewrite <- not_true_iff_false in H. apply H. clear H.
      apply existsb_exists. exists (nth r t []). assert (I : In (nth r t []) t) by (apply nth_In; lia). split; auto.
      apply existsb_exists. exists (nth c (nth r t []) (nzero F)). split; [|exact X]. apply nth_In. rewrite Forall_forall in R2. now rewrite (R2 _ I).
  Qed.

  (** and conversely *)
  Lemma evaluate_from_totals ts (m : cm) simple xs d cols nl : table_ok E ts m -> tidy E m simple xs -> validate_tree (m_tree m) = Ok tt ->
    m_du m = Some d -> choices (m_tree m) = Ok cols -> depth (m_tree m) = Ok nl ->
    (forall v, m_utils m = Some v -> length (u_cols v) = length cols) -> length (start_table E ts m (length d) (length cols)) = length d ->
    simple_ok (m_scope m) simple -> (forall x, In x xs -> ready E (m_scope m) nl cols simple x) ->
    (forall r c l, r < length d -> nth_error cols c = Some l -> exists v,
       total (applies nl l) (xvalue (m_scope m) nl cols r c) xs (tcell (start_table E ts m (length d) (length cols)) r c) = Some v /\ is_nan v = false) ->
    exists ts' m' u, evaluate E ts m simple xs = (ts', m', Ok u).
  Proof.
    intros TO TD V DU CH DP UC LS SO RD TT. pose proof TD as [TL TA TN].
    destruct (shared_total E (m_scope m) simple (base_locals E)) as [sh SH].
    { intros y I R. destruct (SO y I R) as (s & dd & A & _ & B). eauto. }
    { apply base_reserved. }
    assert (FI : forall y s, In y simple -> reserved y = false -> dget (m_scope m) y = Some s -> filled FR s = true).
    { intros y s I R G. destruct (SO y I R) as (s' & dd & A & B & _). congruence. }
    set (t0 := start_table E ts m (length d) (length cols)) in *.
    pose proof (start_rect E NL ts m d cols TO DU UC) as RS. fold t0 in RS.
    pose proof (eval_all_exists E NL (m_scope m) nl cols simple (TL cols CH) FI sh xs t0) as X. rewrite LS in X.
    assert (RS' : rectangle (length d) (length cols) t0) by (rewrite <- LS; exact RS).
    destruct X as [t EV]; auto.
    { intros r c l Hr Hc. exists (fun x acc => cell_meaning E (m_scope m) nl cols x acc r c). split; [intros x acc I; apply meaning_exists; auto|].
      destruct (TT r c l Hr Hc) as (v & T & _). unfold xvalue in T. congruence. }
    pose proof (eval_all_total E NL (m_scope m) nl cols simple (TL cols CH) FI sh xs t0 t) as T. rewrite LS in T. specialize (T (TA d cols DU CH) SH EV TN RS'). destruct T as [RT T].
    destruct (evaluate_exists E ts m simple xs d cols nl sh t) as (ts' & m' & u & EE & _); auto.
    - apply (has_nan_false (length d) (length cols) t RT). intros r c Hr Hc. destruct (nth_error cols c) as [l|] eqn:NC; [|apply nth_error_None in NC; lia].
      destruct (TT r c l Hr NC) as (v & TV & NV).
      pose proof (T r c l Hr NC (fun x acc => cell_meaning E (m_scope m) nl cols x acc r c) (fun x acc I => meaning_exists E _ _ _ _ _ _ _ _ (TN x I))) as T'.
      unfold xvalue in TV. assert (Some v = Some (tcell t r c)) as Q by (rewrite <- TV; exact T'). injection Q as <-. exact NV.
    - apply RT.
    - eauto.
  Qed.
  Lemma tables_equal n k (t t' : table) : rectangle n k t -> rectangle n k t' -> (forall r c, r < n -> c < k -> tcell t r c = tcell t' r c) -> t = t'.
  Proof.
    intros [A1 A2] [B1 B2] H. apply (list_eq_nth []); [congruence|]. intros r Hr. rewrite Forall_forall in A2, B2. rewrite A1 in Hr.
    assert (I1 : In (nth r t []) t) by (apply nth_In; lia). assert (I2 : In (nth r t' []) t') by (apply nth_In; lia).
    apply (list_eq_nth (nzero F)); [rewrite (A2 _ I1), (B2 _ I2); auto|]. intros c Hc. rewrite (A2 _ I1) in Hc. now apply H.
  Qed.
End Transfer.
