(** Correctness of the four passes of [nested_probabilities], in any arithmetic (C13). *)
From Verif Require Import Prelude Arith CoreModel SpecNested.
Local Open Scope nat_scope.

Lemma fold_left_if_filter {A B} (f : B -> bool) (g : A -> B -> A) l a :
  fold_left (fun st i => if f i then g st i else st) l a = fold_left g (filter f l) a.
Proof. revert a; induction l as [|x t IH]; intros a; simpl; auto. destruct (f x); simpl; auto. Qed.

Lemma fold_left_inv_seq {A} (P : nat -> A -> Prop) (g : A -> nat -> A) n a :
  P 0 a -> (forall k st, k < n -> P k st -> P (S k) (g st k)) -> P n (fold_left g (seq 0 n) a).
Proof.
  intros H0 HS. induction n as [|n IH]; [exact H0|].
  rewrite seq_S, fold_left_app. simpl. apply HS; [lia|]. apply IH. intros; apply HS; auto; lia.
Qed.

Lemma fold_max_ge l a : a <= fold_left Nat.max l a /\ forall x, In x l -> x <= fold_left Nat.max l a.
Proof.
  revert a; induction l as [|y t IH]; intros a; simpl.
  - split; [lia|tauto].
  - destruct (IH (Nat.max a y)) as [H1 H2]. split; [lia|]. intros x [<-|Hx]; [lia|auto].
Qed.

Lemma fold_max_in l a : fold_left Nat.max l a = a \/ In (fold_left Nat.max l a) l.
Proof.
  revert a; induction l as [|y t IH]; intros a; simpl; auto.
  destruct (IH (Nat.max a y)) as [H|H]; auto.
  destruct (Nat.max_spec a y) as [[_ E]|[_ E]]; rewrite E in *; auto.
Qed.

Section Gen.
  Context (F : arith) (n : nat) (h : list Z) (lv : list nat) (scales : list (num F)) (bt : list bool)
          (scaled : bool).
  Notation num := (num F).
  Hypothesis WF : wf_table n h lv bt.

  Lemma wf_n : 0 < n. Proof. apply WF. Qed.
  Lemma wf_h : length h = n. Proof. apply WF. Qed.
  Lemma wf_lv : length lv = n. Proof. apply WF. Qed.
  Lemma wf_bt : length bt = n. Proof. apply WF. Qed.
  Lemma wf_node i : i < n ->
    match parent_of h i with
    | None => nth i h (-1)%Z = (-1)%Z /\ nth i lv 0 = 0
    | Some p => p < n /\ nth i lv 0 = S (nth p lv 0)
    end.
  Proof. apply WF. Qed.
  Lemma wf_bottom i : i < n -> (nth i bt true = true <-> children n h i = []).
  Proof. apply WF. Qed.

  Lemma parent_none i : i < n -> parent_of h i = None -> par h i = (-1)%Z /\ lev lv i = 0.
  Proof. intros Hi E. pose proof (wf_node i Hi) as H. rewrite E in H. exact H. Qed.
  Lemma parent_some i p : i < n -> parent_of h i = Some p ->
    par h i = Z.of_nat p /\ p < n /\ lev lv i = S (lev lv p).
  Proof.
    intros Hi E. pose proof (wf_node i Hi) as H. rewrite E in H. destruct H as [Hp HL].
    split; [|auto]. unfold par. unfold parent_of in E.
    destruct (Z.ltb_spec (nth i h (-1)%Z) 0); [discriminate|]. injection E as <-. lia.
  Qed.

  Lemma is_child_iff i j : is_child h i j = true <-> parent_of h j = Some i.
  Proof.
    unfold is_child. destruct (parent_of h j) as [p|]; split; intros E; try discriminate.
    - apply Nat.eqb_eq in E. now subst.
    - injection E as ->. apply Nat.eqb_refl.
  Qed.

  Lemma in_children i j : In j (children n h i) <-> j < n /\ parent_of h j = Some i.
  Proof.
    unfold children. rewrite filter_In, is_child_iff, in_seq. split; intros [A B]; split; auto; lia.
  Qed.
  Lemma in_tops j : In j (tops n h) <-> j < n /\ parent_of h j = None.
  Proof.
    unfold tops. rewrite filter_In, in_seq. unfold is_top.
    destruct (parent_of h j); split; intros [A B]; try discriminate; split; auto; lia.
  Qed.

  Definition kids_k (k i : nat) : list nat := filter (is_child h i) (seq 0 k).
  Definition tops_k (k : nat) : list nat := filter (is_top h) (seq 0 k).

  Lemma kids_k_S k i : kids_k (S k) i = kids_k k i ++ (if is_child h i k then [k] else []).
  Proof.
    unfold kids_k. rewrite seq_S, filter_app. simpl. destruct (is_child h i k); reflexivity.
  Qed.
  Lemma tops_k_S k : tops_k (S k) = tops_k k ++ (if is_top h k then [k] else []).
  Proof. unfold tops_k. rewrite seq_S, filter_app. simpl. destruct (is_top h k); reflexivity. Qed.

  Lemma in_kids_k k i j : In j (kids_k k i) <-> j < k /\ parent_of h j = Some i.
  Proof.
    unfold kids_k. rewrite filter_In, is_child_iff, in_seq. split; intros [A B]; split; auto; lia.
  Qed.

  (** ** First pass *)
  Context (u : list num) (Hu : length u = n).

  Definition kids_done (c k i : nat) : list nat :=
    if c <? S (lev lv i) then kids_k n i else if S (lev lv i) =? c then kids_k k i else [].
  Definition tops_done (c k : nat) : list nat := if c =? 0 then tops_k k else [].
  Definition is_done (c k i : nat) : Prop := c < lev lv i \/ (lev lv i = c /\ i < k).

  Definition term (i : nat) (g : num) : num :=
    let s := parent_ls_scale F scales scaled (par h i) in
    if bot bt i then nexp F (ndiv F (rd u i) s)
    else nexp F (ndiv F (nadd F (rd u i) (nmul F (rd scales i) (nlog F g))) s).

  Notation gsum := (group_sum F).

  Record inv1 (c k : nat) (st : s1 F) : Prop := {
    i_lp : length (s1_prob st) = n;
    i_lg : length (s1_grp st) = n;
    i_lf : length (s1_fin st) = n;
    i_done : forall i, i < n -> is_done c k i ->
        rd (s1_prob st) i = rd (s1_fin st) i /\ rd (s1_fin st) i = term i (rd (s1_grp st) i);
    i_todo : forall i, i < n -> ~ is_done c k i -> rd (s1_prob st) i = rd u i;
    i_grp : forall i, i < n -> rd (s1_grp st) i = gsum (s1_fin st) (kids_done c k i);
    i_top : s1_top st = gsum (s1_fin st) (tops_done c k)
  }.

  Lemma gsum_upd E k x l : ~ In k l -> gsum (upd E k x) l = gsum E l.
  Proof.
    intros H. unfold group_sum. apply fold_left_ext. intros a j Hj. f_equal.
    apply nth_upd_neq. intros ->. tauto.
  Qed.
  Lemma gsum_snoc E l k : gsum E (l ++ [k]) = nadd F (gsum E l) (rd E k).
  Proof. unfold group_sum. rewrite fold_left_app. reflexivity. Qed.

  Lemma kids_done_level c k i j : In j (kids_done c k i) -> j < n -> k <= n -> is_done c k j.
  Proof.
    unfold kids_done, is_done. intros H Hj Hk.
    destruct (Nat.ltb_spec c (S (lev lv i))).
    - apply in_kids_k in H. destruct H as [_ E]. apply parent_some in E; auto. lia.
    - destruct (Nat.eqb_spec (S (lev lv i)) c); [|destruct H].
      apply in_kids_k in H. destruct H as [A E]. apply parent_some in E; auto. lia.
  Qed.

  Lemma in_kids_done_lt c k i j : k <= n -> In j (kids_done c k i) -> j < n.
  Proof.
    unfold kids_done. intros Hk H. destruct (c <? S (lev lv i)).
    - apply in_kids_k in H. lia.
    - destruct (S (lev lv i) =? c); [apply in_kids_k in H; lia|destruct H].
  Qed.

  Lemma inv1_node c k st : k < n -> lev lv k = c -> inv1 c k st ->
    inv1 c (S k) (s1_node F h scales bt scaled st k).
  Proof.
    intros Hk HL I. destruct I as [LP LG LF D T G TP].
    assert (Hnd : ~ is_done c k k) by (unfold is_done; lia).
    assert (Hpk : rd (s1_prob st) k = rd u k) by (apply T; auto).
    set (e := term k (rd (s1_grp st) k)).
    assert (Hnot : forall i, ~ In k (kids_done c k i)).
    { intros i H. apply Hnd. eapply kids_done_level; eauto; lia. }
    assert (Hst : s1_node F h scales bt scaled st k =
      {| s1_grp := if (0 <=? par h k)%Z
                   then upd (s1_grp st) (Z.to_nat (par h k)) (nadd F (rd (s1_grp st) (Z.to_nat (par h k))) e)
                   else s1_grp st;
         s1_top := if (0 <=? par h k)%Z then s1_top st else nadd F (s1_top st) e;
         s1_prob := upd (s1_prob st) k e;
         s1_fin := upd (s1_fin st) k e |}).
    { unfold s1_node, e, term. rewrite Hpk. destruct (bot bt k); reflexivity. }
    rewrite Hst. clear Hst.
    assert (Hlt : lt k n) by exact Hk.
    assert (Hdone' : forall i, is_done c (S k) i <-> is_done c k i \/ i = k).
    { intros i. unfold is_done. destruct (Nat.eq_dec i k) as [->|]; lia. }
    destruct (parent_of h k) as [p|] eqn:Ep.
    - destruct (parent_some k p Hk Ep) as (Hpar & Hp & HLp).
      rewrite Hpar, Nat2Z.id. replace (0 <=? Z.of_nat p)%Z with true by (symmetry; apply Z.leb_le; lia).
      assert (Hpk' : p <> k) by (intros ->; lia).
      assert (Hpd : ~ is_done c (S k) p) by (unfold is_done; lia).
      assert (Hkids : forall i, i < n -> kids_done c (S k) i =
                 if i =? p then kids_done c k i ++ [k] else kids_done c k i).
      { intros i Hi. unfold kids_done. destruct (Nat.eqb_spec i p) as [->|Ne].
        - replace (c <? S (lev lv p)) with false by (symmetry; apply Nat.ltb_ge; lia).
          replace (S (lev lv p) =? c) with true by (symmetry; apply Nat.eqb_eq; lia).
          rewrite kids_k_S. now rewrite (proj2 (is_child_iff p k) Ep).
        - destruct (c <? S (lev lv i)); auto. destruct (S (lev lv i) =? c); auto.
          rewrite kids_k_S. destruct (is_child h i k) eqn:Ec; [|now rewrite app_nil_r].
          apply is_child_iff in Ec. congruence. }
      assert (Htops : tops_done c (S k) = tops_done c k).
      { unfold tops_done. replace (c =? 0) with false by (symmetry; apply Nat.eqb_neq; lia). reflexivity. }
      constructor; simpl; rewrite ?upd_length; auto.
      + intros i Hi Hd. apply Hdone' in Hd. unfold rd.
        assert (i <> p) by (intros ->; apply Hpd, Hdone'; auto).
        rewrite (nth_upd_neq (s1_grp st)) by auto.
        rewrite !nth_upd by lia. destruct (Nat.eqb_spec k i) as [<-|Ne]; [auto|].
        destruct Hd as [Hd| ->]; [|congruence]. apply D; auto.
      + intros i Hi Hd. unfold rd. rewrite nth_upd_neq by (intros <-; apply Hd, Hdone'; auto).
        apply T; auto. intros X; apply Hd, Hdone'; auto.
      + intros i Hi. rewrite Hkids by auto. unfold rd. rewrite nth_upd by lia.
        rewrite (Nat.eqb_sym p i). destruct (Nat.eqb_spec i p) as [->|Ne].
        * rewrite gsum_snoc, gsum_upd by auto. f_equal; [apply G; auto|].
          unfold rd. rewrite nth_upd_eq; auto; lia.
        * rewrite gsum_upd by auto. apply G; auto.
      + rewrite Htops, gsum_upd; auto. unfold tops_done.
        destruct (c =? 0); [|tauto]. unfold tops_k. rewrite filter_In, in_seq. lia.
    - destruct (parent_none k Hk Ep) as (Hpar & HL0).
      rewrite Hpar. replace (0 <=? -1)%Z with false by reflexivity.
      assert (Hc : c = 0) by lia.
      assert (Hkids : forall i, i < n -> kids_done c (S k) i = kids_done c k i).
      { intros i Hi. unfold kids_done. destruct (c <? S (lev lv i)) eqn:E; auto.
        apply Nat.ltb_ge in E. lia. }
      assert (Hntop : ~ In k (tops_k k)) by (unfold tops_k; rewrite filter_In, in_seq; lia).
      constructor; simpl; rewrite ?upd_length; auto.
      + intros i Hi Hd. apply Hdone' in Hd. unfold rd.
        rewrite !nth_upd by lia. destruct (Nat.eqb_spec k i) as [<-|Ne]; [auto|].
        destruct Hd as [Hd| ->]; [|congruence]. apply D; auto.
      + intros i Hi Hd. unfold rd. rewrite nth_upd_neq by (intros <-; apply Hd, Hdone'; auto).
        apply T; auto. intros X; apply Hd, Hdone'; auto.
      + intros i Hi. rewrite Hkids by auto. rewrite gsum_upd by auto. apply G; auto.
      + unfold tops_done in *. rewrite Hc in *. simpl in *. rewrite tops_k_S.
        replace (is_top h k) with true by (unfold is_top; now rewrite Ep).
        rewrite gsum_snoc, gsum_upd by auto. f_equal; auto. unfold rd. rewrite nth_upd_eq; auto; lia.
  Qed.

  Lemma inv1_skip c k st : k < n -> lev lv k <> c -> inv1 c k st -> inv1 c (S k) st.
  Proof.
    intros Hk HL [LP LG LF D T G TP].
    assert (Hd : forall i, is_done c (S k) i <-> is_done c k i).
    { intros i. unfold is_done. destruct (Nat.eq_dec i k) as [->|]; lia. }
    constructor; auto.
    - intros i Hi X. apply D; auto. now apply Hd.
    - intros i Hi X. apply T; auto. intros Y; apply X, Hd; auto.
    - intros i Hi. rewrite G by auto. f_equal. unfold kids_done.
      destruct (c <? S (lev lv i)); auto. destruct (Nat.eqb_spec (S (lev lv i)) c); auto.
      rewrite kids_k_S. destruct (is_child h i k) eqn:Ec; [|now rewrite app_nil_r].
      apply is_child_iff in Ec. apply parent_some in Ec; auto. lia.
    - rewrite TP. f_equal. unfold tops_done. destruct (Nat.eqb_spec c 0); auto.
      rewrite tops_k_S. destruct (is_top h k) eqn:Et; [|now rewrite app_nil_r].
      unfold is_top in Et. destruct (parent_of h k) eqn:Ep; [discriminate|].
      apply parent_none in Ep; auto. lia.
  Qed.

  Lemma inv1_sweep c st : inv1 c 0 st -> inv1 c n (s1_sweep F h lv scales bt scaled st c).
  Proof.
    intros I. unfold s1_sweep. rewrite wf_lv.
    apply (fold_left_inv_seq (fun k st => inv1 c k st)); auto.
    intros k st' Hk I'. destruct (Nat.eqb_spec (lev lv k) c).
    - now apply inv1_node.
    - now apply inv1_skip.
  Qed.

  Lemma inv1_next c st : inv1 (S c) n st -> inv1 c 0 st.
  Proof.
    intros [LP LG LF D T G TP].
    assert (Hd : forall i, i < n -> is_done c 0 i <-> is_done (S c) n i) by (intros; unfold is_done; lia).
    constructor; auto.
    - intros i Hi X. apply D; auto. now apply Hd.
    - intros i Hi X. apply T; auto. intros Y; apply X, Hd; auto.
    - intros i Hi. rewrite G by auto. f_equal. unfold kids_done.
      destruct (Nat.ltb_spec (S c) (S (lev lv i))), (Nat.ltb_spec c (S (lev lv i))),
        (Nat.eqb_spec (S (lev lv i)) (S c)), (Nat.eqb_spec (S (lev lv i)) c); auto; lia.
    - rewrite TP. unfold tops_done. simpl. destruct (c =? 0); auto.
  Qed.

  Lemma inv1_levels c st : inv1 c 0 st ->
    inv1 0 n (fold_left (s1_sweep F h lv scales bt scaled) (rev (seq 0 (S c))) st).
  Proof.
    revert st; induction c as [|c IH]; intros st I.
    - simpl. now apply inv1_sweep.
    - rewrite seq_S, rev_app_distr. change (0 + S c) with (S c). cbn [rev app fold_left].
      apply IH, inv1_next, inv1_sweep, I.
  Qed.

  Lemma max_level_ge i : i < n -> lev lv i <= max_level lv.
  Proof.
    intros Hi. unfold max_level. apply fold_max_ge. unfold lev. apply nth_In. rewrite wf_lv; auto.
  Qed.

  Lemma rd_zeros (l : list num) i : rd (map (fun _ => nzero F) l) i = nzero F.
  Proof.
    unfold rd. revert i; induction l as [|x t IH]; intros [|i]; simpl; auto.
  Qed.

  Lemma step1_inv : inv1 0 n (step1 F h lv scales bt scaled u).
  Proof.
    unfold step1. apply inv1_levels. constructor; simpl; rewrite ?map_length; auto.
    - intros i Hi [X|X]; [|lia]. pose proof (max_level_ge i Hi). lia.
    - intros i Hi. rewrite rd_zeros. unfold kids_done.
      replace (max_level lv <? S (lev lv i)) with (max_level lv =? lev lv i).
      2:{ pose proof (max_level_ge i Hi).
          destruct (Nat.eqb_spec (max_level lv) (lev lv i)), (Nat.ltb_spec (max_level lv) (S (lev lv i))); auto; lia. }
      destruct (Nat.eqb_spec (max_level lv) (lev lv i)).
      + replace (kids_k n i) with (@nil nat); auto.
        destruct (kids_k n i) as [|j t] eqn:E; auto. exfalso.
        assert (X : In j (kids_k n i)) by (rewrite E; now left).
        apply in_kids_k in X. destruct X as [Hj X]. apply parent_some in X; auto.
        pose proof (max_level_ge j Hj). lia.
      + destruct (S (lev lv i) =? max_level lv); reflexivity.
    - unfold tops_done. destruct (max_level lv =? 0); reflexivity.
  Qed.

  Definition E1 := s1_fin (step1 F h lv scales bt scaled u).
  Definition G1 := s1_grp (step1 F h lv scales bt scaled u).
  Definition T1 := s1_top (step1 F h lv scales bt scaled u).

  Lemma final_done i : i < n -> is_done 0 n i.
  Proof. unfold is_done. lia. Qed.

  Lemma step1_len : length E1 = n. Proof. apply step1_inv. Qed.
  Lemma step1_plen : length (s1_prob (step1 F h lv scales bt scaled u)) = n. Proof. apply step1_inv. Qed.
  Lemma step1_prob i : i < n -> rd (s1_prob (step1 F h lv scales bt scaled u)) i = rd E1 i.
  Proof. intros Hi. apply step1_inv; auto using final_done. Qed.
  Lemma step1_top : T1 = gsum E1 (tops n h).
  Proof. unfold T1. rewrite (i_top _ _ _ step1_inv). reflexivity. Qed.
  Lemma step1_grp i : i < n -> rd G1 i = gsum E1 (children n h i).
  Proof. intros Hi. unfold G1. rewrite (i_grp _ _ _ step1_inv) by auto. reflexivity. Qed.

  Lemma parent_scale_divisor i : i < n -> parent_ls_scale F scales scaled (par h i) = divisor F h scales scaled i.
  Proof.
    intros Hi. unfold parent_ls_scale, divisor. destruct (parent_of h i) as [p|] eqn:Ep.
    - destruct (parent_some i p Hi Ep) as (-> & Hp & _). rewrite Nat2Z.id.
      replace (Z.of_nat p <? 0)%Z with false by (symmetry; apply Z.ltb_ge; lia).
      destruct scaled; reflexivity.
    - destruct (parent_none i Hi Ep) as (-> & _). destruct scaled; reflexivity.
  Qed.

  Lemma step1_terms : nl_terms F n h scales scaled u E1.
  Proof.
    split; [apply step1_len|]. intros i Hi.
    change (nth i E1 (nzero F)) with (rd E1 i).
    destruct (i_done _ _ _ step1_inv i Hi (final_done i Hi)) as [_ H].
    fold E1 G1 in H. rewrite H. unfold term. rewrite parent_scale_divisor by auto. unfold bot.
    rewrite step1_grp by auto. pose proof (wf_bottom i Hi) as HB.
    destruct (children n h i) as [|j t] eqn:Ec.
    - rewrite (proj2 HB eq_refl). reflexivity.
    - destruct (nth i bt true); [|reflexivity]. discriminate (proj1 HB eq_refl).
  Qed.

  (** ** Second pass *)
  Lemma step2_spec (grp prob : list num) top i :
    length prob = n -> i < n ->
    rd (step2 F h grp top prob) i =
      let ls := if (par h i =? -1)%Z then top else rd grp (Z.to_nat (par h i)) in
      if nle F ls (nzero F) then nzero F else ndiv F (rd prob i) ls.
  Proof.
    intros HL Hi. unfold step2. rewrite wf_h.
    pose (f := fun i x => let ls := if (par h i =? -1)%Z then top else rd grp (Z.to_nat (par h i)) in
      if nle F ls (nzero F) then nzero F else ndiv F x ls).
    pose (Q := fun k (st : list num) => length st = n /\ forall i, i < n -> rd st i = if i <? k then f i (rd prob i) else rd prob i).
    assert (H : Q n (fold_left (s2_node F h grp top) (seq 0 n) prob)).
    { apply fold_left_inv_seq with (P := Q).
      - split; [auto|]. intros j _. reflexivity.
      - intros k st Hk [H1 H2]. unfold s2_node. split; [now rewrite upd_length|].
        intros j Hj. unfold rd at 1. rewrite nth_upd by lia.
        destruct (Nat.eqb_spec k j) as [<-|Ne].
        + replace (k <? S k) with true by (symmetry; apply Nat.ltb_lt; lia).
          unfold f. rewrite (H2 k Hk). now rewrite Nat.ltb_irrefl.
        + fold (rd st j). rewrite H2 by auto.
          destruct (Nat.ltb_spec j k), (Nat.ltb_spec j (S k)); auto; lia. }
    destruct H as [_ H]. rewrite H by auto.
    replace (i <? n) with true by (symmetry; apply Nat.ltb_lt; lia). reflexivity.
  Qed.
  Lemma step2_length (grp prob : list num) top : length prob = n -> length (step2 F h grp top prob) = n.
  Proof.
    intros HL. unfold step2. apply (fold_left_inv_seq (fun _ st => length st = n)); auto.
    intros k st _ Hs. unfold s2_node. now rewrite upd_length.
  Qed.

  Definition P2 := step2 F h G1 T1 (s1_prob (step1 F h lv scales bt scaled u)).
  Lemma P2_len : length P2 = n. Proof. apply step2_length, step1_plen. Qed.
  Lemma P2_cond i : i < n -> rd P2 i = cond F n h E1 i.
  Proof.
    intros Hi. unfold P2. rewrite step2_spec by (auto using step1_plen). rewrite step1_prob by auto.
    unfold cond, siblings. destruct (parent_of h i) as [p|] eqn:Ep.
    - destruct (parent_some i p Hi Ep) as (-> & Hp & _). rewrite Nat2Z.id.
      replace (Z.of_nat p =? -1)%Z with false by (symmetry; apply Z.eqb_neq; lia).
      cbn zeta. rewrite step1_grp by auto. reflexivity.
    - destruct (parent_none i Hi Ep) as (-> & _). cbn [Z.eqb]. cbn zeta. rewrite step1_top. reflexivity.
  Qed.

  (** ** Third pass: level by level, [P i := P i * P (parent i)] *)
  Definition done3 (c k i : nat) : Prop := 0 < lev lv i /\ (lev lv i < c \/ (lev lv i = c /\ i < k)).
  Record inv3 (prob : list num) (c k : nat) (st : list num) : Prop := {
    j_len : length st = n;
    j_todo : forall i, i < n -> ~ done3 c k i -> rd st i = rd prob i;
    j_done : forall i p, i < n -> parent_of h i = Some p -> done3 c k i ->
        rd st i = nmul F (rd prob i) (rd st p)
  }.
  Lemma inv3_node prob c k st : 0 < c -> k < n -> lev lv k = c -> inv3 prob c k st ->
    inv3 prob c (S k) (s3_node F h st k).
  Proof.
    intros Hc Hk HL [L T D]. unfold s3_node.
    destruct (parent_of h k) as [p|] eqn:Ep.
    2:{ apply parent_none in Ep; auto. lia. }
    destruct (parent_some k p Hk Ep) as (Hpar & Hp & HLp). rewrite Hpar, Nat2Z.id.
    assert (Hd : forall i, done3 c (S k) i <-> done3 c k i \/ i = k) by (intros i; unfold done3; destruct (Nat.eq_dec i k) as [->|]; lia).
    constructor; rewrite ?upd_length; auto.
    - intros i Hi X. unfold rd at 1. rewrite nth_upd_neq by (intros <-; apply X, Hd; auto).
      apply T; auto. intros Y; apply X, Hd; auto.
    - intros i q Hi Eq X. apply Hd in X. unfold rd at 1. rewrite nth_upd by lia.
      assert (Hqk : q <> k).
      { intros ->. destruct (parent_some i k Hi Eq) as (_ & _ & A). unfold done3 in X. destruct X; [lia|subst; lia]. }
      unfold rd at 4. rewrite (nth_upd_neq st k q) by auto. fold (rd st q).
      destruct (Nat.eqb_spec k i) as [<-|Ne].
      + rewrite (T k Hk) by (unfold done3; lia). assert (q = p) by congruence. subst q. reflexivity.
      + destruct X as [X| ->]; [|congruence]. apply D; auto.
  Qed.
  Lemma inv3_skip prob c k st : 0 < c -> lev lv k <> c -> inv3 prob c k st -> inv3 prob c (S k) st.
  Proof.
    intros Hc HL [L T D].
    assert (Hd : forall i, done3 c (S k) i <-> done3 c k i).
    { intros i. unfold done3. destruct (Nat.eq_dec i k) as [->|]; lia. }
    constructor; auto.
    - intros i Hi X. apply T; auto. intros Y; apply X, Hd; auto.
    - intros i p Hi E X. apply D; auto. now apply Hd.
  Qed.
  Lemma inv3_sweep prob c st : 0 < c -> inv3 prob c 0 st -> inv3 prob (S c) 0 (s3_sweep F h lv st c).
  Proof.
    intros Hc I. unfold s3_sweep. rewrite wf_lv.
    assert (H : inv3 prob c n (fold_left (fun p i => if lev lv i =? c then s3_node F h p i else p) (seq 0 n) st)).
    { apply (fold_left_inv_seq (fun k st => inv3 prob c k st)); auto.
      intros k st' Hk I'. destruct (Nat.eqb_spec (lev lv k) c).
      - now apply inv3_node.
      - now apply inv3_skip. }
    destruct H as [L T D].
    assert (Hd : forall i, i < n -> done3 (S c) 0 i <-> done3 c n i) by (intros i Hi; unfold done3; lia).
    constructor; auto.
    - intros i Hi X. apply T; auto. intros Y; apply X, Hd; auto.
    - intros i p Hi E X. apply D; auto. now apply Hd.
  Qed.
  Lemma inv3_levels prob m c st : 0 < c -> inv3 prob c 0 st ->
    inv3 prob (c + m) 0 (fold_left (s3_sweep F h lv) (seq c m) st).
  Proof.
    revert c st; induction m as [|m IH]; intros c st Hc I; simpl.
    - now rewrite Nat.add_0_r.
    - replace (c + S m) with (S c + m) by lia. apply IH; [lia|]. now apply inv3_sweep.
  Qed.
  Lemma step3_spec prob : length prob = n ->
    length (step3 F h lv prob) = n /\
    forall i, i < n -> rd (step3 F h lv prob) i =
      match parent_of h i with
      | None => rd prob i
      | Some p => nmul F (rd prob i) (rd (step3 F h lv prob) p)
      end.
  Proof.
    intros HL. unfold step3.
    assert (I : inv3 prob (1 + max_level lv) 0 (fold_left (s3_sweep F h lv) (seq 1 (max_level lv)) prob)).
    { apply inv3_levels; auto. constructor; auto. intros i p Hi _ X. unfold done3 in X. lia. }
    destruct I as [L T D]. split; auto. intros i Hi. destruct (parent_of h i) as [p|] eqn:Ep.
    - apply D; auto. destruct (parent_some i p Hi Ep) as (_ & _ & A).
      pose proof (max_level_ge i Hi). unfold done3. lia.
    - apply T; auto. destruct (parent_none i Hi Ep) as (_ & A). unfold done3. lia.
  Qed.

  Definition P3 := step3 F h lv P2.
  Lemma P3_len : length P3 = n. Proof. apply step3_spec, P2_len. Qed.
  Lemma P3_eq i : i < n -> rd P3 i =
    match parent_of h i with
    | None => cond F n h E1 i
    | Some p => nmul F (cond F n h E1 i) (rd P3 p)
    end.
  Proof.
    intros Hi. unfold P3. rewrite (proj2 (step3_spec P2 P2_len)) by auto. rewrite P2_cond by auto. reflexivity.
  Qed.

  Lemma P3_path i : i < n -> path_prob F n h E1 i (rd P3 i).
  Proof.
    remember (lev lv i) as l eqn:El. revert i El. induction l as [|l IH]; intros i El Hi;
      rewrite P3_eq by auto; destruct (parent_of h i) as [p|] eqn:Ep.
    - apply parent_some in Ep; auto. lia.
    - now constructor.
    - pose proof (parent_some i p Hi Ep) as (_ & Hp & A). econstructor; eauto. apply IH; auto. lia.
    - now constructor.
  Qed.

  (** ** Fourth pass *)
  Lemma step4_aux (hs : list Z) (prob : list num) i :
    length (fold_left (fun prob parent => if (parent <? 0)%Z then prob
                                    else upd prob (Z.to_nat parent) (nzero F)) hs prob) = length prob /\
    (i < length prob ->
     rd (fold_left (fun prob parent => if (parent <? 0)%Z then prob
                                    else upd prob (Z.to_nat parent) (nzero F)) hs prob) i =
     if existsb (fun z => (z =? Z.of_nat i)%Z) hs then nzero F else rd prob i).
  Proof.
    revert prob; induction hs as [|z t IH]; intros prob; simpl; [auto|].
    destruct (IH (if (z <? 0)%Z then prob else upd prob (Z.to_nat z) (nzero F))) as [A B].
    split.
    - rewrite A. destruct (z <? 0)%Z; rewrite ?upd_length; auto.
    - intros Hi. rewrite B by (destruct (z <? 0)%Z; rewrite ?upd_length; auto).
      destruct (Z.eqb_spec z (Z.of_nat i)) as [->|Ne]; simpl.
      + destruct (existsb _ t); auto. rewrite Nat2Z.id.
        replace (Z.of_nat i <? 0)%Z with false by (symmetry; apply Z.ltb_ge; lia).
        unfold rd. now rewrite nth_upd_eq.
      + destruct (existsb _ t); auto. destruct (Z.ltb_spec z 0); auto.
        unfold rd. apply nth_upd_neq. lia.
  Qed.

  Lemma step4_spec prob : length prob = n ->
    length (step4 F h prob) = n /\
    forall i, i < n -> rd (step4 F h prob) i = match children n h i with [] => rd prob i | _ => nzero F end.
  Proof.
    intros HL. split; [unfold step4; now rewrite (proj1 (step4_aux h prob 0))|].
    intros i Hi. unfold step4. rewrite (proj2 (step4_aux h prob i)) by lia.
    destruct (existsb (fun z => (z =? Z.of_nat i)%Z) h) eqn:E.
    - apply existsb_exists in E. destruct E as (z & Hz & E). apply Z.eqb_eq in E. subst z.
      apply In_nth with (d := (-1)%Z) in Hz. destruct Hz as (j & Hj & Ej).
      assert (In j (children n h i)).
      { apply in_children. split; [now rewrite <- wf_h|]. unfold parent_of. rewrite Ej.
        replace (Z.of_nat i <? 0)%Z with false by (symmetry; apply Z.ltb_ge; lia). now rewrite Nat2Z.id. }
      destruct (children n h i); [destruct H|reflexivity].
    - destruct (children n h i) as [|j t] eqn:Ec; auto. exfalso.
      assert (H : In j (children n h i)) by (rewrite Ec; now left). apply in_children in H. destruct H as [Hj Ep].
      destruct (parent_some j i Hj Ep) as (Hpar & _).
      assert (X : existsb (fun z => (z =? Z.of_nat i)%Z) h = true).
      { apply existsb_exists. exists (par h j). split; [|now apply Z.eqb_eq].
        unfold par. apply nth_In. now rewrite wf_h. }
      congruence.
  Qed.

  (** ** The whole function *)
  Definition P4 := step4 F h P3.

  Lemma nested_out chk :
    nested_probabilities F h lv scales bt scaled u chk =
      if andb (nle F T1 (nzero F)) chk then Err UtilityBounds else Ok (P4, T1, E1).
  Proof.
    unfold nested_probabilities, P4, P3, P2, T1, G1, E1. pose proof wf_lv as A. pose proof wf_n as B.
    destruct lv as [|l0 lt]; [simpl in A; lia|]. reflexivity.
  Qed.

  Lemma P4_len : length P4 = n. Proof. apply step4_spec, P3_len. Qed.
  Lemma P4_eq i : i < n -> rd P4 i = match children n h i with [] => rd P3 i | _ => nzero F end.
  Proof. intros Hi. apply step4_spec; auto using P3_len. Qed.

  Lemma nested_solution : nl_solution F n h scales scaled u P4 T1 E1.
  Proof.
    split; [apply step1_terms|]. split; [apply step1_top|]. split; [apply P4_len|].
    intros i Hi. pose proof (P4_eq i Hi) as H. unfold rd at 1 in H.
    destruct (children n h i); rewrite H; auto. now apply P3_path.
  Qed.
End Gen.
