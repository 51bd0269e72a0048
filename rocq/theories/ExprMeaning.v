(** The rewritten expression means what the original means. *)
From Coq Require Import Relations.
From Verif Require Import Prelude DictProofs ExprModel SpecExpr ExprNull ExprProofs ExprUses.
Local Open Scope string_scope.
Local Open Scope nat_scope.
Local Open Scope list_scope.

(** ** Dict displays *)
Section Dicts.
  Context {L : Type}.
  Notation expr := (expr L).

  Lemma dict_key_attr_spec (e : expr) :
    match dict_key_attr e with
    | Ok l => exists x p, dotted e = Some (x, p) /\ l = x :: p
    | Err _ => dotted e = None
    end.
  Proof.
    induction e as [x|n|s|s|s|v a IHv|f args kws IHf IHargs IHkws|op e IHe|op vs IHvs|l ops rs IHl IHrs|op l r IHl IHr|ks vs IHks IHvs|k|k l IHl] using expr_ind'; simpl; eauto.
    destruct (dict_key_attr v) as [l|x]; simpl.
    - destruct IHv as (x & p & -> & ->). simpl. eauto.
    - rewrite IHv. reflexivity.
  Qed.
  Lemma dict_key_spec (e : expr) k : dict_key e = Ok k -> entry_key e = Some k.
  Proof.
    unfold dict_key, entry_key. destruct e; try discriminate.
    - intros H. injection H as <-. reflexivity.
    - intros H. injection H as <-. reflexivity.
    - intros H. pose proof (dict_key_attr_spec (EAttr e attr)) as D. rewrite H in D.
      destruct D as (x & p & -> & ->). reflexivity.
  Qed.
  Lemma dict_val_spec (e : expr) v : dict_val e = Ok v <-> entry_val e = Some v.
  Proof.
    unfold dict_val, entry_val. destruct e as [| | | | | | |op a| | | | | |]; try (split; discriminate).
    - split; intros H; injection H as <-; reflexivity.
    - destruct op; try (split; discriminate). destruct a; try (split; discriminate).
      split; intros H; injection H as <-; reflexivity.
  Qed.

  Lemma last_value_app (k : list string) (l m : list (list string * (bool * L))) :
    last_value k (l ++ m) = match last_value k m with Some w => Some w | None => last_value k l end.
  Proof.
    induction l as [|[k' v] l IH]; simpl; [destruct (last_value k m); auto|].
    rewrite IH. destruct (last_value k m); auto.
  Qed.

  Fixpoint first_keys (seen : list (list string)) (l : list (list string)) : list (list string) :=
    match l with
    | [] => []
    | k :: t => if in_dec (list_eq_dec string_dec) k seen then first_keys seen t else k :: first_keys (k :: seen) t
    end.

  (** inserting the entries one after the other into an ordered dictionary *)
  Lemma py_dict_dsets : forall (l : list (list string * (bool * L))) (acc : dict (list string) (bool * L)),
    NoDup (dkeys acc) ->
    fold_left (fun d kv => dset eq_strs d (fst kv) (snd kv)) l acc
    = map (fun kv => (fst kv, match last_value (fst kv) l with Some w => w | None => snd kv end)) acc
      ++ py_dict (dkeys acc) l.
  Proof.
    induction l as [|[k v] l IH]; intros acc N; simpl.
    - rewrite app_nil_r. rewrite <- (map_id acc) at 1. apply map_ext. intros [a b]. reflexivity.
    - rewrite IH by (apply dset_keys_nodup; auto; apply eq_strs_spec).
      destruct (in_dec (list_eq_dec string_dec) k (dkeys acc)) as [I|I].
      + rewrite dset_keys by (auto; apply eq_strs_spec). f_equal.
        clear IH. induction acc as [|[k1 v1] acc IH]; [destruct I|].
        simpl. unfold eq_strs at 1. destruct (list_eq_dec string_dec k k1) as [->|NE].
        * simpl. inversion N; subst. f_equal.
          { destruct (last_value k1 l); auto. destruct (list_eq_dec string_dec k1 k1) as [_|X]; [reflexivity|congruence]. }
          apply map_ext_in. intros [a b] Hab. simpl. f_equal. destruct (last_value a l); auto.
          destruct (list_eq_dec string_dec a k1) as [->|]; auto. exfalso. apply H1. eapply in_keys; eauto.
        * simpl. inversion N; subst. f_equal.
          { f_equal. destruct (last_value k1 l); auto. destruct (list_eq_dec string_dec k1 k) as [X|_]; [congruence|reflexivity]. }
          apply IH; auto. destruct I as [E|I]; [simpl in E; congruence|auto].
      + rewrite dset_absent by (auto; apply eq_strs_spec). rewrite map_app. simpl. rewrite <- app_assoc. f_equal.
        * apply map_ext_in. intros [a b] Hab. simpl. f_equal. destruct (last_value a l); auto.
          destruct (list_eq_dec string_dec a k) as [->|]; auto. exfalso. apply I. eapply in_keys; eauto.
        * simpl. f_equal. unfold dkeys. rewrite map_app. simpl.
          assert (P : forall m s1 s2, (forall z, In z s1 <-> In z s2) -> py_dict (L:=L) s1 m = py_dict s2 m).
          { clear. induction m as [|[a b] m IH]; intros s1 s2 E; simpl; auto.
            destruct (in_dec (list_eq_dec string_dec) a s1) as [A|A], (in_dec (list_eq_dec string_dec) a s2) as [B|B];
              try (exfalso; apply A || apply B; now apply E).
            - now apply IH.
            - f_equal. apply IH. intros z. simpl. now rewrite E. }
          apply P. intros z. rewrite in_app_iff. simpl. tauto.
  Qed.

  Lemma dict_entries_fold : forall (ks vs : list expr) acc lit, dict_entries ks vs acc = Ok lit ->
    exists l, entries ks vs = Some l /\ lit = fold_left (fun d kv => dset eq_strs d (fst kv) (snd kv)) l acc.
  Proof.
    induction ks as [|k ks IH]; intros vs acc lit H.
    - simpl in H. injection H as <-. exists []. split; auto.
    - destruct vs as [|v vs]; simpl in H.
      + injection H as <-. exists []. split; auto.
      + destruct (dict_key k) as [key|x] eqn:E1; simpl in H; [|discriminate].
        destruct (dict_val v) as [w|x] eqn:E2; simpl in H; [|discriminate].
        apply IH in H. destruct H as (l & E & ->). exists ((key, w) :: l).
        apply dict_key_spec in E1. apply dict_val_spec in E2. simpl. rewrite E1, E2, E. auto.
  Qed.
  Lemma dict_entries_spec (ks vs : list expr) lit : dict_entries ks vs [] = Ok lit ->
    exists l, entries ks vs = Some l /\ lit = py_dict [] l.
  Proof.
    intros H. apply dict_entries_fold in H. destruct H as (l & E & ->). exists l. split; auto.
    rewrite py_dict_dsets by constructor. reflexivity.
  Qed.
End Dicts.

Section Meaning.
  Context {L N : Type} (nfn : string -> bool) (O : ops L N) (S : symbols L N).
  Notation expr := (expr L).
  Notation vst := (@vst L).
  Notation visit := (@visit L nfn).
  Notation val := (val N).

  Context (rho : string -> option val).
  Definition env_ok (st : vst) : Prop := reads S (v_ch st) (v_dl st) (v_vis st) rho.

  Lemma env_has st : env_ok st -> forall name sub ct, has_chain st name sub ct ->
    rho sub = Some (match ch_func ct with
                      | None => s_attr S name (rev (ch_chain ct))
                      | Some (f, a) => s_agg S name (rev (ch_chain ct)) f a
                      end).
  Proof. intros [_ _ R _] name sub ct (l & H1 & H2). eauto. Qed.

  (** environments of a later state are environments of an earlier one *)
  Definition env_ok' (st : vst) : Prop :=
    rho "NAN" = Some VNull /\ (forall x, In x (v_vis st) -> rho x = Some (s_name S x)) /\
    (forall name sub ct, has_chain st name sub ct ->
       rho sub = Some (match ch_func ct with
                      | None => s_attr S name (rev (ch_chain ct))
                      | Some (f, a) => s_agg S name (rev (ch_chain ct)) f a
                      end)) /\
    (forall sub lit, In (sub, lit) (v_dl st) -> rho sub = Some (s_dict S lit)).
  Lemma env_iff st : env_ok st <-> env_ok' st.
  Proof.
    split.
    - intros H. pose proof (env_has st H). destruct H. repeat split; auto.
    - intros (A & B & C & D). constructor; auto. intros name l sub ct H1 H2. apply C. exists l. auto.
  Qed.
  Lemma env_ext a b : ext a b -> env_ok' b -> env_ok' a.
  Proof.
    intros (_ & _ & E3 & E4 & E5 & _) (A & B & C & D). repeat split; auto.
  Qed.

  Lemma plain_neval e : plain e -> (forall x, In x (free_names e) -> rho x = Some (s_name S x)) ->
    forall v, pyval O S e = Some v -> neval O rho e = Some v.
  Proof.
    induction e as [x|n|s|s|s|v a IHv|f args kws IHf IHargs IHkws|op e IHe|op vs IHvs|l ops rs IHl IHrs|op l r IHl IHr|ks vs IHks IHvs|k|k l IHl] using expr_ind'; intros P R w H; inversion P; subst; auto.
    - cbn [pyval] in H. rewrite H1 in H. cbn [neval]. rewrite R; simpl; auto.
    - cbn [pyval neval] in *. cbn [free_names] in R. rewrite app_nil_r in R.
      assert (A : forall vs, all_vals (map (pyval O S) args) = Some vs -> all_vals (map (neval O rho) args) = Some vs).
      { clear H P. induction args as [|a args IH]; intros vs; simpl; auto.
        pose proof (Forall_inv IHargs) as Q1. pose proof (Forall_inv_tail IHargs) as Q2.
        pose proof (Forall_inv H1) as Q3. pose proof (Forall_inv_tail H1) as Q4. simpl in R.
        destruct (pyval O S a) as [va|] eqn:Ea; simpl; [|discriminate].
        destruct (all_vals (map (pyval O S) args)) as [vb|] eqn:Eb; simpl; [|discriminate].
        rewrite (Q1 Q3 (fun x Hx => R x (in_or_app _ _ _ (or_introl Hx))) va Ea). simpl.
        rewrite (IH Q2 (fun x Hx => R x (in_or_app _ _ _ (or_intror Hx))) Q4 vb eq_refl). auto. }
      destruct (all_vals (map (pyval O S) args)) as [vs|]; simpl in H; [|discriminate].
      rewrite (A vs eq_refl). exact H.
    - cbn [pyval neval] in *. destruct (pyval O S e) as [v|]; simpl in H; [|discriminate].
      assert (Q : plain e) by (inversion P; auto). rewrite (IHe Q R v eq_refl). exact H.
    - cbn [pyval neval map] in *. cbn [free_names map concat] in R. rewrite app_nil_r in R.
      pose proof (Forall_inv IHrs) as Hr. assert (Ql : plain l /\ plain r) by (inversion P; auto). destruct Ql as [Ql Qr].
      destruct (pyval O S l) as [va|] eqn:Ea; simpl in H; [|discriminate].
      destruct (pyval O S r) as [vb|] eqn:Eb; simpl in H; [|discriminate].
      rewrite (IHl Ql (fun x Hx => R x (in_or_app _ _ _ (or_introl Hx))) va eq_refl). simpl.
      rewrite (Hr Qr (fun x Hx => R x (in_or_app _ _ _ (or_intror Hx))) vb Eb). simpl.
      destruct (o_cmp O op va vb); simpl in H; [congruence|discriminate].
    - cbn [pyval neval] in *. cbn [free_names] in R.
      destruct (pyval O S l) as [va|] eqn:Ea; simpl in H; [|discriminate].
      destruct (pyval O S r) as [vb|] eqn:Eb; simpl in H; [|discriminate].
      assert (Ql : plain l /\ plain r) by (inversion P; auto). destruct Ql as [Ql Qr].
      rewrite (IHl Ql (fun x Hx => R x (in_or_app _ _ _ (or_introl Hx))) va eq_refl). simpl.
      rewrite (IHr Qr (fun x Hx => R x (in_or_app _ _ _ (or_intror Hx))) vb eq_refl). simpl. exact H.
  Qed.

  Definition keeps (e : expr) : Prop := forall st st' e' v, wf st -> visit e st = (st', Ok e') -> neg_plain e ->
    env_ok' st' -> (forall x, In x (hidden_names e) -> rho x = Some (s_name S x)) ->
    pyval O S e = Some v -> neval O rho e' = Some v.

  Lemma keeps_list es : Forall keeps es -> forall st st' es' vs, wf st -> visit_list visit es st = (st', Ok es') ->
    fold_right (fun a P => neg_plain a /\ P) True es -> env_ok' st' ->
    (forall x, In x (concat (map hidden_names es)) -> rho x = Some (s_name S x)) ->
    all_vals (map (pyval O S) es) = Some vs -> all_vals (map (neval O rho) es') = Some vs.
  Proof.
    induction 1 as [|e t He Ht IH]; intros st st' es' vs W H NP EN HN A.
    - simpl in H. injection H as <- <-. exact A.
    - simpl in H. destruct (visit e st) as [st1 [e'|y]] eqn:E1; [|discriminate].
      destruct (visit_list visit t st1) as [st2 [t'|y]] eqn:E2; [|discriminate]. injection H as <- <-.
      destruct (visit_inv _ _ _ _ _ E1 W) as (W1 & X1 & _). destruct (visit_list_inv _ _ _ _ _ E2 W1) as (W2 & X2 & _).
      simpl in A, NP, HN |- *. destruct NP as [NP1 NP2].
      destruct (pyval O S e) as [va|] eqn:Ea; simpl in A; [|discriminate].
      destruct (all_vals (map (pyval O S) t)) as [vb|] eqn:Eb; simpl in A; [|discriminate].
      rewrite (He st st1 e' va W E1 NP1 (env_ext _ _ X2 EN) (fun x Hx => HN x (in_or_app _ _ _ (or_introl Hx))) Ea).
      simpl. rewrite (IH st1 st2 t' vb W1 E2 NP2 EN (fun x Hx => HN x (in_or_app _ _ _ (or_intror Hx))) eq_refl). exact A.
  Qed.

  (** *** and/or, chained comparisons *)
  Lemma bools_fold op vs : forall a bs b, all_bools vs = Some bs ->
    forall es, all_vals (map (neval O rho) es) = Some vs -> neval O rho a = Some (VBool b) ->
    neval O rho (fold_left (fun l r => EBin (match op with And => BitAnd | Or => BitOr end) l r) es a)
    = Some (VBool (match op with And => b && forallb (fun x => x) bs | Or => b || existsb (fun x => x) bs end)).
  Proof.
    induction vs as [|v vs IH]; intros a bs b HB es HE HA.
    - simpl in HB. injection HB as <-. destruct es as [|e es].
      + simpl. rewrite HA. destruct op; rewrite ?andb_true_r, ?orb_false_r; reflexivity.
      + simpl in HE. destruct (neval O rho e); simpl in HE; [|discriminate].
        destruct (all_vals (map (neval O rho) es)); discriminate.
    - destruct es as [|e es]; [discriminate|]. simpl in HE.
      destruct (neval O rho e) as [ve|] eqn:E1; simpl in HE; [|discriminate].
      destruct (all_vals (map (neval O rho) es)) as [vs'|] eqn:E2; simpl in HE; [|discriminate].
      injection HE as -> ->. simpl in HB. destruct v as [c| | |]; simpl in HB; try discriminate.
      destruct (all_bools vs) as [cs|] eqn:E3; simpl in HB; [|discriminate]. injection HB as <-.
      cbn [fold_left].
      rewrite (IH _ cs (match op with And => b && c | Or => b || c end) eq_refl es E2).
      + destruct op; simpl; rewrite ?andb_assoc, ?orb_assoc; reflexivity.
      + destruct op; cbn [neval]; rewrite HA, E1; reflexivity.
  Qed.

  Lemma pairwise_vals : forall rs a va vs ops res, neval O rho a = Some va ->
    all_vals (map (neval O rho) rs) = Some vs -> cmp_chain O va ops vs = Some res ->
    all_vals (map (neval O rho) (pairwise a rs ops)) = Some res.
  Proof.
    induction rs as [|r rs IH]; intros a va vs ops res HA HV HC.
    - simpl in HV. injection HV as <-. destruct ops; simpl in HC; [|discriminate]. simpl. exact HC.
    - simpl in HV. destruct (neval O rho r) as [vr|] eqn:Er; simpl in HV; [|discriminate].
      destruct (all_vals (map (neval O rho) rs)) as [vt|] eqn:Et; simpl in HV; [|discriminate]. injection HV as <-.
      destruct ops as [|op ops]; simpl in HC; [discriminate|].
      destruct (o_cmp O op va vr) as [c|] eqn:Ec; simpl in HC; [|discriminate].
      destruct (cmp_chain O vr ops vt) as [cs|] eqn:Ecs; simpl in HC; [|discriminate]. injection HC as <-.
      cbn [pairwise map all_vals neval]. rewrite HA, Er. simpl. rewrite Ec. simpl.
      rewrite (IH r vr vt ops cs Er eq_refl Ecs). reflexivity.
  Qed.
  Lemma cmp_chain_length ops : forall va vs res, cmp_chain O va ops vs = Some res -> length res = length vs /\ length ops = length vs.
  Proof.
    induction ops as [|op ops IH]; intros va [|v vs] res; simpl; try discriminate.
    - intros H. injection H as <-. auto.
    - destruct (o_cmp O op va v); simpl; [|discriminate].
      destruct (cmp_chain O v ops vs) as [cs|] eqn:E; simpl; [|discriminate]. intros H. injection H as <-.
      apply IH in E. simpl. lia.
  Qed.
  Lemma all_vals_length l vs : all_vals (N:=N) l = Some vs -> length vs = length l.
  Proof.
    revert vs; induction l as [|o l IH]; simpl; intros vs H; [injection H as <-; auto|].
    destruct o; simpl in H; [|discriminate]. destruct (all_vals l); simpl in H; [|discriminate].
    injection H as <-. simpl. f_equal. auto.
  Qed.

  Lemma cmp_tree_vals a rs ops t va vs v : cmp_tree a rs ops = Ok t -> neval O rho a = Some va ->
    all_vals (map (neval O rho) rs) = Some vs ->
    obind (cmp_chain O va ops vs) (fun res =>
        match res with
        | [] => None
        | [v] => Some v
        | _ => obind (all_bools res) (fun bs => Some (VBool (forallb (fun b => b) bs)))
        end) = Some v ->
    neval O rho t = Some v.
  Proof.
    intros HT HA HV HC. destruct (cmp_chain O va ops vs) as [res|] eqn:EC; simpl in HC; [|discriminate].
    destruct (cmp_chain_length _ _ _ _ EC) as [L1 L2]. pose proof (all_vals_length _ _ HV) as L3. rewrite map_length in L3.
    pose proof (pairwise_vals rs a va vs ops res HA HV EC) as PW.
    unfold cmp_tree in HT. destruct rs as [|r [|r2 rs]].
    - destruct vs; [|discriminate]. destruct res; [|discriminate]. discriminate.
    - injection HT as <-. destruct vs as [|vr [|? ?]]; try discriminate. destruct ops as [|op [|? ?]]; try discriminate.
      cbn [pairwise map all_vals] in PW.
      destruct (neval O rho (ECmp a [op] [r])) as [w|]; simpl in PW; [|discriminate]. injection PW as <-. exact HC.
    - destruct (pairwise a (r :: r2 :: rs) ops) as [|n0 [|n1 ns]] eqn:EP; try discriminate. injection HT as <-.
      cbn [map all_vals] in PW.
      destruct (neval O rho n0) as [v0|] eqn:E0; simpl in PW; [|discriminate].
      destruct (neval O rho n1) as [v1|] eqn:E1; simpl in PW; [|discriminate].
      destruct (all_vals (map (neval O rho) ns)) as [vn|] eqn:En; simpl in PW; [|discriminate]. injection PW as <-.
      destruct v0 as [b0| | |]; simpl in HC; try discriminate. destruct v1 as [b1| | |]; simpl in HC; try discriminate.
      destruct (all_bools vn) as [bn|] eqn:Eb; simpl in HC; [|discriminate]. injection HC as <-.
      rewrite (bools_fold And vn (EBin BitAnd n0 n1) bn (b0 && b1) Eb ns En).
      + simpl. now rewrite andb_assoc.
      + cbn [neval]. rewrite E0, E1. reflexivity.
  Qed.

  Lemma add_chain_neval st name ct st' e' v : wf st -> add_chain st name ct = (st', Ok e') -> env_ok' st' ->
    v = match ch_func ct with
        | None => s_attr S name (rev (ch_chain ct))
        | Some (f, a) => s_agg S name (rev (ch_chain ct)) f a
        end ->
    neval O rho e' = Some v.
  Proof.
    intros W H EN ->. destruct (mem name (v_simple st)) eqn:M.
    { unfold add_chain in H. rewrite M in H. discriminate. }
    apply mem_false in M. rewrite (add_chain_ok st name ct W M) in H. injection H as <- <-. simpl.
    destruct EN as (_ & _ & C & _). apply (C name). 
    exists (old_lookups st name ++ [(make_sub name (length (old_lookups st name)), ct)]). simpl. split.
    - apply (in_dset String.eqb String.eqb_eq); [apply W|]. auto.
    - apply in_or_app. simpl. auto.
  Qed.

  Lemma visit_keeps e : keeps e.
  Proof.
    induction e as [x|n|s|s|s|v a IHv|f args kws IHf IHargs IHkws|op e IHe|op vs IHvs|l ops rs IHl IHrs|op l r IHl IHr|ks vs IHks IHvs|k|k l IHl] using expr_ind'; intros st st' e' w W H NP EN HN PV.
    - simpl in H. unfold visit_name in H. rewrite nan_like_spelling in H. cbn [pyval] in PV. destruct (null_spelling x).
      + injection H as <- <-. simpl. rewrite <- PV. apply EN.
      + destruct (mem x (v_allch st)); [discriminate|]. injection H as <- <-. simpl. rewrite <- PV.
        apply EN. simpl. apply in_sadd. auto.
    - simpl in H. injection H as <- <-. exact PV.
    - simpl in H. injection H as <- <-. exact PV.
    - simpl in H. injection H as <- <-. exact PV.
    - simpl in H. injection H as <- <-. exact PV.
    - cbn [ExprModel.visit] in H. pose proof (attr_name_spec (EAttr v a)) as A.
      destruct (attr_name (EAttr v a)) as [[name c]|z]; [|discriminate].
      cbn [pyval] in PV. rewrite A in PV. simpl in PV. injection PV as <-.
      eapply add_chain_neval; eauto.
    - destruct f; try discriminate PV; cbn [ExprModel.visit] in H.
      + destruct (nfn id); [|discriminate].
        destruct (visit_list visit args st) as [st1 [a'|z]] eqn:E2; simpl in H; [|discriminate]. injection H as <- <-.
        simpl in NP. destruct NP as [NP ->]. cbn [pyval] in PV. cbn [neval].
        destruct (all_vals (map (pyval O S) args)) as [vs|] eqn:EV; simpl in PV; [|discriminate].
        cbn [hidden_names map concat] in HN. rewrite app_nil_r in HN.
        rewrite (keeps_list args IHargs _ _ _ vs W E2 NP EN HN EV). exact PV.
      + cbn [pyval] in PV. destruct args as [|arg [|? ?]]; try discriminate. destruct kws; try discriminate.
        unfold visit_method in H. pose proof (attr_name_spec (EAttr f attr)) as A.
        destruct (attr_name (EAttr f attr)) as [[name [|fn c]]|z] eqn:E; try discriminate.
        destruct (negb (supported_agg fn)); [discriminate|]. simpl in H.
        simpl in A. destruct (dotted f) as [[y p]|]; simpl in A, PV; [|discriminate].
        injection A as -> A. apply app_inj_tail in A. destruct A as [-> ->]. injection PV as <-.
        eapply add_chain_neval; eauto.
    - destruct op; cbn [ExprModel.visit] in H; try discriminate.
      + destruct (visit e st) as [st1 [a'|z]] eqn:E1; simpl in H; [|discriminate]. injection H as <- <-.
        cbn [pyval] in PV. cbn [neval]. destruct (pyval O S e) as [va|] eqn:Ea; simpl in PV; [|discriminate].
        rewrite (IHe _ _ _ va W E1 NP EN HN Ea). simpl.
        destruct va; simpl in *; try discriminate. exact PV.
      + injection H as <- <-. cbn [pyval neval] in *.
        destruct (pyval O S e) as [va|] eqn:Ea; simpl in PV; [|discriminate].
        rewrite (plain_neval e NP HN va Ea). exact PV.
    - cbn [ExprModel.visit] in H. destruct (visit_list visit vs st) as [st1 [vs'|z]] eqn:E1; simpl in H; [|discriminate].
      assert (st1 = st') by (destruct (bool_tree op vs'); [congruence|discriminate]). subst st1.
      assert (PV' : obind (obind (all_vals (map (pyval O S) vs)) all_bools)
                     (fun bs => Some (VBool (match op with And => forallb (fun b => b) bs | Or => existsb (fun b => b) bs end))) = Some w).
      { destruct vs; [discriminate PV|exact PV]. }
      destruct (all_vals (map (pyval O S) vs)) as [us|] eqn:EV; simpl in PV'; [|discriminate].
      destruct (all_bools us) as [bs|] eqn:EB; simpl in PV'; [|discriminate].
      pose proof (keeps_list vs IHvs _ _ _ us W E1 NP EN HN EV) as KL.
      destruct vs' as [|v0 vs']; [discriminate H|]. simpl in H. injection H as <-.
      simpl in KL. destruct (neval O rho v0) as [u0|] eqn:E0; simpl in KL; [|discriminate].
      destruct (all_vals (map (neval O rho) vs')) as [ut|] eqn:ET; simpl in KL; [|discriminate]. injection KL as <-.
      simpl in EB. destruct u0 as [b0| | |]; simpl in EB; try discriminate.
      destruct (all_bools ut) as [bt|] eqn:EBt; simpl in EB; [|discriminate]. injection EB as <-.
      rewrite (bools_fold op ut v0 bt b0 EBt vs' ET E0). rewrite <- PV'. reflexivity.
    - cbn [ExprModel.visit] in H. destruct (visit l st) as [st1 [l'|z]] eqn:E1; simpl in H; [|discriminate].
      destruct (visit_inv _ _ _ _ _ E1 W) as (W1 & X1 & _).
      destruct (visit_list visit rs st1) as [st2 [rs'|z]] eqn:E2; simpl in H; [|discriminate].
      destruct (visit_list_inv _ _ _ _ _ E2 W1) as (W2 & X2 & _).
      assert (st2 = st') by (destruct (cmp_tree l' rs' ops); [congruence|discriminate]). subst st2.
      injection H as H. simpl in NP. destruct NP as [NP1 NP2]. cbn [hidden_names] in HN.
      cbn [pyval] in PV. destruct (pyval O S l) as [va|] eqn:Ea; simpl in PV; [|discriminate].
      destruct (all_vals (map (pyval O S) rs)) as [vs|] eqn:EV; simpl in PV; [|discriminate].
      eapply cmp_tree_vals; [exact H| | |exact PV].
      + apply (IHl st st1 l' va W E1 NP1 (env_ext _ _ X2 EN) (fun x Hx => HN x (in_or_app _ _ _ (or_introl Hx))) Ea).
      + apply (keeps_list rs IHrs st1 st' rs' vs W1 E2 NP2 EN (fun x Hx => HN x (in_or_app _ _ _ (or_intror Hx))) EV).
    - cbn [ExprModel.visit] in H. destruct (visit l st) as [st1 [l'|z]] eqn:E1; simpl in H; [|discriminate].
      destruct (visit_inv _ _ _ _ _ E1 W) as (W1 & X1 & _).
      destruct (visit r st1) as [st2 [r'|z]] eqn:E2; simpl in H; [|discriminate].
      destruct (visit_inv _ _ _ _ _ E2 W1) as (W2 & X2 & _). injection H as <- <-.
      simpl in NP. destruct NP as [NP1 NP2]. cbn [hidden_names] in HN.
      cbn [pyval] in PV. destruct (pyval O S l) as [va|] eqn:Ea; simpl in PV; [|discriminate].
      destruct (pyval O S r) as [vb|] eqn:Eb; simpl in PV; [|discriminate].
      cbn [neval]. rewrite (IHl st st1 l' va W E1 NP1 (env_ext _ _ X2 EN) (fun x Hx => HN x (in_or_app _ _ _ (or_introl Hx))) Ea). simpl.
      rewrite (IHr st1 st2 r' vb W1 E2 NP2 EN (fun x Hx => HN x (in_or_app _ _ _ (or_intror Hx))) Eb). exact PV.
    - cbn [ExprModel.visit] in H. unfold visit_dict in H.
      destruct (dict_entries ks vs []) as [lit|z] eqn:ED; [|discriminate]. injection H as <- <-.
      apply dict_entries_spec in ED. destruct ED as (l & E & ->). cbn [pyval] in PV. rewrite E in PV. simpl in PV.
      injection PV as <-. simpl. apply EN. simpl. rewrite dset_absent; [|apply String.eqb_eq|].
      + apply in_or_app. simpl. auto.
      + destruct W as (_ & _ & W3). rewrite W3. apply seq_fresh, dict_sub_inj.
    - discriminate.
    - discriminate PV.
  Qed.
End Meaning.
