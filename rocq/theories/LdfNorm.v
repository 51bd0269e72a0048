(** Reads of links whose indexers are stored only store lists of unmatched rows that follow from them: storing
    all of these lists at once changes no result of any operation but a refresh. *)
From Verif Require Import Prelude DictProofs ExprModel ScopeModel ScopeProofs LdfModel LdfMore SpecLdf LdfProofs LdfKeys LdfReads.
Local Open Scope string_scope.
Local Open Scope nat_scope.
Local Open Scope list_scope.

Section Norm.
  Context {L V : Type} (E : venv L V).
  Notation frame := (@frame V).
  Notation lworld := (@lworld V).
  Notation column := (prod dtype (list V)).
  Notation item := (@item V).

  Definition nlk (lk : link) : link :=
    Link (lk_owner lk) (lk_other lk) (lk_self lk) (lk_target lk) (lk_chained lk) (lk_agg lk) (lk_flat lk) (lk_grouper lk)
      (match lk_flat lk with
       | Some flat => Some (match lk_missing lk with Some m => m | None => nonzero (map (fun z => (z =? -1)%Z) flat) end)
       | None => lk_missing lk
       end).
  Definition nlinks (d : dict string link) : dict string link := map (fun p => (fst p, nlk (snd p))) d.
  Definition nfr (fr : frame) : frame := with_links fr (nlinks (f_links fr)).
  Definition nw (w : lworld) : lworld := LWorld (map nfr (lw_frames w)) (lw_class w).
  Definition com {A} (p : lworld * A) : lworld * A := (nw (fst p), snd p).

  Lemma nlk_idem lk : nlk (nlk lk) = nlk lk.
  Proof. unfold nlk. simpl. destruct (lk_flat lk); reflexivity. Qed.
  Lemma nlinks_idem d : nlinks (nlinks d) = nlinks d.
  Proof. unfold nlinks. rewrite map_map. apply map_ext. intros [k lk]. simpl. now rewrite nlk_idem. Qed.
  Lemma nfr_idem fr : nfr (nfr fr) = nfr fr.
  Proof. unfold nfr, with_links. simpl. now rewrite nlinks_idem. Qed.
  Lemma nw_idem w : nw (nw w) = nw w.
  Proof. unfold nw. simpl. rewrite map_map. f_equal. apply map_ext, nfr_idem. Qed.
  Lemma nlk_none lk : lk_flat lk = None -> nlk lk = lk. Proof. intros H. unfold nlk. rewrite H. destruct lk; simpl in *; now subst. Qed.
  Lemma nlk_some lk m : lk_missing lk = Some m -> nlk lk = lk.
  Proof. intros H. unfold nlk. rewrite H. destruct lk as [? ? ? ? ? ? [fl|] ? ?]; simpl in *; now subst. Qed.

  Lemma get_frame_nw w f : get_frame (nw w) f = do fr <- get_frame w f; Ok (nfr fr).
  Proof. unfold get_frame, nw. simpl. rewrite nth_error_map. destruct (nth_error (lw_frames w) f); reflexivity. Qed.
  Lemma dget_nlinks d s : dget String.eqb (nlinks d) s = option_map nlk (dget String.eqb d s).
  Proof. unfold nlinks. induction d as [|[k x] d IH]; simpl; auto. destruct (String.eqb s k); auto. Qed.
  Lemma dmem_nlinks d s : dmem String.eqb (nlinks d) s = dmem String.eqb d s.
  Proof. unfold dmem. rewrite dget_nlinks. now destruct (dget String.eqb d s). Qed.
  Lemma dset_nlinks d s lk : dset String.eqb (nlinks d) s (nlk lk) = nlinks (dset String.eqb d s lk).
  Proof. unfold nlinks. induction d as [|[k x] d IH]; simpl; auto. destruct (String.eqb s k); simpl; auto. now rewrite IH. Qed.
  Lemma dkeys_nlinks d : dkeys (nlinks d) = dkeys d.
  Proof. unfold dkeys, nlinks. rewrite map_map. reflexivity. Qed.
  Lemma get_link_nw w f n : get_link (nw w) f n = do lk <- get_link w f n; Ok (nlk lk).
  Proof.
    unfold get_link. rewrite get_frame_nw. destruct (get_frame w f) as [fr|]; cbn [rbind]; auto. simpl. rewrite dget_nlinks.
    destruct (dget _ (f_links fr) n); reflexivity.
  Qed.
  Lemma upd_map {A B} (g : A -> B) : forall l i x, upd (map g l) i (g x) = map g (upd l i x).
  Proof. induction l as [|h t IH]; intros [|i] x; simpl; auto. now rewrite IH. Qed.
  Lemma set_frame_nw w f fr : set_frame (nw w) f (nfr fr) = nw (set_frame w f fr).
  Proof. unfold set_frame, nw. simpl. now rewrite upd_map. Qed.
  Lemma add_frame_nw w fr : add_frame (nw w) (nfr fr) = nw (add_frame w fr).
  Proof. unfold add_frame, nw. simpl. now rewrite map_app. Qed.
  Lemma set_link_nw w f n lk : set_link (nw w) f n (nlk lk) = nw (set_link w f n lk).
  Proof.
    unfold set_link at 1 2. unfold nw at 1. simpl. rewrite nth_error_map. destruct (nth_error (lw_frames w) f) as [fr|]; simpl; auto.
    rewrite <- set_frame_nw. f_equal. unfold nfr, with_links. simpl. now rewrite dset_nlinks.
  Qed.

  Lemma column_values_nw fr l : column_values (nfr fr) l = column_values fr l.
  Proof. unfold column_values. destruct l as [s|]; auto. simpl. destruct (dget _ (f_cols fr) s) as [[d v]|]; auto. now rewrite dmem_nlinks. Qed.
  Lemma rmapl_ext {A B} (g h : A -> res B) : (forall a, g a = h a) -> forall l, rmapl g l = rmapl h l.
  Proof. intros H. induction l as [|a l IH]; simpl; auto. rewrite H, IH. reflexivity. Qed.
  Lemma get_keys_nw m fr : get_keys E m (nfr fr) = get_keys E m fr.
  Proof.
    unfold get_keys. destruct (me_labels m) as [ls|]; auto. simpl. rewrite (rmapl_ext _ _ (column_values_nw fr)).
    assert (forall l, level_values E (nfr fr) l = level_values E fr l) as H by reflexivity. rewrite (rmapl_ext _ _ H). reflexivity.
  Qed.
  Lemma precompute_nw w lk : precompute E (nw w) lk = precompute E w lk.
  Proof.
    unfold precompute. rewrite !get_frame_nw. destruct (get_frame w (lk_owner lk)) as [a|]; cbn [rbind]; auto. rewrite get_keys_nw.
    destruct (get_keys E _ a); cbn [rbind]; auto. destruct (get_frame w (lk_other lk)) as [b|]; cbn [rbind]; auto. now rewrite get_keys_nw.
  Qed.

  Lemma indexer_nw w f n : indexer_and_missing E (nw w) f n = com (indexer_and_missing E w f n).
  Proof.
    unfold indexer_and_missing. rewrite get_link_nw. destruct (get_link w f n) as [lk|]; cbn [rbind]; auto.
    destruct (lk_flat lk) as [flat|] eqn:Ef.
    - simpl. rewrite Ef. unfold com. simpl. f_equal. rewrite <- set_link_nw. f_equal. unfold nlk. simpl. rewrite Ef. reflexivity.
    - rewrite (nlk_none lk Ef), Ef, precompute_nw. destruct (precompute E w lk) as [lk'|]; [|reflexivity].
      destruct (lk_flat lk') as [flat|] eqn:Ef'; [|reflexivity]. unfold com. cbn [fst snd]. f_equal. rewrite <- set_link_nw. f_equal.
  Qed.
  Lemma resolve_nw : forall h w d vals fill, resolve E (nw w) h d vals fill = com (resolve E w h d vals fill).
  Proof.
    induction h as [|[f n] h IH]; intros w d vals fill; cbn [resolve]; auto. rewrite indexer_nw.
    destruct (indexer_and_missing E w f n) as [w1 [[ix miss]|]]; simpl; auto. destruct (rbind (np_take vals ix) _); simpl; auto.
  Qed.
  Lemma resolve_root_nw w root h c fill : resolve_root E (nw w) root h c fill = com (resolve_root E w root h c fill).
  Proof.
    unfold resolve_root. rewrite resolve_nw. destruct (resolve E w h (fst c) (snd c) fill) as [w1 [vs|]]; simpl; auto.
    rewrite get_frame_nw. destruct (get_frame w root) as [fr|]; cbn [rbind]; auto. change (nrows (nfr fr)) with (nrows fr). destruct (check _ _); auto.
  Qed.
  Lemma make_node_nw lk root h : make_node (V:=V) (nlk lk) root h = make_node lk root h. Proof. reflexivity. Qed.
  Lemma frame_item_nw w f s : frame_item (nw w) f s = frame_item w f s.
  Proof.
    unfold frame_item. rewrite get_frame_nw. destruct (get_frame w f) as [fr|]; cbn [rbind]; auto. simpl. rewrite dget_nlinks.
    destruct (dget _ (f_links fr) s); reflexivity.
  Qed.
  Lemma top_other_nw w h : top_other (nw w) h = do (lk, g) <- top_other w h; Ok (nlk lk, g).
  Proof. destruct h as [|[f n] h]; simpl; auto. rewrite get_link_nw. destruct (get_link w f n); reflexivity. Qed.
  Lemma item_item_nw w i s : item_item E (nw w) i s = com (item_item E w i s).
  Proof.
    destruct i as [root h|root h|root h|c]; simpl; auto; rewrite top_other_nw; destruct (top_other w h) as [[lk g]|]; cbn [rbind]; auto;
      rewrite get_frame_nw; destruct (get_frame w g) as [gr|]; cbn [rbind]; auto.
    - change (get_column (nfr gr) s) with (get_column gr s). destruct (get_column gr s) as [c|]; auto. rewrite resolve_root_nw.
      destruct (resolve_root E w root h c _) as [w1 [c'|]]; reflexivity.
    - simpl. rewrite dget_nlinks. destruct (dget _ (f_links gr) s); simpl; auto. change (get_column (nfr gr) s) with (get_column gr s).
      destruct (get_column gr s) as [c|]; auto. rewrite resolve_root_nw. change (column_fill (nfr gr)) with (column_fill gr).
      destruct (resolve_root E w root h c _) as [w1 [c'|]]; reflexivity.
  Qed.
  Lemma walk_nw : forall path w i, walk E (nw w) i path = com (walk E w i path).
  Proof.
    induction path as [|s path IH]; intros w i; cbn [walk]; auto. rewrite item_item_nw. destruct (item_item E w i s) as [w1 [i1|]]; simpl; auto.
  Qed.
  Lemma subscript_nw w f path : subscript E (nw w) f path = com (subscript E w f path).
  Proof. destruct path as [|s path]; simpl; auto. rewrite frame_item_nw. destruct (frame_item w f s); auto. apply walk_nw. Qed.

  Definition commutes (ev : lworld -> nat -> aggarg L -> lworld * res column) : Prop := forall w f a, ev (nw w) f a = com (ev w f a).
  Lemma aggregate_nw ev w root h func a ifill : commutes ev -> aggregate E ev (nw w) root h func a ifill = com (aggregate E ev w root h func a ifill).
  Proof.
    intros HE. unfold aggregate. rewrite top_other_nw. destruct (top_other w h) as [[lk g]|]; cbn [rbind]; auto.
    rewrite get_frame_nw. destruct (get_frame w g) as [gr|]; cbn [rbind]; auto. change (f_cols (nfr gr)) with (f_cols gr). change (nrows (nfr gr)) with (nrows gr).
    change (f_ldf (nfr gr)) with (f_ldf gr). change (f_links (nfr gr)) with (nlinks (f_links gr)).
    set (pe := rbind (v_eval E a _) _).
    assert (HV : match ev (nw w) g a with (w1, Err AttributeError) => (w1, pe) | p => p end = com (match ev w g a with (w1, Err AttributeError) => (w1, pe) | p => p end)).
    { rewrite HE. destruct (ev w g a) as [w1 [c|e]]; auto. destruct e; auto. }
    match goal with |- (let '(w1, r) := ?X in _) = com (let '(w1, r) := ?Y in _) => assert (X = com Y) as ->; [|destruct Y as [w1 r]] end.
    { destruct a as [s|e].
      - destruct (dget _ (f_cols gr) s); [rewrite dmem_nlinks; destruct (dmem _ _ _); auto|]. destruct (f_ldf gr); [exact HV|reflexivity].
      - destruct (f_ldf gr); [exact HV|reflexivity]. }
    unfold com at 1. cbn [fst snd]. destruct r as [c|]; cbn [rbind]; auto. destruct (check _ _); cbn [rbind]; auto.
    destruct (match fst c with DInt => _ | _ => _ end); cbn [rbind]; auto. rewrite top_other_nw. destruct (top_other w1 h) as [[lk' g']|]; cbn [rbind]; auto.
    change (lk_grouper (nlk lk')) with (lk_grouper lk'). destruct (group_reduce E func (lk_grouper lk') c); cbn [rbind]; auto. apply resolve_root_nw.
  Qed.
  Lemma call_nw ev w i func e : commutes ev -> call_method E ev (nw w) i func e = com (call_method E ev w i func e).
  Proof. intros HE. unfold call_method. destruct i; auto. destruct (aggf_named func); auto. now apply aggregate_nw. Qed.
  Lemma eval_chain_nw ev : commutes ev -> forall subs w f name ld, eval_chain E ev (nw w) f name subs ld = com (eval_chain E ev w f name subs ld).
  Proof.
    intros HE. induction subs as [|[sub ct] subs IH]; intros w f name ld; cbn [eval_chain]; auto. rewrite subscript_nw.
    destruct (subscript E w f _) as [w1 [i|]]; unfold com; cbn [fst snd]; auto. destruct (ch_func ct) as [[func e]|].
    - rewrite call_nw by auto. destruct (call_method E ev w1 i func e) as [w2 [c|]]; unfold com; cbn [fst snd]; auto.
      destruct (to_operand E (ISeries c)); auto. apply IH.
    - destruct (to_operand E i); auto. apply IH.
  Qed.
  Lemma eval_chains_nw ev : commutes ev -> forall chains w f ld, eval_chains E ev (nw w) f chains ld = com (eval_chains E ev w f chains ld).
  Proof.
    intros HE. induction chains as [|[name subs] t IH]; intros w f ld; cbn [eval_chains]; auto. rewrite get_frame_nw.
    destruct (get_frame w f) as [fr|]; cbn [rbind]; auto. change (f_links (nfr fr)) with (nlinks (f_links fr)). rewrite dmem_nlinks.
    destruct (check _ _); auto. rewrite eval_chain_nw by auto. destruct (eval_chain E ev w f name subs ld) as [w1 [ld1|]]; simpl; auto.
  Qed.
  Lemma eval_symbols_nw w f : forall syms ld, eval_symbols E (nw w) f syms ld = eval_symbols E w f syms ld.
  Proof.
    induction syms as [|s syms IH]; intros ld; simpl; auto. rewrite frame_item_nw. destruct (rbind _ _) as [o|x]; auto. destruct x; auto. now rewrite IH.
  Qed.
  Lemma evaluate_nw : forall fuel w f a local, evaluate E fuel (nw w) f a local = com (evaluate E fuel w f a local).
  Proof.
    induction fuel as [|n IH]; intros w f a local; auto. cbn [evaluate]. rewrite get_frame_nw. destruct (get_frame w f) as [fr|]; cbn [rbind]; auto.
    change (f_ldf (nfr fr)) with (f_ldf fr). destruct (check _ _); cbn [rbind]; auto. destruct (parse_arg E a) as [ex|]; cbn [rbind]; auto.
    rewrite eval_symbols_nw. destruct (eval_symbols E w f _ _) as [ld|]; cbn [rbind]; auto.
    rewrite eval_chains_nw by (intros w' f' a'; apply IH). destruct (eval_chains E _ w f (e_chains ex) ld) as [w1 [ld1|]]; reflexivity.
  Qed.

  (** ** The other operations *)
  Lemma copy_link_nw ix lk : rmap nlk (copy_link ix (nlk lk)) = rmap nlk (copy_link ix lk).
  Proof.
    unfold copy_link, nlk. simpl. destruct (lk_flat lk) as [fl|], ix as [l|]; simpl; auto; try (destruct (np_take fl l); reflexivity).
  Qed.
  Lemma copy_links_nw ix d : rmap nlinks (copy_links ix (nlinks d)) = rmap nlinks (copy_links ix d).
  Proof.
    unfold copy_links. induction d as [|[k lk] d IH]; simpl; auto. pose proof (copy_link_nw ix lk) as HC.
    destruct (copy_link ix (nlk lk)) as [a|], (copy_link ix lk) as [b|]; simpl in *; try discriminate; [|congruence].
    assert (nlk a = nlk b) as HC' by congruence. clear HC.
    change (map (fun p => (fst p, nlk (snd p))) d) with (nlinks d) in *.
    destruct (rmapl _ (nlinks d)) as [x|], (rmapl _ d) as [y|]; simpl in *; try discriminate; auto. injection IH as IH. f_equal. unfold nlinks in *. simpl. now rewrite HC', IH.
  Qed.
  Definition agree {A} (p q : lworld * A) : Prop := nw (fst p) = nw (fst q) /\ snd p = snd q.
  Lemma com_agree {A} (p : lworld * A) : agree (com p) p. Proof. split; simpl; auto. apply nw_idem. Qed.
  Lemma agree_self {A} (w : lworld) (a : A) : agree (nw w, a) (w, a). Proof. split; simpl; auto using nw_idem. Qed.
  Lemma agree_nw {A} (w : lworld) (a : A) : agree (nw w, a) (w, a). Proof. apply agree_self. Qed.
  Lemma nw_length w : length (lw_frames (nw w)) = length (lw_frames w). Proof. unfold nw. simpl. apply map_length. Qed.
  Lemma nfr_derived fr index cols l l' : nlinks l = nlinks l' -> nfr (derived E (nfr fr) index cols l) = nfr (derived E fr index cols l').
  Proof. intros H. unfold nfr, derived, with_links. simpl. destruct (f_ldf fr); auto. now rewrite H. Qed.
  Lemma nw_add w fr fr' : nfr fr' = nfr fr -> nw (add_frame (nw w) fr') = nw (add_frame w fr).
  Proof.
    intros H. unfold add_frame, nw. simpl. rewrite !map_app, map_map. simpl. rewrite H. f_equal. f_equal. apply map_ext, nfr_idem.
  Qed.
  Lemma nw_setf w f fr fr' : nfr fr' = nfr fr -> nw (set_frame (nw w) f fr') = nw (set_frame w f fr).
  Proof.
    intros H. rewrite <- (set_frame_nw (nw w)), nw_idem, H, set_frame_nw. reflexivity.
  Qed.
  Lemma keep_agree w r r' : rmap nw r' = rmap nw r -> agree (keep_world (nw w) r') (keep_world w r).
  Proof.
    intros H. unfold keep_world. destruct r as [a|], r' as [b|]; simpl in H; try discriminate.
    - injection H as H. split; simpl; [unfold nw; now f_equal|]. now rewrite map_length.
    - injection H as ->. apply agree_self.
  Qed.
  Lemma compute_nw f : forall names w, agree (compute_list E (nw w) f false names) (compute_list E w f false names).
  Proof.
    induction names as [|s names IH]; intros w; cbn [compute_list]; [apply agree_self|]. rewrite get_link_nw. destruct (get_link w f s) as [lk|]; cbn [rbind]; [|apply agree_self].
    change (lk_flat (nlk lk)) with (lk_flat lk). destruct (lk_flat lk) as [fl|] eqn:Ef; cbn [orb]; [apply IH|].
    rewrite (nlk_none lk Ef), precompute_nw. destruct (precompute E w lk) as [lk'|]; [|apply agree_self].
    assert (HX : nw (set_link (nw w) f s lk') = nw (set_link w f s lk')).
    { rewrite <- (set_link_nw (nw w)), nw_idem, set_link_nw. reflexivity. }
    pose proof (IH (set_link (nw w) f s lk')) as [A1 B1]. pose proof (IH (set_link w f s lk')) as [A2 B2]. rewrite HX in A1, B1. split; congruence.
  Qed.

  (** everything but a refresh *)
  Definition not_refresh (o : @lop L V) : bool := match o with LCompute _ true => false | _ => true end.
  Lemma create_nw w f g sa sr oa orr pre : create E (nw w) f g sa sr oa orr pre = create E w f g sa sr oa orr pre.
  Proof.
    unfold create. rewrite !get_frame_nw. destruct (get_frame w f) as [fr|]; cbn [rbind]; auto. destruct (get_frame w g) as [gr|]; cbn [rbind]; auto.
    destruct (mk_meta sa sr) as [sm|]; cbn [rbind]; auto. destruct (mk_meta oa orr) as [om|]; cbn [rbind]; auto.
    change (nlevels sm (nfr fr)) with (nlevels sm fr). change (nlevels om (nfr gr)) with (nlevels om gr). rewrite !get_keys_nw. reflexivity.
  Qed.
  Lemma step_nw fuel w o : not_refresh o = true -> agree (lstep E fuel (nw w) o) (lstep E fuel w o).
  Proof.
    intros Ho. destruct o; cbn [lstep].
    - destruct (frame_fits _ _ _); [|apply agree_self]. split; simpl; [apply nw_add; reflexivity|]. rewrite map_length. reflexivity.
    - unfold link_to. rewrite get_frame_nw. destruct (get_frame w f) as [fr|]; cbn [rbind]; [|apply agree_self]. change (f_ldf (nfr fr)) with (f_ldf fr).
      destruct (check _ _); cbn [rbind]; [|apply agree_self]. destruct (resolve_args a) as [[s o]|]; cbn [rbind]; [|apply agree_self].
      rewrite create_nw. destruct (create E w f g _ _ _ _ pre) as [lk|]; [|apply agree_self]. split; auto. cbn [fst].
      rewrite <- (set_link_nw (nw w)), nw_idem, set_link_nw. reflexivity.
    - unfold on_frame. rewrite get_frame_nw. destruct (get_frame w f) as [fr|]; cbn [rbind]; [|apply agree_self]. change (nrows (nfr fr)) with (nrows fr).
      destruct (length (snd c) =? nrows fr); [|apply agree_self]. split; auto. cbn [fst]. apply nw_setf. unfold nfr, with_links. simpl. now rewrite nlinks_idem.
    - unfold on_frame. rewrite get_frame_nw. destruct (get_frame w f) as [fr|]; cbn [rbind]; [|apply agree_self]. change (nrows (nfr fr)) with (nrows fr).
      destruct (andb _ _); [|apply agree_self]. split; auto. cbn [fst]. apply nw_setf. unfold nfr, with_links. simpl. now rewrite nlinks_idem.
    - apply keep_agree. unfold take_frame. rewrite get_frame_nw. destruct (get_frame w f) as [fr|]; cbn [rbind]; auto. change (f_index (nfr fr)) with (f_index fr). change (f_cols (nfr fr)) with (f_cols fr).
      destruct (rows_at ps (f_index fr)); cbn [rbind]; auto. destruct (take_cols ps (f_cols fr)); cbn [rbind]; auto. change (f_links (nfr fr)) with (nlinks (f_links fr)).
      pose proof (copy_links_nw (Some (map Z.of_nat ps)) (f_links fr)) as HC. destruct (copy_links _ (nlinks _)) as [x|], (copy_links _ (f_links fr)) as [y|]; simpl in HC; try discriminate; cbn [rbind]; [|simpl; congruence].
      injection HC as HC. simpl. f_equal. apply nw_add, nfr_derived, HC.
    - apply keep_agree. destruct (check _ _); cbn [rbind]; auto. unfold derive_frame. rewrite get_frame_nw. destruct (get_frame w f) as [fr|]; cbn [rbind]; auto. change (f_index (nfr fr)) with (f_index fr).
      destruct (rows_at ps (f_index fr)); cbn [rbind]; auto. assert (forall s, get_column (nfr fr) s = get_column fr s) as HG by reflexivity.
      rewrite (rmapl_ext (fun s => do c <- get_column (nfr fr) s; Ok (s, c)) (fun s => do c <- get_column fr s; Ok (s, c))) by reflexivity.
      destruct (rmapl _ names) as [cols0|]; cbn [rbind]; auto. destruct (take_cols ps cols0); cbn [rbind]; auto. simpl. f_equal. apply nw_add, nfr_derived.
      unfold nlinks. rewrite !map_map. reflexivity.
    - apply keep_agree. unfold group_frame. rewrite get_frame_nw. destruct (get_frame w f) as [fr|]; cbn [rbind]; auto. change (f_index (nfr fr)) with (f_index fr). change (f_cols (nfr fr)) with (f_cols fr). change (f_ldf (nfr fr)) with (f_ldf fr).
      destruct (rows_at ps (f_index fr)); cbn [rbind]; auto. destruct (take_cols ps (f_cols fr)); cbn [rbind]; auto. change (f_links (nfr fr)) with (nlinks (f_links fr)).
      destruct (f_ldf fr); cbn [rbind]; [|simpl; f_equal; apply nw_add, nfr_derived; reflexivity]. destruct (get_indexer _ _ _) as [ix|]; cbn [rbind]; auto.
      pose proof (copy_links_nw (Some ix) (f_links fr)) as HC. destruct (copy_links _ (nlinks _)) as [x|], (copy_links _ (f_links fr)) as [y|]; simpl in HC; try discriminate; cbn [rbind]; [|simpl; congruence].
      injection HC as HC. simpl. f_equal. apply nw_add, nfr_derived, HC.
    - unfold on_frame. rewrite get_frame_nw. destruct (get_frame w f) as [fr|] eqn:Ef; cbn [rbind]; [|apply agree_self]. apply keep_agree. change (f_levels (nfr fr)) with (f_levels fr).
      destruct (check _ _); cbn [rbind]; auto. unfold reindex_frame. rewrite get_frame_nw, Ef. cbn [rbind]. change (f_index (nfr fr)) with (f_index fr). change (f_cols (nfr fr)) with (f_cols fr). change (f_links (nfr fr)) with (nlinks (f_links fr)).
      destruct (index_equals _ _ _).
      + pose proof (copy_links_nw None (f_links fr)) as HC. destruct (copy_links _ (nlinks _)) as [x|], (copy_links _ (f_links fr)) as [y|]; simpl in HC; try discriminate; cbn [rbind]; [|simpl; congruence].
        injection HC as HC. simpl. f_equal. apply nw_add, nfr_derived, HC.
      + destruct (get_indexer _ _ _) as [ix|]; cbn [rbind]; auto. destruct (rmapl _ (f_cols fr)); cbn [rbind]; auto. simpl. f_equal. apply nw_add, nfr_derived. unfold nlinks. rewrite !map_map. reflexivity.
    - apply keep_agree. unfold copy_frame. rewrite get_frame_nw. destruct (get_frame w f) as [fr|]; cbn [rbind]; auto. change (f_links (nfr fr)) with (nlinks (f_links fr)).
      pose proof (copy_links_nw None (f_links fr)) as HC. destruct (copy_links _ (nlinks _)) as [x|], (copy_links _ (f_links fr)) as [y|]; simpl in HC; try discriminate; cbn [rbind]; [|simpl; congruence].
      injection HC as HC. simpl. f_equal. apply nw_add, nfr_derived, HC.
    - destruct refresh; [discriminate|]. unfold on_frame. rewrite get_frame_nw. destruct (get_frame w f) as [fr|] eqn:Ef; cbn [rbind]; [|apply agree_self]. change (f_ldf (nfr fr)) with (f_ldf fr).
      destruct (f_ldf fr); [|apply agree_self]. unfold compute_indexers. rewrite get_frame_nw, Ef. cbn [rbind]. change (f_links (nfr fr)) with (nlinks (f_links fr)). rewrite dkeys_nlinks.
      pose proof (compute_nw f (dkeys (f_links fr)) w) as [A B]. destruct (compute_list E (nw w) f false _) as [u r], (compute_list E w f false _) as [u' r']. simpl in A, B. subst r'. destruct r; split; auto.
    - unfold on_frame. rewrite get_frame_nw. destruct (get_frame w f) as [fr|]; cbn [rbind]; [|apply agree_self]. change (f_ldf (nfr fr)) with (f_ldf fr). change (f_cols (nfr fr)) with (f_cols fr).
      destruct (negb (f_ldf fr)); [apply agree_self|]. destruct (dmem _ _ _); [|apply agree_self]. split; auto. cbn [fst]. apply nw_setf. unfold nfr, with_links. simpl. now rewrite nlinks_idem.
    - unfold on_frame. rewrite get_frame_nw. destruct (get_frame w f) as [fr|]; cbn [rbind]; [|apply agree_self]. change (f_ldf (nfr fr)) with (f_ldf fr). change (f_fill (nfr fr)) with (f_fill fr).
      destruct (negb (f_ldf fr)); [apply agree_self|]. destruct (set_fills _ kw) as [m r]. split; auto. cbn [fst]. apply nw_setf. unfold nfr, with_links, with_fill. simpl. now rewrite nlinks_idem.
    - unfold on_frame. rewrite get_frame_nw. destruct (get_frame w f) as [fr|]; cbn [rbind]; [|apply agree_self]. change (f_ldf (nfr fr)) with (f_ldf fr).
      destruct (f_ldf fr); [|apply agree_self]. split; auto. cbn [fst]. apply nw_setf. unfold nfr, with_links, with_fill. simpl. now rewrite nlinks_idem.
    - change (lw_class (nw w)) with (lw_class w). destruct (set_fills _ kw) as [m r]. split; auto. cbn [fst]. unfold nw. simpl. rewrite map_map. f_equal. apply map_ext, nfr_idem.
    - split; auto. cbn [fst]. unfold nw. simpl. rewrite map_map. f_equal. apply map_ext, nfr_idem.
    - rewrite subscript_nw. destruct (subscript E w f path) as [w1 [[| | |]|]]; apply agree_self.
    - rewrite subscript_nw. destruct (subscript E w f path) as [w1 [[| | |]|]]; simpl; try apply agree_self.
      rewrite aggregate_nw by (intros w' f' a'; apply evaluate_nw). destruct (aggregate E _ w1 root hist func a int_fill) as [w2 [c|]]; apply agree_self.
    - rewrite evaluate_nw. destruct (evaluate E fuel w f (XText text) local) as [w1 [c|]]; apply agree_self.
  Qed.
  Lemma runs_agree fuel : forall os w1 w2, Forall (fun o => not_refresh o = true) os -> nw w1 = nw w2 -> agree (lrun E fuel w1 os) (lrun E fuel w2 os).
  Proof.
    induction os as [|o os IH]; intros w1 w2 HF HN; [split; auto|]. inversion HF; subst. cbn [lrun].
    pose proof (step_nw fuel w1 o H1) as [A1 B1]. pose proof (step_nw fuel w2 o H1) as [A2 B2]. rewrite HN in A1, B1.
    destruct (lstep E fuel w1 o) as [u1 r1], (lstep E fuel w2 o) as [u2 r2]. simpl in *. assert (nw u1 = nw u2) as HU by congruence. assert (r1 = r2) as -> by congruence.
    specialize (IH u1 u2 H2 HU). destruct (lrun E fuel u1 os) as [v1 q1], (lrun E fuel u2 os) as [v2 q2]. destruct IH as [A B]. simpl in *. subst q2. split; auto.
  Qed.
End Norm.
