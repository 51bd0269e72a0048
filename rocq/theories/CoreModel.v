(** Model of the sampling and probability functions of cheval/core.py (27-301),
    over an arbitrary arithmetic [F].  Arrays are lists; [ndouble[:]] indices that the
    theorems show to be in range are read with [nth]. *)
From Verif Require Import Prelude Arith.
Local Open Scope nat_scope.

Section Core.
  Context (F : arith).
  Notation num := (num F).

  (** array read [a[i]] *)
  Definition rd (a : list num) (i : nat) : num := nth i a (nzero F).

  (** Python/Numba [max(a, b)]: [a] unless [b > a]. *)
  Definition pymax (a b : num) : num := if nlt F a b then b else a.

  (** ** Sampling *)

  (** core.py 33-38: the loop of [sample_once]; [None] when it ends without returning. *)
  Fixpoint sample_loop (p : list num) (r cumsum : num) (index : nat) : option nat :=
    match p with
    | [] => None
    | x :: t =>
        let cumsum' := nadd F cumsum x in
        if nle F r cumsum' then Some index else sample_loop t r cumsum' (S index)
    end.

  (** core.py 30-39 [sample_once].  The result is an [nlong]: an empty array gives -1. *)
  Definition sample_once (p_array : list num) (r : num) : Z :=
    let r := pymax r (ntiny F) in
    match sample_loop p_array r (nzero F) 0 with
    | Some i => Z.of_nat i
    | None => Z.of_nat (length p_array) - 1
    end.

  (** core.py 66-72: the loop of [logarithmic_search] on [(lower_bound, upper_bound)];
      [fuel] bounds the number of iterations, [None] = fuel exhausted (shown impossible). *)
  Fixpoint search_loop (fuel : nat) (r : num) (cps : list num) (lo hi : Z) : option (Z * Z) :=
    match fuel with
    | O => None
    | S fuel' =>
        if (hi - lo >? 1)%Z then
          let mid := ((hi + lo) / 2)%Z in
          if nle F r (rd cps (Z.to_nat mid))
          then search_loop fuel' r cps lo mid
          else search_loop fuel' r cps mid hi
        else Some (lo, hi)
    end.

  (** core.py 43-78 [logarithmic_search].  [None] stands for the out-of-bounds read
      [cps[0]] of an empty array (Numba does not check bounds) or exhausted fuel.
      [np.uint32(mid)] is the identity for arrays of fewer than 2^32 entries. *)
  Definition logarithmic_search (r : num) (cps : list num) : option Z :=
    let r := if neqb F r (nzero F) then ntiny F else r in
    let ncols := length cps in
    match cps with
    | [] => None
    | _ :: _ =>
        match search_loop (S ncols) r cps 0 (Z.of_nat ncols - 1) with
        | None => None
        | Some (lo, hi) => if nle F r (rd cps (Z.to_nat lo)) then Some lo else Some hi
        end
    end.

  (** core.py 82-87 [nbf_cumsum] (in place): running sums. *)
  Fixpoint cumsum_from (accum : num) (a : list num) : list num :=
    match a with
    | [] => []
    | x :: t => let accum' := nadd F accum x in accum' :: cumsum_from accum' t
    end.
  Definition nbf_cumsum (a : list num) : list num := cumsum_from (nzero F) a.

  (** core.py 116-119: one search per draw. *)
  Fixpoint search_all (draws : list num) (cps : list num) : option (list Z) :=
    match draws with
    | [] => Some []
    | r :: t =>
        match logarithmic_search r cps, search_all t cps with
        | Some i, Some l => Some (i :: l)
        | _, _ => None
        end
    end.

  (** core.py 105-119 [sample_multi], the [n] draws [np.random.uniform(MIN, 1)] being given
      as a list.  Returns the (mutated) probability array and the sampled positions. *)
  Definition sample_multi (p_array : list num) (draws : list num) : list num * option (list Z) :=
    let cps := nbf_cumsum p_array in (cps, search_all draws cps).

  (** ** Probabilities *)

  (** [array.sum()] in Numba: left-to-right accumulation from 0.0. *)
  Definition nsum (l : list num) : num := fold_left (nadd F) l (nzero F).

  (** core.py 127-128 [simple_probabilities] *)
  Definition simple_probabilities (weights : list num) : list num :=
    let s := nsum weights in map (fun w => ndiv F w s) weights.

  (** core.py 135-157 [multinomial_probabilities] : (p, total_ls, ls_terms) *)
  Definition multinomial_probabilities (utilities : list num) (check_infeasible : bool)
    : res (list num * num * list num) :=
    let ls_terms := map (nexp F) utilities in
    let total_ls := nsum ls_terms in
    if nle F total_ls (nzero F) then
      if check_infeasible then Err UtilityBounds
      else Ok (map (fun _ => nzero F) ls_terms, total_ls, ls_terms)
    else Ok (map (fun e => ndiv F e total_ls) ls_terms, total_ls, ls_terms).

  (** core.py 164-235 [nested_probabilities].  [hierarchy[i]] is the parent position or -1;
      [levels] are the depths (>= 0, so [nat]). *)
  Section Nested.
    Context (hierarchy : list Z) (levels : list nat) (logsum_scales : list num)
            (bottom_flags : list bool) (scale_utilities : bool).

    Definition par (i : nat) : Z := nth i hierarchy (-1)%Z.
    Definition lev (i : nat) : nat := nth i levels 0.
    Definition bot (i : nat) : bool := nth i bottom_flags true.

    (** [probabilities, grouped_logsums, final_logsums, top_logsum] *)
    Record s1 := S1 { s1_prob : list num; s1_grp : list num; s1_fin : list num; s1_top : num }.

    (** core.py 184 *)
    Definition parent_ls_scale (parent : Z) : num :=
      if orb (negb scale_utilities) (parent <? 0)%Z then none_ F
      else rd logsum_scales (Z.to_nat parent).

    (** core.py 183-205: one node of the current level *)
    Definition s1_node (st : s1) (index : nat) : s1 :=
      let parent := par index in
      let pls := parent_ls_scale parent in
      let expu :=
        if bot index then
          nexp F (ndiv F (rd (s1_prob st) index) pls)
        else
          nexp F (ndiv F (nadd F (rd (s1_prob st) index)
                                 (nmul F (rd logsum_scales index)
                                         (nlog F (rd (s1_grp st) index)))) pls) in
      {| s1_grp := if (0 <=? parent)%Z
                   then upd (s1_grp st) (Z.to_nat parent)
                            (nadd F (rd (s1_grp st) (Z.to_nat parent)) expu)
                   else s1_grp st;
         s1_top := if (0 <=? parent)%Z then s1_top st else nadd F (s1_top st) expu;
         s1_prob := upd (s1_prob st) index expu;
         s1_fin := upd (s1_fin st) index expu |}.

    (** core.py 179-206: one sweep over [enumerate(levels)] for [current_level] *)
    Definition s1_sweep (st : s1) (current_level : nat) : s1 :=
      fold_left (fun st index => if Nat.eqb (lev index) current_level then s1_node st index else st)
                (seq 0 (length levels)) st.

    (** core.py 175-206: levels [max_level], ..., 1, 0 *)
    Definition max_level : nat := fold_left Nat.max levels 0.
    Definition step1 (utilities : list num) : s1 :=
      fold_left s1_sweep (rev (seq 0 (S max_level)))
        {| s1_prob := utilities;
           s1_grp := map (fun _ => nzero F) utilities;
           s1_fin := map (fun _ => nzero F) utilities;
           s1_top := nzero F |}.

    (** core.py 213-218: conditional probabilities *)
    Definition s2_node (grp : list num) (top : num) (prob : list num) (index : nat) : list num :=
      let parent := par index in
      let ls := if (parent =? -1)%Z then top else rd grp (Z.to_nat parent) in
      let p := if nle F ls (nzero F) then nzero F else ndiv F (rd prob index) ls in
      upd prob index p.
    Definition step2 (grp : list num) (top : num) (prob : list num) : list num :=
      fold_left (s2_node grp top) (seq 0 (length hierarchy)) prob.

    (** core.py 221-226: absolute probabilities, level by level *)
    Definition s3_node (prob : list num) (index : nat) : list num :=
      upd prob index (nmul F (rd prob index) (rd prob (Z.to_nat (par index)))).
    Definition s3_sweep (prob : list num) (current_level : nat) : list num :=
      fold_left (fun prob index => if Nat.eqb (lev index) current_level then s3_node prob index else prob)
                (seq 0 (length levels)) prob.
    Definition step3 (prob : list num) : list num :=
      fold_left s3_sweep (seq 1 max_level) prob.

    (** core.py 230-233: zero-out parent nodes *)
    Definition step4 (prob : list num) : list num :=
      fold_left (fun prob parent => if (parent <? 0)%Z then prob
                                    else upd prob (Z.to_nat parent) (nzero F))
                hierarchy prob.

    (** core.py 164-235.  [levels.max()] of an empty array raises ValueError. *)
    Definition nested_probabilities (utilities : list num) (check_infeasible : bool)
      : res (list num * num * list num) :=
      match levels with
      | [] => Err ValueError
      | _ :: _ =>
          let st := step1 utilities in
          let top := s1_top st in
          if andb (nle F top (nzero F)) check_infeasible then Err UtilityBounds
          else
            let p2 := step2 (s1_grp st) top (s1_prob st) in
            let p3 := step3 p2 in
            Ok (step4 p3, top, s1_fin st)
      end.
  End Nested.

  (** ** Middle functions *)

  (** core.py 243-246 [simple_sample] *)
  Definition simple_sample (weights : list num) (r : num) : Z :=
    sample_once (simple_probabilities weights) r.

  (** core.py 250-253 [simple_multisample] *)
  Definition simple_multisample (weights : list num) (draws : list num) : option (list Z) :=
    snd (sample_multi (simple_probabilities weights) draws).

  (** core.py 260-263 [multinomial_sample] *)
  Definition multinomial_sample (utilities : list num) (r : num) : res (Z * num) :=
    do (p, ls, _) <- multinomial_probabilities utilities true;
    Ok (sample_once p r, ls).

  (** core.py 270-273 [multinomial_multisample] *)
  Definition multinomial_multisample (utilities draws : list num) : res (option (list Z) * num) :=
    do (p, ls, _) <- multinomial_probabilities utilities true;
    Ok (snd (sample_multi p draws), ls).

  (** core.py 280-286 [nested_sample] *)
  Definition nested_sample (utilities : list num) (r : num) (parents : list Z) (levels : list nat)
      (ls_scales : list num) (bottom_flags : list bool) (scale_utilities : bool) : res (Z * num) :=
    do (p, ls, _) <- nested_probabilities parents levels ls_scales bottom_flags scale_utilities utilities true;
    Ok (sample_once p r, ls).

  (** core.py 293-299 [nested_multisample] *)
  Definition nested_multisample (utilities : list num) (parents : list Z) (levels : list nat)
      (ls_scales : list num) (bottom_flags : list bool) (draws : list num) (scale_utilities : bool)
      : res (option (list Z) * num) :=
    do (p, ls, _) <- nested_probabilities parents levels ls_scales bottom_flags scale_utilities utilities true;
    Ok (snd (sample_multi p draws), ls).
End Core.

Arguments rd {F} a i.
Arguments S1 {F}. Arguments s1_prob {F}. Arguments s1_grp {F}. Arguments s1_fin {F}. Arguments s1_top {F}.
