(** Specification for C88: what [x.link1. ... .column] and [x.link1. ... .linkn.f(e)] stand for in a row of a table,
    found by following the keys of the linked frames. *)
From Verif Require Import Prelude ExprModel SpecExpr ScopeModel LdfModel SpecLdf LdfGroups PropAgg.
Local Open Scope string_scope.
Local Open Scope nat_scope.
Local Open Scope list_scope.

Section Spec.
  Context {L N : Type} (E : venv L (val N)) (fuel : nat).
  Notation lworld := (@lworld (val N)).
  Notation V := (val N).
  (** [convert_series] works cell by cell on columns of kind [d], by [cv] *)
  Definition cellwise (d : dtype) (cv : V -> V) : Prop := forall l, exists d', v_conv E d l = Ok (OCol d' (map cv l)).

  (** the value for row [i] of frame [f] *)
  Inductive linked_value (w : lworld) (f : nat) : list string -> option (string * expr L) -> nat -> V -> Prop :=
  (** a column of the frame *)
  | lv_column fr a d vals cv i v : is_frame w f fr -> (forall lk, ~ is_link w f a lk) -> is_column fr a (d, vals) -> nth_error vals i = Some v ->
      cellwise d cv -> linked_value w f [a] None i (cv v)
  (** a column of the frame that the links lead to: the row that the keys lead to ... *)
  | lv_found path g gr a d vals cv i j v y : path <> [] -> lookups w f path g -> is_frame w g gr -> (forall lk, ~ is_link w g a lk) -> is_column gr a (d, vals) ->
      v_store E d (fill_of w gr a d) = Ok y -> reach w f path i (Some j) -> nth_error vals j = Some v ->
      cellwise d cv -> linked_value w f (path ++ [a]) None i (cv v)
  (** ... or the fill value *)
  | lv_unlinked path g gr a d vals cv i y : path <> [] -> lookups w f path g -> is_frame w g gr -> (forall lk, ~ is_link w g a lk) -> is_column gr a (d, vals) ->
      v_store E d (fill_of w gr a d) = Ok y -> reach w f path i None ->
      cellwise d cv -> linked_value w f (path ++ [a]) None i (cv y)
  (** an aggregation over the rows that match: the value of the function over them, or the fill value *)
  | lv_aggregate path g s lk gr tr func fn e d vals y cv i v : path <> [] -> lookups w f path g ->
      is_link w g s lk -> lk_agg lk = true -> lk_flat lk <> None -> is_frame w g gr -> is_frame w (lk_other lk) tr -> (nrows tr = 0 -> nrows gr = 0) ->
      (forall j k, row_key tr (lk_target lk) j k -> key_null E k = false) ->
      aggf_named func = Some fn -> denotes E fuel w (lk_other lk) (XTree e) (d, vals) -> allowed fn d ->
      v_store E (v_aggtype E fn d) (agg_fill E d (v_m1 E)) = Ok y ->
      (reach w f path i None /\ v = y \/
       exists j js vs, reach w f path i (Some j) /\ matching w g lk j js /\ values_at vals js vs /\ v = match js with [] => y | _ => v_agg E fn vs end) ->
      cellwise (v_aggtype E fn d) cv -> linked_value w f (path ++ [s]) (Some (func, e)) i (cv v).
End Spec.
