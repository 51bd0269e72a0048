(** Specification vocabulary for the summary of the links of a frame and for pivot tables: which link a name
    stands for after a history. *)
From Verif Require Import Prelude ExprModel ScopeModel LdfModel LdfMore SpecLdf SpecFill.
Local Open Scope string_scope.
Local Open Scope nat_scope.
Local Open Scope list_scope.

(** what a successful [link_to] has established: the target, the labels of each side ([None]: the whole
    index) and whether they are levels of the index, and what it returned *)
Record established : Type := Established {
  es_target : nat;
  es_self : option (list llabel) * bool;
  es_other : option (list llabel) * bool;
  es_agg : bool
}.
Definition labels_of (a : larg) : option (list llabel) :=
  match a with AStr s => Some [LName s] | AList l => Some l | ANone | AInt _ => None end.
(** the arguments of one side: [on] and [levels] are for both sides and come first *)
Definition documented_side (on levels on_side side_levels : larg) : option (list llabel) * bool :=
  if given on then (labels_of on, false)
  else if given levels then (labels_of levels, true)
  else if given on_side then (labels_of on_side, false)
  else if given side_levels then (labels_of side_levels, true)
  else (None, true).

Section Spec.
  Context {L V : Type}.
  Notation done := (prod (@lop L V) (res (@lout V))).

  (** the frame that an operation which returns a new frame starts from *)
  Definition source (o : @lop L V) : option nat :=
    match o with LTake f _ | LDerive f _ _ | LGroup f _ | LReindex f _ | LCopy f => Some f | _ => None end.
  (** The links of every frame after a history: [link_to] gives the name a new meaning, and a frame made from
      another one starts with the links of that one. *)
  Definition outgoing_step (cur : nat -> dict string established) (p : done) : nat -> dict string established :=
    match p with
    | (LLink f g s a _, Ok (RAgg b)) =>
        let e := Established g (documented_side (a_on a) (a_levels a) (a_on_self a) (a_self_levels a))
                             (documented_side (a_on a) (a_levels a) (a_on_other a) (a_other_levels a)) b in
        fun h => if h =? f then dset String.eqb (cur f) s e else cur h
    | (o, Ok (RFrame k)) =>
        match source o with Some f => fun h => if h =? k then cur f else cur h | None => cur end
    | _ => cur
    end.
  Definition outgoing (tr : list done) : nat -> dict string established := fold_left outgoing_step tr (fun _ => []).

  Definition side_of (m : meta) : option (list llabel) * bool := (me_labels m, me_rows m).
  (** one row of the summary: the link of this name, and the frame that it leads to as it is now *)
  Definition describes (w : @lworld V) (r : summary_row) (p : string * established) : Prop :=
    sr_name r = fst p /\ side_of (sr_self r) = es_self (snd p) /\ side_of (sr_other r) = es_other (snd p) /\ sr_agg r = es_agg (snd p) /\
    exists gr, is_frame w (es_target (snd p)) gr /\ sr_shape r = (nrows gr, length (f_cols gr)) /\ sr_chained r = f_ldf gr.

  (** the values that a name stands for: a column of the frame that no link hides, else the result of
      [frame.evaluate(name)] *)
  Definition provides (E : venv L V) (fuel : nat) (w : @lworld V) (f : nat) (s : string) (c : dtype * list V) : Prop :=
    exists fr, is_frame w f fr /\
      match dget String.eqb (f_cols fr) s with
      | Some c' => c' = c /\ dget String.eqb (f_links fr) s = None
      | None => snd (lstep E fuel w (LEval f s [])) = Ok (RCol c)
      end.
End Spec.
