(** Model of the ownership of assigned data (cheval/api.py 268-452, cheval/utils.py 13-66, cheval/model.py 667-770): which
    symbols hold the arrays and frames of the user themselves, and which hold values of their own.  The data of all symbols
    are values in ScopeModel.v; here they are memory that the user can write to after assigning it.
    Of numpy and pandas the following is assumed: [array[...]] is a view; the array of a Series of a numpy dtype (integer,
    float, boolean) is the memory of the Series, and the arrays that [convert_series] makes of other Series are new;
    indexing with a mask, and [.loc] with a mask, copy.  Vectors and tables of decision units (orientation 0) are modelled; the
    checks of lengths and labels, which ScopeModel.v has, are left out. *)
From Coq Require Import ZArith.
From Flocq Require Import IEEE754.BinarySingleNaN.
From Verif Require Import Prelude Arith ScopeModel ConvModel.
Local Open Scope string_scope.
Local Open Scope nat_scope.
Local Open Scope list_scope.

(** a Series (or 1D array) of the user: is it an array of numpy, and what it contains now *)
Record useries : Type := USeries { us_numpy : bool; us_data : series }.
(** does its array, as the symbol takes it, share its memory: utils.py 28-29 and 60-61 *)
Definition shares (u : useries) : bool :=
  us_numpy u && match us_data u with SInt _ | SFloat _ | SBool _ => true | _ => false end.

(** what a symbol holds: nothing, values of its own, a view of Series [a], the frame [f] *)
Inductive stored : Type := Empty | Held (l : list avalue) | View (a : nat) | Frame (f : nat).

(** the memory of the user: Series and frames (columns by name); the symbols of every model *)
Record aworld : Type := AWorld { aw_series : list useries; aw_frames : list (dict string series); aw_models : list (dict string stored) }.

Inductive aop : Type :=
| UNew (u : useries) | UFrame (f : dict string series)          (* the user makes a Series, a frame *)
| UWrite (a : nat) (s : series)                                 (* writes to a Series in place: it contains [s] now *)
| UColumn (f : nat) (name : string) (s : series)                (* frame[name] = s *)
| ANewModel
| AssignVector (m : nat) (name : string) (a : nat)              (* model.scope[name].assign(series) *)
| AssignTable (m : nat) (name : string) (f : nat)
| AEmpty (m : nat) (name : string)                              (* symbol.empty() *)
| ACopy (m : nat)                                               (* model.copy() *)
| ASubset (m : nat) (mask : list bool).                         (* model.copy_subset(mask) *)

Section Alias.
  Context (old_pandas : bool).

  Definition no_series : useries := USeries false SDatetime.
  Definition model_of (w : aworld) (m : nat) : dict string stored := nth m (aw_models w) [].
  Definition set_symbol (w : aworld) (m : nat) (name : string) (x : stored) : aworld :=
    AWorld (aw_series w) (aw_frames w) (upd (aw_models w) m (dset String.eqb (model_of w m) name x)).
  Definition keep_series (mask : list bool) (s : series) : series :=
    match s with
    | SInt l => SInt (keep mask l) | SFloat l => SFloat (keep mask l) | SBool l => SBool (keep mask l)
    | SCat cats codes => SCat cats (keep mask codes) | SObj l => SObj (keep mask l) | SDatetime => SDatetime | STimedelta => STimedelta
    end.

  (** api.py 303-321 [VectorSymbol.assign]: the stored array, or the error of the conversion *)
  Definition assign_vector (w : aworld) (a : nat) : res stored :=
    let u := nth a (aw_series w) no_series in
    do l <- convert_series old_pandas (us_data u); Ok (if shares u then View a else Held l).
  (** the array a vector shows now; api.py 323-326 *)
  Definition vector_now (w : aworld) (x : stored) : option (res (list avalue)) :=
    match x with
    | Held l => Some (Ok l)
    | View a => Some (convert_series old_pandas (us_data (nth a (aw_series w) no_series)))
    | _ => None
    end.

  (** api.py 330-342 and 414-421: the symbols of a subset, one by one; the frames of table symbols become new frames *)
  Fixpoint subset_symbols (w : aworld) (mask : list bool) (frames : list (dict string series)) (l : dict string stored) : list (dict string series) * dict string stored :=
    match l with
    | [] => (frames, [])
    | (name, x) :: t =>
        let '(frames1, x') :=
          match x with
          | Frame f => (frames ++ [map (fun p => (fst p, keep_series mask (snd p))) (nth f frames [])], Frame (length frames))
          | View _ | Held _ => (frames, match vector_now w x with Some (Ok v) => Held (keep mask v) | _ => Empty end)
          | Empty => (frames, Empty)
          end in
        let '(frames2, t') := subset_symbols w mask frames1 t in (frames2, (name, x') :: t')
    end.

  Definition astep (w : aworld) (o : aop) : aworld :=
    match o with
    | UNew u => AWorld (aw_series w ++ [u]) (aw_frames w) (aw_models w)
    | UFrame f => AWorld (aw_series w) (aw_frames w ++ [f]) (aw_models w)
    | UWrite a s => AWorld (upd (aw_series w) a (USeries (us_numpy (nth a (aw_series w) no_series)) s)) (aw_frames w) (aw_models w)
    | UColumn f name s => AWorld (aw_series w) (upd (aw_frames w) f (dset String.eqb (nth f (aw_frames w) []) name s)) (aw_models w)
    | ANewModel => AWorld (aw_series w) (aw_frames w) (aw_models w ++ [[]])
    | AssignVector m name a => match assign_vector w a with Ok x => set_symbol w m name x | Err _ => w end
    | AssignTable m name f => set_symbol w m name (Frame f)                                  (* api.py 366-379: [self._table = data] *)
    | AEmpty m name => set_symbol w m name Empty
    | ACopy m => AWorld (aw_series w) (aw_frames w) (aw_models w ++ [model_of w m])          (* api.py 334-338: the same array, the same frame *)
    | ASubset m mask => let '(frames, l) := subset_symbols w mask (aw_frames w) (model_of w m) in AWorld (aw_series w) frames (aw_models w ++ [l])
    end.
  Definition arun (w : aworld) (l : list aop) : aworld := fold_left astep l w.

  (** what a run gets for the symbol [name] of model [m]: of a vector, and of the attribute [attr] of a table (api.py 381-404) *)
  Definition get_vector (w : aworld) (m : nat) (name : string) : option (res (list avalue)) :=
    match dget String.eqb (model_of w m) name with Some x => vector_now w x | None => None end.
  Definition get_attribute (w : aworld) (m : nat) (name attr : string) : option (res (list avalue)) :=
    match dget String.eqb (model_of w m) name with
    | Some (Frame f) => Some (match dget String.eqb (nth f (aw_frames w) []) attr with Some s => convert_series old_pandas s | None => Err KeyError end)
    | _ => None
    end.
End Alias.
