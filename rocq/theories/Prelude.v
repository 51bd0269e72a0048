(** Common vocabulary of the model: Python exceptions as values, array update,
    insertion-ordered dictionaries (the Python [dict]) and sets as duplicate-free lists. *)
From Coq Require Export String.
From Coq Require Export List Arith ZArith Bool Lia.
Export ListNotations.
#[global] Open Scope list_scope.

(** The exceptions that the modelled code raises.  [AssertionError] is what a failing
    [assert] statement raises; [UtilityBounds], [ModelNotReady], [UnsupportedSyntax],
    [LinkageSpec] are cheval's own classes (cheval/core.py 23-24, cheval/exceptions.py 1-6,
    cheval/parsing/exceptions.py 1-2, cheval/ldf/constants.py 5-7). *)
Inductive exn : Type :=
| AssertionError | KeyError | TypeError | ValueError | IndexError | AttributeError
| RuntimeError | NotImplementedErr | SyntaxErr
| UtilityBounds | ModelNotReady | UnsupportedSyntax | LinkageSpec.

Inductive res (A : Type) : Type := Ok (a : A) | Err (e : exn).
Arguments Ok {A} a. Arguments Err {A} e.

Definition rbind {A B} (r : res A) (f : A -> res B) : res B :=
  match r with Ok a => f a | Err e => Err e end.
Definition rmap {A B} (f : A -> B) (r : res A) : res B :=
  match r with Ok a => Ok (f a) | Err e => Err e end.
Definition is_ok {A} (r : res A) : bool := match r with Ok _ => true | Err _ => false end.

Notation "'do' x <- r ; k" := (rbind r (fun x => k)) (at level 200, x pattern, r at level 100, k at level 200).

(** [a[i] = x] on an array; an out-of-range store leaves the list unchanged (the callers
    are always in range, which the theorems establish). *)
Fixpoint upd {A} (l : list A) (i : nat) (x : A) : list A :=
  match l, i with
  | [], _ => []
  | _ :: t, O => x :: t
  | h :: t, S j => h :: upd t j x
  end.

Lemma upd_length {A} (l : list A) i x : length (upd l i x) = length l.
Proof. revert i; induction l as [|h t IH]; intros [|i]; simpl; auto. Qed.

Lemma nth_upd_eq {A} (l : list A) i x d : i < length l -> nth i (upd l i x) d = x.
Proof. revert i; induction l as [|h t IH]; intros [|i] H; simpl in *; try lia; auto. apply IH; lia. Qed.

Lemma nth_upd_neq {A} (l : list A) i j x d : i <> j -> nth j (upd l i x) d = nth j l d.
Proof.
  revert i j; induction l as [|h t IH]; intros [|i] [|j] H; simpl; auto; try lia.
Qed.

Lemma nth_upd {A} (l : list A) i j x d :
  i < length l -> nth j (upd l i x) d = if Nat.eqb i j then x else nth j l d.
Proof.
  intros H. destruct (Nat.eqb_spec i j) as [<-|N].
  - now apply nth_upd_eq.
  - now apply nth_upd_neq.
Qed.

Lemma nth_error_upd_eq {A} (l : list A) i x : i < length l -> nth_error (upd l i x) i = Some x.
Proof. revert i; induction l as [|h t IH]; intros [|i] H; simpl in *; try lia; auto. apply IH; lia. Qed.

Lemma nth_error_upd_neq {A} (l : list A) i j x : i <> j -> nth_error (upd l i x) j = nth_error l j.
Proof. revert i j; induction l as [|h t IH]; intros [|i] [|j] H; simpl; auto; try lia. Qed.

(** Two lists with the same length and the same entries are equal. *)
Lemma list_eq_nth {A} (d : A) (l m : list A) :
  length l = length m -> (forall i, i < length l -> nth i l d = nth i m d) -> l = m.
Proof.
  revert m; induction l as [|h t IH]; intros [|h' t'] HL H; simpl in *; try discriminate; auto.
  f_equal.
  - apply (H 0); lia.
  - apply IH; [lia|]. intros i Hi. apply (H (S i)); lia.
Qed.

Lemma nth_map_seq {A} (f : nat -> A) n i d : i < n -> nth i (map f (seq 0 n)) d = f i.
Proof.
  intros H. rewrite nth_indep with (d' := f 0) by (now rewrite map_length, seq_length).
  rewrite map_nth, seq_nth; auto.
Qed.

Lemma nth_map_lt {A B} (f : A -> B) l i (d : A) (d' : B) :
  i < length l -> nth i (map f l) d' = f (nth i l d).
Proof.
  intros H. rewrite nth_indep with (d' := f d) by (now rewrite map_length). apply map_nth.
Qed.

Lemma fold_left_ext {A B} (f g : A -> B -> A) l a :
  (forall a b, In b l -> f a b = g a b) -> fold_left f l a = fold_left g l a.
Proof.
  revert a; induction l as [|h t IH]; intros a H; simpl; auto.
  rewrite H by (left; auto). apply IH. intros; apply H; right; auto.
Qed.

(** Insertion-ordered dictionaries: [set] overwrites in place when the key exists and
    appends otherwise, as Python's [dict] does. *)
Section Dict.
  Context {K V : Type} (keq : K -> K -> bool).
  Definition dict := list (K * V).
  Fixpoint dget (d : dict) (k : K) : option V :=
    match d with [] => None | (k', v) :: t => if keq k k' then Some v else dget t k end.
  Fixpoint dset (d : dict) (k : K) (v : V) : dict :=
    match d with
    | [] => [(k, v)]
    | (k', v') :: t => if keq k k' then (k', v) :: t else (k', v') :: dset t k v
    end.
  Fixpoint ddel (d : dict) (k : K) : dict :=
    match d with [] => [] | (k', v) :: t => if keq k k' then t else (k', v) :: ddel t k end.
  Definition dmem (d : dict) (k : K) : bool := match dget d k with Some _ => true | None => false end.
  Definition dkeys (d : dict) : list K := map fst d.
  Definition dvals (d : dict) : list V := map snd d.
End Dict.
Arguments dict K V : clear implicits.
