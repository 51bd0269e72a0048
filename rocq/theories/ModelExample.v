(** A concrete environment for the examples and counterexamples about ChoiceModel: labels are texts,
    cells are numbers, numexpr knows names, numbers, [+] and [*]; the parser knows a few texts. *)
From Coq Require Import ZArith Floats.SpecFloat.
From Flocq Require Import Core.Core IEEE754.BinarySingleNaN.
From Verif Require Import Prelude Arith CoreModel TreeModel ExprModel SpecExpr ScopeModel SpecScope ModelModel SpecModel.
Local Open Scope string_scope.
Local Open Scope nat_scope.
Local Open Scope list_scope.

Section Example.
  Context (F : arith) (lit : nat -> num F) (nan ninf : num F).

  (** frames without links: columns, and rows with their label; missing cells are zero *)
  Record eframe : Type := EFrame { ef_columns : list string; ef_rows : list (string * list (num F)) }.
  Definition ef_cells (t : eframe) : list (list (num F)) :=
    map (fun row => map (fun j => nth j (snd row) (nzero F)) (seq 0 (length (ef_columns t)))) (ef_rows t).
  Definition ef_col (t : eframe) (a : string) : res (list (num F)) :=
    match position String.eqb (ef_columns t) a with Some j => Ok (map (fun row => nth j (snd row) (nzero F)) (ef_rows t)) | None => Err KeyError end.
  Definition eframes : frames nat string (num F) :=
    Frames nat string (num F) eframe (fun t => map fst (ef_rows t)) ef_columns ef_cells (fun _ => false) (fun t a => existsb (String.eqb a) (ef_columns t)) ef_col
           (fun t p _ => Err KeyError)
           (fun mask t => EFrame (ef_columns t) (keep mask (ef_rows t))).

  Fixpoint e_ne (e : expr nat) (rho : string -> option (num F)) : option (num F) :=
    match e with
    | EName x => rho x
    | ENum n => Some (lit n)
    | EBin Add a b => match e_ne a rho, e_ne b rho with Some x, Some y => Some (nadd F x y) | _, _ => None end
    | EBin Mult a b => match e_ne a rho, e_ne b rho with Some x, Some y => Some (nmul F x y) | _, _ => None end
    | _ => None
    end.
  Definition e_parse (s : string) : res (expr nat) :=
    if String.eqb s "1" then Ok (ENum 1)
    else if String.eqb s "2" then Ok (ENum 2)
    else if String.eqb s "x" then Ok (EName "x")
    else if String.eqb s "y" then Ok (EName "y")
    else if String.eqb s "x * 2" then Ok (EBin Mult (EName "x") (ENum 2))
    else if String.eqb s "x + y" then Ok (EBin Add (EName "x") (EName "y"))
    else if String.eqb s "t.a * b" then Ok (EBin Mult (EAttr (EName "t") "a") (EName "b"))
    else if String.eqb s "t.a" then Ok (EAttr (EName "t") "a")
    else if String.eqb s "OUT" then Ok (EName "OUT")
    else if String.eqb s "OUT.x" then Ok (EAttr (EName "OUT") "x")
    else if String.eqb s "NAN" then Ok (EName "NAN")
    else if String.eqb s "x + {'A': 2}" then Ok (EBin Add (EName "x") (EDict [EStr "A"] [ENum 2]))
    else Err SyntaxErr.
  Definition e_label (l : label) : string := match l with Flat x => x | Tup p => String.concat "." p end.
  Definition eenv : env nat F string (num F) :=
    Env nat F string (num F) String.eqb e_label (fun x => x) nan ninf (fun _ n => lit n) e_ne (fun _ => false) e_parse eframes.

  Lemma e_local : numexpr_local eenv.
  Proof.
    intros e. change (forall rho1 rho2, (forall x, In x (free_names e) -> rho1 x = rho2 x) -> e_ne e rho1 = e_ne e rho2).
    induction e; intros rho1 rho2 H; cbn [e_ne]; auto.
    - apply H. simpl. auto.
    - cbn [free_names] in H. rewrite (IHe1 rho1 rho2), (IHe2 rho1 rho2); auto; intros; apply H; apply in_or_app; auto.
  Qed.
End Example.

(** binary64, with any functions for exp and log *)
Definition flz (m : Z) : float64 := binary_normalize 53 1024 _ _ mode_NE m 0 false.
Definition fenv (fexp flog : float64 -> float64) : env nat (B64 fexp flog) string float64 :=
  eenv (B64 fexp flog) (fun n => flz (Z.of_nat n)) B754_nan (B754_infinity true).

(** A model of two choices, two decision units, and one vector [x] = (3, 5) *)
Section Histories.
  Context (fexp flog : float64 -> float64).
  Notation F := (B64 fexp flog).
  Notation E := (fenv fexp flog).
  Definition fseries (index : list string) (cells : list Z) : value (num:=num F) (ev_frames E) := VSeries index (map flz cells).
  Definition two_choices : list (mop E) :=
    [MNew E; MTree E 0 (@AddChoices F ["A"; "B"] false None); MUnits E 0 ["h1"; "h2"];
     MDeclare E 0 "x" (DeclVector 0); MAssign E 0 "x" (fseries ["h1"; "h2"] [3; 5]%Z)].
  Definition fworld (l : list (mop E)) : mworld E := mrun E (new_mworld E) (two_choices ++ l).
  (** the numbers of a table, exactly *)
  Definition exact_table (t : list (list float64)) : list (list spec_float) := map (map (@B2SF 53 1024)) t.
  (** the utilities of a run of model 0 *)
  Definition futilities (w : mworld E) (g : option string) : res (list (list spec_float)) :=
    rmap exact_table (snd (run_utilities E (mheap E w) (mcont E w 0) (mw_tabs w) (model E w 0) g false)).
End Histories.
Definition sfz (m : Z) : spec_float := B2SF (flz m).
