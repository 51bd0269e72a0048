(** A concrete environment and history for C82-C84: cells are truth values, texts, binary64 numbers or null;
    numexpr computes with [O1]; the frames are tables whose only link, [home], leads back to them. *)
From Coq Require Import ZArith Floats.SpecFloat.
From Flocq Require Import Core.Core IEEE754.BinarySingleNaN.
From Verif Require Import Prelude Arith CoreModel TreeModel ParModel ExprModel SpecExpr ScopeModel SpecScope ModelModel SpecModel ModelExample ModelHist ModelInv SpecEnd EndProofs RunOut ScopeProofs.
Local Open Scope string_scope.
Local Open Scope nat_scope.
Local Open Scope list_scope.

Definition F1 : arith := B64 (fun x => x) (fun x => x).
Notation n1 := (num F1).
Notation v1 := (val float64).
Definition one1 : float64 := flz 1.
Definition is_nan1 (x : float64) : bool := negb (neqb F1 x x).
Definition num1 (x : float64) : v1 := if is_nan1 x then VNull else VNum x.
Definition back1 (v : v1) : option float64 :=
  match v with VNum x => Some x | VBool b => Some (if b then flz 1 else flz 0) | VNull => Some B754_nan | VStr _ => None end.
Definition arith1 (f : float64 -> float64 -> float64) (a b : v1) : option v1 :=
  obind (back1 a) (fun x => obind (back1 b) (fun y => Some (num1 (f x y)))).
Definition O1 : ops nat float64 := Ops
  (fun n => flz (Z.of_nat n))
  (fun op a b => match op with Add => arith1 (nadd F1) a b | Mult => arith1 (nmul F1) a b | _ => None end)
  (fun op a b => match op, a, b with
                 | CLt, VNum x, VNum y => Some (VBool (nlt F1 x y))
                 | CGt, VNum x, VNum y => Some (VBool (nlt F1 y x))
                 | CEq, VStr x, VStr y => Some (VBool (String.eqb x y))
                 | _, _, _ => None end)
  (fun a => arith1 (nmul F1) (VNum (flz (-1))) a) (fun _ => None)
  (fun s => if String.eqb s "True" then Some (VBool true) else None)
  (fun f l => None).

Record eframe1 : Type := EFrame1 { ef1_columns : list string; ef1_rows : list (string * list v1) }.
Definition ef1_col (t : eframe1) (a : string) : res (list v1) :=
  match position String.eqb (ef1_columns t) a with Some j => Ok (map (fun row => nth j (snd row) VNull) (ef1_rows t)) | None => Err KeyError end.
Definition frames1 : frames nat string v1 :=
  Frames nat string v1 eframe1 (fun t => map fst (ef1_rows t)) ef1_columns
    (fun t => map (fun row => map (fun j => nth j (snd row) VNull) (seq 0 (length (ef1_columns t)))) (ef1_rows t))
    (fun _ => true) (fun t a => orb (String.eqb a "home") (existsb (String.eqb a) (ef1_columns t))) ef1_col
    (fun t p f => match p, f with a :: _, None => ef1_col t a | _, _ => Err KeyError end)
    (fun mask t => EFrame1 (ef1_columns t) (keep mask (ef1_rows t))).

Definition parse1 (s : string) : res (expr nat) :=
  if String.eqb s "x * 2 + k" then Ok (EBin Add (EBin Mult (EName "x") (ENum 2)) (EName "k"))
  else if String.eqb s "x > 2 and not t.kind == 'old'" then
    Ok (EBool And [ECmp (EName "x") [CGt] [ENum 2]; EUn Not (ECmp (EAttr (EName "t") "kind") [CEq] [EStr "old"])])
  else if String.eqb s "{'A': 2, 'N.B': 3}" then Ok (EDict [EStr "A"; EAttr (EName "N") "B"] [ENum 2; ENum 3])
  else if String.eqb s "1 < t.home.age < 4" then Ok (ECmp (ENum 1) [CLt; CLt] [EAttr (EAttr (EName "t") "home") "age"; ENum 4])
  else if String.eqb s "c" then Ok (EName "c")
  else if String.eqb s "-k" then Ok (EUn USub (EName "k"))
  else Err SyntaxErr.
Definition env2 : env nat F1 string v1 :=
  Env nat F1 string v1 String.eqb e_label num1 B754_nan (B754_infinity true) (fun neg n => flz (if neg then - Z.of_nat n else Z.of_nat n)%Z)
      (fun e rho => obind (neval O1 rho e) back1) (fun _ => false) parse1 frames1.

Lemma env2_computes : numexpr_computes env2 O1 back1.
Proof. intros e rho. reflexivity. Qed.
Lemma env2_null : ev_num env2 (ev_nan env2) = VNull.
Proof. reflexivity. Qed.
Lemma env2_laws : frame_laws env2.
Proof.
  constructor.
  - intros a b. apply String.eqb_eq.
  - intros t. cbn. split; [now rewrite !map_length|]. apply Forall_forall. intros row I. apply in_map_iff in I. destruct I as (r & <- & _). now rewrite map_length, seq_length.
  - assert (CL : forall t a v, ef1_col t a = Ok v -> length v = length (map fst (ef1_rows t))).
    { intros t a v. unfold ef1_col. destruct (position String.eqb (ef1_columns t) a); [|discriminate]. intros H. injection H as <-. now rewrite !map_length. }
    intros t. split; cbn; [apply CL|]. intros [|a p] [f|] v H; try discriminate. eapply CL; eauto.
  - intros mask t. cbn. now rewrite keep_map.
Qed.

(** two levels of choices: A, and the nest N of B and C; two decision units *)
Definition ser1 (ix : list string) (l : list Z) : value (num:=n1) (ev_frames env2) := VSeries ix (map (fun z => VNum (flz z)) l).
Definition half1 : float64 := binary_normalize 53 1024 _ _ mode_NE 1 (-1) false.
Definition texts2 : list string :=
  ["x * 2 + k"; "x > 2 and not t.kind == 'old'"; "{'A': 2, 'N.B': 3}"; "1 < t.home.age < 4 @ N.C"; "c"; "-k @ A"].
Definition history2 : list (mop env2) :=
  [MNew env2; MTree env2 0 (@AddChoices F1 ["A"; "N"] false None); MTree env2 0 (@NodeAdd F1 1 "B" one1); MTree env2 0 (@NodeAdd F1 1 "C" one1); MTree env2 0 (@SetScale F1 1 half1);
   MUnits env2 0 ["u1"; "u2"]; MDeclare env2 0 "x" (DeclVector 0); MDeclare env2 0 "k" DeclNumber; MDeclare env2 0 "c" (DeclVector 1); MDeclare env2 0 "t" (DeclTable 0 [] true);
   MAssign env2 0 "x" (ser1 ["u1"; "u2"] [1; 4]%Z); MAssign env2 0 "k" (VFloat (flz 10)); MAssign env2 0 "c" (VArray1 (map (fun z => VNum (flz z)) [5; 0; 6; 7]%Z));
   MAssign env2 0 "t" (VFrame (FR:=frames1) (EFrame1 ["kind"; "age"] [("u1", [VStr "new"; VNum (flz 2)]); ("u2", [VStr "new"; VNum (flz 9)])]))]
  ++ map (fun x => MAppend env2 0 x None) texts2.
Definition world2 : mworld env2 := mrun env2 (new_mworld env2) history2.
Definition model2 := model env2 world2 0.
Definition run2 := run_utilities env2 (mheap env2 world2) (mcont env2 world2 0) (mw_tabs world2) model2 None true.
Lemma history2_orderly : orderly_history env2 (new_mworld env2) history2.
Proof.
  unfold history2. cbn [app map texts2 orderly_history].
  repeat match goal with |- _ /\ _ => split end; try exact I; try (intros n s []; fail).
  all: unfold orderly; try exact I; try reflexivity.
  - split; [split; [repeat constructor; cbn; intuition discriminate|cbn; tauto]|intros n s []].
  - split; [|intros n s []]. exists "N". split; [cbn; auto|]. intros H. exfalso. cbn in H. intuition discriminate.
  - split; [|intros n s []]. exists "N". split; [cbn; auto|]. intros H. exfalso. cbn in H. intuition discriminate.
  - split; [|intros n s []]. exists "N". cbn. auto.
Qed.

Definition selection2 := selection (mheap env2 world2) (mcont env2 world2 0) None.
Definition simple2 : list string := match selection2 with Ok (s, _) => s | Err _ => [] end.
Definition xs2 : list (@expression nat) := match selection2 with Ok (_, xs) => xs | Err _ => [] end.
Lemma selection2_ok : selection (mheap env2 world2) (mcont env2 world2 0) None = Ok (simple2, xs2) /\ map (@e_raw nat) xs2 = texts2.
Proof. vm_compute. auto. Qed.
Lemma all_meant : forall x, In x xs2 -> meant env2 simple2 x.
Proof.
  assert (S : simple2 = ["x"; "k"; "c"]) by (vm_compute; reflexivity). rewrite S. clear S.
  set (l := xs2). vm_compute in l. subst l. intros x I. repeat (destruct I as [<-|I]); [..|destruct I].
  all: split; [split; intros y Y; cbn in Y; intuition subst; reflexivity|]; split;
    [intros name us sub ct I1 I2 NF; cbn in I1; intuition; try congruence;
       match goal with H : (_, _) = (name, us) |- _ => injection H as <- <- end; cbn in I2; intuition; match goal with H : (_, _) = (sub, ct) |- _ => injection H as <- <- end; cbn in NF; congruence|].
  all: intros body flt tree SF PP; vm_compute in SF; injection SF as <- <-; vm_compute in PP; injection PP as <-; split.
  all: try (intros y Y; cbn in Y; intuition subst; cbn; auto; fail).
  all: cbn; intuition. now constructor.
Qed.
Definition cols2 : list label := [Tup ["A"; "."]; Tup ["N"; "."]; Tup ["N"; "B"]; Tup ["N"; "C"]].
Definition row2 (l : list Z) : list float64 := map flz l.
Lemma same1 (a : option float64) (b : float64) : option_map B2SF a = Some (B2SF b) -> a = Some b.
Proof. destruct a as [x|]; [|discriminate]. cbn. intros H. injection H as H. f_equal. now apply B2SF_inj. Qed.
(** the sums of the texts, unit by unit *)
Lemma texts2_rows :
  texts_row env2 O1 back1 (m_scope model2) 2 cols2 0 texts2 (row2 [9; 12; 21; 20]%Z) /\
  texts_row env2 O1 back1 (m_scope model2) 2 cols2 1 texts2 (row2 [16; 19; 28; 26]%Z).
Proof.
  split; (split; [reflexivity|]); intros [|[|[|[|c]]]] l H; try (destruct c; discriminate); cbn in H; injection H as <-; apply same1; vm_compute; reflexivity.
Qed.
Lemma texts2_selected :
  texts_row env2 O1 back1 (m_scope model2) 2 cols2 0 (map (@e_raw nat) xs2) (row2 [9; 12; 21; 20]%Z) /\
  texts_row env2 O1 back1 (m_scope model2) 2 cols2 1 (map (@e_raw nat) xs2) (row2 [16; 19; 28; 26]%Z).
Proof.
  refine (eq_ind_r (fun l => texts_row env2 O1 back1 (m_scope model2) 2 cols2 0 l (row2 [9; 12; 21; 20]%Z) /\ texts_row env2 O1 back1 (m_scope model2) 2 cols2 1 l (row2 [16; 19; 28; 26]%Z)) texts2_rows (proj2 selection2_ok)).
Qed.
