(** A small world for examples: cells are integers or missing. *)
From Verif Require Import Prelude DictProofs ExprModel ScopeModel LdfModel SpecLdf.
Local Open Scope string_scope.
Local Open Scope nat_scope.
Local Open Scope list_scope.

Definition cell := option Z.
Definition cell_eq (a b : cell) : bool :=
  match a, b with Some x, Some y => Z.eqb x y | None, None => true | _, _ => false end.
Lemma cell_eq_spec a b : cell_eq a b = true <-> a = b.
Proof.
  destruct a as [x|], b as [y|]; simpl; split; intros H; try discriminate; auto.
  - apply Z.eqb_eq in H. now subst.
  - injection H as ->. apply Z.eqb_refl.
Qed.
Definition whole (d : dtype) : bool := match d with DInt | DUint | DBool => true | _ => false end.
Definition total (l : list cell) : cell := Some (fold_left Z.add (flat_map (fun c => match c with Some x => [x] | None => [] end) l) 0%Z).
Definition counted (l : list cell) : cell := Some (Z.of_nat (length (flat_map (fun c => match c with Some x => [x] | None => [] end) l))).

(** NaN cannot be stored among integers; the default fill is 0 for integers and NaN otherwise;
    expressions are single names or single numbers *)
Definition env0 : venv Z cell := {|
  v_eq := cell_eq;
  v_null := fun c => match c with None => true | _ => false end;
  v_nan := None;
  v_ninf := None;
  v_m1 := Some (-1)%Z;
  v_store := fun d x => match x with None => if whole d then Err ValueError else Ok None | Some z => Ok (Some z) end;
  v_default := fun d => if whole d then Some 0%Z else None;
  v_upcast := fun d => if whole d then DFloat else d;
  v_agg := fun f l => match f with FSum => total l | FCount => counted l | FFirst => hd None l | FLast => last l None | _ => None end;
  v_aggtype := fun f d => match f with FCount => DInt | _ => d end;
  v_conv := fun d l => Ok (OCol d l);
  v_ne := fun e env => match e with
                       | EName s => match env s with Some o => Ok o | None => Err KeyError end
                       | ENum z => Ok (OScalar (Some z))
                       | _ => Err TypeError end;
  v_eval := fun a env => match a with
                         | XText "1" => Ok (OScalar (Some 1%Z))
                         | XText s => match env s with Some (d, l) => Ok (OCol d l) | None => Err KeyError end
                         | _ => Err TypeError end;
  v_dtype := fun _ => DInt;
  v_fn := fun _ => false;
  v_parse := fun s => if String.eqb s "1" then Ok (ENum 1%Z) else Ok (EName s)
|}.

Definition i (z : Z) : cell := Some z.
Definition row (z : Z) : list cell := [Some z].
Definition ints (l : list Z) : dtype * list cell := (DInt, map Some l).
Definition floats (l : list Z) : dtype * list cell := (DFloat, map Some l).
Definition by_columns (a b : string) : largs := LArgs ANone ANone (AStr a) (AStr b) ANone ANone.
Definition to_index (a : string) : largs := LArgs ANone ANone (AStr a) ANone ANone ANone.
Definition on_index : largs := LArgs ANone ANone ANone ANone ANone ANone.

Notation lop0 := (@lop Z cell).
Notation run0 os := (lrun env0 3 (new_lworld env0) os).
Notation w0 os := (after env0 3 os).
Notation read0 w f path := (snd (lstep env0 3 w (LRead f path))).

(** persons (0) belong to households (1), households live in zones (2, a plain frame) *)
Definition persons_households_zones : list lop0 :=
  [ LNew true [None] [row 1; row 2; row 3; row 4] [("age", ints [30; 40; 5; 70]%Z); ("hh", ints [10; 11; 10; 99]%Z)];
    LNew true [Some "hid"] [row 10; row 11; row 12] [("income", ints [100; 200; 300]%Z); ("zone", ints [7; 8; 55]%Z)];
    LNew false [None] [row 8; row 7] [("area", floats [80; 70]%Z)];
    LLink 0 1 "household" (to_index "hh") true;
    LLink 1 2 "home" (to_index "zone") false;
    LLink 1 0 "members" (LArgs ANone ANone ANone (AStr "hh") ANone ANone) true ].

Example lookups_work :
  read0 (w0 persons_households_zones) 0 ["household"; "income"] = Ok (RCol (ints [100; 200; 100; 0]%Z)) /\
  read0 (w0 persons_households_zones) 0 ["household"; "home"; "area"] = Ok (RCol (DFloat, [i 70; i 80; i 70; None]%Z)) /\
  snd (lstep env0 3 (w0 persons_households_zones) (LAgg 1 ["members"] FSum (XText "age") (i (-1)))) = Ok (RCol (ints [35; 40; -1]%Z)).
Proof. vm_compute. repeat split. Qed.
