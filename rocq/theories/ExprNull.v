(** The names the parser takes for null are the spellings of [nan] and [none]. *)
From Coq Require Import Ascii.
From Verif Require Import Prelude ExprModel SpecExpr.
Local Open Scope string_scope.
Local Open Scope nat_scope.

Lemma letter_n : forall c, Ascii.eqb (lower_char c) "n" = orb (Ascii.eqb c "n") (nat_of_ascii c + 32 =? nat_of_ascii "n").
Proof. intros [[] [] [] [] [] [] [] []]; vm_compute; reflexivity. Qed.
Lemma letter_a : forall c, Ascii.eqb (lower_char c) "a" = orb (Ascii.eqb c "a") (nat_of_ascii c + 32 =? nat_of_ascii "a").
Proof. intros [[] [] [] [] [] [] [] []]; vm_compute; reflexivity. Qed.
Lemma letter_o : forall c, Ascii.eqb (lower_char c) "o" = orb (Ascii.eqb c "o") (nat_of_ascii c + 32 =? nat_of_ascii "o").
Proof. intros [[] [] [] [] [] [] [] []]; vm_compute; reflexivity. Qed.
Lemma letter_e : forall c, Ascii.eqb (lower_char c) "e" = orb (Ascii.eqb c "e") (nat_of_ascii c + 32 =? nat_of_ascii "e").
Proof. intros [[] [] [] [] [] [] [] []]; vm_compute; reflexivity. Qed.

Lemma eqb_cons : forall c s d t, String.eqb (String c s) (String d t) = andb (Ascii.eqb c d) (String.eqb s t).
Proof. intros. simpl. destruct (Ascii.eqb c d); reflexivity. Qed.

Lemma spells_nan : forall x, String.eqb (lower x) "nan" = spells "nan" x.
Proof.
  intros [|c [|d [|e [|f x]]]]; cbn [lower spells]; rewrite ?eqb_cons, ?letter_n, ?letter_a; try reflexivity;
    cbn [String.eqb]; rewrite ?Bool.andb_false_r; try reflexivity.
Qed.
Lemma spells_none : forall x, String.eqb (lower x) "none" = spells "none" x.
Proof.
  intros [|c [|d [|e [|f [|g x]]]]]; cbn [lower spells]; rewrite ?eqb_cons, ?letter_n, ?letter_o, ?letter_e; try reflexivity;
    cbn [String.eqb]; rewrite ?Bool.andb_false_r; try reflexivity.
Qed.

Theorem nan_like_spelling : forall x, nan_like x = null_spelling x.
Proof.
  intros x. unfold nan_like, null_spelling, mem. cbn [existsb]. rewrite spells_nan, spells_none, Bool.orb_false_r.
  apply Bool.orb_comm.
Qed.
