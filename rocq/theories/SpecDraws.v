(** Sequences of random numbers, stated from the generator alone: what the [k]-th call returns after the generator has been
    left in a state. *)
From Verif Require Import Prelude Arith ParModel.

Section Draws.
  Context {F : arith} (G : generator F).
  (** the state after [k] calls *)
  Fixpoint after_calls {X} (call : gstate G -> X * gstate G) (k : nat) (g : gstate G) : gstate G :=
    match k with O => g | S k => after_calls call k (snd (call g)) end.
  (** the [k]-th uniform number, and the [k]-th random integer, from state [g] (counted from 0) *)
  Definition kth_uniform (g : gstate G) (k : nat) : num F := fst (guniform G (after_calls (guniform G) k g)).
  Definition kth_integer (g : gstate G) (k : nat) : Z := fst (grandint G (after_calls (grandint G) k g)).
  (** the first [n] uniform numbers from state [g] *)
  Definition first_uniforms (g : gstate G) (n : nat) : list (num F) := map (kth_uniform g) (seq 0 n).
End Draws.

Lemma uniforms_spec F (G : generator F) : forall n g, uniforms F G g n = first_uniforms G g n.
Proof.
  unfold first_uniforms. induction n as [|n IH]; intros g; cbn [uniforms seq map]; auto. destruct (guniform G g) as [x g'] eqn:E. rewrite IH, <- seq_shift, map_map.
  f_equal; [unfold kth_uniform; cbn; now rewrite E|]. apply map_ext. intros k. unfold kth_uniform. cbn [after_calls]. now rewrite E.
Qed.
Lemma randints_spec F (G : generator F) : forall n g, randints F G g n = map (kth_integer G g) (seq 0 n).
Proof.
  induction n as [|n IH]; intros g; cbn [randints seq map]; auto. destruct (grandint G g) as [x g'] eqn:E. rewrite IH, <- seq_shift, map_map.
  f_equal; [unfold kth_integer; cbn; now rewrite E|]. apply map_ext. intros k. unfold kth_integer. cbn [after_calls]. now rewrite E.
Qed.
Lemma nth_map_seq {A} (f : nat -> A) n k d : k < n -> nth k (map f (seq 0 n)) d = f k.
Proof. intros H. rewrite (nth_indep _ d (f 0)) by (rewrite map_length, seq_length; auto). rewrite map_nth, seq_nth; auto. Qed.
Lemma uniforms_nth F (G : generator F) g n k d : k < n -> nth k (uniforms F G g n) d = kth_uniform G g k.
Proof. intros H. rewrite uniforms_spec. now apply nth_map_seq. Qed.
Lemma randints_nth F (G : generator F) g n k d : k < n -> nth k (randints F G g n) d = kth_integer G g k.
Proof. intros H. rewrite randints_spec. now apply nth_map_seq. Qed.
