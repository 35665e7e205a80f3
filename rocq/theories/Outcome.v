(** Outcomes of modelled C++ functions.

    A loop of the source is modelled by recursion on an explicit number of
    steps ("fuel").  [NoFuel] is the outcome of a loop that has not finished
    within the given number of steps; it never looks like a normal result.
    [Undef] is the outcome of an execution that reaches undefined behaviour
    (out-of-bounds access, shift by the word width, null dereference ...). *)
From Coq Require Export List Arith NArith ZArith Lia Bool.
From Coq Require Export ZifyBool ZifyNat ZifyN.
Export ListNotations.

Inductive res (A : Type) : Type :=
| Val (a : A)
| NoFuel
| Undef.
Arguments Val {A} a.
Arguments NoFuel {A}.
Arguments Undef {A}.

Definition rbind {A B} (r : res A) (f : A -> res B) : res B :=
  match r with Val a => f a | NoFuel => NoFuel | Undef => Undef end.
Definition rmap {A B} (f : A -> B) (r : res A) : res B :=
  match r with Val a => Val (f a) | NoFuel => NoFuel | Undef => Undef end.

(** [returns f v]: the computation finishes with [v] when it is given enough
    steps (and more steps do not change the answer). *)
Definition returns {A} (f : nat -> res A) (v : A) : Prop :=
  exists n, forall m, n <= m -> f m = Val v.
(** [diverges f]: no number of steps is enough. *)
Definition diverges {A} (f : nat -> res A) : Prop := forall n, f n = NoFuel.
(** [undefined f]: undefined behaviour is reached. *)
Definition undefined {A} (f : nat -> res A) : Prop :=
  exists n, forall m, n <= m -> f m = Undef.

Lemma returns_det {A} (f : nat -> res A) v w : returns f v -> returns f w -> v = w.
Proof.
  intros [n Hn] [m Hm]. specialize (Hn (n + m)). specialize (Hm (n + m)).
  rewrite Hn in Hm by lia. assert (H : Val v = Val w) by (apply Hm; lia). congruence.
Qed.

Lemma returns_not_diverges {A} (f : nat -> res A) v : returns f v -> diverges f -> False.
Proof. intros [n Hn] H. specialize (H n). rewrite Hn in H by lia. discriminate. Qed.

Lemma returns_not_undefined {A} (f : nat -> res A) v : returns f v -> undefined f -> False.
Proof.
  intros [n Hn] [m Hm]. specialize (Hn (n + m)). specialize (Hm (n + m)).
  rewrite Hn in Hm by lia. assert (H : Val v = Undef) by (apply Hm; lia). discriminate.
Qed.

Lemma returns_bind {A B} (f : nat -> res A) (g : A -> nat -> res B) a b :
  returns f a -> returns (g a) b -> returns (fun n => rbind (f n) (fun x => g x n)) b.
Proof.
  intros [n Hn] [m Hm]. exists (n + m). intros k Hk. rewrite Hn by lia. cbn [rbind].
  apply Hm. lia.
Qed.

Lemma returns_map {A B} (f : nat -> res A) (g : A -> B) a :
  returns f a -> returns (fun n => rmap g (f n)) (g a).
Proof. intros [n Hn]. exists n. intros m Hm. rewrite Hn by lia. reflexivity. Qed.

Lemma returns_ret {A} (a : A) : returns (fun _ => Val a) a.
Proof. exists 0. reflexivity. Qed.
