(** Numbers of IEEE 754 binary64 without upper bound on the exponent, and summation orders. *)
From Verif Require Export S_crps M_round.
From Coq Require Import Reals List ZArith Permutation.
Open Scope R_scope.

(** m * 2^e with 53 binary digits and e >= -1074 *)
Definition is64 (x : R) : Prop :=
  exists m e : Z, x = IZR m * powerRZ 2 e /\ (Z.abs m < 2 ^ 53)%Z /\ (-1074 <= e)%Z.
(** half the distance from 1 to the next number *)
Definition u64 : R := / 2 ^ 53.
(** relative error of at most k roundings of a number that is not negative *)
Definition within (k : nat) (x X : R) : Prop := X * (1 - u64) ^ k <= x <= X * (1 + u64) ^ k.
(** the order [t] adds the summands 0, ..., n - 1, each once; [height t] is the largest number of additions that a summand takes part in *)
Fixpoint leaves (t : stree) : list nat := match t with Leaf i => i :: nil | Node l r => leaves l ++ leaves r end.
Fixpoint height (t : stree) : nat := match t with Leaf _ => 0%nat | Node l r => S (Nat.max (height l) (height r)) end.
Definition adds (t : stree) (n : nat) : Prop := Permutation (leaves t) (seq 0 n).
(** equal, or at least 2^-e apart: far from the underflow threshold 2^-1022 *)
Definition apart (e : nat) (a b : R) : Prop := a = b \/ / 2 ^ e <= Rabs (a - b).
(** an ensemble of at most 2^26 members and an observation, in the format and far from underflow *)
Definition ens64 (M : nat) (y : R) (x : nat -> R) : Prop :=
  (0 < M)%nat /\ (Z.of_nat M <= 2 ^ 26)%Z /\ is64 y /\
  (forall i, (i < M)%nat -> is64 (x i) /\ apart 900 (x i) y) /\
  forall i j, (i < M)%nat -> (j < M)%nat -> apart 900 (x i) (x j).
