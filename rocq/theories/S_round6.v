(** Numbers of binary64 for weighted ensembles. *)
From Coq Require Import Reals ZArith.
From Verif Require Export S_mv S_round S_round4 M_round6.
Open Scope R_scope.

(** weights in the format, zero or between 2^-100 and 2^100, not all of them zero *)
Definition wts64 (M : nat) (w : nat -> R) : Prop :=
  (forall i, (i < M)%nat -> is64 (w i) /\ (w i = 0 \/ / 2 ^ 100 <= w i <= 2 ^ 100)) /\ exists i, (i < M)%nat /\ w i <> 0.
(** as [ens64], with differences further from underflow *)
Definition wens64 (M : nat) (y : R) (x : nat -> R) : Prop :=
  (0 < M)%nat /\ (Z.of_nat M <= 2 ^ 26)%Z /\ is64 y /\
  (forall i, (i < M)%nat -> is64 (x i) /\ apart 400 (x i) y) /\
  forall i j, (i < M)%nat -> (j < M)%nat -> apart 400 (x i) (x j).
