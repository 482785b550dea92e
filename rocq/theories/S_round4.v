(** Numbers of binary64 for the energy score. *)
From Coq Require Import Reals ZArith.
From Verif Require Export S_mv S_round M_round4.
Open Scope R_scope.

(** an ensemble of at most 2^26 vectors and an observation, in the format; all squares of differences of coordinates are far from underflow *)
Definition mvens64 (M D : nat) (y : nat -> R) (x : nat -> nat -> R) : Prop :=
  (0 < M)%nat /\ (Z.of_nat M <= 2 ^ 26)%Z /\
  (forall k, (k < D)%nat -> is64 (y k)) /\ (forall i k, (i < M)%nat -> (k < D)%nat -> is64 (x i k) /\ apart 400 (x i k) (y k)) /\
  forall i j k, (i < M)%nat -> (j < M)%nat -> (k < D)%nat -> apart 400 (x i k) (x j k).
(** [nrm] computes the norm of vectors in R^D, away from underflow, with a relative error of at most [n] roundings *)
Definition norm64 (n D : nat) (nrm : (nat -> R) -> R) : Prop :=
  forall v, (forall k, (k < D)%nat -> is64 (v k) /\ apart 400 (v k) 0) -> is64 (nrm v) /\ within n (nrm v) (enorm D v).
(** orders of summation inside norms of vectors in R^D, of height at most [h] *)
Definition orders (N D h : nat) (t : nat -> stree) : Prop := forall i, (i < N)%nat -> adds (t i) D /\ (height (t i) <= h)%nat.
