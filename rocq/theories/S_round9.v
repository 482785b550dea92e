(** Numbers of binary64 for the variogram score. *)
From Coq Require Import Reals ZArith.
From Verif Require Import Num.
From Verif Require Export S_vario S_round7 S_round M_round14.
Open Scope R_scope.

(** an ensemble of at most 2^26 vectors and an observation, in the format; differences of coordinates are zero or at least 2^-e *)
Definition vgens64 (e M D : nat) (y : nat -> R) (x : nat -> nat -> R) : Prop :=
  (0 < M)%nat /\ (Z.of_nat M <= 2 ^ 26)%Z /\
  (forall i, (i < D)%nat -> is64 (y i)) /\ (forall m i, (m < M)%nat -> (i < D)%nat -> is64 (x m i)) /\
  (forall i j, (i < D)%nat -> (j < D)%nat -> apart e (y i) (y j)) /\
  forall m i j, (m < M)%nat -> (i < D)%nat -> (j < D)%nat -> apart e (x m i) (x m j).
(** [pw] computes powers with a relative error of at most [n] roundings *)
Definition pow64 (e n : nat) (p : R) (pw : R -> R) : Prop :=
  forall v, is64 v -> 0 <= v -> apart e v 0 -> is64 (pw v) /\ within n (pw v) (vpow v p).
(** [vs_score] with the absolute values of all terms *)
Definition vs_size (D : nat) (h : nat -> nat -> R) (p : R) (M : nat) (y : nat -> R) (x : nat -> nat -> R) : R :=
  sumn D (fun i => sumn D (fun j => h i j * (vgram p y i j + sumn M (fun m => vgram p (x m) i j) / INR M) ^ 2)).
