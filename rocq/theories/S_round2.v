(** A bound for rounding errors that also covers underflow. *)
From Verif Require Export S_round M_round2.
From Coq Require Import Reals.
Open Scope R_scope.

(** k successive roundings of quantities that add up to S, and n errors of half the smallest positive number *)
Definition err64 (k : nat) (n S : R) : R := (1 + u64) ^ k * (S + n * / 2 ^ 1075) - S.
(** an ensemble of numbers of the format; nothing excludes underflow *)
Definition any64 (M : nat) (y : R) (x : nat -> R) : Prop :=
  (0 < M)%nat /\ (Z.of_nat M <= 2 ^ 26)%Z /\ is64 y /\ forall i, (i < M)%nat -> is64 (x i).
