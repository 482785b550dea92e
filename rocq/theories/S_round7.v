(** The parts of the vertically re-scaled CRPS, for an ensemble with weights w and an observation with
    weight a. *)
From Coq Require Import Reals.
From Verif Require Import Num.
From Verif Require Export S_round6.
Open Scope R_scope.

Definition vr_1 (M : nat) (a y : R) (x w : nat -> R) : R := a * sumn M (fun i => w i * Rabs (x i - y)) / INR M.
Definition vr_2 (M : nat) (x w : nat -> R) : R := sumn M (fun i => sumn M (fun j => w i * w j * Rabs (x i - x j))) / INR M ^ 2 / 2.
Definition vr_x (M : nat) (x w : nat -> R) : R := sumn M (fun i => w i * Rabs (x i)) / INR M.
Definition vr_exact (M : nat) (a y : R) (x w : nat -> R) : R :=
  vr_1 M a y x w - vr_2 M x w + (vr_x M x w - a * Rabs y) * (sumn M w / INR M - a).
(** the same with the absolute values of all terms *)
Definition vr_size (M : nat) (a y : R) (x w : nat -> R) : R :=
  vr_1 M a y x w + vr_2 M x w + (vr_x M x w + a * Rabs y) * (sumn M w / INR M + a).
(** members and observation are zero or far from underflow *)
Definition vens64 (M : nat) (y : R) (x : nat -> R) : Prop :=
  wens64 M y x /\ apart 400 y 0 /\ forall i, (i < M)%nat -> apart 400 (x i) 0.
(** a weight in the format, zero or between 2^-100 and 2^100 *)
Definition wt64 (a : R) : Prop := is64 a /\ (a = 0 \/ / 2 ^ 100 <= a <= 2 ^ 100).
