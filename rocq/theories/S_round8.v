(** Sizes of the terms of the weighted energy scores. *)
From Coq Require Import Reals.
From Verif Require Import Num.
From Verif Require Export S_mv S_round4.
Open Scope R_scope.

(** [k_wexact] and [k_vr] with the absolute values of all terms *)
Definition k_wsize (M : nat) (w : nat -> R) (e : nat -> R) (d : nat -> nat -> R) : R :=
  sumn M (fun i => w i * e i) + / 2 * sumn M (fun i => sumn M (fun j => w i * w j * d i j)).
Definition k_vrsize (M : nat) (a : R) (u : nat -> R) (e : nat -> R) (d : nat -> nat -> R) (ny : R) (nx : nat -> R) : R :=
  a * sumn M (fun i => u i * e i) + / 2 * sumn M (fun i => sumn M (fun j => u i * u j * d i j)) + (sumn M (fun i => u i * nx i) + a * ny) * (sumn M u + a).
(** coordinates of the members and of the observation are zero or far from underflow *)
Definition vmv64 (M D : nat) (y : nat -> R) (x : nat -> nat -> R) : Prop :=
  mvens64 M D y x /\ (forall k, (k < D)%nat -> apart 400 (y k) 0) /\ forall i k, (i < M)%nat -> (k < D)%nat -> apart 400 (x i k) 0.
