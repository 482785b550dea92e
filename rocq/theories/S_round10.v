(** Size of the terms of the fair estimator of the variogram score. *)
From Coq Require Import Reals ZArith Arith.
From Verif Require Import Num.
From Verif Require Export S_vario S_round9 S_round2 S_round M_round15.
Open Scope R_scope.

(** [vdist] with the sum instead of the difference of the variograms *)
Definition vplus (D : nat) (h : nat -> nat -> R) (p : R) (u v : nat -> R) : R :=
  sumn D (fun i => sumn D (fun j => h i j * (vgram p u i j + vgram p v i j) ^ 2)).
(** the same for two members, and nothing for a member and itself *)
Definition vpair (D : nat) (h : nat -> nat -> R) (p : R) (x : nat -> nat -> R) (i j : nat) : R :=
  if (i =? j)%nat then 0 else vplus D h p (x i) (x j).
(** the fair estimator with sums instead of differences *)
Definition vs_fair_size (D : nat) (h : nat -> nat -> R) (p : R) (M : nat) (y : nat -> R) (x : nat -> nat -> R) : R :=
  sumn M (fun i => vplus D h p (x i) y) / INR M + sumn M (fun i => sumn M (vpair D h p x i)) / (2 * INR M * (INR M - 1)).
