(** Numbers of binary64 for the quantile, interval and probability scores. *)
From Coq Require Import Reals ZArith.
From Verif Require Export S_quant S_prob S_round M_round5.
Open Scope R_scope.

(** at most 2^26 quantile forecasts, their levels and an observation, in the format and far from underflow *)
Definition quant64 (Q : nat) (y : R) (x a : nat -> R) : Prop :=
  (0 < Q)%nat /\ (Z.of_nat Q <= 2 ^ 26)%Z /\ is64 y /\
  forall k, (k < Q)%nat -> is64 (x k) /\ apart 800 (x k) y /\ is64 (a k) /\ 0 <= a k <= 1 /\ apart 100 (a k) 0.
(** at most 2^26 intervals, their levels and weights *)
Definition wis64 (K : nat) (y : R) (l u a w : nat -> R) : Prop :=
  (Z.of_nat K <= 2 ^ 26)%Z /\ is64 y /\
  forall k, (k < K)%nat -> is64 (l k) /\ is64 (u k) /\ l k <= u k /\ apart 800 (u k) (l k) /\ apart 800 y (l k) /\ apart 800 y (u k) /\
    is64 (a k) /\ 0 < a k <= 1 /\ is64 (w k) /\ 0 <= w k /\ apart 50 (w k) 0.
(** at most 2^26 probabilities *)
Definition probs64 (K : nat) (p : nat -> R) : Prop :=
  (0 < K)%nat /\ (Z.of_nat K <= 2 ^ 26)%Z /\ forall k, (k < K)%nat -> is64 (p k) /\ 0 <= p k /\ apart 400 (p k) 0.
(** orders of summation of the cumulative sums, of height at most [h] *)
Definition cumorders (K h : nat) (t : nat -> stree) : Prop := forall k, (k < K)%nat -> adds (t k) (S k) /\ (height (t k) <= h)%nat.
(** sum of weighted interval scores *)
Definition wissum (K : nat) (y : R) (l u a w : nat -> R) : R := sumn K (fun k => w k * winkler (a k) (l k) (u k) y).
