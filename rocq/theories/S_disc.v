(** Probabilities of counts of the discrete families, independent of the code. *)
From Verif Require Export S_base.
From Coquelicot Require Import Coquelicot.
Open Scope R_scope.

(** non-negative with sum one *)
Definition pmf (p : nat -> R) : Prop := (forall k, 0 <= p k) /\ is_series p 1.
(** the probability of the outcome y: 0 unless y is a natural number *)
Definition outcome (p : nat -> R) (y : R) : R :=
  let k := Z.to_nat (Int_part y) in if Req_EM_T y (INR k) then p k else 0.
(** binomial coefficients *)
Fixpoint choose (n k : nat) : nat :=
  match n, k with
  | _, O => 1
  | O, S _ => 0
  | S n, S k => choose n k + choose n (S k)
  end%nat.
Definition poisson_pmf (l : R) (k : nat) : R := l ^ k * exp (- l) / INR (fact k).
Definition binomial_pmf (n : nat) (p : R) (k : nat) : R := INR (choose n k) * p ^ k * (1 - p) ^ (n - k).
(** number j of successes in k draws without replacement from m successes and n failures *)
Definition hypergeometric_pmf (m n k j : nat) : R :=
  if le_dec j k then INR (choose m j) * INR (choose n (k - j)) / INR (choose (m + n) k) else 0.
(** n (n + 1) ... (n + k - 1) / k! *)
Fixpoint rising (n : R) (k : nat) : R := match k with O => 1 | S k' => rising n k' * (n + INR k') / INR (S k') end.
(** number of failures before the n-th success (n > 0 real) *)
Definition negbinom_pmf (n p : R) (k : nat) : R := rising n k * Rpower p n * (1 - p) ^ k.
