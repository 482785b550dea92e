(** Model of np.linalg.det and np.linalg.inv on finite matrices, in exact arithmetic: expansion along
    the first column, Cramer's rule.  Model file: no proofs. *)
From Verif Require Export Arr.
Open Scope R_scope.

(** a with the index i left out *)
Definition skip (i a : nat) : nat := if (a <? i)%nat then a else S a.
Fixpoint Rdet (n : nat) (A : nat -> nat -> R) : R :=
  match n with
  | O => 1
  | S n' => fold_right Rplus 0 (map (fun i => (-1) ^ i * A i O * Rdet n' (fun a b => A (skip i a) (S b))) (seq 0 n))
  end.
(** entry (j, k) of the inverse: row k of A is replaced by the unit vector j *)
Definition Rinvm (n : nat) (A : nat -> nat -> R) (j k : nat) : R :=
  Rdet n (fun r c => if (r =? k)%nat then (if (c =? j)%nat then 1 else 0) else A r c) / Rdet n A.
