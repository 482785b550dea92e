(** Specification of isotonic regression and of the score decomposition, on real numbers only. *)
From Verif Require Export S_dss S_mv.
Open Scope R_scope.

Definition nondec (n : nat) (z : nat -> R) : Prop := forall i j, (i <= j)%nat -> (j < n)%nat -> z i <= z j.
(** sum of squared errors *)
Definition sse (n : nat) (y z : nat -> R) : R := sumn n (fun i => (y i - z i) ^ 2).
(** z is nondecreasing and closest to y among the nondecreasing sequences *)
Definition isotonic_fit (n : nat) (y z : nat -> R) : Prop :=
  nondec n z /\ forall w, nondec n w -> sse n y z <= sse n y w.
(** the list z 0, ..., z (n-1) *)
Definition rlist (n : nat) (z : nat -> R) : list num := map (fun i => Fin (z i)) (seq 0 n).
Definition distinct (n : nat) (f : nat -> R) : Prop := forall i j, (i < n)%nat -> (j < n)%nat -> f i = f j -> i = j.
