(** Specification of the multivariate Dawid-Sebastiani score, independent of the code. *)
From Verif Require Export M_utils S_mat S_dss S_mv.
Open Scope R_scope.

(** mean vector and sample covariance matrix of M members *)
Definition mvmean (M : nat) (x : nat -> nat -> R) (k : nat) : R := mean M (fun i => x i k).
Definition mvcov (bias : bool) (M : nat) (x : nat -> nat -> R) : mat := fun a b =>
  sumn M (fun i => (x i a - mvmean M x a) * (x i b - mvmean M x b)) / (if bias then INR M else INR M - 1).
(** minus twice the log density of the normal distribution with mean m, inverse covariance P and
    determinant of the covariance dt, up to a constant *)
Definition mvds_score (D : nat) (m : nat -> R) (P : mat) (dt : R) (y : nat -> R) : R :=
  quad D P (fun k => y k - m k) + ln dt.
(** u |-> A u + c *)
Definition affv (D : nat) (A : mat) (c u : nat -> R) (k : nat) : R := mapply D A u k + c k.
(** no axis of the batch is empty *)
Definition nonempty (s : list nat) : Prop := ~ In 0%nat s.
(** the calls the theorems are about: at least two members; observations of floats for the
    compiled kernel; at least two variables and a non-empty batch for the other implementation *)
Definition dssmv_ready (b : impl) (obs : arr) (s : list nat) (M D : nat) : Prop :=
  (2 <= M)%nat /\ (0 < D)%nat /\ (b = Numba -> dt obs = DFloat) /\ (b = Array -> (2 <= D)%nat /\ nonempty s).
