(** Specification of the Dawid-Sebastiani and error-spread scores, independent of the code. *)
From Verif Require Export S_base.
Open Scope R_scope.

(** mean, and sum of squares about the mean divided by M (biased) or M - 1 *)
Definition mean (M : nat) (x : nat -> R) : R := sumn M x / INR M.
Definition variance (bias : bool) (M : nat) (x : nat -> R) : R :=
  sumn M (fun k => (x k - mean M x)²) / (if bias then INR M else INR M - 1).
(** minus twice the log density of the normal distribution, up to a constant *)
Definition ds_score (m v y : R) : R := (y - m)² / v + ln v.
(** not all members are equal *)
Definition spread (M : nat) (x : nat -> R) : Prop :=
  exists i j, (i < M)%nat /\ (j < M)%nat /\ x i <> x j.

(** sum of cubes of the standardised members *)
Definition cubes (M : nat) (x : nat -> R) : R :=
  sumn M (fun k => ((x k - mean M x) / sqrt (variance false M x)) ^ 3).
(** the error-spread score with skewness g: (s^2 - e^2 - e s g)^2, e the error of the mean *)
Definition es_score (g : R) (M : nat) (x : nat -> R) (y : R) : R :=
  let e := mean M x - y in
  let v := variance false M x in
  (v - e² - e * sqrt v * g)².
(** the skewness of the code, and the one of Christensen et al. (2015) *)
Definition skew_code (M : nat) (x : nat -> R) : R := cubes M x / ((INR M - 1) * (INR M - 2)).
Definition skew_paper (M : nat) (x : nat -> R) : R := INR M / ((INR M - 1) * (INR M - 2)) * cubes M x.
(** no axis of length one *)
Definition no_unit (s : list nat) : Prop := forall d, In d s -> d <> 1%nat.
