(** Specification of crps_binomial: arguments with one entry and the accuracy of the score. *)
From Verif Require Export S_disc S_count S_crps S_param.
Open Scope R_scope.

(** a single number [v], as a scalar or as an array of shape (1,) *)
Definition unit1 (a : arr) (v : num) : Prop := params nil ((a, fun _ => v) :: nil) \/ params (1%nat :: nil) ((a, fun _ => v) :: nil).
(** [v] is the CRPS of the binomial distribution up to the effect of the 1e-36 that the library adds to the first
    parameter of the incomplete beta function *)
Definition near_binom_crps (n : nat) (p y v : R) : Prop :=
  exists w, is_crps (count_cdf (binomial_pmf n p)) y w /\
    Rabs (v - w) <= 2 * (INR n + Rabs y) * (/ 10 ^ 36 * (4 * (INR n + 1) - 2 * ln (1 - p))).
