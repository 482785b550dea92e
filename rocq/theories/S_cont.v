(** Densities of the gamma, beta and t distributions, independent of the code. *)
From Verif Require Export S_dens.
From Coquelicot Require Import Coquelicot.
Open Scope R_scope.

Definition Euler_gamma (a : R) : R := RInt_gen (fun t => Rpower t (a - 1) * exp (- t)) (at_right 0) (Rbar_locally p_infty).
Definition Euler_beta (a b : R) : R := RInt_gen (fun t => Rpower t (a - 1) * Rpower (1 - t) (b - 1)) (at_right 0) (at_left 1).
(** gamma distribution with shape a and rate r *)
Definition gamma_pdf (a r t : R) : R :=
  if Rle_dec t 0 then 0 else r * (Rpower (r * t) (a - 1) * exp (- (r * t))) / Euler_gamma a.
Definition gamma_cdf (a r t : R) : R :=
  if Rle_dec t 0 then 0 else RInt_gen (gamma_pdf a r) (at_right 0) (at_point t).
(** beta distribution on (0, 1) *)
Definition beta_pdf (a b t : R) : R :=
  if Rle_dec t 0 then 0 else if Rle_dec 1 t then 0 else Rpower t (a - 1) * Rpower (1 - t) (b - 1) / Euler_beta a b.
Definition beta_cdf (a b t : R) : R :=
  if Rle_dec t 0 then 0 else if Rle_dec 1 t then 1 else RInt_gen (beta_pdf a b) (at_right 0) (at_point t).
(** Student's t distribution with n degrees of freedom *)
Definition t_pdf (n t : R) : R := Rpower (1 + t ^ 2 / n) (- ((n + 1) / 2)) / (sqrt n * Euler_beta (1 / 2) (n / 2)).
Definition t_cdf (n t : R) : R := RInt_gen (t_pdf n) (Rbar_locally m_infty) (at_point t).
