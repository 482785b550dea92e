(** Distribution functions as documented for the parametric families, independent of the code. *)
From Verif Require Export S_crps S_param.
From Coquelicot Require Import Coquelicot.
Open Scope R_scope.

(** exponential distribution with rate l *)
Definition exponential_cdf (l t : R) : R := if Rlt_dec t 0 then 0 else 1 - exp (- (l * t)).
(** exponential distribution with a point mass p at its location m *)
Definition exponentialM_cdf (p m s t : R) : R :=
  if Rlt_dec t m then 0 else p + (1 - p) * (1 - exp (- ((t - m) / s))).
(** two-piece exponential distribution, scale s1 below and s2 above the location m *)
Definition exponential2p_cdf (s1 s2 m t : R) : R :=
  if Rlt_dec t m then s1 / (s1 + s2) * exp ((t - m) / s1)
  else 1 - s2 / (s1 + s2) * exp (- ((t - m) / s2)).
Definition laplace_cdf (m s t : R) : R :=
  if Rlt_dec t m then exp ((t - m) / s) / 2 else 1 - exp (- ((t - m) / s)) / 2.
Definition logistic_cdf (m s t : R) : R := / (1 + exp (- ((t - m) / s))).
(** uniform distribution on [a, b] with point masses lm at a and um at b *)
Definition uniform_cdf (a b lm um t : R) : R :=
  if Rlt_dec t a then 0 else if Rlt_dec t b then lm + (1 - lm - um) * ((t - a) / (b - a)) else 1.
(** x^p for x > 0, and 0 elsewhere *)
Definition pow0 (x p : R) : R := if Rlt_dec 0 x then Rpower x p else 0.
(** survival function of the generalised Pareto distribution with shape k on [0, oo) *)
Definition gpd_sf (k x : R) : R := if Req_EM_T k 0 then exp (- x) else pow0 (1 + k * x) (- (1 / k)).
(** generalised Pareto distribution with a point mass p at its location m *)
Definition gpd_cdf (k m s p t : R) : R :=
  if Rlt_dec t m then 0 else p + (1 - p) * (1 - gpd_sf k ((t - m) / s)).
(** standard normal density and distribution function *)
Definition phi (t : R) : R := exp (- (t ^ 2 / 2)) / sqrt (2 * PI).
Definition Phi (t : R) : R := RInt_gen phi (Rbar_locally m_infty) (at_point t).
Definition normal_cdf (m s t : R) : R := Phi ((t - m) / s).
(** two-piece normal distribution: half normal distributions with scale s1 below and s2 above m *)
Definition normal2p_cdf (s1 s2 m t : R) : R :=
  if Rlt_dec t m then 2 * s1 / (s1 + s2) * Phi ((t - m) / s1)
  else 1 - 2 * s2 / (s1 + s2) * Phi (- ((t - m) / s2)).
(** log-Laplace distribution *)
Definition loglaplace_cdf (m s t : R) : R := if Rle_dec t 0 then 0 else laplace_cdf m s (ln t).
(** a distribution F restricted to [l, u], with point masses lm at l and um at u *)
Definition truncens (F : R -> R) (l u lm um t : R) : R :=
  if Rlt_dec t l then 0 else if Rlt_dec t u then lm + (1 - lm - um) * ((F t - F l) / (F u - F l)) else 1.
(** the same with bounds that may be infinite *)
Definition ext_cdf (F : R -> R) (b : Rbar) : R := match b with Finite x => F x | p_infty => 1 | m_infty => 0 end.
Definition truncensx (F : R -> R) (l u : Rbar) (lm um t : R) : R :=
  if Rbar_lt_dec t l then 0
  else if Rbar_lt_dec t u then lm + (1 - lm - um) * ((F t - ext_cdf F l) / (ext_cdf F u - ext_cdf F l)) else 1.
(** admissible bounds and point masses: no point mass at an infinite bound *)
Definition tc_ok (l u : Rbar) (lm um : R) : Prop :=
  Rbar_lt l u /\ lm + um <> 1 /\ (l = m_infty -> lm = 0) /\ (u = p_infty -> um = 0).
(** an extended real as a float *)
Definition rbn (x : Rbar) : num := match x with Finite r => Fin r | p_infty => PInf | m_infty => NInf end.
(** a distribution F censored to [l, u]: the mass outside the bounds moves to the bounds *)
Definition censored (F : R -> R) (l u : Rbar) (t : R) : R :=
  if Rbar_lt_dec t l then 0 else if Rbar_lt_dec t u then F t else 1.
