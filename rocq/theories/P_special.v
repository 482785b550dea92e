(** Property C70: families that are special cases of each other return the same arrays. *)
From Verif Require Import T_special L_crps_call.
From Coquelicot Require Import Coquelicot.
From Coq Require Import Psatz Lia.
Open Scope R_scope.

(** C70.  crps_2pnormal with equal scales is crps_normal. *)
Theorem C70_2pnormal :
forall (obs scale1 scale2 location scale : arr) (s : list nat) (y m c : list nat -> R),
  params s [(obs, fins y); (scale1, fins c); (scale2, fins c); (location, fins m)]%list ->
  params s [(obs, fins y); (location, fins m); (scale, fins c)]%list ->
  (forall i, inb s i -> 0 < c i) ->
  exists f, returns (crps_2pnormal obs scale1 scale2 location) s (fins f) /\ returns (crps_normal obs location scale) s (fins f).
Proof. exact C70_2pnormal_l. Qed.
Print Assumptions C70_2pnormal.
(** observation 2, location 1, scale 3 *)
Example C70_2pnormal_case : params nil [(farr nil (fun _ => 2), fins (fun _ => 2)); (farr nil (fun _ => 3), fins (fun _ => 3)); (farr nil (fun _ => 3), fins (fun _ => 3)); (farr nil (fun _ => 1), fins (fun _ => 1))]%list /\
  params nil [(farr nil (fun _ => 2), fins (fun _ => 2)); (farr nil (fun _ => 1), fins (fun _ => 1)); (farr nil (fun _ => 3), fins (fun _ => 3))]%list.
Proof. repeat split; repeat constructor. Qed.

(** C70.  crps_2pexponential with equal scales is crps_laplace. *)
Theorem C70_2pexponential :
forall (obs scale1 scale2 location scale : arr) (s : list nat) (y m c : list nat -> R),
  params s [(obs, fins y); (scale1, fins c); (scale2, fins c); (location, fins m)]%list ->
  params s [(obs, fins y); (location, fins m); (scale, fins c)]%list ->
  (forall i, inb s i -> 0 < c i) ->
  exists f, returns (crps_2pexponential obs scale1 scale2 location) s (fins f) /\ returns (crps_laplace obs location scale) s (fins f).
Proof. exact C70_2pexponential_l. Qed.
Print Assumptions C70_2pexponential.
(** observation 2, location 1, scale 3 *)
Example C70_2pexponential_case : params nil [(farr nil (fun _ => 2), fins (fun _ => 2)); (farr nil (fun _ => 3), fins (fun _ => 3)); (farr nil (fun _ => 3), fins (fun _ => 3)); (farr nil (fun _ => 1), fins (fun _ => 1))]%list /\
  params nil [(farr nil (fun _ => 2), fins (fun _ => 2)); (farr nil (fun _ => 1), fins (fun _ => 1)); (farr nil (fun _ => 3), fins (fun _ => 3))]%list.
Proof. repeat split; repeat constructor. Qed.

(** C70.  crps_exponentialM without point mass, at location 0 and with scale 1 / rate is crps_exponential. *)
Theorem C70_exponentialM :
forall (obs mass location scale rate : arr) (s : list nat) (y c l : list nat -> R),
  params s [(obs, fins y); (mass, (fun _ => Fin 0)); (location, (fun _ => Fin 0)); (scale, fins c)]%list ->
  dt obs = DFloat ->
  sh obs = s ->
  params s [(obs, fins y); (rate, fins l)]%list ->
  (forall i, inb s i -> 0 < c i /\ l i * c i = 1) ->
  exists f, returns (crps_exponentialM obs mass location scale) s (fins f) /\ returns (crps_exponential obs rate) s (fins f).
Proof. exact C70_exponentialM_l. Qed.
Print Assumptions C70_exponentialM.
(** observation 2, scale 4, rate 1/4 *)
Example C70_exponentialM_case : params nil [(farr nil (fun _ => 2), fins (fun _ => 2)); (farr nil (fun _ => 0), fins (fun _ => 0)); (farr nil (fun _ => 0), fins (fun _ => 0)); (farr nil (fun _ => 4), fins (fun _ => 4))]%list /\
  params nil [(farr nil (fun _ => 2), fins (fun _ => 2)); (farr nil (fun _ => 1 / 4), fins (fun _ => 1 / 4))]%list.
Proof. repeat split; repeat constructor. Qed.

(** C70.  crps_gpd with shape 0 is crps_exponentialM. *)
Theorem C70_gpd_exponential :
forall (obs shape location scale mass : arr) (s : list nat) (y m c p : list nat -> R),
  params s [(obs, fins y); (shape, (fun _ => Fin 0)); (location, fins m); (scale, fins c); (mass, fins p)]%list ->
  dt obs = DFloat ->
  sh obs = s ->
  params s [(obs, fins y); (mass, fins p); (location, fins m); (scale, fins c)]%list ->
  (forall i, inb s i -> 0 < c i /\ 0 <= p i <= 1) ->
  exists f, returns (crps_gpd obs shape location scale mass) s (fins f) /\ returns (crps_exponentialM obs mass location scale) s (fins f).
Proof. exact C70_gpd_exponential_l. Qed.
Print Assumptions C70_gpd_exponential.
(** observation 2, location 1, scale 4, point mass 1/8 *)
Example C70_gpd_exponential_case : params nil [(farr nil (fun _ => 2), fins (fun _ => 2)); (farr nil (fun _ => 0), fins (fun _ => 0)); (farr nil (fun _ => 1), fins (fun _ => 1)); (farr nil (fun _ => 4), fins (fun _ => 4)); (farr nil (fun _ => 1 / 8), fins (fun _ => 1 / 8))]%list /\
  params nil [(farr nil (fun _ => 2), fins (fun _ => 2)); (farr nil (fun _ => 1 / 8), fins (fun _ => 1 / 8)); (farr nil (fun _ => 1), fins (fun _ => 1)); (farr nil (fun _ => 4), fins (fun _ => 4))]%list.
Proof. repeat split; repeat constructor. Qed.

(** C70.  crps_gpd with shape -1 is crps_uniform on [location, location + scale] with the same lower point mass. *)
Theorem C70_gpd_uniform :
forall (obs shape location scale mass upper umass : arr) (s : list nat) (y m c p : list nat -> R),
  params s [(obs, fins y); (shape, (fun _ => Fin (-1))); (location, fins m); (scale, fins c); (mass, fins p)]%list ->
  params s [(obs, fins y); (location, fins m); (upper, (fun i => Fin (m i + c i))); (mass, fins p); (umass, (fun _ => Fin 0))]%list ->
  (forall i, inb s i -> 0 < c i /\ 0 <= p i <= 1) ->
  exists f, returns (crps_gpd obs shape location scale mass) s (fins f) /\ returns (crps_uniform obs location upper mass umass) s (fins f).
Proof. exact C70_gpd_uniform_l. Qed.
Print Assumptions C70_gpd_uniform.
(** observation 2, location 1, scale 4, point mass 1/8 *)
Example C70_gpd_uniform_case : params nil [(farr nil (fun _ => 2), fins (fun _ => 2)); (farr nil (fun _ => -1), fins (fun _ => -1)); (farr nil (fun _ => 1), fins (fun _ => 1)); (farr nil (fun _ => 4), fins (fun _ => 4)); (farr nil (fun _ => 1 / 8), fins (fun _ => 1 / 8))]%list /\
  params nil [(farr nil (fun _ => 2), fins (fun _ => 2)); (farr nil (fun _ => 1), fins (fun _ => 1)); (farr nil (fun _ => 1 + 4), fins (fun _ => 1 + 4)); (farr nil (fun _ => 1 / 8), fins (fun _ => 1 / 8)); (farr nil (fun _ => 0), fins (fun _ => 0))]%list.
Proof. repeat split; repeat constructor. Qed.

(** C70.  Infinite bounds: crps_gtcnormal without point masses, crps_tnormal and crps_cnormal are crps_normal. *)
Theorem C70_unbounded_normal :
forall (obs location scale lower upper lmass umass : arr) (s : list nat) (y m c : list nat -> R),
  params s [(obs, fins y); (location, fins m); (scale, fins c); (lower, (fun _ => NInf)); (upper, (fun _ => PInf)); (lmass, (fun _ => Fin 0)); (umass, (fun _ => Fin 0))]%list ->
  params s [(obs, fins y); (location, fins m); (scale, fins c); (lower, (fun _ => NInf)); (upper, (fun _ => PInf))]%list ->
  params s [(obs, fins y); (location, fins m); (scale, fins c)]%list ->
  (forall i, inb s i -> 0 < c i) ->
  exists f, returns (crps_gtcnormal obs location scale lower upper lmass umass) s (fins f) /\ returns (crps_tnormal obs location scale lower upper) s (fins f) /\
    returns (crps_cnormal obs location scale lower upper) s (fins f) /\ returns (crps_normal obs location scale) s (fins f).
Proof. exact C70_unbounded_normal_l. Qed.
Print Assumptions C70_unbounded_normal.
(** observation 2, location 1, scale 4 *)
Example C70_unbounded_normal_case : params nil [(farr nil (fun _ => 2), fins (fun _ => 2)); (farr nil (fun _ => 1), fins (fun _ => 1)); (farr nil (fun _ => 4), fins (fun _ => 4)); (num0 NInf, fun _ => rbn m_infty); (num0 PInf, fun _ => rbn p_infty); (farr nil (fun _ => 0), fins (fun _ => 0)); (farr nil (fun _ => 0), fins (fun _ => 0))]%list /\
  params nil [(farr nil (fun _ => 2), fins (fun _ => 2)); (farr nil (fun _ => 1), fins (fun _ => 1)); (farr nil (fun _ => 4), fins (fun _ => 4)); (num0 NInf, fun _ => rbn m_infty); (num0 PInf, fun _ => rbn p_infty)]%list /\
  params nil [(farr nil (fun _ => 2), fins (fun _ => 2)); (farr nil (fun _ => 1), fins (fun _ => 1)); (farr nil (fun _ => 4), fins (fun _ => 4))]%list.
Proof. repeat split; repeat constructor. Qed.

(** C70.  Infinite bounds: crps_gtclogistic without point masses, crps_tlogistic and crps_clogistic are crps_logistic. *)
Theorem C70_unbounded_logistic :
forall (obs location scale lower upper lmass umass : arr) (s : list nat) (y m c : list nat -> R),
  params s [(obs, fins y); (location, fins m); (scale, fins c); (lower, (fun _ => NInf)); (upper, (fun _ => PInf)); (lmass, (fun _ => Fin 0)); (umass, (fun _ => Fin 0))]%list ->
  params s [(obs, fins y); (location, fins m); (scale, fins c); (lower, (fun _ => NInf)); (upper, (fun _ => PInf))]%list ->
  params s [(obs, fins y); (location, fins m); (scale, fins c)]%list ->
  (forall i, inb s i -> 0 < c i) ->
  exists f, returns (crps_gtclogistic obs location scale lower upper lmass umass) s (fins f) /\ returns (crps_tlogistic obs location scale lower upper) s (fins f) /\
    returns (crps_clogistic obs location scale lower upper) s (fins f) /\ returns (crps_logistic obs location scale) s (fins f).
Proof. exact C70_unbounded_logistic_l. Qed.
Print Assumptions C70_unbounded_logistic.
(** observation 2, location 1, scale 4 *)
Example C70_unbounded_logistic_case : params nil [(farr nil (fun _ => 2), fins (fun _ => 2)); (farr nil (fun _ => 1), fins (fun _ => 1)); (farr nil (fun _ => 4), fins (fun _ => 4)); (num0 NInf, fun _ => rbn m_infty); (num0 PInf, fun _ => rbn p_infty); (farr nil (fun _ => 0), fins (fun _ => 0)); (farr nil (fun _ => 0), fins (fun _ => 0))]%list /\
  params nil [(farr nil (fun _ => 2), fins (fun _ => 2)); (farr nil (fun _ => 1), fins (fun _ => 1)); (farr nil (fun _ => 4), fins (fun _ => 4)); (num0 NInf, fun _ => rbn m_infty); (num0 PInf, fun _ => rbn p_infty)]%list /\
  params nil [(farr nil (fun _ => 2), fins (fun _ => 2)); (farr nil (fun _ => 1), fins (fun _ => 1)); (farr nil (fun _ => 4), fins (fun _ => 4))]%list.
Proof. repeat split; repeat constructor. Qed.

(** C70.  Infinite bounds: crps_gtct without point masses, crps_tt and crps_ct are crps_t. *)
Theorem C70_unbounded_t :
forall (obs df location scale lower upper lmass umass : arr) (s : list nat) (y n m c : list nat -> R),
  params s [(obs, fins y); (df, fins n); (location, fins m); (scale, fins c); (lower, (fun _ => NInf)); (upper, (fun _ => PInf)); (lmass, (fun _ => Fin 0)); (umass, (fun _ => Fin 0))]%list ->
  params s [(obs, fins y); (df, fins n); (location, fins m); (scale, fins c); (lower, (fun _ => NInf)); (upper, (fun _ => PInf))]%list ->
  params s [(obs, fins y); (df, fins n); (location, fins m); (scale, fins c)]%list ->
  (forall i, inb s i -> 1 < n i /\ 0 < c i) ->
  exists f, returns (crps_gtct obs df location scale lower upper lmass umass) s (fins f) /\ returns (crps_tt obs df location scale lower upper) s (fins f) /\
    returns (crps_ct obs df location scale lower upper) s (fins f) /\ returns (crps_t obs df location scale) s (fins f).
Proof. exact C70_unbounded_t_l. Qed.
Print Assumptions C70_unbounded_t.
(** observation 2, location 1, scale 4 *)
Example C70_unbounded_t_case : params nil [(farr nil (fun _ => 2), fins (fun _ => 2)); (farr nil (fun _ => 5), fins (fun _ => 5)); (farr nil (fun _ => 1), fins (fun _ => 1)); (farr nil (fun _ => 4), fins (fun _ => 4)); (num0 NInf, fun _ => rbn m_infty); (num0 PInf, fun _ => rbn p_infty); (farr nil (fun _ => 0), fins (fun _ => 0)); (farr nil (fun _ => 0), fins (fun _ => 0))]%list /\
  params nil [(farr nil (fun _ => 2), fins (fun _ => 2)); (farr nil (fun _ => 5), fins (fun _ => 5)); (farr nil (fun _ => 1), fins (fun _ => 1)); (farr nil (fun _ => 4), fins (fun _ => 4)); (num0 NInf, fun _ => rbn m_infty); (num0 PInf, fun _ => rbn p_infty)]%list /\
  params nil [(farr nil (fun _ => 2), fins (fun _ => 2)); (farr nil (fun _ => 5), fins (fun _ => 5)); (farr nil (fun _ => 1), fins (fun _ => 1)); (farr nil (fun _ => 4), fins (fun _ => 4))]%list.
Proof. repeat split; repeat constructor. Qed.

(** C70.  Point masses equal to the probabilities outside the bounds: crps_gtcnormal is crps_cnormal. *)
Theorem C70_censored_normal :
forall (obs location scale lower upper lmass umass : arr) (s : list nat) (y m c : list nat -> R) (l u : list nat -> Rbar),
  params s [(obs, fins y); (location, fins m); (scale, fins c); (lower, (fun i => rbn (l i))); (upper, (fun i => rbn (u i))); (lmass, (fun i => Fin (ext_cdf (normal_cdf (m i) (c i)) (l i)))); (umass, (fun i => Fin (1 - ext_cdf (normal_cdf (m i) (c i)) (u i))))]%list ->
  params s [(obs, fins y); (location, fins m); (scale, fins c); (lower, (fun i => rbn (l i))); (upper, (fun i => rbn (u i)))]%list ->
  (forall i, inb s i -> 0 < c i /\ Rbar_lt (l i) (u i)) ->
  exists f, returns (crps_gtcnormal obs location scale lower upper lmass umass) s (fins f) /\ returns (crps_cnormal obs location scale lower upper) s (fins f).
Proof. exact C70_censored_normal_l. Qed.
Print Assumptions C70_censored_normal.
(** observation 2, location 1, scale 4, bounds 0 and 3 *)
Example C70_censored_normal_case : params nil [(farr nil (fun _ => 2), fins (fun _ => 2)); (farr nil (fun _ => 1), fins (fun _ => 1)); (farr nil (fun _ => 4), fins (fun _ => 4)); (num0 (Fin 0), fun _ => rbn 0); (num0 (Fin 3), fun _ => rbn 3); (farr nil (fun _ => normal_cdf 1 4 0), fins (fun _ => ext_cdf (normal_cdf 1 4) 0)); (farr nil (fun _ => 1 - normal_cdf 1 4 3), fins (fun _ => 1 - ext_cdf (normal_cdf 1 4) 3))]%list /\
  params nil [(farr nil (fun _ => 2), fins (fun _ => 2)); (farr nil (fun _ => 1), fins (fun _ => 1)); (farr nil (fun _ => 4), fins (fun _ => 4)); (num0 (Fin 0), fun _ => rbn 0); (num0 (Fin 3), fun _ => rbn 3)]%list.
Proof. repeat split; repeat constructor. Qed.

(** C70.  Point masses equal to the probabilities outside the bounds: crps_gtclogistic is crps_clogistic. *)
Theorem C70_censored_logistic :
forall (obs location scale lower upper lmass umass : arr) (s : list nat) (y m c : list nat -> R) (l u : list nat -> Rbar),
  params s [(obs, fins y); (location, fins m); (scale, fins c); (lower, (fun i => rbn (l i))); (upper, (fun i => rbn (u i))); (lmass, (fun i => Fin (ext_cdf (logistic_cdf (m i) (c i)) (l i)))); (umass, (fun i => Fin (1 - ext_cdf (logistic_cdf (m i) (c i)) (u i))))]%list ->
  params s [(obs, fins y); (location, fins m); (scale, fins c); (lower, (fun i => rbn (l i))); (upper, (fun i => rbn (u i)))]%list ->
  (forall i, inb s i -> 0 < c i /\ Rbar_lt (l i) (u i) /\ (l i = m_infty <-> u i = p_infty)) ->
  exists f, returns (crps_gtclogistic obs location scale lower upper lmass umass) s (fins f) /\ returns (crps_clogistic obs location scale lower upper) s (fins f).
Proof. exact C70_censored_logistic_l. Qed.
Print Assumptions C70_censored_logistic.
(** observation 2, location 1, scale 4, bounds 0 and 3 *)
Example C70_censored_logistic_case : params nil [(farr nil (fun _ => 2), fins (fun _ => 2)); (farr nil (fun _ => 1), fins (fun _ => 1)); (farr nil (fun _ => 4), fins (fun _ => 4)); (num0 (Fin 0), fun _ => rbn 0); (num0 (Fin 3), fun _ => rbn 3); (farr nil (fun _ => logistic_cdf 1 4 0), fins (fun _ => ext_cdf (logistic_cdf 1 4) 0)); (farr nil (fun _ => 1 - logistic_cdf 1 4 3), fins (fun _ => 1 - ext_cdf (logistic_cdf 1 4) 3))]%list /\
  params nil [(farr nil (fun _ => 2), fins (fun _ => 2)); (farr nil (fun _ => 1), fins (fun _ => 1)); (farr nil (fun _ => 4), fins (fun _ => 4)); (num0 (Fin 0), fun _ => rbn 0); (num0 (Fin 3), fun _ => rbn 3)]%list.
Proof. repeat split; repeat constructor. Qed.

(** C70.  Point masses equal to the probabilities outside the bounds: crps_gtct is crps_ct. *)
Theorem C70_censored_t :
forall (obs df location scale lower upper lmass umass : arr) (s : list nat) (y n m c : list nat -> R) (l u : list nat -> Rbar),
  params s [(obs, fins y); (df, fins n); (location, fins m); (scale, fins c); (lower, (fun i => rbn (l i))); (upper, (fun i => rbn (u i))); (lmass, (fun i => Fin (ext_cdf (ls_cdf (t_cdf (n i)) (m i) (c i)) (l i)))); (umass, (fun i => Fin (1 - ext_cdf (ls_cdf (t_cdf (n i)) (m i) (c i)) (u i))))]%list ->
  params s [(obs, fins y); (df, fins n); (location, fins m); (scale, fins c); (lower, (fun i => rbn (l i))); (upper, (fun i => rbn (u i)))]%list ->
  (forall i, inb s i -> 1 < n i /\ 0 < c i /\ Rbar_lt (l i) (u i) /\ l i <> Finite (m i) /\ u i <> Finite (m i)) ->
  exists f, returns (crps_gtct obs df location scale lower upper lmass umass) s (fins f) /\ returns (crps_ct obs df location scale lower upper) s (fins f).
Proof. exact C70_censored_t_l. Qed.
Print Assumptions C70_censored_t.
(** observation 2, location 1, scale 4, bounds 0 and 3 *)
Example C70_censored_t_case : params nil [(farr nil (fun _ => 2), fins (fun _ => 2)); (farr nil (fun _ => 5), fins (fun _ => 5)); (farr nil (fun _ => 1), fins (fun _ => 1)); (farr nil (fun _ => 4), fins (fun _ => 4)); (num0 (Fin 0), fun _ => rbn 0); (num0 (Fin 3), fun _ => rbn 3); (farr nil (fun _ => ls_cdf (t_cdf 5) 1 4 0), fins (fun _ => ext_cdf (ls_cdf (t_cdf 5) 1 4) 0)); (farr nil (fun _ => 1 - ls_cdf (t_cdf 5) 1 4 3), fins (fun _ => 1 - ext_cdf (ls_cdf (t_cdf 5) 1 4) 3))]%list /\
  params nil [(farr nil (fun _ => 2), fins (fun _ => 2)); (farr nil (fun _ => 5), fins (fun _ => 5)); (farr nil (fun _ => 1), fins (fun _ => 1)); (farr nil (fun _ => 4), fins (fun _ => 4)); (num0 (Fin 0), fun _ => rbn 0); (num0 (Fin 3), fun _ => rbn 3)]%list.
Proof. repeat split; repeat constructor. Qed.

(** C70.  crps_beta with both shapes 1 is crps_uniform without point masses, for observations between the bounds. *)
Theorem C70_beta :
forall (obs a b lower upper lmass umass : arr) (s t : list nat) (y l u l' u' : list nat -> R),
  params s [(obs, fins y); (a, (fun _ => Fin 1)); (b, (fun _ => Fin 1))]%list ->
  params s [(obs, fins y); (a, (fun _ => Fin 1)); (b, (fun _ => Fin 1)); (lower, fins l); (upper, fins u)]%list ->
  params t [(lower, fins l'); (upper, fins u')]%list ->
  (forall i, inb t i -> l' i < u' i) ->
  params s [(obs, fins y); (lower, fins l); (upper, fins u); (lmass, (fun _ => Fin 0)); (umass, (fun _ => Fin 0))]%list ->
  (forall i, inb s i -> l i < u i /\ l i <= y i <= u i) ->
  exists f, returns (crps_beta obs a b lower upper) s (fins f) /\ returns (crps_uniform obs lower upper lmass umass) s (fins f).
Proof. exact C70_beta_l. Qed.
Print Assumptions C70_beta.
(** observation 2, bounds 1 and 4 *)
Example C70_beta_case : params nil [(farr nil (fun _ => 2), fins (fun _ => 2)); (farr nil (fun _ => 1), fins (fun _ => 1)); (farr nil (fun _ => 1), fins (fun _ => 1))]%list /\
  params nil [(farr nil (fun _ => 2), fins (fun _ => 2)); (farr nil (fun _ => 1), fins (fun _ => 1)); (farr nil (fun _ => 1), fins (fun _ => 1)); (farr nil (fun _ => 1), fins (fun _ => 1)); (farr nil (fun _ => 4), fins (fun _ => 4))]%list /\
  params nil [(farr nil (fun _ => 1), fins (fun _ => 1)); (farr nil (fun _ => 4), fins (fun _ => 4))]%list /\
  params nil [(farr nil (fun _ => 2), fins (fun _ => 2)); (farr nil (fun _ => 1), fins (fun _ => 1)); (farr nil (fun _ => 4), fins (fun _ => 4)); (farr nil (fun _ => 0), fins (fun _ => 0)); (farr nil (fun _ => 0), fins (fun _ => 0))]%list.
Proof. repeat split; repeat constructor. Qed.

(** C70.  crps_gamma with shape 1 is crps_exponential with the same rate. *)
Theorem C70_gamma :
forall (obs shape rate : arr) (s : list nat) (y r : list nat -> R),
  params s [(obs, fins y); (shape, (fun _ => Fin 1)); (rate, fins r)]%list ->
  params s [(obs, fins y); (rate, fins r)]%list ->
  (forall i, inb s i -> 0 < r i) ->
  exists f, returns (crps_gamma obs shape (Some rate) None) s (fins f) /\ returns (crps_exponential obs rate) s (fins f).
Proof. exact C70_gamma_l. Qed.
Print Assumptions C70_gamma.
(** observation 2, rate 3 *)
Example C70_gamma_case : params nil [(farr nil (fun _ => 2), fins (fun _ => 2)); (farr nil (fun _ => 1), fins (fun _ => 1)); (farr nil (fun _ => 3), fins (fun _ => 3))]%list /\
  params nil [(farr nil (fun _ => 2), fins (fun _ => 2)); (farr nil (fun _ => 3), fins (fun _ => 3))]%list.
Proof. repeat split; repeat constructor. Qed.

(** C70.  crps_csg0 with shift 0 is crps_gamma, for observations that are not negative. *)
Theorem C70_csg0 :
forall (obs shape rate shift : arr) (s : list nat) (y a r : list nat -> R),
  params s [(obs, fins y); (shape, fins a); (rate, fins r); (shift, (fun _ => Fin 0))]%list ->
  params s [(obs, fins y); (shape, fins a); (rate, fins r)]%list ->
  (forall i, inb s i -> 0 < a i /\ 0 < r i /\ 0 <= y i) ->
  exists f, returns (crps_csg0 obs shape (Some rate) None shift) s (fins f) /\ returns (crps_gamma obs shape (Some rate) None) s (fins f).
Proof. exact C70_csg0_l. Qed.
Print Assumptions C70_csg0.
(** observation 2, shape 1/2, rate 3 *)
Example C70_csg0_case : params nil [(farr nil (fun _ => 2), fins (fun _ => 2)); (farr nil (fun _ => 1 / 2), fins (fun _ => 1 / 2)); (farr nil (fun _ => 3), fins (fun _ => 3)); (farr nil (fun _ => 0), fins (fun _ => 0))]%list /\
  params nil [(farr nil (fun _ => 2), fins (fun _ => 2)); (farr nil (fun _ => 1 / 2), fins (fun _ => 1 / 2)); (farr nil (fun _ => 3), fins (fun _ => 3))]%list.
Proof. repeat split; repeat constructor. Qed.

(** C70.  The scale of crps_gamma is the reciprocal of its rate. *)
Theorem C70_gamma_rate :
forall (obs shape rate scale : arr) (s : list nat) (y a r c : list nat -> R),
  params s [(obs, fins y); (shape, fins a); (rate, fins r)]%list ->
  params s [(obs, fins y); (shape, fins a); (scale, fins c)]%list ->
  (forall i, inb s i -> 0 < a i /\ 0 < c i /\ r i = 1 / c i) ->
  exists f, returns (crps_gamma obs shape (Some rate) None) s (fins f) /\ returns (crps_gamma obs shape None (Some scale)) s (fins f).
Proof. exact C70_gamma_rate_l. Qed.
Print Assumptions C70_gamma_rate.
(** observation 2, shape 1/2, scale 4 *)
Example C70_gamma_rate_case : params nil [(farr nil (fun _ => 2), fins (fun _ => 2)); (farr nil (fun _ => 1 / 2), fins (fun _ => 1 / 2)); (farr nil (fun _ => 1 / 4), fins (fun _ => 1 / 4))]%list /\
  params nil [(farr nil (fun _ => 2), fins (fun _ => 2)); (farr nil (fun _ => 1 / 2), fins (fun _ => 1 / 2)); (farr nil (fun _ => 4), fins (fun _ => 4))]%list.
Proof. repeat split; repeat constructor. Qed.

(** C70.  The mean of crps_negbinom is size (1 - prob) / prob. *)
Theorem C70_negbinom :
forall (obs size prob mean : arr) (s : list nat) (y r p m : list nat -> R),
  params s [(obs, fins y); (size, fins r); (prob, fins p)]%list ->
  params s [(obs, fins y); (size, fins r); (mean, fins m)]%list ->
  (forall i, inb s i -> 0 < r i /\ 0 < p i <= 1 /\ m i = r i * (1 - p i) / p i) ->
  exists f, returns (crps_negbinom obs size (Some prob) None) s (fins f) /\ returns (crps_negbinom obs size None (Some mean)) s (fins f).
Proof. exact C70_negbinom_l. Qed.
Print Assumptions C70_negbinom.
(** observation 2, size 3, probability 3/4, mean 1 *)
Example C70_negbinom_case : params nil [(farr nil (fun _ => 2), fins (fun _ => 2)); (farr nil (fun _ => 3), fins (fun _ => 3)); (farr nil (fun _ => 3 / 4), fins (fun _ => 3 / 4))]%list /\
  params nil [(farr nil (fun _ => 2), fins (fun _ => 2)); (farr nil (fun _ => 3), fins (fun _ => 3)); (farr nil (fun _ => 1), fins (fun _ => 1))]%list.
Proof. repeat split; repeat constructor. Qed.

(** C70.  crps_mixnorm with equal components, in particular with one component, is crps_normal. *)
Theorem C70_mixnorm :
forall (obs m sd : arr) (w : option arr) (ax : Z) (s : list nat) (p M : nat) (y mu sg ww : list nat -> R) (location scale : arr) (l c : list nat -> R),
  mix_args obs m sd w ax s p M y mu sg ww -> mix_ok s p M sg ww -> params s [(obs, fins y); (location, fins l); (scale, fins c)]%list ->
  (forall r k, inb s r -> (k < M)%nat -> member p mu r k = l r /\ member p sg r k = c r) -> (forall r, inb s r -> 0 < c r) ->
  exists f, returns (crps_mixnorm obs m sd w ax) s (fins f) /\ returns (crps_normal obs location scale) s (fins f).
Proof. exact C70_mixnorm_l. Qed.
Print Assumptions C70_mixnorm.
(** observation 2, and one component with mean 1 and deviation 3 *)
Example C70_mixnorm_case : mix_args (farr nil (fun _ => 2)) (farr (1%nat :: nil) (fun _ => 1)) (farr (1%nat :: nil) (fun _ => 3)) None (-1) nil 0 1 (fun _ => 2) (fun _ => 1) (fun _ => 3) (fun _ => / INR 1) /\
  mix_ok nil 0 1 (fun _ => 3) (fun _ => / INR 1).
Proof.
  split; [split; [split; [|split; [|split]]|split]|].
  - split; [reflexivity|intros; reflexivity].
  - split; [reflexivity|intros; reflexivity].
  - simpl; lia.
  - left; reflexivity.
  - split; [reflexivity|intros; reflexivity].
  - reflexivity.
  - intros r Hr. split; [|unfold member; rewrite sumn_S, sumn_0; simpl; field]. intros k Hk. unfold member. simpl. lra.
Qed.
