(** Property C72: properties shared by all closed-form logarithmic scores, and families that are special cases of each other. *)
From Verif Require Import T_catlogs L_crps_call.
From Coquelicot Require Import Coquelicot.
From Coq Require Import Psatz Lia.
Open Scope R_scope.

(** C72.  Every call of the catalogue returns minus the logarithm of the density at the observation, plus infinity where the density is 0. *)
Theorem C72_value :
forall T s f y, closed_logs T s f y -> returns T s (fun i => if Rlt_dec 0 (f i (y i)) then Fin (- ln (f i (y i))) else PInf).
Proof. exact C72_value_l. Qed.
Print Assumptions C72_value.
(** observation 2, normal distribution with mean 1 and deviation 3 *)
Example C72_value_case : closed_logs (logs_normal (farr nil (fun _ => 2)) (farr nil (fun _ => 1)) (farr nil (fun _ => 3)) true) nil (fun _ => normal_pdf 1 3) (fun _ => 2).
Proof. apply (cl_normal _ _ _ nil (fun _ => 2) (fun _ => 1) (fun _ => 3)); [split; [reflexivity|repeat constructor]|intros; lra]. Qed.

(** C72.  The score depends on the density at the observation only. *)
Theorem C72_same :
forall T T' s f f' y y', closed_logs T s f y -> closed_logs T' s f' y' -> (forall i, inb s i -> f i (y i) = f' i (y' i)) ->
  exists v, returns T s v /\ returns T' s v.
Proof. exact C72_same_l. Qed.
Print Assumptions C72_same.
(** observation 2, normal distribution with mean 1 and deviation 3 *)
Example C72_same_case : closed_logs (logs_normal (farr nil (fun _ => 2)) (farr nil (fun _ => 1)) (farr nil (fun _ => 3)) true) nil (fun _ => normal_pdf 1 3) (fun _ => 2).
Proof. apply (cl_normal _ _ _ nil (fun _ => 2) (fun _ => 1) (fun _ => 3)); [split; [reflexivity|repeat constructor]|intros; lra]. Qed.

(** C72.  Observation and forecast in other units, a + b t instead of t: the score changes by ln |b|; for a = 0 and b = -1 it does not change. *)
Theorem C72_units :
forall T T' s f f' y y' (a b : list nat -> R), closed_logs T s f y -> closed_logs T' s f' y' ->
  (forall i, inb s i -> b i <> 0 /\ y' i = a i + b i * y i /\ forall t, f' i (a i + b i * t) = f i t / Rabs (b i)) ->
  exists v, returns T s v /\ returns T' s (fun i => nadd (v i) (Fin (ln (Rabs (b i))))).
Proof. exact C72_units_l. Qed.
Print Assumptions C72_units.
(** from degrees Celsius to degrees Fahrenheit *)
Example C72_units_case : let n y m c := closed_logs (logs_normal (farr nil (fun _ => y)) (farr nil (fun _ => m)) (farr nil (fun _ => c)) true) nil (fun _ => normal_pdf m c) (fun _ => y) in
  n 20 15 5 /\ n 68 59 9 /\ 68 = 32 + 9 / 5 * 20 /\ forall t, normal_pdf 59 9 (32 + 9 / 5 * t) = normal_pdf 15 5 t / Rabs (9 / 5).
Proof.
  cbv zeta. split; [|split; [|split; [lra|]]].
  - apply (cl_normal _ _ _ nil (fun _ => 20) (fun _ => 15) (fun _ => 5)); [split; [reflexivity|repeat constructor]|intros; lra].
  - apply (cl_normal _ _ _ nil (fun _ => 68) (fun _ => 59) (fun _ => 9)); [split; [reflexivity|repeat constructor]|intros; lra].
  - intros t. unfold normal_pdf. rewrite Rabs_right by lra. replace ((32 + 9 / 5 * t - 59) / 9) with ((t - 15) / 5) by field. field.
Qed.

(** C72.  The score of logs_lognormal at exp y is the score of logs_normal at y, plus y. *)
Theorem C72_lognormal :
forall (obs obs' location scale : arr) (s : list nat) (y m c : list nat -> R),
  params s [(obs, fins y); (location, fins m); (scale, fins c)]%list ->
  params s [(obs', (fun i => Fin (exp (y i)))); (location, fins m); (scale, fins c)]%list ->
  (forall i, inb s i -> 0 < c i) ->
  exists v, returns (logs_normal obs location scale true) s v /\ returns (logs_lognormal obs' location scale) s (fun i => nadd (v i) (Fin (y i))).
Proof. exact C72_lognormal_l. Qed.
Print Assumptions C72_lognormal.
(** observation 2, location 1, scale 3 *)
Example C72_lognormal_case : params nil [(farr nil (fun _ => 2), fins (fun _ => 2)); (farr nil (fun _ => 1), fins (fun _ => 1)); (farr nil (fun _ => 3), fins (fun _ => 3))]%list /\ params nil [(farr nil (fun _ => exp 2), fins (fun _ => exp 2)); (farr nil (fun _ => 1), fins (fun _ => 1)); (farr nil (fun _ => 3), fins (fun _ => 3))]%list.
Proof. repeat split; repeat constructor. Qed.

(** C72.  The score of logs_loglaplace at exp y is the score of logs_laplace at y, plus y. *)
Theorem C72_loglaplace :
forall (obs obs' location scale : arr) (s : list nat) (y m c : list nat -> R),
  params s [(obs, fins y); (location, fins m); (scale, fins c)]%list ->
  params s [(obs', (fun i => Fin (exp (y i)))); (location, fins m); (scale, fins c)]%list ->
  (forall i, inb s i -> 0 < c i) ->
  exists v, returns (logs_laplace obs location scale) s v /\ returns (logs_loglaplace obs' location scale) s (fun i => nadd (v i) (Fin (y i))).
Proof. exact C72_loglaplace_l. Qed.
Print Assumptions C72_loglaplace.
(** observation 2, location 1, scale 3 *)
Example C72_loglaplace_case : params nil [(farr nil (fun _ => 2), fins (fun _ => 2)); (farr nil (fun _ => 1), fins (fun _ => 1)); (farr nil (fun _ => 3), fins (fun _ => 3))]%list /\ params nil [(farr nil (fun _ => exp 2), fins (fun _ => exp 2)); (farr nil (fun _ => 1), fins (fun _ => 1)); (farr nil (fun _ => 3), fins (fun _ => 3))]%list.
Proof. repeat split; repeat constructor. Qed.

(** C72.  The score of logs_loglogistic at exp y is the score of logs_logistic at y, plus y. *)
Theorem C72_loglogistic :
forall (obs obs' location scale : arr) (s : list nat) (y m c : list nat -> R),
  params s [(obs, fins y); (location, fins m); (scale, fins c)]%list ->
  params s [(obs', (fun i => Fin (exp (y i)))); (location, fins m); (scale, fins c)]%list ->
  (forall i, inb s i -> 0 < c i) ->
  exists v, returns (logs_logistic obs location scale) s v /\ returns (logs_loglogistic obs' location scale) s (fun i => nadd (v i) (Fin (y i))).
Proof. exact C72_loglogistic_l. Qed.
Print Assumptions C72_loglogistic.
(** observation 2, location 1, scale 3 *)
Example C72_loglogistic_case : params nil [(farr nil (fun _ => 2), fins (fun _ => 2)); (farr nil (fun _ => 1), fins (fun _ => 1)); (farr nil (fun _ => 3), fins (fun _ => 3))]%list /\ params nil [(farr nil (fun _ => exp 2), fins (fun _ => exp 2)); (farr nil (fun _ => 1), fins (fun _ => 1)); (farr nil (fun _ => 3), fins (fun _ => 3))]%list.
Proof. repeat split; repeat constructor. Qed.

(** C72.  logs_2pnormal with equal scales is logs_normal. *)
Theorem C72_2pnormal :
forall (obs scale1 scale2 location scale : arr) (s : list nat) (y m c : list nat -> R),
  params s [(obs, fins y); (scale1, fins c); (scale2, fins c); (location, fins m)]%list ->
  params s [(obs, fins y); (location, fins m); (scale, fins c)]%list ->
  (forall i, inb s i -> 0 < c i) ->
  exists v, returns (logs_2pnormal obs scale1 scale2 location) s v /\ returns (logs_normal obs location scale true) s v.
Proof. exact C72_2pnormal_l. Qed.
Print Assumptions C72_2pnormal.
(** observation 2, location 1, scale 3 *)
Example C72_2pnormal_case : params nil [(farr nil (fun _ => 2), fins (fun _ => 2)); (farr nil (fun _ => 3), fins (fun _ => 3)); (farr nil (fun _ => 3), fins (fun _ => 3)); (farr nil (fun _ => 1), fins (fun _ => 1))]%list /\
  params nil [(farr nil (fun _ => 2), fins (fun _ => 2)); (farr nil (fun _ => 1), fins (fun _ => 1)); (farr nil (fun _ => 3), fins (fun _ => 3))]%list.
Proof. repeat split; repeat constructor. Qed.

(** C72.  logs_2pexponential with equal scales is logs_laplace. *)
Theorem C72_2pexponential :
forall (obs scale1 scale2 location scale : arr) (s : list nat) (y m c : list nat -> R),
  params s [(obs, fins y); (scale1, fins c); (scale2, fins c); (location, fins m)]%list ->
  params s [(obs, fins y); (location, fins m); (scale, fins c)]%list ->
  (forall i, inb s i -> 0 < c i) ->
  exists v, returns (logs_2pexponential obs scale1 scale2 location) s v /\ returns (logs_laplace obs location scale) s v.
Proof. exact C72_2pexponential_l. Qed.
Print Assumptions C72_2pexponential.
(** observation 2, location 1, scale 3 *)
Example C72_2pexponential_case : params nil [(farr nil (fun _ => 2), fins (fun _ => 2)); (farr nil (fun _ => 3), fins (fun _ => 3)); (farr nil (fun _ => 3), fins (fun _ => 3)); (farr nil (fun _ => 1), fins (fun _ => 1))]%list /\
  params nil [(farr nil (fun _ => 2), fins (fun _ => 2)); (farr nil (fun _ => 1), fins (fun _ => 1)); (farr nil (fun _ => 3), fins (fun _ => 3))]%list.
Proof. repeat split; repeat constructor. Qed.

(** C72.  logs_exponential2 at location 0 and with scale 1 / rate is logs_exponential. *)
Theorem C72_exponential2 :
forall (obs location scale rate : arr) (s : list nat) (y c l : list nat -> R),
  params s [(obs, fins y); (location, (fun _ => Fin 0)); (scale, fins c)]%list ->
  dt obs = DFloat ->
  sh obs = s ->
  params s [(obs, fins y); (rate, fins l)]%list ->
  (forall i, inb s i -> 0 < c i /\ l i * c i = 1) ->
  exists v, returns (logs_exponential2 obs location scale) s v /\ returns (logs_exponential obs rate) s v.
Proof. exact C72_exponential2_l. Qed.
Print Assumptions C72_exponential2.
(** observation 2, scale 4, rate 1/4 *)
Example C72_exponential2_case : params nil [(farr nil (fun _ => 2), fins (fun _ => 2)); (farr nil (fun _ => 0), fins (fun _ => 0)); (farr nil (fun _ => 4), fins (fun _ => 4))]%list /\
  params nil [(farr nil (fun _ => 2), fins (fun _ => 2)); (farr nil (fun _ => 1 / 4), fins (fun _ => 1 / 4))]%list.
Proof. repeat split; repeat constructor. Qed.

(** C72.  logs_gpd with shape 0 is logs_exponential2. *)
Theorem C72_gpd_exponential :
forall (obs shape location scale : arr) (s : list nat) (y m c : list nat -> R),
  params s [(obs, fins y); (shape, (fun _ => Fin 0)); (location, fins m); (scale, fins c)]%list ->
  dt obs = DFloat ->
  sh obs = s ->
  params s [(obs, fins y); (location, fins m); (scale, fins c)]%list ->
  (forall i, inb s i -> 0 < c i) ->
  exists v, returns (logs_gpd obs shape location scale) s v /\ returns (logs_exponential2 obs location scale) s v.
Proof. exact C72_gpd_exponential_l. Qed.
Print Assumptions C72_gpd_exponential.
(** observation 2, location 1, scale 4 *)
Example C72_gpd_exponential_case : params nil [(farr nil (fun _ => 2), fins (fun _ => 2)); (farr nil (fun _ => 0), fins (fun _ => 0)); (farr nil (fun _ => 1), fins (fun _ => 1)); (farr nil (fun _ => 4), fins (fun _ => 4))]%list /\
  params nil [(farr nil (fun _ => 2), fins (fun _ => 2)); (farr nil (fun _ => 1), fins (fun _ => 1)); (farr nil (fun _ => 4), fins (fun _ => 4))]%list.
Proof. repeat split; repeat constructor. Qed.

(** C72.  logs_gpd with shape -1 is logs_uniform on [location, location + scale], except at the upper end. *)
Theorem C72_gpd_uniform :
forall (obs shape location scale upper : arr) (s : list nat) (y m c : list nat -> R),
  params s [(obs, fins y); (shape, (fun _ => Fin (-1))); (location, fins m); (scale, fins c)]%list ->
  params s [(obs, fins y); (location, fins m); (upper, (fun i => Fin (m i + c i)))]%list ->
  (forall i, inb s i -> 0 < c i /\ y i <> m i + c i) ->
  exists v, returns (logs_gpd obs shape location scale) s v /\ returns (logs_uniform obs location upper) s v.
Proof. exact C72_gpd_uniform_l. Qed.
Print Assumptions C72_gpd_uniform.
(** observation 2, location 1, scale 4 *)
Example C72_gpd_uniform_case : params nil [(farr nil (fun _ => 2), fins (fun _ => 2)); (farr nil (fun _ => -1), fins (fun _ => -1)); (farr nil (fun _ => 1), fins (fun _ => 1)); (farr nil (fun _ => 4), fins (fun _ => 4))]%list /\
  params nil [(farr nil (fun _ => 2), fins (fun _ => 2)); (farr nil (fun _ => 1), fins (fun _ => 1)); (farr nil (fun _ => 1 + 4), fins (fun _ => 1 + 4))]%list.
Proof. repeat split; repeat constructor. Qed.

(** C72.  Infinite bounds: logs_tnormal is logs_normal. *)
Theorem C72_unbounded_normal :
forall (obs location scale lower upper : arr) (s : list nat) (y m c : list nat -> R),
  params s [(obs, fins y); (location, fins m); (scale, fins c); (lower, (fun _ => NInf)); (upper, (fun _ => PInf))]%list ->
  params s [(obs, fins y); (location, fins m); (scale, fins c)]%list ->
  (forall i, inb s i -> 0 < c i) ->
  exists v, returns (logs_tnormal obs location scale lower upper) s v /\ returns (logs_normal obs location scale true) s v.
Proof. exact C72_unbounded_normal_l. Qed.
Print Assumptions C72_unbounded_normal.
(** observation 2, location 1, scale 4 *)
Example C72_unbounded_normal_case : params nil [(farr nil (fun _ => 2), fins (fun _ => 2)); (farr nil (fun _ => 1), fins (fun _ => 1)); (farr nil (fun _ => 4), fins (fun _ => 4)); (num0 NInf, fun _ => rbn m_infty); (num0 PInf, fun _ => rbn p_infty)]%list /\
  params nil [(farr nil (fun _ => 2), fins (fun _ => 2)); (farr nil (fun _ => 1), fins (fun _ => 1)); (farr nil (fun _ => 4), fins (fun _ => 4))]%list.
Proof. repeat split; repeat constructor. Qed.

(** C72.  Infinite bounds: logs_tlogistic is logs_logistic. *)
Theorem C72_unbounded_logistic :
forall (obs location scale lower upper : arr) (s : list nat) (y m c : list nat -> R),
  params s [(obs, fins y); (location, fins m); (scale, fins c); (lower, (fun _ => NInf)); (upper, (fun _ => PInf))]%list ->
  params s [(obs, fins y); (location, fins m); (scale, fins c)]%list ->
  (forall i, inb s i -> 0 < c i) ->
  exists v, returns (logs_tlogistic obs location scale lower upper) s v /\ returns (logs_logistic obs location scale) s v.
Proof. exact C72_unbounded_logistic_l. Qed.
Print Assumptions C72_unbounded_logistic.
(** observation 2, location 1, scale 4 *)
Example C72_unbounded_logistic_case : params nil [(farr nil (fun _ => 2), fins (fun _ => 2)); (farr nil (fun _ => 1), fins (fun _ => 1)); (farr nil (fun _ => 4), fins (fun _ => 4)); (num0 NInf, fun _ => rbn m_infty); (num0 PInf, fun _ => rbn p_infty)]%list /\
  params nil [(farr nil (fun _ => 2), fins (fun _ => 2)); (farr nil (fun _ => 1), fins (fun _ => 1)); (farr nil (fun _ => 4), fins (fun _ => 4))]%list.
Proof. repeat split; repeat constructor. Qed.

(** C72.  Infinite bounds: logs_tt is logs_t. *)
Theorem C72_unbounded_t :
forall (obs df location scale lower upper : arr) (s : list nat) (y n m c : list nat -> R),
  params s [(obs, fins y); (df, fins n); (location, fins m); (scale, fins c); (lower, (fun _ => NInf)); (upper, (fun _ => PInf))]%list ->
  params s [(obs, fins y); (df, fins n); (location, fins m); (scale, fins c)]%list ->
  (forall i, inb s i -> 0 < n i /\ 0 < c i) ->
  exists v, returns (logs_tt obs df location scale lower upper) s v /\ returns (logs_t obs df location scale) s v.
Proof. exact C72_unbounded_t_l. Qed.
Print Assumptions C72_unbounded_t.
(** observation 2, location 1, scale 4 *)
Example C72_unbounded_t_case : params nil [(farr nil (fun _ => 2), fins (fun _ => 2)); (farr nil (fun _ => 5), fins (fun _ => 5)); (farr nil (fun _ => 1), fins (fun _ => 1)); (farr nil (fun _ => 4), fins (fun _ => 4)); (num0 NInf, fun _ => rbn m_infty); (num0 PInf, fun _ => rbn p_infty)]%list /\
  params nil [(farr nil (fun _ => 2), fins (fun _ => 2)); (farr nil (fun _ => 5), fins (fun _ => 5)); (farr nil (fun _ => 1), fins (fun _ => 1)); (farr nil (fun _ => 4), fins (fun _ => 4))]%list.
Proof. repeat split; repeat constructor. Qed.

(** C72.  logs_beta with both shapes 1 is logs_uniform, except at the bounds. *)
Theorem C72_beta :
forall (obs a b lower upper : arr) (s : list nat) (y l u : list nat -> R),
  params s [(obs, fins y); (a, (fun _ => Fin 1)); (b, (fun _ => Fin 1)); (lower, fins l); (upper, fins u)]%list ->
  params s [(obs, fins y); (lower, fins l); (upper, fins u)]%list ->
  (forall i, inb s i -> l i < u i /\ y i <> l i /\ y i <> u i) ->
  exists v, returns (logs_beta obs a b lower upper) s v /\ returns (logs_uniform obs lower upper) s v.
Proof. exact C72_beta_l. Qed.
Print Assumptions C72_beta.
(** observation 2, bounds 1 and 4 *)
Example C72_beta_case : params nil [(farr nil (fun _ => 2), fins (fun _ => 2)); (farr nil (fun _ => 1), fins (fun _ => 1)); (farr nil (fun _ => 1), fins (fun _ => 1)); (farr nil (fun _ => 1), fins (fun _ => 1)); (farr nil (fun _ => 4), fins (fun _ => 4))]%list /\
  params nil [(farr nil (fun _ => 2), fins (fun _ => 2)); (farr nil (fun _ => 1), fins (fun _ => 1)); (farr nil (fun _ => 4), fins (fun _ => 4))]%list.
Proof. repeat split; repeat constructor. Qed.

(** C72.  logs_gamma with shape 1 is logs_exponential with the same rate, except at 0 (there C41_gamma_exponential_refuted). *)
Theorem C72_gamma :
forall (obs shape rate : arr) (s : list nat) (y r : list nat -> R),
  params s [(obs, fins y); (shape, (fun _ => Fin 1)); (rate, fins r)]%list ->
  params s [(obs, fins y); (rate, fins r)]%list ->
  (forall i, inb s i -> 0 < r i /\ y i <> 0) ->
  exists v, returns (logs_gamma obs shape (Some rate) None) s v /\ returns (logs_exponential obs rate) s v.
Proof. exact C72_gamma_l. Qed.
Print Assumptions C72_gamma.
(** observation 2, rate 3 *)
Example C72_gamma_case : params nil [(farr nil (fun _ => 2), fins (fun _ => 2)); (farr nil (fun _ => 1), fins (fun _ => 1)); (farr nil (fun _ => 3), fins (fun _ => 3))]%list /\
  params nil [(farr nil (fun _ => 2), fins (fun _ => 2)); (farr nil (fun _ => 3), fins (fun _ => 3))]%list.
Proof. repeat split; repeat constructor. Qed.

(** C72.  The scale of logs_gamma is the reciprocal of its rate. *)
Theorem C72_gamma_rate :
forall (obs shape rate scale : arr) (s : list nat) (y a r c : list nat -> R),
  params s [(obs, fins y); (shape, fins a); (rate, fins r)]%list ->
  params s [(obs, fins y); (shape, fins a); (scale, fins c)]%list ->
  (forall i, inb s i -> 0 < a i /\ 0 < c i /\ r i = 1 / c i) ->
  exists v, returns (logs_gamma obs shape (Some rate) None) s v /\ returns (logs_gamma obs shape None (Some scale)) s v.
Proof. exact C72_gamma_rate_l. Qed.
Print Assumptions C72_gamma_rate.
(** observation 2, shape 1/2, scale 4 *)
Example C72_gamma_rate_case : params nil [(farr nil (fun _ => 2), fins (fun _ => 2)); (farr nil (fun _ => 1 / 2), fins (fun _ => 1 / 2)); (farr nil (fun _ => 1 / 4), fins (fun _ => 1 / 4))]%list /\
  params nil [(farr nil (fun _ => 2), fins (fun _ => 2)); (farr nil (fun _ => 1 / 2), fins (fun _ => 1 / 2)); (farr nil (fun _ => 4), fins (fun _ => 4))]%list.
Proof. repeat split; repeat constructor. Qed.

(** C72.  The mean of logs_negbinom is size (1 - prob) / prob. *)
Theorem C72_negbinom :
forall (obs size prob mean : arr) (s : list nat) (y r p m : list nat -> R),
  params s [(obs, fins y); (size, fins r); (prob, fins p)]%list ->
  params s [(obs, fins y); (size, fins r); (mean, fins m)]%list ->
  (forall i, inb s i -> 1 <= r i /\ 0 < p i <= 1 /\ m i = r i * (1 - p i) / p i) ->
  exists v, returns (logs_negbinom obs size (Some prob) None) s v /\ returns (logs_negbinom obs size None (Some mean)) s v.
Proof. exact C72_negbinom_l. Qed.
Print Assumptions C72_negbinom.
(** observation 2, size 3, probability 3/4, mean 1 *)
Example C72_negbinom_case : params nil [(farr nil (fun _ => 2), fins (fun _ => 2)); (farr nil (fun _ => 3), fins (fun _ => 3)); (farr nil (fun _ => 3 / 4), fins (fun _ => 3 / 4))]%list /\
  params nil [(farr nil (fun _ => 2), fins (fun _ => 2)); (farr nil (fun _ => 3), fins (fun _ => 3)); (farr nil (fun _ => 1), fins (fun _ => 1))]%list.
Proof. repeat split; repeat constructor. Qed.

(** C72.  logs_mixnorm with equal components, in particular with one component, is logs_normal. *)
Theorem C72_mixnorm :
forall (obs m sd : arr) (w : option arr) (ax : Z) (s : list nat) (p M : nat) (y mu sg ww : list nat -> R) (location scale : arr) (l c : list nat -> R),
  mix_args obs m sd w ax s p M y mu sg ww -> mix_ok s p M sg ww -> params s [(obs, fins y); (location, fins l); (scale, fins c)]%list ->
  (forall r k, inb s r -> (k < M)%nat -> member p mu r k = l r /\ member p sg r k = c r) -> (forall r, inb s r -> 0 < c r) ->
  exists v, returns (logs_mixnorm obs m sd w ax) s v /\ returns (logs_normal obs location scale true) s v.
Proof. exact C72_mixnorm_l. Qed.
Print Assumptions C72_mixnorm.
(** observation 2, and one component with mean 1 and deviation 3 *)
Example C72_mixnorm_case : mix_args (farr nil (fun _ => 2)) (farr (1%nat :: nil) (fun _ => 1)) (farr (1%nat :: nil) (fun _ => 3)) None (-1) nil 0 1 (fun _ => 2) (fun _ => 1) (fun _ => 3) (fun _ => / INR 1) /\
  mix_ok nil 0 1 (fun _ => 3) (fun _ => / INR 1).
Proof.
  split; [split; [split; [|split; [|split]]|split]|].
  - split; [reflexivity|intros; reflexivity].
  - split; [reflexivity|intros; reflexivity].
  - simpl; lia.
  - left; reflexivity.
  - split; [reflexivity|intros; reflexivity].
  - reflexivity.
  - intros r Hr. split; [|unfold member; rewrite sumn_S, sumn_0; simpl; field]. intros k Hk. unfold member. simpl. lra.
Qed.

(** C72.  logs_ensemble with bandwidth h is the score of logs_mixnorm whose components have the members as means, the deviation h and equal weights. *)
Theorem C72_ensemble :
forall (obs fct sd b : arr) (ax : Z) (s : list nat) (p M : nat) (y x sg ww h : list nat -> R),
  mix_args obs fct sd None ax s p M y x sg ww -> (0 < M)%nat -> broadcasts b s (fun r => Fin (h r)) ->
  (forall r, inb s r -> 0 < h r /\ forall k, (k < M)%nat -> member p sg r k = h r) ->
  exists v, returns (logs_ensemble obs fct ax (Some b)) s v /\ returns (logs_mixnorm obs fct sd None ax) s v.
Proof. exact C72_ensemble_l. Qed.
Print Assumptions C72_ensemble.
(** observation 2, and one component with mean 1 and deviation 3 *)
Example C72_ensemble_case : mix_args (farr nil (fun _ => 2)) (farr (1%nat :: nil) (fun _ => 1)) (farr (1%nat :: nil) (fun _ => 3)) None (-1) nil 0 1 (fun _ => 2) (fun _ => 1) (fun _ => 3) (fun _ => / INR 1) /\
  mix_ok nil 0 1 (fun _ => 3) (fun _ => / INR 1).
Proof.
  split; [split; [split; [|split; [|split]]|split]|].
  - split; [reflexivity|intros; reflexivity].
  - split; [reflexivity|intros; reflexivity].
  - simpl; lia.
  - left; reflexivity.
  - split; [reflexivity|intros; reflexivity].
  - reflexivity.
  - intros r Hr. split; [|unfold member; rewrite sumn_S, sumn_0; simpl; field]. intros k Hk. unfold member. simpl. lra.
Qed.

(** C72.  logs_binomial with n = 1 is log_score of the probability, for outcomes 0 and 1. *)
Theorem C72_bernoulli :
forall (obs n prob : arr) (s : list nat) (p : list nat -> R) (k : list nat -> bool),
  real_arr obs s (fun i => IZR (if k i then 1 else 0)) -> params s [(obs, fins (fun i => IZR (if k i then 1 else 0))); (n, fins (fun _ => INR 1)); (prob, fins p)]%list -> real_arr prob s p ->
  (forall i, inb s i -> 0 <= p i < 1) ->
  exists v, returns (logs_binomial obs n prob) s v /\ returns (M_prob.log_score obs prob) s v.
Proof. exact C72_bernoulli_l. Qed.
Print Assumptions C72_bernoulli.
(** probability 1/4 and outcome 1 *)
Example C72_bernoulli_case : params nil [(farr nil (fun _ => 1), fins (fun _ => IZR (if true then 1 else 0))); (farr nil (fun _ => INR 1), fins (fun _ => INR 1)); (farr nil (fun _ => 1 / 4), fins (fun _ => 1 / 4))]%list /\ real_arr (farr nil (fun _ => 1 / 4)) nil (fun _ => 1 / 4).
Proof. repeat split; repeat constructor. Qed.

(** C72.  The expected score under the density f is not smaller for the forecast g than for the forecast f itself, for any two continuous families of the catalogue. *)
Theorem C72_proper :
forall (Tf Tg : R -> tensor) (F f G g : R -> R) (l u l' u' : Rbar) (S S' : R -> R) (A B : R),
  Rbar_lt l u -> distribution F f l u -> distribution G g l' u' ->
  (forall t : R, closed_logs (Tf t) nil (fun _ => f) (fun _ => t) /\ closed_logs (Tg t) nil (fun _ => g) (fun _ => t)) ->
  (forall t : R, Rbar_lt l t -> Rbar_lt t u -> returns (Tf t) nil (fun _ => Fin (S t)) /\ returns (Tg t) nil (fun _ => Fin (S' t))) ->
  is_RInt_gen (fun t => f t * S t) (from_below l) (from_above u) B -> is_RInt_gen (fun t => f t * S' t) (from_below l) (from_above u) A -> B <= A.
Proof. exact C72_proper_l. Qed.
Print Assumptions C72_proper.
(** two normal distributions *)
Example C72_proper_case : (forall t, closed_logs (logs_normal (farr nil (fun _ => t)) (farr nil (fun _ => 1)) (farr nil (fun _ => 3)) true) nil (fun _ => normal_pdf 1 3) (fun _ => t)) /\
  distribution (normal_cdf 1 3) (normal_pdf 1 3) m_infty p_infty /\
  (forall t, closed_logs (logs_normal (farr nil (fun _ => t)) (farr nil (fun _ => 2)) (farr nil (fun _ => 5)) true) nil (fun _ => normal_pdf 2 5) (fun _ => t)) /\
  distribution (normal_cdf 2 5) (normal_pdf 2 5) m_infty p_infty.
Proof.
  split; [|split; [|split]].
  - intros t. apply (cl_normal _ _ _ nil (fun _ => t) (fun _ => 1) (fun _ => 3)); [split; [reflexivity|repeat constructor]|intros; lra].
  - apply dist0_distribution, normal_dist. lra.
  - intros t. apply (cl_normal _ _ _ nil (fun _ => t) (fun _ => 2) (fun _ => 5)); [split; [reflexivity|repeat constructor]|intros; lra].
  - apply dist0_distribution, normal_dist. lra.
Qed.
