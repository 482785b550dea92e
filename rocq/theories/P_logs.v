(** Property C41: the log score of a parametric distribution is minus the logarithm of its density
    (infinite where the density is 0), for all broadcasting shapes and all finite
    observations, also outside the support; the density is non-negative, has integral one,
    and its distribution function is the one of the CRPS theorems. *)
From Verif Require Import T_logs.
From Coq Require Import Psatz.
From Coquelicot Require Import Coquelicot.
Open Scope R_scope.

(** the exponential distribution *)
Theorem C41_exponential :
forall (obs rate : arr) (s : list nat) (y l : list nat -> R),
  params s [(obs, fins y); (rate, fins l)]%list -> (forall i, inb s i -> 0 < l i) ->
  returns (logs_exponential obs rate) s (fun i => logp (exponential_pdf (l i) (y i))) /\
  forall i, inb s i -> distribution (exponential_cdf (l i)) (exponential_pdf (l i)) 0 p_infty.
Proof. exact C41_exponential_l. Qed.
Print Assumptions C41_exponential.
Example C41_exponential_ex : let f v := fun _ : list nat => v in
  params (2%nat :: nil) [(farr (2%nat :: nil) (f 3), fins (f 3)); (farr nil (f 2), fins (f 2))]%list /\ 0 < 2.
Proof. cbv zeta. split; [split; [reflexivity|repeat constructor]|repeat split; simpl; lra]. Qed.

(** the two-piece exponential distribution *)
Theorem C41_2pexponential :
forall (obs scale1 scale2 location : arr) (s : list nat) (y p q m : list nat -> R),
  params s [(obs, fins y); (scale1, fins p); (scale2, fins q); (location, fins m)]%list -> (forall i, inb s i -> 0 < p i /\ 0 < q i) ->
  returns (logs_2pexponential obs scale1 scale2 location) s (fun i => logp (exponential2p_pdf (p i) (q i) (m i) (y i))) /\
  forall i, inb s i -> distribution (exponential2p_cdf (p i) (q i) (m i)) (exponential2p_pdf (p i) (q i) (m i)) m_infty p_infty.
Proof. exact C41_2pexponential_l. Qed.
Print Assumptions C41_2pexponential.
Example C41_2pexponential_ex : let f v := fun _ : list nat => v in
  params (2%nat :: nil) [(farr (2%nat :: nil) (f 3), fins (f 3)); (farr nil (f 1), fins (f 1)); (farr nil (f 2), fins (f 2)); (farr (1%nat :: nil) (f 2), fins (f 2))]%list /\ 0 < 1 /\ 0 < 2.
Proof. cbv zeta. split; [split; [reflexivity|repeat constructor]|repeat split; simpl; lra]. Qed.

(** the Laplace distribution *)
Theorem C41_laplace :
forall (obs location scale : arr) (s : list nat) (y m c : list nat -> R),
  params s [(obs, fins y); (location, fins m); (scale, fins c)]%list -> (forall i, inb s i -> 0 < c i) ->
  returns (logs_laplace obs location scale) s (fun i => logp (laplace_pdf (m i) (c i) (y i))) /\
  forall i, inb s i -> distribution (laplace_cdf (m i) (c i)) (laplace_pdf (m i) (c i)) m_infty p_infty.
Proof. exact C41_laplace_l. Qed.
Print Assumptions C41_laplace.
Example C41_laplace_ex : let f v := fun _ : list nat => v in
  params (2%nat :: nil) [(farr (2%nat :: nil) (f 3), fins (f 3)); (farr nil (f 1), fins (f 1)); (farr (1%nat :: nil) (f 2), fins (f 2))]%list /\ 0 < 2.
Proof. cbv zeta. split; [split; [reflexivity|repeat constructor]|repeat split; simpl; lra]. Qed.

(** the logistic distribution *)
Theorem C41_logistic :
forall (obs mu sigma : arr) (s : list nat) (y m c : list nat -> R),
  params s [(obs, fins y); (mu, fins m); (sigma, fins c)]%list -> (forall i, inb s i -> 0 < c i) ->
  returns (logs_logistic obs mu sigma) s (fun i => logp (logistic_pdf (m i) (c i) (y i))) /\
  forall i, inb s i -> distribution (logistic_cdf (m i) (c i)) (logistic_pdf (m i) (c i)) m_infty p_infty.
Proof. exact C41_logistic_l. Qed.
Print Assumptions C41_logistic.
Example C41_logistic_ex : let f v := fun _ : list nat => v in
  params (2%nat :: nil) [(farr (2%nat :: nil) (f 3), fins (f 3)); (farr nil (f 1), fins (f 1)); (farr (1%nat :: nil) (f 2), fins (f 2))]%list /\ 0 < 2.
Proof. cbv zeta. split; [split; [reflexivity|repeat constructor]|repeat split; simpl; lra]. Qed.

(** the normal distribution *)
Theorem C41_normal :
forall (obs mu sigma : arr) (s : list nat) (y m c : list nat -> R),
  params s [(obs, fins y); (mu, fins m); (sigma, fins c)]%list -> (forall i, inb s i -> 0 < c i) ->
  returns (logs_normal obs mu sigma true) s (fun i => logp (normal_pdf (m i) (c i) (y i))) /\
  forall i, inb s i -> distribution (normal_cdf (m i) (c i)) (normal_pdf (m i) (c i)) m_infty p_infty.
Proof. exact C41_normal_l. Qed.
Print Assumptions C41_normal.
Example C41_normal_ex : let f v := fun _ : list nat => v in
  params (2%nat :: nil) [(farr (2%nat :: nil) (f 3), fins (f 3)); (farr nil (f 1), fins (f 1)); (farr (1%nat :: nil) (f 2), fins (f 2))]%list /\ 0 < 2.
Proof. cbv zeta. split; [split; [reflexivity|repeat constructor]|repeat split; simpl; lra]. Qed.

(** the two-piece normal distribution *)
Theorem C41_2pnormal :
forall (obs scale1 scale2 location : arr) (s : list nat) (y p q m : list nat -> R),
  params s [(obs, fins y); (scale1, fins p); (scale2, fins q); (location, fins m)]%list -> (forall i, inb s i -> 0 < p i /\ 0 < q i) ->
  returns (logs_2pnormal obs scale1 scale2 location) s (fun i => logp (normal2p_pdf (p i) (q i) (m i) (y i))) /\
  forall i, inb s i -> distribution (normal2p_cdf (p i) (q i) (m i)) (normal2p_pdf (p i) (q i) (m i)) m_infty p_infty.
Proof. exact C41_2pnormal_l. Qed.
Print Assumptions C41_2pnormal.
Example C41_2pnormal_ex : let f v := fun _ : list nat => v in
  params (2%nat :: nil) [(farr (2%nat :: nil) (f 3), fins (f 3)); (farr nil (f 1), fins (f 1)); (farr nil (f 2), fins (f 2)); (farr (1%nat :: nil) (f 2), fins (f 2))]%list /\ 0 < 1 /\ 0 < 2.
Proof. cbv zeta. split; [split; [reflexivity|repeat constructor]|repeat split; simpl; lra]. Qed.

(** the log-normal distribution *)
Theorem C41_lognormal :
forall (obs mulog sigmalog : arr) (s : list nat) (y m c : list nat -> R),
  params s [(obs, fins y); (mulog, fins m); (sigmalog, fins c)]%list -> (forall i, inb s i -> 0 < c i) ->
  returns (logs_lognormal obs mulog sigmalog) s (fun i => logp (exp_pdf (normal_pdf (m i) (c i)) (y i))) /\
  forall i, inb s i -> distribution (exp_cdf (normal_cdf (m i) (c i))) (exp_pdf (normal_pdf (m i) (c i))) 0 p_infty.
Proof. exact C41_lognormal_l. Qed.
Print Assumptions C41_lognormal.
Example C41_lognormal_ex : let f v := fun _ : list nat => v in
  params (2%nat :: nil) [(farr (2%nat :: nil) (f 3), fins (f 3)); (farr nil (f 1), fins (f 1)); (farr (1%nat :: nil) (f 2), fins (f 2))]%list /\ 0 < 2.
Proof. cbv zeta. split; [split; [reflexivity|repeat constructor]|repeat split; simpl; lra]. Qed.

(** the log-laplace distribution *)
Theorem C41_loglaplace :
forall (obs locationlog scalelog : arr) (s : list nat) (y m c : list nat -> R),
  params s [(obs, fins y); (locationlog, fins m); (scalelog, fins c)]%list -> (forall i, inb s i -> 0 < c i) ->
  returns (logs_loglaplace obs locationlog scalelog) s (fun i => logp (exp_pdf (laplace_pdf (m i) (c i)) (y i))) /\
  forall i, inb s i -> distribution (exp_cdf (laplace_cdf (m i) (c i))) (exp_pdf (laplace_pdf (m i) (c i))) 0 p_infty.
Proof. exact C41_loglaplace_l. Qed.
Print Assumptions C41_loglaplace.
Example C41_loglaplace_ex : let f v := fun _ : list nat => v in
  params (2%nat :: nil) [(farr (2%nat :: nil) (f 3), fins (f 3)); (farr nil (f 1), fins (f 1)); (farr (1%nat :: nil) (f 2), fins (f 2))]%list /\ 0 < 2.
Proof. cbv zeta. split; [split; [reflexivity|repeat constructor]|repeat split; simpl; lra]. Qed.

(** the log-logistic distribution *)
Theorem C41_loglogistic :
forall (obs mulog sigmalog : arr) (s : list nat) (y m c : list nat -> R),
  params s [(obs, fins y); (mulog, fins m); (sigmalog, fins c)]%list -> (forall i, inb s i -> 0 < c i) ->
  returns (logs_loglogistic obs mulog sigmalog) s (fun i => logp (exp_pdf (logistic_pdf (m i) (c i)) (y i))) /\
  forall i, inb s i -> distribution (exp_cdf (logistic_cdf (m i) (c i))) (exp_pdf (logistic_pdf (m i) (c i))) 0 p_infty.
Proof. exact C41_loglogistic_l. Qed.
Print Assumptions C41_loglogistic.
Example C41_loglogistic_ex : let f v := fun _ : list nat => v in
  params (2%nat :: nil) [(farr (2%nat :: nil) (f 3), fins (f 3)); (farr nil (f 1), fins (f 1)); (farr (1%nat :: nil) (f 2), fins (f 2))]%list /\ 0 < 2.
Proof. cbv zeta. split; [split; [reflexivity|repeat constructor]|repeat split; simpl; lra]. Qed.

(** the uniform distribution *)
Theorem C41_uniform :
forall (obs min max : arr) (s : list nat) (y a b : list nat -> R),
  params s [(obs, fins y); (min, fins a); (max, fins b)]%list -> (forall i, inb s i -> a i < b i) ->
  returns (logs_uniform obs min max) s (fun i => logp (uniform_pdf (a i) (b i) (y i))) /\
  forall i, inb s i -> distribution (uniform_cdf (a i) (b i) 0 0) (uniform_pdf (a i) (b i)) (a i) (b i).
Proof. exact C41_uniform_l. Qed.
Print Assumptions C41_uniform.
Example C41_uniform_ex : let f v := fun _ : list nat => v in
  params (2%nat :: nil) [(farr (2%nat :: nil) (f 3), fins (f 3)); (farr nil (f 1), fins (f 1)); (farr (1%nat :: nil) (f 2), fins (f 2))]%list /\ 1 < 2.
Proof. cbv zeta. split; [split; [reflexivity|repeat constructor]|repeat split; simpl; lra]. Qed.

(** the exponential distribution with location and scale; a float array of observations of
    the full shape *)
Theorem C41_exponential2 :
forall (obs location scale : arr) (s : list nat) (y m c : list nat -> R),
  params s [(obs, fins y); (location, fins m); (scale, fins c)]%list -> dt obs = DFloat -> sh obs = s -> (forall i, inb s i -> 0 < c i) ->
  returns (logs_exponential2 obs location scale) s (fun i => logp (ls_pdf (exponential_pdf 1) (m i) (c i) (y i))) /\
  forall i, inb s i -> distribution (ls_cdf (exponential_cdf 1) (m i) (c i)) (ls_pdf (exponential_pdf 1) (m i) (c i)) (m i) p_infty.
Proof. exact C41_exponential2_l. Qed.
Print Assumptions C41_exponential2.
Example C41_exponential2_ex : let f v := fun _ : list nat => v in
  params (2%nat :: nil) [(farr (2%nat :: nil) (f 3), fins (f 3)); (farr nil (f 1), fins (f 1)); (farr (1%nat :: nil) (f 2), fins (f 2))]%list /\ 0 < 2.
Proof. cbv zeta. split; [split; [reflexivity|repeat constructor]|repeat split; simpl; lra]. Qed.

(** the generalised Pareto distribution, for any shape; observations other than a finite upper
    end of the support *)
Theorem C41_gpd :
forall (obs shape location scale : arr) (s : list nat) (y k m c : list nat -> R),
  params s [(obs, fins y); (shape, fins k); (location, fins m); (scale, fins c)]%list -> (forall i, inb s i -> 0 < c i /\ 1 + k i * ((y i - m i) / c i) <> 0) ->
  returns (logs_gpd obs shape location scale) s (fun i => logp (ls_pdf (gpd_pdf (k i)) (m i) (c i) (y i))) /\
  forall i, inb s i -> distribution (gpd_cdf (k i) (m i) (c i) 0) (ls_pdf (gpd_pdf (k i)) (m i) (c i)) (m i) (ls_end (m i) (c i) (gpd_end (k i))).
Proof. exact C41_gpd_l. Qed.
Print Assumptions C41_gpd.
Example C41_gpd_ex : let f v := fun _ : list nat => v in
  params (2%nat :: nil) [(farr (2%nat :: nil) (f 3), fins (f 3)); (farr nil (f (1 / 2)), fins (f (1 / 2))); (farr nil (f 1), fins (f 1)); (farr (1%nat :: nil) (f 2), fins (f 2))]%list /\ 0 < 2 /\ 1 + 1 / 2 * ((3 - 1) / 2) <> 0.
Proof. cbv zeta. split; [split; [reflexivity|repeat constructor]|repeat split; simpl; lra]. Qed.

(** the generalised extreme value distribution, for any shape *)
Theorem C41_gev :
forall (obs shape location scale : arr) (s : list nat) (y k m c : list nat -> R),
  params s [(obs, fins y); (shape, fins k); (location, fins m); (scale, fins c)]%list -> (forall i, inb s i -> 0 < c i) ->
  returns (logs_gev obs shape location scale) s (fun i => logp (ls_pdf (gev_pdf (k i)) (m i) (c i) (y i))) /\
  forall i, inb s i -> distribution (ls_cdf (gev_cdf (k i)) (m i) (c i)) (ls_pdf (gev_pdf (k i)) (m i) (c i))
    (ls_end (m i) (c i) (gev_lower (k i))) (ls_end (m i) (c i) (gev_upper (k i))).
Proof. exact C41_gev_l. Qed.
Print Assumptions C41_gev.
Example C41_gev_ex : let f v := fun _ : list nat => v in
  params (2%nat :: nil) [(farr (2%nat :: nil) (f 3), fins (f 3)); (farr nil (f (1 / 2)), fins (f (1 / 2))); (farr nil (f 1), fins (f 1)); (farr (1%nat :: nil) (f 2), fins (f 2))]%list /\ 0 < 2.
Proof. cbv zeta. split; [split; [reflexivity|repeat constructor]|repeat split; simpl; lra]. Qed.
