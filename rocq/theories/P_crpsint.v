(** Property C39: the closed-form CRPS is the integral of (F - 1{obs <= .})^2, for the distribution
    functions of S_dist.v.  All arguments broadcast against each other. *)
From Verif Require Import T_crpsint.
From Coq Require Import Psatz.
Open Scope R_scope.

(** the exponential distribution *)
Theorem C39_exponential :
forall (obs rate : arr) (s : list nat) (y l : list nat -> R),
  params s [(obs, fins y); (rate, fins l)]%list -> (forall i, inb s i -> 0 < l i) ->
  exists f, returns (crps_exponential obs rate) s (fins f) /\
    forall i, inb s i -> is_crps (exponential_cdf (l i)) (y i) (f i).
Proof. exact C39_exponential_l. Qed.
Print Assumptions C39_exponential.
Example C39_exponential_ex : let f v := fun _ : list nat => v in
  params (2%nat :: nil) [(farr (2%nat :: nil) (f 3), fins (f 3)); (farr nil (f 2), fins (f 2))]%list /\ 0 < 2.
Proof. cbv zeta. split; [split; [reflexivity|repeat constructor]|lra]. Qed.

(** the exponential distribution with a point mass at its location; a float array of observations of
    the full shape *)
Theorem C39_exponentialM :
forall (obs mass location scale : arr) (s : list nat) (y p m c : list nat -> R),
  params s [(obs, fins y); (mass, fins p); (location, fins m); (scale, fins c)]%list -> dt obs = DFloat -> sh obs = s ->
  (forall i, inb s i -> 0 < c i) ->
  exists f, returns (crps_exponentialM obs mass location scale) s (fins f) /\
    forall i, inb s i -> is_crps (exponentialM_cdf (p i) (m i) (c i)) (y i) (f i).
Proof. exact C39_exponentialM_l. Qed.
Print Assumptions C39_exponentialM.
Example C39_exponentialM_ex : let f v := fun _ : list nat => v in
  params (2%nat :: nil) [(farr (2%nat :: nil) (f 3), fins (f 3)); (farr nil (f (1 / 4)), fins (f (1 / 4))); (farr nil (f 1), fins (f 1)); (farr (1%nat :: nil) (f 2), fins (f 2))]%list /\ 0 < 2.
Proof. cbv zeta. split; [split; [reflexivity|repeat constructor]|lra]. Qed.

(** the two-piece exponential distribution *)
Theorem C39_2pexponential :
forall (obs scale1 scale2 location : arr) (s : list nat) (y p q m : list nat -> R),
  params s [(obs, fins y); (scale1, fins p); (scale2, fins q); (location, fins m)]%list ->
  (forall i, inb s i -> 0 < p i /\ 0 < q i) ->
  exists f, returns (crps_2pexponential obs scale1 scale2 location) s (fins f) /\
    forall i, inb s i -> is_crps (exponential2p_cdf (p i) (q i) (m i)) (y i) (f i).
Proof. exact C39_2pexponential_l. Qed.
Print Assumptions C39_2pexponential.
Example C39_2pexponential_ex : let f v := fun _ : list nat => v in
  params (2%nat :: nil) [(farr (2%nat :: nil) (f 3), fins (f 3)); (farr nil (f 1), fins (f 1)); (farr nil (f 2), fins (f 2)); (farr (1%nat :: nil) (f 2), fins (f 2))]%list /\ 0 < 2.
Proof. cbv zeta. split; [split; [reflexivity|repeat constructor]|lra]. Qed.

(** the Laplace distribution *)
Theorem C39_laplace :
forall (obs location scale : arr) (s : list nat) (y m c : list nat -> R),
  params s [(obs, fins y); (location, fins m); (scale, fins c)]%list -> (forall i, inb s i -> 0 < c i) ->
  exists f, returns (crps_laplace obs location scale) s (fins f) /\
    forall i, inb s i -> is_crps (laplace_cdf (m i) (c i)) (y i) (f i).
Proof. exact C39_laplace_l. Qed.
Print Assumptions C39_laplace.
Example C39_laplace_ex : let f v := fun _ : list nat => v in
  params (2%nat :: nil) [(farr (2%nat :: nil) (f 3), fins (f 3)); (farr nil (f 1), fins (f 1)); (farr (1%nat :: nil) (f 2), fins (f 2))]%list /\ 0 < 2.
Proof. cbv zeta. split; [split; [reflexivity|repeat constructor]|lra]. Qed.

(** the logistic distribution *)
Theorem C39_logistic :
forall (obs mu sigma : arr) (s : list nat) (y m c : list nat -> R),
  params s [(obs, fins y); (mu, fins m); (sigma, fins c)]%list -> (forall i, inb s i -> 0 < c i) ->
  exists f, returns (crps_logistic obs mu sigma) s (fins f) /\
    forall i, inb s i -> is_crps (logistic_cdf (m i) (c i)) (y i) (f i).
Proof. exact C39_logistic_l. Qed.
Print Assumptions C39_logistic.
Example C39_logistic_ex : let f v := fun _ : list nat => v in
  params (2%nat :: nil) [(farr (2%nat :: nil) (f 3), fins (f 3)); (farr nil (f 1), fins (f 1)); (farr (1%nat :: nil) (f 2), fins (f 2))]%list /\ 0 < 2.
Proof. cbv zeta. split; [split; [reflexivity|repeat constructor]|lra]. Qed.

(** the uniform distribution with point masses at its bounds *)
Theorem C39_uniform :
forall (obs min max lmass umass : arr) (s : list nat) (y a b p q : list nat -> R),
  params s [(obs, fins y); (min, fins a); (max, fins b); (lmass, fins p); (umass, fins q)]%list -> (forall i, inb s i -> a i < b i) ->
  exists f, returns (crps_uniform obs min max lmass umass) s (fins f) /\
    forall i, inb s i -> is_crps (uniform_cdf (a i) (b i) (p i) (q i)) (y i) (f i).
Proof. exact C39_uniform_l. Qed.
Print Assumptions C39_uniform.
Example C39_uniform_ex : let f v := fun _ : list nat => v in
  params (2%nat :: nil) [(farr (2%nat :: nil) (f 3), fins (f 3)); (farr nil (f 1), fins (f 1)); (farr (1%nat :: nil) (f 2), fins (f 2)); (farr nil (f (1 / 4)), fins (f (1 / 4))); (farr nil (f (1 / 2)), fins (f (1 / 2)))]%list /\ 1 < 2.
Proof. cbv zeta. split; [split; [reflexivity|repeat constructor]|lra]. Qed.

(** the generalised Pareto distribution with a point mass at its location, for shapes below one
    (positive, zero or negative) *)
Theorem C39_gpd :
forall (obs shape location scale mass : arr) (s : list nat) (y k m c p : list nat -> R),
  params s [(obs, fins y); (shape, fins k); (location, fins m); (scale, fins c); (mass, fins p)]%list ->
  (forall i, inb s i -> k i < 1 /\ 0 < c i /\ 0 <= p i <= 1) ->
  exists f, returns (crps_gpd obs shape location scale mass) s (fins f) /\
    forall i, inb s i -> is_crps (gpd_cdf (k i) (m i) (c i) (p i)) (y i) (f i).
Proof. exact C39_gpd_l. Qed.
Print Assumptions C39_gpd.
Example C39_gpd_ex : let f v := fun _ : list nat => v in
  params (2%nat :: nil) [(farr (2%nat :: nil) (f 3), fins (f 3)); (farr nil (f (- 1 / 2)), fins (f (- 1 / 2))); (farr (1%nat :: nil) (f 2), fins (f 2)); (farr nil (f 2), fins (f 2)); (farr nil (f (1 / 2)), fins (f (1 / 2)))]%list /\ - 1 / 2 < 1.
Proof. cbv zeta. split; [split; [reflexivity|repeat constructor]|lra]. Qed.
