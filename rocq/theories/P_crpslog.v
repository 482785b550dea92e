(** Property C60: the closed-form CRPS of the log-Laplace, log-logistic and log-normal distributions is the integral of
    (F - 1{obs <= .})^2 for positive observations. *)
From Verif Require Import T_crpslog.
From Coq Require Import Psatz.
From Coquelicot Require Import Rbar.
Open Scope R_scope.

(** the log-Laplace distribution; the scale is below 1, above which the CRPS is infinite *)
Theorem C60_loglaplace :
forall (obs locationlog scalelog : arr) (s : list nat) (y m c : list nat -> R),
  params s [(obs, fins y); (locationlog, fins m); (scalelog, fins c)]%list ->
  (forall i, inb s i -> 0 < c i < 1 /\ 0 < y i) ->
  exists f, returns (crps_loglaplace obs locationlog scalelog) s (fins f) /\
    forall i, inb s i -> is_crps (exp_cdf (laplace_cdf (m i) (c i))) (y i) (f i).
Proof. exact C60_loglaplace_l. Qed.
Print Assumptions C60_loglaplace.
Example C60_loglaplace_ex : let f v := fun _ : list nat => v in
  params (2%nat :: nil) [(farr (2%nat :: nil) (f 3), fins (f 3)); (farr nil (f 2), fins (f 2)); (farr nil (f (1 / 2)), fins (f (1 / 2)))]%list /\ 0 < 1 / 2 < 1 /\ 0 < 3.
Proof. cbv zeta. split; [split; [reflexivity|repeat constructor]|lra]. Qed.

(** an observation that is not positive gives NaN *)
Theorem C60_loglaplace_nonpositive_nan :
forall (obs locationlog scalelog : arr) (s : list nat) (y m c : list nat -> R),
  params s [(obs, fins y); (locationlog, fins m); (scalelog, fins c)]%list ->
  (forall i, inb s i -> 0 < c i /\ y i <= 0) ->
  returns (crps_loglaplace obs locationlog scalelog) s (fun _ => NaN).
Proof. exact C60_loglaplace_nonpositive_nan_l. Qed.
Print Assumptions C60_loglaplace_nonpositive_nan.
Example C60_loglaplace_nonpositive_nan_ex : let f v := fun _ : list nat => v in
  params (2%nat :: nil) [(farr (2%nat :: nil) (f 0), fins (f 0)); (farr nil (f 2), fins (f 2)); (farr nil (f (1 / 2)), fins (f (1 / 2)))]%list /\ 0 < 1 / 2 /\ 0 <= 0.
Proof. cbv zeta. split; [split; [reflexivity|repeat constructor]|lra]. Qed.

(** the log-logistic distribution; the scale is below 1, above which the CRPS is infinite *)
Theorem C60_loglogistic :
forall (obs mulog sigmalog : arr) (s : list nat) (y m c : list nat -> R),
  params s [(obs, fins y); (mulog, fins m); (sigmalog, fins c)]%list ->
  (forall i, inb s i -> 0 < c i < 1 /\ 0 <= y i) ->
  exists f, returns (crps_loglogistic obs mulog sigmalog) s (fins f) /\
    forall i, inb s i -> is_crps (exp_cdf (logistic_cdf (m i) (c i))) (y i) (f i).
Proof. exact C60_loglogistic_l. Qed.
Print Assumptions C60_loglogistic.
Example C60_loglogistic_ex : let f v := fun _ : list nat => v in
  params (2%nat :: nil) [(farr (2%nat :: nil) (f 3), fins (f 3)); (farr nil (f 2), fins (f 2)); (farr nil (f (1 / 2)), fins (f (1 / 2)))]%list /\ 0 < 1 / 2 < 1 /\ 0 <= 3.
Proof. cbv zeta. split; [split; [reflexivity|repeat constructor]|lra]. Qed.

(** a negative observation gives NaN *)
Theorem C60_loglogistic_negative_nan :
forall (obs mulog sigmalog : arr) (s : list nat) (y m c : list nat -> R),
  params s [(obs, fins y); (mulog, fins m); (sigmalog, fins c)]%list ->
  (forall i, inb s i -> y i < 0) ->
  returns (crps_loglogistic obs mulog sigmalog) s (fun _ => NaN).
Proof. exact C60_loglogistic_negative_nan_l. Qed.
Print Assumptions C60_loglogistic_negative_nan.
Example C60_loglogistic_negative_nan_ex : let f v := fun _ : list nat => v in
  params (2%nat :: nil) [(farr (2%nat :: nil) (f (-1)), fins (f (-1))); (farr nil (f 2), fins (f 2)); (farr nil (f (1 / 2)), fins (f (1 / 2)))]%list /\ -1 < 0.
Proof. cbv zeta. split; [split; [reflexivity|repeat constructor]|lra]. Qed.

(** the log-normal distribution *)
Theorem C60_lognormal :
forall (obs mulog sigmalog : arr) (s : list nat) (y m c : list nat -> R),
  params s [(obs, fins y); (mulog, fins m); (sigmalog, fins c)]%list ->
  (forall i, inb s i -> 0 < c i /\ 0 <= y i) ->
  exists f, returns (crps_lognormal obs mulog sigmalog) s (fins f) /\
    forall i, inb s i -> is_crps (exp_cdf (normal_cdf (m i) (c i))) (y i) (f i).
Proof. exact C60_lognormal_l. Qed.
Print Assumptions C60_lognormal.
Example C60_lognormal_ex : let f v := fun _ : list nat => v in
  params (2%nat :: nil) [(farr (2%nat :: nil) (f 3), fins (f 3)); (farr nil (f 2), fins (f 2)); (farr nil (f 2), fins (f 2))]%list /\ 0 < 2 /\ 0 <= 3.
Proof. cbv zeta. split; [split; [reflexivity|repeat constructor]|lra]. Qed.

(** a negative observation gives NaN *)
Theorem C60_lognormal_negative_nan :
forall (obs mulog sigmalog : arr) (s : list nat) (y m c : list nat -> R),
  params s [(obs, fins y); (mulog, fins m); (sigmalog, fins c)]%list ->
  (forall i, inb s i -> y i < 0) ->
  returns (crps_lognormal obs mulog sigmalog) s (fun _ => NaN).
Proof. exact C60_lognormal_negative_nan_l. Qed.
Print Assumptions C60_lognormal_negative_nan.
Example C60_lognormal_negative_nan_ex : let f v := fun _ : list nat => v in
  params (2%nat :: nil) [(farr (2%nat :: nil) (f (-1)), fins (f (-1))); (farr nil (f 2), fins (f 2)); (farr nil (f 2), fins (f 2))]%list /\ -1 < 0.
Proof. cbv zeta. split; [split; [reflexivity|repeat constructor]|lra]. Qed.

(** at a negative observation the CRPS of the three distributions is a number and the calls give NaN *)
Theorem C60_negative_refuted :
exists obs m c : arr, params nil [(obs, fun _ => Fin (-1)); (m, fun _ => Fin 0); (c, fun _ => Fin (1 / 2))]%list /\
  ((exists v, is_crps (exp_cdf (laplace_cdf 0 (1 / 2))) (-1) v) /\ returns (crps_loglaplace obs m c) nil (fun _ => NaN)) /\
  ((exists v, is_crps (exp_cdf (logistic_cdf 0 (1 / 2))) (-1) v) /\ returns (crps_loglogistic obs m c) nil (fun _ => NaN)) /\
  ((exists v, is_crps (exp_cdf (normal_cdf 0 (1 / 2))) (-1) v) /\ returns (crps_lognormal obs m c) nil (fun _ => NaN)).
Proof. exact C60_negative_refuted_l. Qed.
Print Assumptions C60_negative_refuted.
