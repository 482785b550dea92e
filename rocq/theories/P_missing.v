(** Property C74: NaN and infinite arguments of the parametric scores.  [s] is the broadcast shape,
    [y i] the observation and [f i], [g i], ... the parameters used at position [i]. *)
From Verif Require Import T_missing.
From Coq Require Import Psatz.
Open Scope R_scope.

(** C74.  A NaN observation or rate makes the score NaN. *)
Theorem C74_crps_nan_two :
forall (obs p1 : arr) (s : list nat) (y f1 : list nat -> num),
  params s [(obs, y); (p1, f1)]%list ->
  nan_propagates (crps_exponential obs p1) s [y; f1]%list /\
  nan_propagates (crps_poisson obs p1) s [y; f1]%list.
Proof. exact C74_crps_nan_two_l. Qed.
Print Assumptions C74_crps_nan_two.
(** the observation is missing, the parameters are not *)
Example C74_crps_nan_two_case : params nil [(num0 (NaN), fun _ => NaN); (num0 (Fin 1), fun _ => Fin 1)]%list /\ (NaN = NaN :> num).
Proof. split; [split; [reflexivity|repeat constructor]|reflexivity]. Qed.

(** C74.  A NaN observation or parameter makes the score NaN. *)
Theorem C74_crps_nan_three :
forall (obs p1 p2 : arr) (s : list nat) (y f1 f2 : list nat -> num),
  params s [(obs, y); (p1, f1); (p2, f2)]%list ->
  nan_propagates (crps_normal obs p1 p2) s [y; f1; f2]%list /\
  nan_propagates (crps_laplace obs p1 p2) s [y; f1; f2]%list /\
  nan_propagates (crps_logistic obs p1 p2) s [y; f1; f2]%list /\
  nan_propagates (crps_loglogistic obs p1 p2) s [y; f1; f2]%list /\
  nan_propagates (crps_lognormal obs p1 p2) s [y; f1; f2]%list /\
  nan_propagates (crps_gamma obs p1 (Some p2) None) s [y; f1; f2]%list /\
  nan_propagates (crps_gamma obs p1 None (Some p2)) s [y; f1; f2]%list /\
  nan_propagates (crps_negbinom obs p1 (Some p2) None) s [y; f1; f2]%list /\
  nan_propagates (crps_negbinom obs p1 None (Some p2)) s [y; f1; f2]%list.
Proof. exact C74_crps_nan_three_l. Qed.
Print Assumptions C74_crps_nan_three.
(** the observation is missing, the parameters are not *)
Example C74_crps_nan_three_case : params nil [(num0 (NaN), fun _ => NaN); (num0 (Fin 1), fun _ => Fin 1); (num0 (Fin 2), fun _ => Fin 2)]%list /\ (NaN = NaN :> num).
Proof. split; [split; [reflexivity|repeat constructor]|reflexivity]. Qed.

(** C74.  A NaN observation or parameter makes the score NaN. *)
Theorem C74_crps_nan_four :
forall (obs p1 p2 p3 : arr) (s : list nat) (y f1 f2 f3 : list nat -> num),
  params s [(obs, y); (p1, f1); (p2, f2); (p3, f3)]%list ->
  nan_propagates (crps_2pexponential obs p1 p2 p3) s [y; f1; f2; f3]%list /\
  nan_propagates (crps_2pnormal obs p1 p2 p3) s [y; f1; f2; f3]%list /\
  nan_propagates (crps_t obs p1 p2 p3) s [y; f1; f2; f3]%list /\
  nan_propagates (crps_csg0 obs p1 (Some p2) None p3) s [y; f1; f2; f3]%list /\
  nan_propagates (crps_csg0 obs p1 None (Some p2) p3) s [y; f1; f2; f3]%list.
Proof. exact C74_crps_nan_four_l. Qed.
Print Assumptions C74_crps_nan_four.
(** the observation is missing, the parameters are not *)
Example C74_crps_nan_four_case : params nil [(num0 (NaN), fun _ => NaN); (num0 (Fin 1), fun _ => Fin 1); (num0 (Fin 2), fun _ => Fin 2); (num0 (Fin 3), fun _ => Fin 3)]%list /\ (NaN = NaN :> num).
Proof. split; [split; [reflexivity|repeat constructor]|reflexivity]. Qed.

(** C74.  A NaN observation, parameter or bound makes the score NaN. *)
Theorem C74_crps_nan_five :
forall (obs p1 p2 p3 p4 : arr) (s : list nat) (y f1 f2 f3 f4 : list nat -> num),
  params s [(obs, y); (p1, f1); (p2, f2); (p3, f3); (p4, f4)]%list ->
  nan_propagates (crps_gpd obs p1 p2 p3 p4) s [y; f1; f2; f3; f4]%list /\
  nan_propagates (crps_uniform obs p1 p2 p3 p4) s [y; f1; f2; f3; f4]%list /\
  nan_propagates (crps_tnormal obs p1 p2 p3 p4) s [y; f1; f2; f3; f4]%list /\
  nan_propagates (crps_cnormal obs p1 p2 p3 p4) s [y; f1; f2; f3; f4]%list /\
  nan_propagates (crps_tlogistic obs p1 p2 p3 p4) s [y; f1; f2; f3; f4]%list /\
  nan_propagates (crps_clogistic obs p1 p2 p3 p4) s [y; f1; f2; f3; f4]%list.
Proof. exact C74_crps_nan_five_l. Qed.
Print Assumptions C74_crps_nan_five.
(** the observation is missing, the parameters are not *)
Example C74_crps_nan_five_case : params nil [(num0 (NaN), fun _ => NaN); (num0 (Fin 1), fun _ => Fin 1); (num0 (Fin 2), fun _ => Fin 2); (num0 (Fin 3), fun _ => Fin 3); (num0 (Fin 4), fun _ => Fin 4)]%list /\ (NaN = NaN :> num).
Proof. split; [split; [reflexivity|repeat constructor]|reflexivity]. Qed.

(** C74.  A NaN observation, parameter or bound makes the score NaN. *)
Theorem C74_crps_nan_six :
forall (obs p1 p2 p3 p4 p5 : arr) (s : list nat) (y f1 f2 f3 f4 f5 : list nat -> num),
  params s [(obs, y); (p1, f1); (p2, f2); (p3, f3); (p4, f4); (p5, f5)]%list ->
  nan_propagates (crps_tt obs p1 p2 p3 p4 p5) s [y; f1; f2; f3; f4; f5]%list /\
  nan_propagates (crps_ct obs p1 p2 p3 p4 p5) s [y; f1; f2; f3; f4; f5]%list.
Proof. exact C74_crps_nan_six_l. Qed.
Print Assumptions C74_crps_nan_six.
(** the observation is missing, the parameters are not *)
Example C74_crps_nan_six_case : params nil [(num0 (NaN), fun _ => NaN); (num0 (Fin 1), fun _ => Fin 1); (num0 (Fin 2), fun _ => Fin 2); (num0 (Fin 3), fun _ => Fin 3); (num0 (Fin 4), fun _ => Fin 4); (num0 (Fin 5), fun _ => Fin 5)]%list /\ (NaN = NaN :> num).
Proof. split; [split; [reflexivity|repeat constructor]|reflexivity]. Qed.

(** C74.  A NaN observation, parameter, bound or point mass makes the score NaN. *)
Theorem C74_crps_nan_seven :
forall (obs p1 p2 p3 p4 p5 p6 : arr) (s : list nat) (y f1 f2 f3 f4 f5 f6 : list nat -> num),
  params s [(obs, y); (p1, f1); (p2, f2); (p3, f3); (p4, f4); (p5, f5); (p6, f6)]%list ->
  nan_propagates (crps_gtcnormal obs p1 p2 p3 p4 p5 p6) s [y; f1; f2; f3; f4; f5; f6]%list /\
  nan_propagates (crps_gtclogistic obs p1 p2 p3 p4 p5 p6) s [y; f1; f2; f3; f4; f5; f6]%list.
Proof. exact C74_crps_nan_seven_l. Qed.
Print Assumptions C74_crps_nan_seven.
(** the observation is missing, the parameters are not *)
Example C74_crps_nan_seven_case : params nil [(num0 (NaN), fun _ => NaN); (num0 (Fin 1), fun _ => Fin 1); (num0 (Fin 2), fun _ => Fin 2); (num0 (Fin 3), fun _ => Fin 3); (num0 (Fin 4), fun _ => Fin 4); (num0 (Fin 5), fun _ => Fin 5); (num0 (Fin 6), fun _ => Fin 6)]%list /\ (NaN = NaN :> num).
Proof. split; [split; [reflexivity|repeat constructor]|reflexivity]. Qed.

(** C74.  A NaN observation, parameter, bound or point mass makes the score NaN. *)
Theorem C74_crps_nan_eight :
forall (obs p1 p2 p3 p4 p5 p6 p7 : arr) (s : list nat) (y f1 f2 f3 f4 f5 f6 f7 : list nat -> num),
  params s [(obs, y); (p1, f1); (p2, f2); (p3, f3); (p4, f4); (p5, f5); (p6, f6); (p7, f7)]%list ->
  nan_propagates (crps_gtct obs p1 p2 p3 p4 p5 p6 p7) s [y; f1; f2; f3; f4; f5; f6; f7]%list.
Proof. exact C74_crps_nan_eight_l. Qed.
Print Assumptions C74_crps_nan_eight.
(** the observation is missing, the parameters are not *)
Example C74_crps_nan_eight_case : params nil [(num0 (NaN), fun _ => NaN); (num0 (Fin 1), fun _ => Fin 1); (num0 (Fin 2), fun _ => Fin 2); (num0 (Fin 3), fun _ => Fin 3); (num0 (Fin 4), fun _ => Fin 4); (num0 (Fin 5), fun _ => Fin 5); (num0 (Fin 6), fun _ => Fin 6); (num0 (Fin 7), fun _ => Fin 7)]%list /\ (NaN = NaN :> num).
Proof. split; [split; [reflexivity|repeat constructor]|reflexivity]. Qed.

(** C74.  A NaN observation or parameter makes the log score NaN. *)
Theorem C74_logs_nan_three :
forall (obs p1 p2 : arr) (s : list nat) (y f1 f2 : list nat -> num),
  params s [(obs, y); (p1, f1); (p2, f2)]%list ->
  nan_propagates (logs_normal obs p1 p2 true) s [y; f1; f2]%list /\
  nan_propagates (logs_laplace obs p1 p2) s [y; f1; f2]%list /\
  nan_propagates (logs_logistic obs p1 p2) s [y; f1; f2]%list.
Proof. exact C74_logs_nan_three_l. Qed.
Print Assumptions C74_logs_nan_three.
(** the observation is missing, the parameters are not *)
Example C74_logs_nan_three_case : params nil [(num0 (NaN), fun _ => NaN); (num0 (Fin 1), fun _ => Fin 1); (num0 (Fin 2), fun _ => Fin 2)]%list /\ (NaN = NaN :> num).
Proof. split; [split; [reflexivity|repeat constructor]|reflexivity]. Qed.

(** C74.  A NaN observation or parameter makes the log score NaN. *)
Theorem C74_logs_nan_four :
forall (obs p1 p2 p3 : arr) (s : list nat) (y f1 f2 f3 : list nat -> num),
  params s [(obs, y); (p1, f1); (p2, f2); (p3, f3)]%list ->
  nan_propagates (logs_2pnormal obs p1 p2 p3) s [y; f1; f2; f3]%list /\
  nan_propagates (logs_2pexponential obs p1 p2 p3) s [y; f1; f2; f3]%list.
Proof. exact C74_logs_nan_four_l. Qed.
Print Assumptions C74_logs_nan_four.
(** the observation is missing, the parameters are not *)
Example C74_logs_nan_four_case : params nil [(num0 (NaN), fun _ => NaN); (num0 (Fin 1), fun _ => Fin 1); (num0 (Fin 2), fun _ => Fin 2); (num0 (Fin 3), fun _ => Fin 3)]%list /\ (NaN = NaN :> num).
Proof. split; [split; [reflexivity|repeat constructor]|reflexivity]. Qed.

(** C74.  A NaN observation or rate makes the log score NaN, or +inf outside the support: never finite. *)
Theorem C74_logs_not_finite_two :
forall (obs p1 : arr) (s : list nat) (y f1 : list nat -> num),
  params s [(obs, y); (p1, f1)]%list ->
  nan_not_finite (logs_exponential obs p1) s [y; f1]%list /\
  nan_not_finite (logs_poisson obs p1) s [y; f1]%list.
Proof. exact C74_logs_not_finite_two_l. Qed.
Print Assumptions C74_logs_not_finite_two.
(** the observation is missing, the parameters are not *)
Example C74_logs_not_finite_two_case : params nil [(num0 (NaN), fun _ => NaN); (num0 (Fin 1), fun _ => Fin 1)]%list /\ (NaN = NaN :> num).
Proof. split; [split; [reflexivity|repeat constructor]|reflexivity]. Qed.

(** C74.  A NaN observation or parameter makes the log score NaN, or +inf outside the support: never finite. *)
Theorem C74_logs_not_finite_three :
forall (obs p1 p2 : arr) (s : list nat) (y f1 f2 : list nat -> num),
  params s [(obs, y); (p1, f1); (p2, f2)]%list ->
  nan_not_finite (logs_loglaplace obs p1 p2) s [y; f1; f2]%list /\
  nan_not_finite (logs_loglogistic obs p1 p2) s [y; f1; f2]%list /\
  nan_not_finite (logs_lognormal obs p1 p2) s [y; f1; f2]%list /\
  nan_not_finite (logs_gamma obs p1 (Some p2) None) s [y; f1; f2]%list /\
  nan_not_finite (logs_gamma obs p1 None (Some p2)) s [y; f1; f2]%list.
Proof. exact C74_logs_not_finite_three_l. Qed.
Print Assumptions C74_logs_not_finite_three.
(** the observation is missing, the parameters are not *)
Example C74_logs_not_finite_three_case : params nil [(num0 (NaN), fun _ => NaN); (num0 (Fin 1), fun _ => Fin 1); (num0 (Fin 2), fun _ => Fin 2)]%list /\ (NaN = NaN :> num).
Proof. split; [split; [reflexivity|repeat constructor]|reflexivity]. Qed.

(** C74.  A NaN observation or parameter makes the log score NaN or +inf: never finite. *)
Theorem C74_logs_not_finite_four :
forall (obs p1 p2 p3 : arr) (s : list nat) (y f1 f2 f3 : list nat -> num),
  params s [(obs, y); (p1, f1); (p2, f2); (p3, f3)]%list ->
  nan_not_finite (logs_gpd obs p1 p2 p3) s [y; f1; f2; f3]%list.
Proof. exact C74_logs_not_finite_four_l. Qed.
Print Assumptions C74_logs_not_finite_four.
(** the observation is missing, the parameters are not *)
Example C74_logs_not_finite_four_case : params nil [(num0 (NaN), fun _ => NaN); (num0 (Fin 1), fun _ => Fin 1); (num0 (Fin 2), fun _ => Fin 2); (num0 (Fin 3), fun _ => Fin 3)]%list /\ (NaN = NaN :> num).
Proof. split; [split; [reflexivity|repeat constructor]|reflexivity]. Qed.

(** C74.  A NaN observation, parameter or bound makes the log score NaN or +inf: never finite. *)
Theorem C74_logs_not_finite_five :
forall (obs p1 p2 p3 p4 : arr) (s : list nat) (y f1 f2 f3 f4 : list nat -> num),
  params s [(obs, y); (p1, f1); (p2, f2); (p3, f3); (p4, f4)]%list ->
  nan_not_finite (logs_tnormal obs p1 p2 p3 p4) s [y; f1; f2; f3; f4]%list /\
  nan_not_finite (logs_tlogistic obs p1 p2 p3 p4) s [y; f1; f2; f3; f4]%list.
Proof. exact C74_logs_not_finite_five_l. Qed.
Print Assumptions C74_logs_not_finite_five.
(** the observation is missing, the parameters are not *)
Example C74_logs_not_finite_five_case : params nil [(num0 (NaN), fun _ => NaN); (num0 (Fin 1), fun _ => Fin 1); (num0 (Fin 2), fun _ => Fin 2); (num0 (Fin 3), fun _ => Fin 3); (num0 (Fin 4), fun _ => Fin 4)]%list /\ (NaN = NaN :> num).
Proof. split; [split; [reflexivity|repeat constructor]|reflexivity]. Qed.

(** C74.  An observation +inf or -inf scores +inf. *)
Theorem C74_infinite_two :
forall (obs p1 : arr) (s : list nat) (y : list nat -> num) (f1 : list nat -> R),
  params s [(obs, y); (p1, fins f1)]%list ->
  (forall i, inb s i -> 0 < f1 i) ->
  infinite_gives_infinity (crps_exponential obs p1) s y /\
  infinite_gives_infinity (logs_exponential obs p1) s y.
Proof. exact C74_infinite_two_l. Qed.
Print Assumptions C74_infinite_two.
(** an infinite observation and admissible parameters *)
Example C74_infinite_two_case : params nil [(num0 PInf, fun _ => PInf); (farr nil (fun _ => 1), fins (fun _ => 1))]%list /\ 0 < 1.
Proof. split; [split; [reflexivity|repeat constructor]|lra]. Qed.

(** C74.  An observation +inf or -inf scores +inf. *)
Theorem C74_infinite_three :
forall (obs p1 p2 : arr) (s : list nat) (y : list nat -> num) (f1 f2 : list nat -> R),
  params s [(obs, y); (p1, fins f1); (p2, fins f2)]%list ->
  (forall i, inb s i -> 0 < f2 i) ->
  infinite_gives_infinity (crps_normal obs p1 p2) s y /\
  infinite_gives_infinity (crps_laplace obs p1 p2) s y /\
  infinite_gives_infinity (logs_normal obs p1 p2 true) s y /\
  infinite_gives_infinity (logs_laplace obs p1 p2) s y /\
  infinite_gives_infinity (logs_loglaplace obs p1 p2) s y /\
  infinite_gives_infinity (logs_loglogistic obs p1 p2) s y /\
  infinite_gives_infinity (logs_lognormal obs p1 p2) s y /\
  obs_gives PInf PInf (crps_logistic obs p1 p2) s y /\
  obs_gives PInf PInf (logs_logistic obs p1 p2) s y.
Proof. exact C74_infinite_three_l. Qed.
Print Assumptions C74_infinite_three.
(** an infinite observation and admissible parameters *)
Example C74_infinite_three_case : params nil [(num0 PInf, fun _ => PInf); (farr nil (fun _ => 0), fins (fun _ => 0)); (farr nil (fun _ => 1), fins (fun _ => 1))]%list /\ 0 < 1.
Proof. split; [split; [reflexivity|repeat constructor]|lra]. Qed.

(** C74.  An observation +inf or -inf scores +inf. *)
Theorem C74_infinite_four :
forall (obs p1 p2 p3 : arr) (s : list nat) (y : list nat -> num) (f1 f2 f3 : list nat -> R),
  params s [(obs, y); (p1, fins f1); (p2, fins f2); (p3, fins f3)]%list ->
  (forall i, inb s i -> 0 < f1 i /\ 0 < f2 i) ->
  infinite_gives_infinity (crps_2pexponential obs p1 p2 p3) s y /\
  infinite_gives_infinity (logs_2pexponential obs p1 p2 p3) s y /\
  infinite_gives_infinity (logs_2pnormal obs p1 p2 p3) s y.
Proof. exact C74_infinite_four_l. Qed.
Print Assumptions C74_infinite_four.
(** an infinite observation and admissible parameters *)
Example C74_infinite_four_case : params nil [(num0 PInf, fun _ => PInf); (farr nil (fun _ => 1), fins (fun _ => 1)); (farr nil (fun _ => 2), fins (fun _ => 2)); (farr nil (fun _ => 0), fins (fun _ => 0))]%list /\ 0 < 1 /\ 0 < 2.
Proof. split; [split; [reflexivity|repeat constructor]|lra]. Qed.

(** C74.  An observation +inf or -inf scores +inf. *)
Theorem C74_infinite_uniform :
forall (obs p1 p2 p3 p4 : arr) (s : list nat) (y : list nat -> num) (f1 f2 f3 f4 : list nat -> R),
  params s [(obs, y); (p1, fins f1); (p2, fins f2); (p3, fins f3); (p4, fins f4)]%list ->
  (forall i, inb s i -> f1 i < f2 i /\ 0 <= f3 i /\ 0 <= f4 i /\ f3 i + f4 i < 1) ->
  infinite_gives_infinity (crps_uniform obs p1 p2 p3 p4) s y.
Proof. exact C74_infinite_uniform_l. Qed.
Print Assumptions C74_infinite_uniform.
(** an infinite observation and admissible parameters *)
Example C74_infinite_uniform_case : params nil [(num0 PInf, fun _ => PInf); (farr nil (fun _ => 0), fins (fun _ => 0)); (farr nil (fun _ => 1), fins (fun _ => 1)); (farr nil (fun _ => 0), fins (fun _ => 0)); (farr nil (fun _ => 1 / 2), fins (fun _ => 1 / 2))]%list /\ 0 < 1 /\ 0 <= 0 /\ 0 <= 1 / 2 /\ 0 + 1 / 2 < 1.
Proof. split; [split; [reflexivity|repeat constructor]|lra]. Qed.

(** C74.  An observation +inf or -inf has log score +inf. *)
Theorem C74_infinite_truncated :
forall (obs p1 p2 p3 p4 : arr) (s : list nat) (y : list nat -> num) (f1 f2 f3 f4 : list nat -> R),
  params s [(obs, y); (p1, fins f1); (p2, fins f2); (p3, fins f3); (p4, fins f4)]%list ->
  (forall i, inb s i -> 0 < f2 i /\ f3 i < f4 i) ->
  infinite_gives_infinity (logs_tnormal obs p1 p2 p3 p4) s y /\
  infinite_gives_infinity (logs_tlogistic obs p1 p2 p3 p4) s y.
Proof. exact C74_infinite_truncated_l. Qed.
Print Assumptions C74_infinite_truncated.
(** an infinite observation and admissible parameters *)
Example C74_infinite_truncated_case : params nil [(num0 PInf, fun _ => PInf); (farr nil (fun _ => 0), fins (fun _ => 0)); (farr nil (fun _ => 1), fins (fun _ => 1)); (farr nil (fun _ => 0), fins (fun _ => 0)); (farr nil (fun _ => 2), fins (fun _ => 2))]%list /\ 0 < 1 /\ 0 < 2.
Proof. split; [split; [reflexivity|repeat constructor]|lra]. Qed.

(** C74.  At -inf the formulas of the logistic, lognormal and loglogistic CRPS and of the logistic log score subtract infinities or divide them: NaN instead of +inf, at all admissible parameters. *)
Theorem C74_infinite_below_refuted :
forall (obs p1 p2 : arr) (s : list nat) (y : list nat -> num) (f1 f2 : list nat -> R),
  params s [(obs, y); (p1, fins f1); (p2, fins f2)]%list ->
  (forall i, inb s i -> 0 < f2 i) ->
  obs_gives NInf NaN (crps_logistic obs p1 p2) s y /\
  obs_gives NInf NaN (crps_lognormal obs p1 p2) s y /\
  obs_gives NInf NaN (crps_loglogistic obs p1 p2) s y /\
  obs_gives NInf NaN (logs_logistic obs p1 p2) s y.
Proof. exact C74_infinite_below_refuted_l. Qed.
Print Assumptions C74_infinite_below_refuted.
(** an infinite observation and admissible parameters *)
Example C74_infinite_below_refuted_case : params nil [(num0 NInf, fun _ => NInf); (farr nil (fun _ => 0), fins (fun _ => 0)); (farr nil (fun _ => 1), fins (fun _ => 1))]%list /\ 0 < 1.
Proof. split; [split; [reflexivity|repeat constructor]|lra]. Qed.

(** C74.  At +inf the Poisson CRPS is NaN instead of +inf. *)
Theorem C74_infinite_poisson_refuted :
forall (obs p1 : arr) (s : list nat) (y : list nat -> num) (f1 : list nat -> R),
  params s [(obs, y); (p1, fins f1)]%list ->
  (forall i, inb s i -> 0 < f1 i) ->
  obs_gives PInf NaN (crps_poisson obs p1) s y.
Proof. exact C74_infinite_poisson_refuted_l. Qed.
Print Assumptions C74_infinite_poisson_refuted.
(** an infinite observation and admissible parameters *)
Example C74_infinite_poisson_refuted_case : params nil [(num0 PInf, fun _ => PInf); (farr nil (fun _ => 1), fins (fun _ => 1))]%list /\ 0 < 1.
Proof. split; [split; [reflexivity|repeat constructor]|lra]. Qed.

(** C74.  At +inf the negative binomial CRPS is NaN instead of +inf. *)
Theorem C74_infinite_negbinom_refuted :
forall (obs p1 p2 : arr) (s : list nat) (y : list nat -> num) (f1 f2 : list nat -> R),
  params s [(obs, y); (p1, fins f1); (p2, fins f2)]%list ->
  (forall i, inb s i -> 0 < f1 i /\ 0 < f2 i < 1) ->
  obs_gives PInf NaN (crps_negbinom obs p1 (Some p2) None) s y.
Proof. exact C74_infinite_negbinom_refuted_l. Qed.
Print Assumptions C74_infinite_negbinom_refuted.
(** an infinite observation and admissible parameters *)
Example C74_infinite_negbinom_refuted_case : params nil [(num0 PInf, fun _ => PInf); (farr nil (fun _ => 1), fins (fun _ => 1)); (farr nil (fun _ => 1 / 2), fins (fun _ => 1 / 2))]%list /\ 0 < 1 /\ 0 < 1 / 2 < 1.
Proof. split; [split; [reflexivity|repeat constructor]|lra]. Qed.

(** C74.  At +inf the two-piece normal CRPS is NaN instead of +inf, because the observation is compared with the infinite upper bound by inf - inf. *)
Theorem C74_infinite_2pnormal_refuted :
forall (obs p1 p2 p3 : arr) (s : list nat) (y : list nat -> num) (f1 f2 f3 : list nat -> R),
  params s [(obs, y); (p1, fins f1); (p2, fins f2); (p3, fins f3)]%list ->
  (forall i, inb s i -> 0 < f1 i /\ 0 < f2 i) ->
  obs_gives PInf NaN (crps_2pnormal obs p1 p2 p3) s y.
Proof. exact C74_infinite_2pnormal_refuted_l. Qed.
Print Assumptions C74_infinite_2pnormal_refuted.
(** an infinite observation and admissible parameters *)
Example C74_infinite_2pnormal_refuted_case : params nil [(num0 PInf, fun _ => PInf); (farr nil (fun _ => 1), fins (fun _ => 1)); (farr nil (fun _ => 2), fins (fun _ => 2)); (farr nil (fun _ => 0), fins (fun _ => 0))]%list /\ 0 < 1 /\ 0 < 2.
Proof. split; [split; [reflexivity|repeat constructor]|lra]. Qed.

(** C74.  The uniform log score of a NaN observation is finite: the density selects the value outside the interval by comparisons that are all false at NaN. *)
Theorem C74_logs_uniform_nan_refuted :
forall (obs min max : arr) (s : list nat) (y : list nat -> num) (a b : list nat -> R),
  params s [(obs, y); (min, fins a); (max, fins b)]%list -> (forall i, inb s i -> a i < b i) ->
  exists f, returns (logs_uniform obs min max) s f /\ forall i, inb s i -> y i = NaN -> f i = Fin (ln (b i - a i)).
Proof. exact C74_logs_uniform_nan_refuted_l. Qed.
Print Assumptions C74_logs_uniform_nan_refuted.
(** the interval [0, 2]: ln 2 *)
Example C74_logs_uniform_nan_case : params nil [(num0 NaN, fun _ => NaN); (farr nil (fun _ => 0), fins (fun _ => 0)); (farr nil (fun _ => 2), fins (fun _ => 2))]%list /\ 0 < 2.
Proof. split; [split; [reflexivity|repeat constructor]|lra]. Qed.
