(** Properties C81 and C82: rounding errors in binary64. *)
From Coq Require Import Reals List ZArith Permutation Lia Lra.
From Verif Require Import M_crps T_round.
Open Scope R_scope.

(** C81.  b64 is rounding to nearest: the result is a number of the format, no number of the format is closer, numbers of the format stay, and order is kept. *)
Theorem C81_rounding :
forall x, is64 (b64 x) /\ (forall z, is64 z -> Rabs (b64 x - x) <= Rabs (z - x)) /\ (is64 x -> b64 x = x) /\ (forall y, x <= y -> b64 x <= b64 y) /\
  (/ 2 ^ 1022 <= Rabs x -> Rabs (b64 x - x) <= u64 * Rabs x).
Proof. exact C81_rounding_l. Qed.
Print Assumptions C81_rounding.
Example C81_rounding_ex : is64 (b64 (/ 10)) /\ b64 3 = 3.
Proof. split; [apply C81_rounding|]. apply (C81_rounding 3), (ex_int 3). lia. Qed.

(** C81.  The computed quantile score is not negative, zero for a forecast equal to the observation, and does not decrease when the forecast moves away from the observation. *)
Theorem C81_quantile :
forall obs alpha, 0 <= alpha <= 1 ->
  (forall fct, 0 <= quantile_score_r b64 obs fct alpha) /\ quantile_score_r b64 obs obs alpha = 0 /\
  forall f g, obs <= f <= g \/ g <= f <= obs -> quantile_score_r b64 obs f alpha <= quantile_score_r b64 obs g alpha.
Proof. exact C81_quantile_l. Qed.
Print Assumptions C81_quantile.
Example C81_quantile_ex : quantile_score_r b64 0 1 (/ 10) <= quantile_score_r b64 0 2 (/ 10).
Proof. apply (C81_quantile 0 (/ 10)); lra. Qed.

(** C81.  Away from underflow the computed quantile score has a relative error of at most three roundings. *)
Theorem C81_quantile_error :
forall obs fct alpha, is64 obs -> is64 fct -> is64 alpha -> 0 <= alpha <= 1 -> apart 900 fct obs -> apart 100 alpha 0 -> apart 100 1 alpha ->
  within 3 (quantile_score_r b64 obs fct alpha) ((ind_lt obs fct - alpha) * (fct - obs)).
Proof. exact C81_quantile_error_l. Qed.
Print Assumptions C81_quantile_error.
Example C81_quantile_error_ex : within 3 (quantile_score_r b64 1 3 (/ 2)) ((ind_lt 1 3 - / 2) * (3 - 1)).
Proof.
  apply C81_quantile_error; [apply (ex_int 1); lia|apply (ex_int 3); lia|exact ex_half|lra| | |]; apply ex_apart; rewrite Rabs_right; lra.
Qed.

(** C81.  The computed Brier score of a probability lies in [0, 1], is zero for the outcome itself and one for the opposite, does not decrease when the forecast moves away from the outcome, and away from underflow has a relative error of at most three roundings. *)
Theorem C81_brier :
forall obs fct, obs = 0 \/ obs = 1 -> 0 <= fct <= 1 ->
  0 <= brier_score_r b64 obs fct <= 1 /\ brier_score_r b64 obs obs = 0 /\ brier_score_r b64 obs (1 - obs) = 1 /\
  (forall g, Rabs (fct - obs) <= Rabs (g - obs) -> brier_score_r b64 obs fct <= brier_score_r b64 obs g) /\
  (is64 fct -> apart 500 fct obs -> within 3 (brier_score_r b64 obs fct) ((fct - obs) ^ 2)).
Proof. exact C81_brier_l. Qed.
Print Assumptions C81_brier.
Example C81_brier_ex : within 3 (brier_score_r b64 1 (/ 2)) ((/ 2 - 1) ^ 2).
Proof. apply C81_brier; [now right|lra|exact ex_half|]. apply ex_apart. rewrite Rabs_left; lra. Qed.

(** C81.  The computed interval score of lower <= upper is the rounded width for observations inside, never less than it outside, and away from underflow has a relative error of at most four roundings. *)
Theorem C81_interval :
forall obs lower upper alpha, lower <= upper -> 0 < alpha <= 1 ->
  (lower <= obs <= upper -> interval_score_r b64 obs lower upper alpha = b64 (upper - lower)) /\
  0 <= b64 (upper - lower) <= interval_score_r b64 obs lower upper alpha /\
  (is64 obs -> is64 lower -> is64 upper -> is64 alpha -> apart 900 upper lower -> apart 900 obs lower -> apart 900 obs upper ->
   within 4 (interval_score_r b64 obs lower upper alpha) (upper - lower + 2 / alpha * Rmax 0 (lower - obs) + 2 / alpha * Rmax 0 (obs - upper))).
Proof. exact C81_interval_l. Qed.
Print Assumptions C81_interval.
Example C81_interval_ex : within 4 (interval_score_r b64 5 1 3 (/ 2)) (3 - 1 + 2 / / 2 * Rmax 0 (1 - 5) + 2 / / 2 * Rmax 0 (5 - 3)).
Proof.
  apply C81_interval; [lra|lra|apply (ex_int 5); lia|apply (ex_int 1); lia|apply (ex_int 3); lia|exact ex_half| | |]; apply ex_apart; rewrite Rabs_right; lra.
Qed.

(** C81.  Without rounding, the definitions are the scores. *)
Theorem C81_unrounded :
forall obs fct alpha lower upper,
  quantile_score_r (fun r => r) obs fct alpha = (ind_lt obs fct - alpha) * (fct - obs) /\
  brier_score_r (fun r => r) obs fct = (fct - obs) ^ 2 /\
  (lower <= upper -> interval_score_r (fun r => r) obs lower upper alpha = upper - lower + 2 / alpha * Rmax 0 (lower - obs) + 2 / alpha * Rmax 0 (obs - upper)).
Proof. exact C81_unrounded_l. Qed.
Print Assumptions C81_unrounded.
Example C81_unrounded_ex : interval_score_r (fun r => r) 5 1 3 (/ 2) = 10.
Proof. destruct (C81_unrounded 5 0 (/ 2) 1 3) as (_ & _ & H). rewrite H by lra. rewrite (Rmax_left 0 (1 - 5)), (Rmax_right 0 (5 - 3)) by lra. field. Qed.

(** C82.  The estimator qd (the default of crps_ensemble), array and numba implementation: the relative error is at most that of h + 3 (h the height of the summation order) or M + 4 roundings. *)
Theorem C82_qd :
forall M y x t, ens64 M y x -> ascending M x -> adds t M ->
  within (height t + 3) (crps_qd_arr_r b64 t M y x) (exact_crps M y x) /\ within (M + 4) (crps_qd_k_r b64 M y x) (exact_crps M y x).
Proof. exact C82_qd_l. Qed.
Print Assumptions C82_qd.
Example C82_qd_ex : exists t, within 5 (crps_qd_arr_r b64 t 3 1 INR) (exact_crps 3 1 INR) /\ within 7 (crps_qd_k_r b64 3 1 INR) (exact_crps 3 1 INR).
Proof. exists (comb 2). destruct (comb_adds 2) as [A E]. pose proof (C82_qd 3 1 INR (comb 2) ex_ens ex_asc A) as H. rewrite E in H. exact H. Qed.

(** C82.  The computed score of the estimator qd is never negative, even where intermediate results underflow. *)
Theorem C82_qd_nonneg :
forall M y x t, (0 < M)%nat -> (Z.of_nat M <= 2 ^ 26)%Z -> adds t M ->
  0 <= crps_qd_arr_r b64 t M y x /\ (ascending M x -> 0 <= crps_qd_k_r b64 M y x).
Proof. exact C82_qd_nonneg_l. Qed.
Print Assumptions C82_qd_nonneg.
Example C82_qd_nonneg_ex : 0 <= crps_qd_k_r b64 3 1 INR.
Proof. apply (C82_qd_nonneg 3 1 INR (comb 2)); [lia|lia|apply comb_adds|exact ex_asc]. Qed.

(** C82.  Forward error of the estimator nrg, array and numba implementation. *)
Theorem C82_nrg :
forall M y x t1 t2, ens64 M y x -> adds t1 M -> adds t2 (M * M) ->
  let half_spread := pairsum M x / (2 * INR M * INR M) in
  Rabs (crps_nrg_arr_r b64 t1 t2 M y x - exact_crps M y x)
    <= ((1 + u64) ^ (height t1 + 3) - 1) * mae M y x + ((1 + u64) ^ (height t2 + 4) - 1) * half_spread /\
  Rabs (crps_nrg_k_r b64 M y x - exact_crps M y x)
    <= ((1 + u64) ^ (M + 3) - 1) * mae M y x + ((1 + u64) ^ (M * (M - 1) / 2 + 5) - 1) * half_spread.
Proof. exact C82_nrg_l. Qed.
Print Assumptions C82_nrg.
Example C82_nrg_ex : exists t1 t2, Rabs (crps_nrg_arr_r b64 t1 t2 3 1 INR - exact_crps 3 1 INR)
    <= ((1 + u64) ^ 5 - 1) * mae 3 1 INR + ((1 + u64) ^ 12 - 1) * (pairsum 3 INR / (2 * INR 3 * INR 3)).
Proof.
  exists (comb 2), (comb 8). destruct (comb_adds 2) as [A E]. destruct (comb_adds 8) as [A' E']. pose proof (C82_nrg 3 1 INR (comb 2) (comb 8) ex_ens A A') as [H _]. rewrite E, E' in H. exact H.
Qed.

(** C82.  Forward error of the estimator fair, array and numba implementation. *)
Theorem C82_fair :
forall M y x t1 t2, (1 < M)%nat -> ens64 M y x -> adds t1 M -> adds t2 (M * M) ->
  let half_spread := pairsum M x / (2 * INR M * (INR M - 1)) in
  Rabs (crps_fair_arr_r b64 t1 t2 M y x - fair_crps M y x)
    <= ((1 + u64) ^ (height t1 + 3) - 1) * mae M y x + ((1 + u64) ^ (height t2 + 4) - 1) * half_spread /\
  Rabs (crps_fair_k_r b64 M y x - fair_crps M y x)
    <= ((1 + u64) ^ (M + 3) - 1) * mae M y x + ((1 + u64) ^ (M * (M - 1) / 2 + 5) - 1) * half_spread.
Proof. exact C82_fair_l. Qed.
Print Assumptions C82_fair.
Example C82_fair_ex : Rabs (crps_fair_k_r b64 3 1 INR - fair_crps 3 1 INR)
    <= ((1 + u64) ^ 6 - 1) * mae 3 1 INR + ((1 + u64) ^ 8 - 1) * (pairsum 3 INR / (2 * INR 3 * (INR 3 - 1))).
Proof. apply (C82_fair 3 1 INR (comb 2) (comb 8)); [lia|exact ex_ens|apply comb_adds|apply comb_adds]. Qed.

(** C82.  Away from underflow the computed score of the estimator nrg is not negative as long as M times the number of roundings is at most 2^53; for the numba implementation that holds for all ensembles of up to 200000 members. *)
Theorem C82_nrg_nonneg :
forall M y x t1 t2, ens64 M y x -> adds t1 M -> adds t2 (M * M) ->
  ((Z.of_nat M * Z.of_nat (height t1 + height t2 + 5) <= 2 ^ 53)%Z -> 0 <= crps_nrg_arr_r b64 t1 t2 M y x) /\
  ((Z.of_nat M <= 200000)%Z -> 0 <= crps_nrg_k_r b64 M y x).
Proof. exact C82_nrg_nonneg_l. Qed.
Print Assumptions C82_nrg_nonneg.
Example C82_nrg_nonneg_ex : 0 <= crps_nrg_k_r b64 3 1 INR /\ exists t1 t2, 0 <= crps_nrg_arr_r b64 t1 t2 3 1 INR.
Proof.
  destruct (comb_adds 2) as [A E]. destruct (comb_adds 8) as [A' E']. destruct (C82_nrg_nonneg 3 1 INR (comb 2) (comb 8) ex_ens A A') as [H1 H2]. split; [apply H2; lia|].
  exists (comb 2), (comb 8). apply H1. rewrite E, E'. lia.
Qed.

(** C82.  Where intermediate results underflow it can be negative: 19 members and the observation are 0 and one member is 28 * 2^-1074; the array implementation returns -2^-1074 in every order of summation. *)
Theorem C82_nrg_nonneg_refuted :
exists M y x, (0 < M)%nat /\ is64 y /\ (forall i, is64 (x i)) /\ (exists t1 t2, adds t1 M /\ adds t2 (M * M)) /\
  forall t1 t2, adds t1 M -> adds t2 (M * M) -> crps_nrg_arr_r b64 t1 t2 M y x < 0.
Proof. exact C82_nrg_nonneg_refuted_l. Qed.
Print Assumptions C82_nrg_nonneg_refuted.

(** C82.  Without rounding, the definitions are the exact scores, and the numba ones are the kernels of M_crps.v. *)
Theorem C82_unrounded :
forall M y x t1 t2, (0 < M)%nat -> adds t1 M -> adds t2 (M * M) ->
  let e := map (fun i => Fin (x i)) (seq 0 M) in
  crps_nrg_arr_r (fun r => r) t1 t2 M y x = exact_crps M y x /\
  crps_nrg_k (Fin y) e = Fin (crps_nrg_k_r (fun r => r) M y x) /\
  ((1 < M)%nat -> crps_fair_arr_r (fun r => r) t1 t2 M y x = fair_crps M y x /\ crps_fair_k (Fin y) e = Fin (crps_fair_k_r (fun r => r) M y x)) /\
  (ascending M x -> crps_qd_arr_r (fun r => r) t1 M y x = exact_crps M y x /\ crps_qd_k (Fin y) e = Fin (crps_qd_k_r (fun r => r) M y x)).
Proof. exact C82_unrounded_l. Qed.
Print Assumptions C82_unrounded.
Example C82_unrounded_ex : crps_nrg_k (Fin 1) (map (fun i => Fin (INR i)) (seq 0 3)) = Fin (crps_nrg_k_r (fun r => r) 3 1 INR).
Proof. apply (C82_unrounded 3 1 INR (comb 2) (comb 8)); [lia|apply comb_adds|apply comb_adds]. Qed.
