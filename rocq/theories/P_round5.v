(** Property C90: rounding errors of the quantile-based CRPS, the weighted interval, ranked probability and log scores; [quant64], [wis64], [probs64] and [cumorders] are in S_round5.v. *)
From Coq Require Import Reals List ZArith Permutation Lia Lra.
From Verif Require Import M_crps M_prob T_round5.
Open Scope R_scope.

(** C90.  crps_quantile: relative error of at most h + 4 roundings in the array implementation, h the height of the order of summation, and of Q + 4 in the numba one. *)
Theorem C90_quantiles_error :
forall Q y x a t, quant64 Q y x a -> adds t Q ->
  let score := 2 / INR Q * sumn Q (fun k => pinball (a k) (x k) y) in
  within (height t + 4) (quantile_pinball_arr_r b64 t Q y x a) score /\ within (Q + 4) (quantile_pinball_k_r b64 Q y x a) score.
Proof. exact C90_quantiles_error_l. Qed.
Print Assumptions C90_quantiles_error.
Example C90_quantiles_error_ex : within 5 (quantile_pinball_arr_r b64 (comb 1) 2 1 INR (fun _ => / 2)) (2 / INR 2 * sumn 2 (fun k => pinball (/ 2) (INR k) 1)).
Proof. apply (C90_quantiles_error 2 1 INR (fun _ => / 2) (comb 1) ex_q64 (proj1 (comb_adds 1))). Qed.

(** C90.  Underflow included, crps_quantile is not negative, zero if all quantiles equal the observation, and does not decrease when quantiles move away from the observation. *)
Theorem C90_quantiles :
forall Q y x a t, (0 < Q)%nat -> adds t Q -> (forall k, (k < Q)%nat -> is64 (a k) /\ 0 <= a k <= 1) ->
  (0 <= quantile_pinball_arr_r b64 t Q y x a /\ 0 <= quantile_pinball_k_r b64 Q y x a) /\
  ((forall k, (k < Q)%nat -> x k = y) -> quantile_pinball_arr_r b64 t Q y x a = 0 /\ quantile_pinball_k_r b64 Q y x a = 0) /\
  forall z, (forall k, (k < Q)%nat -> y <= x k <= z k \/ z k <= x k <= y) ->
    quantile_pinball_arr_r b64 t Q y x a <= quantile_pinball_arr_r b64 t Q y z a /\ quantile_pinball_k_r b64 Q y x a <= quantile_pinball_k_r b64 Q y z a.
Proof. exact C90_quantiles_l. Qed.
Print Assumptions C90_quantiles.
Example C90_quantiles_ex : quantile_pinball_k_r b64 3 0 INR (fun _ => / 2) <= quantile_pinball_k_r b64 3 0 (fun k => 2 * INR k) (fun _ => / 2).
Proof.
  apply (C90_quantiles 3 0 INR (fun _ => / 2) (comb 2)); [lia|apply comb_adds|intros; split; [exact ex_half|lra]|]. intros k _. left. pose proof (pos_INR k). lra.
Qed.

(** C90.  weighted_interval_score: relative error of at most K + 7 roundings in the numba implementation; the array one (which adds the weighted median itself) has h + 7 where the median is not negative. *)
Theorem C90_wis_error :
forall K y l u a w m wm, wis64 K y l u a w -> is64 m -> is64 wm -> 0 <= wm -> apart 50 wm 0 ->
  (apart 800 y m -> within (K + 7) (wis_k_r b64 K y m l u a wm w) ((wissum K y l u a w + wm * Rabs (y - m)) / (INR K + 1 / 2))) /\
  (forall t, adds t K -> 0 <= m -> apart 800 m 0 -> within (height t + 7) (wis_arr_r b64 t K y m l u a wm w) ((wissum K y l u a w + wm * m) / (INR K + 1 / 2))).
Proof. exact C90_wis_error_l. Qed.
Print Assumptions C90_wis_error.
Example C90_wis_error_ex : within 8 (wis_k_r b64 1 1 2 (fun _ => 2) (fun _ => 3) (fun _ => / 2) (/ 2) (fun _ => / 2))
  ((wissum 1 1 (fun _ => 2) (fun _ => 3) (fun _ => / 2) (fun _ => / 2) + / 2 * Rabs (1 - 2)) / (INR 1 + 1 / 2)).
Proof.
  apply (C90_wis_error 1 1 _ _ _ _ 2 (/ 2) ex_w64); [apply (ex_int 2); lia|exact ex_half|lra|apply ex_apart; rewrite Rabs_right; lra|apply ex_apart; rewrite Rabs_left; lra].
Qed.

(** C90.  Underflow included, the numba weighted interval score with weights that are not negative is not negative, and exactly zero if all bounds and the median equal the observation. *)
Theorem C90_wis :
forall K y l u a w m wm, (Z.of_nat K <= 2 ^ 26)%Z -> (forall k, (k < K)%nat -> l k <= u k /\ 0 < a k <= 1 /\ 0 <= w k) -> 0 <= wm ->
  0 <= wis_k_r b64 K y m l u a wm w /\
  ((forall k, (k < K)%nat -> l k = y /\ u k = y) -> m = y -> wis_k_r b64 K y m l u a wm w = 0).
Proof. exact C90_wis_l. Qed.
Print Assumptions C90_wis.
Example C90_wis_ex : wis_k_r b64 4 5 5 (fun _ => 5) (fun _ => 5) (fun k => / (INR k + 1)) (/ 2) (fun k => INR k) = 0.
Proof.
  apply C90_wis; [lia| |lra|auto|reflexivity]. intros k _. pose proof (pos_INR k). split; [lra|]. split; [|lra]. split; [apply Rinv_0_lt_compat; lra|]. rewrite <- Rinv_1. apply Rinv_le_contravar; lra.
Qed.

(** C90.  rps_score: the score of the computed cumulative probabilities up to h + 3 roundings; the error is at most 2 hc + h + 3 roundings of the sum of the squared sums of cumulative probabilities and outcomes (hc and h the heights of the orders of the cumulative sums and of the sum; numpy's cumsum has hc = K - 1). *)
Theorem C90_rps_error :
forall K c p t tf ty hc, probs64 K p -> (0 < c)%nat -> adds t K -> cumorders K hc tf -> (forall k, (k < K)%nat -> adds (ty k) (S k)) ->
  let score := rps_score_r b64 t tf ty (onehot c) p in
  (exists F, (forall k, (k < K)%nat -> within hc (F k) (cum p k)) /\ within (height t + 3) score (sumn K (fun k => (F k - ind_cat c k) ^ 2))) /\
  Rabs (score - rps K p c) <= ((1 + u64) ^ (2 * hc + height t + 3) - 1) * sumn K (fun k => (cum p k + ind_cat c k) ^ 2).
Proof. exact C90_rps_error_l. Qed.
Print Assumptions C90_rps_error.
Example C90_rps_error_ex : Rabs (rps_score_r b64 (comb 1) comb comb (onehot 2) (fun _ => / 2) - rps 2 (fun _ => / 2) 2) <= ((1 + u64) ^ 6 - 1) * sumn 2 (fun k => (cum (fun _ => / 2) k + ind_cat 2 k) ^ 2).
Proof. destruct (comb_adds 1) as [A E]. apply (C90_rps_error 2 2 (fun _ => / 2) (comb 1) comb comb 1 ex_p64); [lia|exact A|exact ex_cum|intros; apply comb_adds]. Qed.

(** C90.  The computed ranked probability score is not negative, and zero for a forecast that puts everything on the outcome, whatever the orders of summation. *)
Theorem C90_rps :
forall K c p t tf ty, adds t K -> 0 <= rps_score_r b64 t tf ty (onehot c) p /\
  ((0 < c)%nat -> (forall k, (k < K)%nat -> adds (tf k) (S k) /\ adds (ty k) (S k)) -> rps_score_r b64 t tf ty (onehot c) (onehot c) = 0).
Proof. exact C90_rps_l. Qed.
Print Assumptions C90_rps.
Example C90_rps_ex : rps_score_r b64 (comb 4) comb comb (onehot 3) (onehot 3) = 0.
Proof. apply (C90_rps 5 3 (fun _ => 0) (comb 4) comb comb); [apply comb_adds|lia|intros; split; apply comb_adds]. Qed.

(** C90.  log_score, up to the rounding of the logarithm itself: if the event does not happen the score is off by at most 2^-52; if it happens and had the probability f >= 2^-51, by at most 2^-52 / f. *)
Theorem C90_log :
(forall f, is64 f -> 0 <= f < 1 -> exists s, log_score_r b64 0 f = Fin s /\ Rabs (s - logsc f 0) <= 2 * u64) /\
  (forall f, / 2 ^ 51 <= f <= 1 -> exists s, log_score_r b64 1 f = Fin s /\ Rabs (s - logsc f 1) <= 2 * u64 / f).
Proof. exact C90_log_l. Qed.
Print Assumptions C90_log.
Example C90_log_ex : exists s, log_score_r b64 1 (/ 2) = Fin s /\ Rabs (s - logsc (/ 2) 1) <= 2 * u64 / / 2.
Proof. apply C90_log. split; [|lra]. apply Rinv_le_contravar; [lra|]. simpl. lra. Qed.

(** C90.  The score of an event of positive probability is not always finite: fct + obs - 1 rounds to zero for all probabilities below 2^-54. *)
Theorem C90_log_finite_refuted :
exists f, is64 f /\ 0 < f <= 1 /\ log_score_r b64 1 f = PInf /\ forall g, 0 < g < / 2 ^ 54 -> log_score_r b64 1 g = PInf.
Proof. exact C90_log_finite_refuted_l. Qed.
Print Assumptions C90_log_finite_refuted.
Example C90_log_finite_refuted_ex : log_score_r b64 1 (/ 2 ^ 60) = PInf.
Proof.
  destruct C90_log_finite_refuted as (_ & _ & _ & _ & H). apply H. split; [apply Rinv_0_lt_compat, pow_lt; lra|]. apply Rinv_lt_contravar; [apply Rmult_lt_0_compat; apply pow_lt; lra|]. apply Rlt_pow; [lra|lia].
Qed.

(** C90.  Without rounding the definitions are the scores, and the numba ones are the kernels of M_crps.v and M_prob.v. *)
Theorem C90_unrounded :
forall n t y x a l u w m wm c tf ty, (0 < n)%nat -> adds t n ->
  let id := fun r : R => r in let v g := map (fun k => Fin (g k)) (seq 0 n) in
  let q := 2 / INR n * sumn n (fun k => pinball (a k) (x k) y) in
  quantile_pinball_arr_r id t n y x a = q /\ quantile_pinball_k_r id n y x a = q /\ quantile_pinball_k (Fin y) (v x) (v a) = Fin q /\
  wis_arr_r id t n y m l u a wm w = (wissum n y l u a w + wm * m) / (INR n + 1 / 2) /\
  ((forall k, (k < n)%nat -> a k <> 0) -> wis_k (Fin y) (Fin m) (v l) (v u) (v a) (Fin wm) (v w) = Fin (wis_k_r id n y m l u a wm w)) /\
  ((0 < c)%nat -> (forall k, (k < n)%nat -> adds (tf k) (S k) /\ adds (ty k) (S k)) -> rps_score_r id t tf ty (onehot c) x = rps n x c) /\
  forall f, (0 < f -> log_score_r id 1 f = Fin (logsc f 1)) /\ (f < 1 -> log_score_r id 0 f = Fin (logsc f 0)).
Proof. exact C90_unrounded_l. Qed.
Print Assumptions C90_unrounded.
Example C90_unrounded_ex : rps_score_r (fun r => r) (comb 1) comb comb (onehot 2) INR = rps 2 INR 2.
Proof. apply (C90_unrounded 2 (comb 1) 0 INR INR INR INR INR 0 0 2%nat comb comb); [lia|apply comb_adds|lia|intros; split; apply comb_adds]. Qed.
