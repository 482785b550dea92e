(** Property C83: rounding errors of all kernel forms of the ensemble CRPS, underflow included. *)
From Coq Require Import Reals List ZArith Permutation Lia Lra.
From Verif Require Import M_crps T_round2.
Open Scope R_scope.

(** C83.  nrg: the absolute error is at most h + 4 roundings of the two terms and 3 errors of underflow, h the larger height of the two summation orders; for the numba kernel h is at most M + M (M - 1) / 2. *)
Theorem C83_nrg :
forall M y x t1 t2 h, any64 M y x -> adds t1 M -> adds t2 (M * M) -> (height t1 <= h)%nat -> (height t2 <= h)%nat ->
  let size := mae M y x + pairsum M x / (2 * INR M * INR M) in
  Rabs (crps_nrg_arr_r b64 t1 t2 M y x - exact_crps M y x) <= err64 (h + 4) 3 size /\
  Rabs (crps_nrg_k_r b64 M y x - exact_crps M y x) <= err64 (M * (M - 1) / 2 + M + 4) 3 size.
Proof. exact C83_nrg_l. Qed.
Print Assumptions C83_nrg.
Example C83_nrg_ex : Rabs (crps_nrg_k_r b64 3 1 INR - exact_crps 3 1 INR) <= err64 10 3 (mae 3 1 INR + pairsum 3 INR / (2 * INR 3 * INR 3)).
Proof. apply (C83_nrg 3 1 INR (comb 2) (comb 8) 8 ex_any); try apply comb_adds; rewrite (proj2 (comb_adds _)); lia. Qed.

(** C83.  fair: the same. *)
Theorem C83_fair :
forall M y x t1 t2 h, (1 < M)%nat -> any64 M y x -> adds t1 M -> adds t2 (M * M) -> (height t1 <= h)%nat -> (height t2 <= h)%nat ->
  let size := mae M y x + pairsum M x / (2 * INR M * (INR M - 1)) in
  Rabs (crps_fair_arr_r b64 t1 t2 M y x - fair_crps M y x) <= err64 (h + 4) 3 size /\
  Rabs (crps_fair_k_r b64 M y x - fair_crps M y x) <= err64 (M * (M - 1) / 2 + M + 4) 3 size.
Proof. exact C83_fair_l. Qed.
Print Assumptions C83_fair.
Example C83_fair_ex : Rabs (crps_fair_k_r b64 3 1 INR - fair_crps 3 1 INR) <= err64 10 3 (mae 3 1 INR + pairsum 3 INR / (2 * INR 3 * (INR 3 - 1))).
Proof. apply (C83_fair 3 1 INR (comb 2) (comb 8) 8); [lia|exact ex_any|apply comb_adds|apply comb_adds|rewrite (proj2 (comb_adds _)); lia|rewrite (proj2 (comb_adds _)); lia]. Qed.

(** C83.  akr and akr_circperm: the same with M + 4 roundings in the numba kernels. *)
Theorem C83_akr :
forall M y x t1 t2 h, any64 M y x -> adds t1 M -> adds t2 M -> (height t1 <= h)%nat -> (height t2 <= h)%nat ->
  let size g := mae M y x + / 2 * (sumn M (fun k => Rabs (x k - x (g k))) / INR M) in
  Rabs (crps_akr_arr_r b64 t1 t2 M y x - lag_crps M (lag1 M) y x) <= err64 (h + 4) 3 (size (lag1 M)) /\
  Rabs (crps_akr_k_r b64 M y x - lag_crps M (lag1 M) y x) <= err64 (M + 4) 2 (size (lag1 M)) /\
  Rabs (crps_akr_circperm_arr_r b64 t1 t2 M y x - lag_crps M (lagc M) y x) <= err64 (h + 4) 3 (size (lagc M)) /\
  Rabs (crps_akr_circperm_k_r b64 M y x - lag_crps M (lagc M) y x) <= err64 (M + 4) 2 (size (lagc M)).
Proof. exact C83_akr_l. Qed.
Print Assumptions C83_akr.
Example C83_akr_ex : Rabs (crps_akr_k_r b64 3 1 INR - lag_crps 3 (lag1 3) 1 INR) <= err64 7 2 (mae 3 1 INR + / 2 * (sumn 3 (fun k => Rabs (INR k - INR (lag1 3 k))) / INR 3)).
Proof. apply (C83_akr 3 1 INR (comb 2) (comb 2) 2 ex_any); try apply comb_adds; rewrite (proj2 (comb_adds _)); lia. Qed.

(** C83.  pwm: the error is relative to the size of the members themselves, not of their differences. *)
Theorem C83_pwm :
forall M y x t1 t2 t3 h, (1 < M)%nat -> any64 M y x -> ascending M x -> adds t1 M -> adds t2 M -> adds t3 M ->
  (height t1 <= h)%nat -> (height t2 <= h)%nat -> (height t3 <= h)%nat ->
  let size := mae M y x + sumn M (fun i => Rabs (x i)) / INR M + 2 * (sumn M (fun i => INR i * Rabs (x i)) / INR (M * (M - 1))) in
  Rabs (crps_pwm_arr_r b64 t1 t2 t3 M y x - fair_crps M y x) <= err64 (h + 4) 6 size /\
  Rabs (crps_pwm_k_r b64 M y x - fair_crps M y x) <= err64 (M + 4) 6 size.
Proof. exact C83_pwm_l. Qed.
Print Assumptions C83_pwm.
Example C83_pwm_ex : Rabs (crps_pwm_k_r b64 3 1 INR - fair_crps 3 1 INR)
  <= err64 7 6 (mae 3 1 INR + sumn 3 (fun i => Rabs (INR i)) / INR 3 + 2 * (sumn 3 (fun i => INR i * Rabs (INR i)) / INR 6)).
Proof. apply (C83_pwm 3 1 INR (comb 2) (comb 2) (comb 2) 2); [lia|exact ex_any|exact ex_asc2|..]; try apply comb_adds; rewrite (proj2 (comb_adds _)); lia. Qed.

(** C83.  If all members equal the observation, the computed scores of nrg, fair, qd, akr and akr_circperm are exactly 0. *)
Theorem C83_perfect :
forall M y x t1 t2 t3, (forall i, (i < M)%nat -> x i = y) -> adds t1 M -> adds t2 (M * M) -> adds t3 M ->
  crps_nrg_arr_r b64 t1 t2 M y x = 0 /\ crps_nrg_k_r b64 M y x = 0 /\
  crps_fair_arr_r b64 t1 t2 M y x = 0 /\ crps_fair_k_r b64 M y x = 0 /\
  crps_qd_arr_r b64 t1 M y x = 0 /\ crps_qd_k_r b64 M y x = 0 /\
  crps_akr_arr_r b64 t1 t3 M y x = 0 /\ crps_akr_k_r b64 M y x = 0 /\
  crps_akr_circperm_arr_r b64 t1 t3 M y x = 0 /\ crps_akr_circperm_k_r b64 M y x = 0.
Proof. exact C83_perfect_l. Qed.
Print Assumptions C83_perfect.
Example C83_perfect_ex : crps_qd_k_r b64 5 (/ 10) (fun _ => / 10) = 0.
Proof. apply (C83_perfect 5 (/ 10) (fun _ => / 10) (comb 4) (comb 24) (comb 4)); [auto|apply comb_adds..]. Qed.

(** C83.  Not so pwm: four members and the observation all equal to 2^53 - 6 get the score -1, from the numba kernel and from the array implementation with sums from left to right. *)
Theorem C83_pwm_perfect_refuted :
exists M y x, (1 < M)%nat /\ any64 M y x /\ (forall i, x i = y) /\ ascending M x /\ fair_crps M y x = 0 /\
  crps_pwm_k_r b64 M y x = -1 /\ exists t, adds t M /\ crps_pwm_arr_r b64 t t t M y x = -1.
Proof. exact C83_pwm_perfect_refuted_l. Qed.
Print Assumptions C83_pwm_perfect_refuted.

(** C83.  Without rounding, the definitions are the exact scores, and the numba ones are the kernels of M_crps.v. *)
Theorem C83_unrounded :
forall M y x t1 t2 t3, (0 < M)%nat -> adds t1 M -> adds t2 M -> adds t3 M ->
  let e := map (fun i => Fin (x i)) (seq 0 M) in
  crps_akr_arr_r (fun r => r) t1 t2 M y x = lag_crps M (lag1 M) y x /\ crps_akr_k (Fin y) e = Fin (crps_akr_k_r (fun r => r) M y x) /\
  crps_akr_circperm_arr_r (fun r => r) t1 t2 M y x = lag_crps M (lagc M) y x /\ crps_akr_circperm_k (Fin y) e = Fin (crps_akr_circperm_k_r (fun r => r) M y x) /\
  ((1 < M)%nat -> ascending M x ->
    crps_pwm_arr_r (fun r => r) t1 t2 t3 M y x = fair_crps M y x /\ crps_pwm_k (Fin y) e = Fin (crps_pwm_k_r (fun r => r) M y x)).
Proof. exact C83_unrounded_l. Qed.
Print Assumptions C83_unrounded.
Example C83_unrounded_ex : crps_pwm_k (Fin 1) (map (fun i => Fin (INR i)) (seq 0 3)) = Fin (crps_pwm_k_r (fun r => r) 3 1 INR).
Proof. apply (C83_unrounded 3 1 INR (comb 2) (comb 2) (comb 2)); [lia|apply comb_adds|apply comb_adds|apply comb_adds|lia|exact ex_asc2]. Qed.
