(** Property C85: rounding errors of the estimator int of the ensemble CRPS. *)
From Coq Require Import Reals List ZArith Permutation Lia Lra.
From Verif Require Import M_crps T_round3.
Open Scope R_scope.

(** C85.  int, array implementation: all terms are squares times gaps, so the error is relative: 8 (M - 1) + 5 roundings and those of the sum. *)
Theorem C85_arr :
forall M y x t1 t2, ens64 M y x -> ascending M x -> adds t1 M -> adds t2 M ->
  within (8 * (M - 1) + 5 + height t2) (crps_int_arr_r b64 t1 t2 M y x) (exact_crps M y x).
Proof. exact C85_arr_l. Qed.
Print Assumptions C85_arr.
Example C85_arr_ex : within 23 (crps_int_arr_r b64 (comb 2) (comb 2) 3 1 INR) (exact_crps 3 1 INR).
Proof. destruct (comb_adds 2) as [A E]. pose proof (C85_arr 3 1 INR (comb 2) (comb 2) ex_ens3 ex_asc3 A A) as H. rewrite E in H. exact H. Qed.

(** C85.  int, numba kernel: the running forecast distribution is itself rounded once per member, so the number of roundings grows with the square of M; up to 2^25 members. *)
Theorem C85_kernel :
forall M y x, ens64 M y x -> ascending M x -> (Z.of_nat M <= 2 ^ 25)%Z ->
  within (8 * (M * (M - 1)) + M + 6) (crps_int_k_r b64 M y x) (exact_crps M y x).
Proof. exact C85_kernel_l. Qed.
Print Assumptions C85_kernel.
Example C85_kernel_ex : within 57 (crps_int_k_r b64 3 1 INR) (exact_crps 3 1 INR).
Proof. apply (C85_kernel 3 1 INR ex_ens3 ex_asc3). lia. Qed.

(** C85.  int is never negative, underflow included. *)
Theorem C85_nonneg :
forall M y x t1 t2, any64 M y x -> ascending M x -> adds t1 M -> adds t2 M -> 0 <= crps_int_arr_r b64 t1 t2 M y x /\ 0 <= crps_int_k_r b64 M y x.
Proof. exact C85_nonneg_l. Qed.
Print Assumptions C85_nonneg.
Example C85_nonneg_ex : 0 <= crps_int_k_r b64 2 (/ 2 ^ 1074) (fun i => INR i * / 2 ^ 1074).
Proof.
  destruct (comb_adds 1) as [A _]. apply (C85_nonneg 2 _ _ (comb 1) (comb 1)); auto.
  - assert (forall z, (Z.abs z < 2 ^ 53)%Z -> is64 (IZR z * / 2 ^ 1074)) as F by (intros z Hz; exists z, (-1074)%Z; split; [reflexivity|split; [exact Hz|lia]]).
    split; [lia|]. split; [lia|]. split; [rewrite <- (Rmult_1_l (/ 2 ^ 1074)); apply (F 1%Z); lia|]. intros i Hi. rewrite INR_IZR_INZ. apply F. lia.
  - intros i j H. apply Rmult_le_compat_r; [left; apply Rinv_0_lt_compat, pow_lt; lra|]. apply le_INR. lia.
Qed.

(** C85.  If all members equal the observation, int returns exactly 0. *)
Theorem C85_perfect :
forall M y x t1 t2, (0 < M)%nat -> (forall i, (i < M)%nat -> x i = y) -> adds t1 M -> adds t2 M ->
  crps_int_arr_r b64 t1 t2 M y x = 0 /\ crps_int_k_r b64 M y x = 0.
Proof. exact C85_perfect_l. Qed.
Print Assumptions C85_perfect.
Example C85_perfect_ex : crps_int_k_r b64 7 (/ 10) (fun _ => / 10) = 0.
Proof. destruct (comb_adds 6) as [A _]. apply (C85_perfect 7 _ _ (comb 6) (comb 6)); auto. lia. Qed.

(** C85.  Without rounding, the definitions are the exact score, and the numba one is the kernel of M_crps.v, sorted or not. *)
Theorem C85_unrounded :
forall M y x t1 t2, (0 < M)%nat -> adds t1 M -> adds t2 M ->
  crps_int_k (Fin y) (map (fun i => Fin (x i)) (seq 0 M)) = Fin (crps_int_k_r (fun r => r) M y x) /\
  (ascending M x -> crps_int_arr_r (fun r => r) t1 t2 M y x = exact_crps M y x /\ crps_int_k_r (fun r => r) M y x = exact_crps M y x).
Proof. exact C85_unrounded_l. Qed.
Print Assumptions C85_unrounded.
Example C85_unrounded_ex : crps_int_k (Fin 1) (map (fun i => Fin (INR i)) (seq 0 3)) = Fin (exact_crps 3 1 INR).
Proof. destruct (comb_adds 2) as [A _]. destruct (C85_unrounded 3 1 INR (comb 2) (comb 2) ltac:(lia) A A) as [H1 H2]. destruct (H2 ex_asc3) as [_ H3]. now rewrite H1, H3. Qed.
