(** Proofs of the rounding properties of the estimator int (statements in P_round3.v). *)
From Coq Require Import Reals List ZArith Permutation Lia Lra Psatz.
From Flocq Require Import Core.
From Verif Require Import M_crps L_crps_row L_crps_gu L_crps_ens.
From Verif Require Export S_round2 L_round8.
Open Scope R_scope.
(** instance: members 0, 1, 2 and observation 1, sums from left to right *)
Lemma ex_apart3 x y : 1 <= Rabs (x - y) -> apart 900 x y.
Proof. intros H. right. apply Rle_trans with (2 := H). rewrite <- Rinv_1. apply Rinv_le_contravar; [lra|]. apply pow_R1_Rle. lra. Qed.
Lemma ex_ens3 : ens64 3 1 INR.
Proof.
  assert (forall z, (Z.abs z < 2 ^ 53)%Z -> is64 (IZR z)) as F by (intros z Hz; exists z, 0%Z; simpl; split; [ring|split; [exact Hz|lia]]).
  assert (forall i j, (i < 3)%nat -> (j < 3)%nat -> apart 900 (INR i) (INR j)) as A.
  { intros i j Hi Hj. destruct (Nat.eq_dec i j) as [->|N]; [now left|]. apply ex_apart3. rewrite !INR_IZR_INZ, <- minus_IZR, <- abs_IZR. apply IZR_le. lia. }
  split; [lia|]. split; [lia|]. split; [apply (F 1%Z); lia|]. split; [|exact A]. intros i Hi. split; [rewrite INR_IZR_INZ; apply F; lia|]. change 1 with (INR 1). apply A; [exact Hi|lia].
Qed.
Lemma ex_asc3 : ascending 3 INR. Proof. intros i j H. apply le_INR. lia. Qed.
Lemma C85_arr_l :
forall M y x t1 t2, ens64 M y x -> ascending M x -> adds t1 M -> adds t2 M ->
  within (8 * (M - 1) + 5 + height t2) (crps_int_arr_r b64 t1 t2 M y x) (exact_crps M y x).
Proof.
intros M y x t1 t2 H Ha A1 A2. apply (int_arr_calc M y x t1 t2 H Ha A1 A2).
Qed.
Lemma C85_kernel_l :
forall M y x, ens64 M y x -> ascending M x -> (Z.of_nat M <= 2 ^ 25)%Z ->
  within (8 * (M * (M - 1)) + M + 6) (crps_int_k_r b64 M y x) (exact_crps M y x).
Proof.
intros M y x (HM & _ & Hy & Hx & App) Ha HB. rewrite <- (int_k_idr M y x HM Ha). replace (8 * (M * (M - 1)) + M + 6)%nat with (K M + M + 1)%nat by (unfold K; lia).
  apply (int_k_calc M y x HM Ha HB); auto; [now apply is64_fmt| |]; intros i Hi; [apply is64_fmt|]; now apply Hx.
Qed.
Lemma C85_nonneg_l :
forall M y x t1 t2, any64 M y x -> ascending M x -> adds t1 M -> adds t2 M -> 0 <= crps_int_arr_r b64 t1 t2 M y x /\ 0 <= crps_int_k_r b64 M y x.
Proof.
intros M y x t1 t2 (HM & HB & _) Ha A1 A2. split; [now apply int_arr_ge0|now apply int_k_ge0].
Qed.
Lemma C85_perfect_l :
forall M y x t1 t2, (0 < M)%nat -> (forall i, (i < M)%nat -> x i = y) -> adds t1 M -> adds t2 M ->
  crps_int_arr_r b64 t1 t2 M y x = 0 /\ crps_int_k_r b64 M y x = 0.
Proof.
intros M y x t1 t2 HM Hx A1 A2. split; [apply int_arr_perfect|apply int_k_perfect]; auto; apply b64_0.
Qed.
Lemma C85_unrounded_l :
forall M y x t1 t2, (0 < M)%nat -> adds t1 M -> adds t2 M ->
  crps_int_k (Fin y) (map (fun i => Fin (x i)) (seq 0 M)) = Fin (crps_int_k_r (fun r => r) M y x) /\
  (ascending M x -> crps_int_arr_r (fun r => r) t1 t2 M y x = exact_crps M y x /\ crps_int_k_r (fun r => r) M y x = exact_crps M y x).
Proof.
intros M y x t1 t2 HM A1 A2. split; [now apply int_k_id|]. intros Ha. split; [now apply int_arr_id|now apply int_k_idr].
Qed.
