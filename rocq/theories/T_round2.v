(** Proofs of the rounding properties that include underflow (statements in P_round2.v). *)
From Coq Require Import Reals List ZArith Permutation Lia Lra Psatz.
From Flocq Require Import Core.
From Verif Require Import M_crps L_crps_row L_crps_gu L_crps_ens.
From Verif Require Export L_round6.
Open Scope R_scope.
Lemma any64_fmt M y x : any64 M y x -> (0 < M)%nat /\ (Z.of_nat M <= 2 ^ 26)%Z /\ generic_format radix2 (FLT_exp (-1074) 53) y /\ forall i, (i < M)%nat -> generic_format radix2 (FLT_exp (-1074) 53) (x i).
Proof. intros (H1 & H2 & H3 & H4). split; [exact H1|]. split; [exact H2|]. split; [now apply is64_fmt|]. intros i Hi. now apply is64_fmt, H4. Qed.
Lemma gu1_lt M k : (k < M)%nat -> ((if (k =? 0)%nat then M else k) - 1 < M)%nat.
Proof. intros H. destruct (k =? 0)%nat; lia. Qed.
(** instance: members 0, 1, 2 and observation 1, sums from left to right *)
Lemma ex_any : any64 3 1 INR.
Proof.
  assert (forall z, (Z.abs z < 2 ^ 53)%Z -> is64 (IZR z)) as F by (intros z Hz; exists z, 0%Z; simpl; split; [ring|split; [exact Hz|lia]]).
  split; [lia|]. split; [lia|]. split; [apply (F 1%Z); lia|]. intros i Hi. rewrite INR_IZR_INZ. apply F. lia.
Qed.
Lemma ex_asc2 : ascending 3 INR. Proof. intros i j H. apply le_INR. lia. Qed.
Lemma C83_nrg_l :
forall M y x t1 t2 h, any64 M y x -> adds t1 M -> adds t2 (M * M) -> (height t1 <= h)%nat -> (height t2 <= h)%nat ->
  let size := mae M y x + pairsum M x / (2 * INR M * INR M) in
  Rabs (crps_nrg_arr_r b64 t1 t2 M y x - exact_crps M y x) <= err64 (h + 4) 3 size /\
  Rabs (crps_nrg_k_r b64 M y x - exact_crps M y x) <= err64 (M * (M - 1) / 2 + M + 4) 3 size.
Proof.
intros M y x t1 t2 h H A1 A2 L1 L2 size. apply any64_fmt in H as (HM & HB & Fy & Fx). pose proof (INRp M HM) as P.
  assert (/ 2 * (pairsum M x / INR (M * M)) = pairsum M x / (2 * INR M * INR M)) as E by (rewrite mult_INR; field; lra).
  unfold exact_crps, size. rewrite <- E. split; apply appr_err; [apply energy_arr_any|apply energy_k_any]; auto; lia.
Qed.
Lemma C83_fair_l :
forall M y x t1 t2 h, (1 < M)%nat -> any64 M y x -> adds t1 M -> adds t2 (M * M) -> (height t1 <= h)%nat -> (height t2 <= h)%nat ->
  let size := mae M y x + pairsum M x / (2 * INR M * (INR M - 1)) in
  Rabs (crps_fair_arr_r b64 t1 t2 M y x - fair_crps M y x) <= err64 (h + 4) 3 size /\
  Rabs (crps_fair_k_r b64 M y x - fair_crps M y x) <= err64 (M * (M - 1) / 2 + M + 4) 3 size.
Proof.
intros M y x t1 t2 h M1 H A1 A2 L1 L2 size. apply any64_fmt in H as (HM & HB & Fy & Fx). pose proof (INRp M HM) as P.
  assert (/ 2 * (pairsum M x / INR (M * (M - 1))) = pairsum M x / (2 * INR M * (INR M - 1))) as E.
  { rewrite mult_INR, minus_INR by lia. apply lt_INR in M1. simpl INR in *. field. lra. }
  unfold fair_crps, size. rewrite <- E. split; apply appr_err; [apply energy_arr_any|apply energy_k_any]; auto; nia.
Qed.
Lemma C83_akr_l :
forall M y x t1 t2 h, any64 M y x -> adds t1 M -> adds t2 M -> (height t1 <= h)%nat -> (height t2 <= h)%nat ->
  let size g := mae M y x + / 2 * (sumn M (fun k => Rabs (x k - x (g k))) / INR M) in
  Rabs (crps_akr_arr_r b64 t1 t2 M y x - lag_crps M (lag1 M) y x) <= err64 (h + 4) 3 (size (lag1 M)) /\
  Rabs (crps_akr_k_r b64 M y x - lag_crps M (lag1 M) y x) <= err64 (M + 4) 2 (size (lag1 M)) /\
  Rabs (crps_akr_circperm_arr_r b64 t1 t2 M y x - lag_crps M (lagc M) y x) <= err64 (h + 4) 3 (size (lagc M)) /\
  Rabs (crps_akr_circperm_k_r b64 M y x - lag_crps M (lagc M) y x) <= err64 (M + 4) 2 (size (lagc M)).
Proof.
intros M y x t1 t2 h H A1 A2 L1 L2 size. apply any64_fmt in H as (HM & HB & Fy & Fx).
  assert (forall g g', (forall k, (k < M)%nat -> g k = g' k) -> size g = size g') as SE by (intros g g' E; unfold size; do 3 f_equal; apply sumn_ext; intros k Hk; now rewrite E).
  split; [apply appr_err, (lag_arr_any M y x HM Fy Fx 1 t1 t2 h); auto|]. split; [|split; [apply appr_err, (lag_arr_any M y x HM Fy Fx (M / 2) t1 t2 h); auto|]].
  - rewrite <- (lag_ext M _ _ y x (lag1_gu M)), <- (SE _ _ (lag1_gu M)). apply appr_err, lag_k_any; auto. apply gu1_lt.
  - rewrite <- (lag_ext M _ _ y x (lagc_gu M)), <- (SE _ _ (lagc_gu M)). apply appr_err, lag_k_any; auto. intros; now apply circperm_lt.
Qed.
Lemma C83_pwm_l :
forall M y x t1 t2 t3 h, (1 < M)%nat -> any64 M y x -> ascending M x -> adds t1 M -> adds t2 M -> adds t3 M ->
  (height t1 <= h)%nat -> (height t2 <= h)%nat -> (height t3 <= h)%nat ->
  let size := mae M y x + sumn M (fun i => Rabs (x i)) / INR M + 2 * (sumn M (fun i => INR i * Rabs (x i)) / INR (M * (M - 1))) in
  Rabs (crps_pwm_arr_r b64 t1 t2 t3 M y x - fair_crps M y x) <= err64 (h + 4) 6 size /\
  Rabs (crps_pwm_k_r b64 M y x - fair_crps M y x) <= err64 (M + 4) 6 size.
Proof.
intros M y x t1 t2 t3 h M1 H Ha A1 A2 A3 L1 L2 L3 size. apply any64_fmt in H as (HM & HB & Fy & Fx).
  split; apply appr_err; [apply pwm_arr_any|apply pwm_k_any]; auto.
Qed.
Lemma C83_perfect_l :
forall M y x t1 t2 t3, (forall i, (i < M)%nat -> x i = y) -> adds t1 M -> adds t2 (M * M) -> adds t3 M ->
  crps_nrg_arr_r b64 t1 t2 M y x = 0 /\ crps_nrg_k_r b64 M y x = 0 /\
  crps_fair_arr_r b64 t1 t2 M y x = 0 /\ crps_fair_k_r b64 M y x = 0 /\
  crps_qd_arr_r b64 t1 M y x = 0 /\ crps_qd_k_r b64 M y x = 0 /\
  crps_akr_arr_r b64 t1 t3 M y x = 0 /\ crps_akr_k_r b64 M y x = 0 /\
  crps_akr_circperm_arr_r b64 t1 t3 M y x = 0 /\ crps_akr_circperm_k_r b64 M y x = 0.
Proof.
intros M y x t1 t2 t3 Hx A1 A2 A3. pose proof b64_0 as B.
  split; [now apply energy_arr_perfect|]. split; [now apply energy_k_perfect|]. split; [now apply energy_arr_perfect|]. split; [now apply energy_k_perfect|].
  split; [now apply qd_arr_perfect|]. split; [now apply qd_k_perfect|]. split; [now apply lag_arr_perfect|].
  split; [apply lag_k_perfect; auto; apply gu1_lt|]. split; [now apply lag_arr_perfect|]. apply lag_k_perfect; auto. intros i Hi. apply circperm_lt; lia.
Qed.
Lemma C83_pwm_perfect_refuted_l :
exists M y x, (1 < M)%nat /\ any64 M y x /\ (forall i, x i = y) /\ ascending M x /\ fair_crps M y x = 0 /\
  crps_pwm_k_r b64 M y x = -1 /\ exists t, adds t M /\ crps_pwm_arr_r b64 t t t M y x = -1.
Proof.
exists 4%nat, xc, (fun _ => xc). assert (is64 xc) as F by (apply is64_fmt, fmt_xc). split; [lia|]. split; [split; [lia|]; split; [lia|]; split; auto|]. split; [reflexivity|].
  split; [intros i j _; lra|]. split; [|split; [apply const_pwm_k|exists (comb 3); split; [apply comb_adds|apply const_pwm_arr]]].
  unfold fair_crps, mae, pairsum. assert (forall n, sumn n (fun _ => Rabs (xc - xc)) = 0) as Z.
  { intros n. induction n as [|n IH]; [reflexivity|]. rewrite sumn_S, IH, Rminus_eq_0, Rabs_R0. ring. }
  rewrite (sumn_ext 4 (fun _ => sumn 4 (fun _ => Rabs (xc - xc))) (fun _ => Rabs (xc - xc))) by (intros; rewrite Z, Rminus_eq_0, Rabs_R0; reflexivity). rewrite !Z. unfold Rdiv. ring.
Qed.
Lemma C83_unrounded_l :
forall M y x t1 t2 t3, (0 < M)%nat -> adds t1 M -> adds t2 M -> adds t3 M ->
  let e := map (fun i => Fin (x i)) (seq 0 M) in
  crps_akr_arr_r (fun r => r) t1 t2 M y x = lag_crps M (lag1 M) y x /\ crps_akr_k (Fin y) e = Fin (crps_akr_k_r (fun r => r) M y x) /\
  crps_akr_circperm_arr_r (fun r => r) t1 t2 M y x = lag_crps M (lagc M) y x /\ crps_akr_circperm_k (Fin y) e = Fin (crps_akr_circperm_k_r (fun r => r) M y x) /\
  ((1 < M)%nat -> ascending M x ->
    crps_pwm_arr_r (fun r => r) t1 t2 t3 M y x = fair_crps M y x /\ crps_pwm_k (Fin y) e = Fin (crps_pwm_k_r (fun r => r) M y x)).
Proof.
intros M y x t1 t2 t3 HM A1 A2 A3 e.
  split; [now apply (lag_arr_id 1)|]. split; [|split; [now apply (lag_arr_id (M / 2))|split]].
  - etransitivity; [apply (akr_k_real M (Fin y) (fun i => Fin (x i)) y x HM eq_refl); auto|]. f_equal. symmetry. apply lag_k_id.
  - etransitivity; [apply (akr_circperm_k_real M (Fin y) (fun i => Fin (x i)) y x HM eq_refl); auto|]. f_equal. symmetry. apply lag_k_id.
  - intros M1 Ha. split; [now apply pwm_arr_id|].
    etransitivity; [apply (pwm_k_real M (Fin y) (fun i => Fin (x i)) y x HM eq_refl); auto|]. f_equal. symmetry. now apply pwm_k_id.
Qed.
