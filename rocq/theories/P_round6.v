(** C93.  Rounding errors of the weighted ensemble CRPS and of the weighted energy score in binary64, from the given weights to the score. *)
From Coq Require Import Reals List ZArith Lia Lra.
From Verif Require Import M_crps M_energy T_round6.
From Verif Require Export S_round6.
Open Scope R_scope.


(** C93.  The normalised weights: each is the exact one up to height + 2 roundings, their sum is one up to height + 2 roundings, weight zero stays zero. *)
Theorem C93_weights :
forall M w tw, wts64 M w -> (Z.of_nat M <= 2 ^ 26)%Z -> adds tw M -> (Z.of_nat (height tw) <= 2 ^ 52)%Z ->
  (forall i, (i < M)%nat -> within (height tw + 2) (weights_r b64 tw w i) (nw M w i)) /\
  within (height tw + 2) (sumn M (weights_r b64 tw w)) 1 /\ forall i, w i = 0 -> weights_r b64 tw w i = 0.
Proof. exact C93_weights_l. Qed.
Print Assumptions C93_weights.
Example C93_weights_ex : within 4 (weights_r b64 (comb 2) ex_w 2) (nw 3 ex_w 2).
Proof. destruct (comb_adds 2) as [A E]. pose proof (proj1 (C93_weights 3 ex_w (comb 2) ex_wts ltac:(lia) A ltac:(rewrite E; lia)) 2%nat ltac:(lia)) as H. rewrite E in H. exact H. Qed.

(** C93.  Forward error of the weighted CRPS with estimator nrg, array and numba implementation. *)
Theorem C93_crps_nrg :
forall M y x w tw t1 t2, wens64 M y x -> wts64 M w -> adds tw M -> adds t1 M -> adds t2 (M * M) -> (Z.of_nat (height tw) <= 2 ^ 52)%Z ->
  let W := nw M w in let wc := weights_r b64 tw w in let h := height tw in
  Rabs (crps_nrg_w_arr_r b64 t1 t2 M y x wc - wexact_crps M W y x)
    <= ((1 + u64) ^ (height t1 + h + 5) - 1) * wmae M W y x + ((1 + u64) ^ (height t2 + 2 * h + 9) - 1) * (/ 2 * wpairsum M W x) /\
  Rabs (crps_nrg_w_k_r b64 M y x wc - wexact_crps M W y x)
    <= ((1 + u64) ^ (M + h + 5) - 1) * wmae M W y x + ((1 + u64) ^ (M * (M - 1) / 2 + 2 * h + 8) - 1) * (/ 2 * wpairsum M W x).
Proof. exact C93_crps_nrg_l. Qed.
Print Assumptions C93_crps_nrg.
Example C93_crps_nrg_ex : Rabs (crps_nrg_w_k_r b64 3 1 ex_u (weights_r b64 (comb 2) ex_w) - wexact_crps 3 (nw 3 ex_w) 1 ex_u)
    <= ((1 + u64) ^ 10 - 1) * wmae 3 (nw 3 ex_w) 1 ex_u + ((1 + u64) ^ 15 - 1) * (/ 2 * wpairsum 3 (nw 3 ex_w) ex_u).
Proof.
  destruct (comb_adds 2) as [A E]. destruct (comb_adds 8) as [A' _]. pose proof (proj2 (C93_crps_nrg 3 1 ex_u ex_w (comb 2) (comb 2) (comb 8) ex_uni ex_wts A A A' ltac:(rewrite E; lia))) as H.
  rewrite E in H. exact H.
Qed.

(** C93.  Forward error of the weighted CRPS with estimators akr and akr_circperm. *)
Theorem C93_crps_akr :
forall M y x w tw t1 t2, wens64 M y x -> wts64 M w -> adds tw M -> adds t1 M -> adds t2 M -> (Z.of_nat (height tw) <= 2 ^ 52)%Z ->
  let W := nw M w in let wc := weights_r b64 tw w in let h := height tw in
  let bound a b g := ((1 + u64) ^ a - 1) * wmae M W y x + ((1 + u64) ^ b - 1) * (/ 2 * sumn M (fun k => W k * Rabs (x k - x (g k)))) in
  let ga := fun k => ((k + M - (M - 1) / 2) mod M)%nat in
  Rabs (crps_akr_w_arr_r b64 t1 t2 M y x wc - wlag_crps M (lag1 M) W y x) <= bound (height t1 + h + 5)%nat (height t2 + h + 6)%nat (lag1 M) /\
  Rabs (crps_akr_circperm_w_arr_r b64 t1 t2 M y x wc - wlag_crps M ga W y x) <= bound (height t1 + h + 5)%nat (height t2 + h + 6)%nat ga /\
  Rabs (crps_akr_w_k_r b64 M y x wc - wlag_crps M (lag1 M) W y x) <= bound (M + h + 5)%nat (M + h + 6)%nat (lag1 M) /\
  Rabs (crps_akr_circperm_w_k_r b64 M y x wc - wlag_crps M (lagc M) W y x) <= bound (M + h + 5)%nat (M + h + 6)%nat (lagc M).
Proof. exact C93_crps_akr_l. Qed.
Print Assumptions C93_crps_akr.
Example C93_crps_akr_ex : Rabs (crps_akr_w_k_r b64 3 1 ex_u (weights_r b64 (comb 2) ex_w) - wlag_crps 3 (lag1 3) (nw 3 ex_w) 1 ex_u)
    <= ((1 + u64) ^ 10 - 1) * wmae 3 (nw 3 ex_w) 1 ex_u + ((1 + u64) ^ 11 - 1) * (/ 2 * sumn 3 (fun k => nw 3 ex_w k * Rabs (ex_u k - ex_u (lag1 3 k)))).
Proof.
  destruct (comb_adds 2) as [A E]. pose proof (proj1 (proj2 (proj2 (C93_crps_akr 3 1 ex_u ex_w (comb 2) (comb 2) (comb 2) ex_uni ex_wts A A A ltac:(rewrite E; lia))))) as H.
  rewrite E in H. exact H.
Qed.

(** C93.  Forward error of the weighted energy score with estimator nrg, array and numba implementation (with any norm of relative error n roundings). *)
Theorem C93_es_nrg :
forall M D y x w tw tn1 tn2 t1 t2 h nrm n, mvens64 M D y x -> wts64 M w -> adds tw M -> orders M D h tn1 -> orders (M * M) D h tn2 -> adds t1 M -> adds t2 (M * M) ->
  (Z.of_nat (height tw) <= 2 ^ 52)%Z -> (Z.of_nat h <= 2 ^ 52)%Z -> norm64 n D nrm -> (Z.of_nat n <= 2 ^ 52)%Z ->
  let W := nw M w in let wc := weights_r b64 tw w in let e := es_err D y x in let d := es_dist D x in let err := sumn M (fun i => W i * e i) in
  let half_spread := / 2 * sumn M (fun i => sumn M (fun j => W i * W j * d i j)) in
  Rabs (es_nrg_w_arr_r b64 tn1 tn2 t1 t2 M y x wc - k_wexact M W e d)
    <= ((1 + u64) ^ (height t1 + h / 2 + height tw + 7) - 1) * err + ((1 + u64) ^ (height t2 + h / 2 + 2 * height tw + 11) - 1) * half_spread /\
  Rabs (es_nrg_w_k_r b64 nrm M y x wc - k_wexact M W e d)
    <= ((1 + u64) ^ (M + n + height tw + 5) - 1) * err + ((1 + u64) ^ (M * (M - 1) / 2 + n + 2 * height tw + 9) - 1) * half_spread.
Proof. exact C93_es_nrg_l. Qed.
Print Assumptions C93_es_nrg.
Example C93_es_nrg_ex : Rabs (es_nrg_w_arr_r b64 (fun _ => comb 1) (fun _ => comb 1) (comb 2) (comb 8) 3 ex_y ex_x (weights_r b64 (comb 2) ex_w) - k_wexact 3 (nw 3 ex_w) (es_err 2 ex_y ex_x) (es_dist 2 ex_x))
    <= ((1 + u64) ^ 11 - 1) * sumn 3 (fun i => nw 3 ex_w i * es_err 2 ex_y ex_x i) + ((1 + u64) ^ 23 - 1) * (/ 2 * sumn 3 (fun i => sumn 3 (fun j => nw 3 ex_w i * nw 3 ex_w j * es_dist 2 ex_x i j))).
Proof.
  destruct (comb_adds 2) as [A E]. destruct (comb_adds 8) as [A' E'].
  pose proof (proj1 (C93_es_nrg 3 2 ex_y ex_x ex_w (comb 2) (fun _ => comb 1) (fun _ => comb 1) (comb 2) (comb 8) 1 (norm_arr_r b64 (comb 1)) 2 ex_mv ex_wts A (ex_ord 3) (ex_ord 9) A A' ltac:(rewrite E; lia) ltac:(lia) ex_nrm ltac:(lia))) as H.
  rewrite E, E' in H. exact H.
Qed.

(** C93.  Forward error of the weighted energy score with estimators akr and akr_circperm. *)
Theorem C93_es_akr :
forall M D y x w tw tn1 tn2 t1 t2 h nrm n, mvens64 M D y x -> wts64 M w -> adds tw M -> orders M D h tn1 -> orders M D h tn2 -> adds t1 M -> adds t2 M ->
  (Z.of_nat (height tw) <= 2 ^ 52)%Z -> (Z.of_nat h <= 2 ^ 52)%Z -> norm64 n D nrm -> (Z.of_nat n <= 2 ^ 52)%Z ->
  let W := nw M w in let wc := weights_r b64 tw w in let e := es_err D y x in let d := es_dist D x in let err := sumn M (fun i => W i * e i) in
  let bound a b g := ((1 + u64) ^ a - 1) * err + ((1 + u64) ^ b - 1) * (/ 2 * sumn M (fun i => W i * d i (g i))) in
  let a1 := (height t1 + h / 2 + height tw + 7)%nat in let a2 := (height t2 + h / 2 + height tw + 8)%nat in
  Rabs (es_akr_w_arr_r b64 tn1 tn2 t1 t2 M y x wc - k_wlag M (lag1 M) W e d) <= bound a1 a2 (lag1 M) /\
  Rabs (es_akr_circperm_w_arr_r b64 tn1 tn2 t1 t2 M y x wc - k_wlag M (lagc M) W e d) <= bound a1 a2 (lagc M) /\
  Rabs (es_akr_w_k_r b64 nrm M y x wc - k_wlag M (lag1 M) W e d) <= bound (M + n + height tw + 5)%nat (M + n + height tw + 6)%nat (lag1 M) /\
  Rabs (es_akr_circperm_w_k_r b64 nrm M y x wc - k_wlag M (lagf M) W e d) <= bound (M + n + height tw + 5)%nat (M + n + height tw + 6)%nat (lagf M).
Proof. exact C93_es_akr_l. Qed.
Print Assumptions C93_es_akr.
Example C93_es_akr_ex : Rabs (es_akr_w_k_r b64 (norm_arr_r b64 (comb 1)) 3 ex_y ex_x (weights_r b64 (comb 2) ex_w) - k_wlag 3 (lag1 3) (nw 3 ex_w) (es_err 2 ex_y ex_x) (es_dist 2 ex_x))
    <= ((1 + u64) ^ 12 - 1) * sumn 3 (fun i => nw 3 ex_w i * es_err 2 ex_y ex_x i) + ((1 + u64) ^ 13 - 1) * (/ 2 * sumn 3 (fun i => nw 3 ex_w i * es_dist 2 ex_x i (lag1 3 i))).
Proof.
  destruct (comb_adds 2) as [A E].
  pose proof (C93_es_akr 3 2 ex_y ex_x ex_w (comb 2) (fun _ => comb 1) (fun _ => comb 1) (comb 2) (comb 2) 1 (norm_arr_r b64 (comb 1)) 2 ex_mv ex_wts A (ex_ord 3) (ex_ord 3) A A ltac:(rewrite E; lia) ltac:(lia) ex_nrm ltac:(lia)) as (_ & _ & H & _).
  rewrite E in H. exact H.
Qed.

(** C93.  The computed scores of the estimator nrg are not negative as long as no positive normalised weight is less than the number of roundings times 2^-53. *)
Theorem C93_nonneg :
forall M D y x yv xv w tw tn1 tn2 t1 t2 h nrm n delta, wens64 M y x -> mvens64 M D yv xv -> wts64 M w -> adds tw M -> orders M D h tn1 -> orders (M * M) D h tn2 -> adds t1 M -> adds t2 (M * M) ->
  (Z.of_nat (height tw) <= 2 ^ 52)%Z -> (Z.of_nat h <= 2 ^ 52)%Z -> norm64 n D nrm -> (Z.of_nat n <= 2 ^ 52)%Z ->
  (forall i, (i < M)%nat -> w i = 0 \/ delta <= nw M w i) -> let wc := weights_r b64 tw w in
  (INR (height t1 + height t2 + 3 * height tw + 12) * u64 <= delta -> 0 <= crps_nrg_w_arr_r b64 t1 t2 M y x wc) /\
  (INR (M + M * (M - 1) / 2 + 3 * height tw + 11) * u64 <= delta -> 0 <= crps_nrg_w_k_r b64 M y x wc) /\
  (INR (height t1 + height t2 + h + 3 * height tw + 16) * u64 <= delta -> 0 <= es_nrg_w_arr_r b64 tn1 tn2 t1 t2 M yv xv wc) /\
  (INR (M + M * (M - 1) / 2 + 2 * n + 3 * height tw + 12) * u64 <= delta -> 0 <= es_nrg_w_k_r b64 nrm M yv xv wc).
Proof. exact C93_nonneg_l. Qed.
Print Assumptions C93_nonneg.
Example C93_nonneg_ex : 0 <= crps_nrg_w_k_r b64 3 1 ex_u (weights_r b64 (comb 2) ex_w).
Proof.
  destruct (comb_adds 2) as [A E]. destruct (comb_adds 8) as [A' _].
  refine (proj1 (proj2 (C93_nonneg 3 2 1 ex_u ex_y ex_x ex_w (comb 2) (fun _ => comb 1) (fun _ => comb 1) (comb 2) (comb 8) 1 (norm_arr_r b64 (comb 1)) 2 (/ 6) ex_uni ex_mv ex_wts A (ex_ord 3) (ex_ord 9) A A' ltac:(rewrite E; lia) ltac:(lia) ex_nrm ltac:(lia) _)) _).
  - intros i Hi. right. unfold nw. replace (sumn 3 ex_w) with 6 by (unfold sumn, ex_w, Rsum; simpl; lra). unfold ex_w. rewrite S_INR. pose proof (pos_INR i). lra.
  - rewrite E. change (3 + 3 * (3 - 1) / 2 + 3 * 2 + 11)%nat with 23%nat. replace (INR 23) with 23 by (simpl; lra). unfold u64. assert (138 <= 2 ^ 53); [|apply (Rmult_le_reg_r (2 ^ 53)); [lra|]; rewrite Rmult_assoc, Rinv_l by lra; lra].
    apply Rle_trans with (2 ^ 8); [simpl; lra|]. apply Rle_pow; [lra|lia].
Qed.

(** C93.  If all members equal the observation, every estimator returns exactly zero, whatever the weights. *)
Theorem C93_perfect :
forall M D y x yv xv w tn1 tn2 t1 t2 nrm n, (forall i, x i = y) -> (forall i k, xv i k = yv k) -> norm64 n D nrm ->
  crps_nrg_w_arr_r b64 t1 t2 M y x w = 0 /\ crps_akr_w_arr_r b64 t1 t2 M y x w = 0 /\ crps_akr_circperm_w_arr_r b64 t1 t2 M y x w = 0 /\
  crps_nrg_w_k_r b64 M y x w = 0 /\ crps_akr_w_k_r b64 M y x w = 0 /\ crps_akr_circperm_w_k_r b64 M y x w = 0 /\
  es_nrg_w_arr_r b64 tn1 tn2 t1 t2 M yv xv w = 0 /\ es_akr_w_arr_r b64 tn1 tn2 t1 t2 M yv xv w = 0 /\ es_akr_circperm_w_arr_r b64 tn1 tn2 t1 t2 M yv xv w = 0 /\
  es_nrg_w_k_r b64 nrm M yv xv w = 0 /\ es_akr_w_k_r b64 nrm M yv xv w = 0 /\ es_akr_circperm_w_k_r b64 nrm M yv xv w = 0.
Proof. exact C93_perfect_l. Qed.
Print Assumptions C93_perfect.
Example C93_perfect_ex : crps_nrg_w_k_r b64 3 1 (fun _ => 1) ex_w = 0.
Proof. apply (C93_perfect 3 2 1 (fun _ => 1) ex_y (fun _ => ex_y) ex_w (fun _ => comb 1) (fun _ => comb 1) (comb 2) (comb 2) (norm_arr_r b64 (comb 1)) 2); [reflexivity|reflexivity|exact ex_nrm]. Qed.

(** C93.  Without rounding, the definitions are the exact scores, and the numba ones are the kernels of M_crps.v and M_energy.v. *)
Theorem C93_unrounded :
forall M D y x yv xv w tw tn1 tn2 tn3 t1 t2 t3 h, (0 < M)%nat -> adds tw M -> orders M D h tn1 -> orders (M * M) D h tn2 -> orders M D h tn3 -> adds t1 M -> adds t2 (M * M) -> adds t3 M ->
  let id := fun r : R => r in let e := es_err D yv xv in let d := es_dist D xv in let v f := map (fun k => Fin (f k)) (seq 0 M) in
  let obs := map (fun k => Fin (yv k)) (seq 0 D) in let fct := map (fun i => map (fun k => Fin (xv i k)) (seq 0 D)) (seq 0 M) in
  (forall i, weights_r id tw w i = nw M w i) /\
  crps_nrg_w_arr_r id t1 t2 M y x w = wexact_crps M w y x /\ crps_nrg_w_k (Fin y) (v x) (v w) = Fin (crps_nrg_w_k_r id M y x w) /\
  crps_akr_w_arr_r id t1 t3 M y x w = wlag_crps M (lag1 M) w y x /\ crps_akr_w_k (Fin y) (v x) (v w) = Fin (crps_akr_w_k_r id M y x w) /\
  crps_akr_circperm_w_arr_r id t1 t3 M y x w = wlag_crps M (fun k => ((k + M - (M - 1) / 2) mod M)%nat) w y x /\ crps_akr_circperm_w_k (Fin y) (v x) (v w) = Fin (crps_akr_circperm_w_k_r id M y x w) /\
  es_nrg_w_arr_r id tn1 tn2 t1 t2 M yv xv w = k_wexact M w e d /\ es_nrg_w_k obs fct (v w) = Fin (es_nrg_w_k_r id (enorm D) M yv xv w) /\
  es_akr_w_arr_r id tn1 tn3 t1 t3 M yv xv w = k_wlag M (lag1 M) w e d /\ es_akr_w_k obs fct (v w) = Fin (es_akr_w_k_r id (enorm D) M yv xv w) /\
  es_akr_circperm_w_arr_r id tn1 tn3 t1 t3 M yv xv w = k_wlag M (lagc M) w e d /\ es_akr_circperm_w_k obs fct (v w) = Fin (es_akr_circperm_w_k_r id (enorm D) M yv xv w).
Proof. exact C93_unrounded_l. Qed.
Print Assumptions C93_unrounded.
Example C93_unrounded_ex : crps_nrg_w_k (Fin 1) (map (fun k => Fin (ex_u k)) (seq 0 3)) (map (fun k => Fin (ex_w k)) (seq 0 3)) = Fin (crps_nrg_w_k_r (fun r => r) 3 1 ex_u ex_w).
Proof.
  apply (C93_unrounded 3 2 1 ex_u ex_y ex_x ex_w (comb 2) (fun _ => comb 1) (fun _ => comb 1) (fun _ => comb 1) (comb 2) (comb 8) (comb 2) 1); try apply ex_ord; try apply comb_adds. lia.
Qed.
