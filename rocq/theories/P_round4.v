(** Property C89: rounding errors of the energy score; [mvens64], [norm64] and [orders] are in S_round4.v. *)
From Coq Require Import Reals List ZArith Permutation Lia Lra.
From Verif Require Import M_energy T_round4.
Open Scope R_scope.

(** C89.  np.linalg.norm along an axis: h / 2 + 2 roundings, h the height of the order of summation; never negative, the same for both orders of subtraction, zero for equal vectors. *)
Theorem C89_norm :
forall D t, adds t D -> norm64 (height t / 2 + 2) D (norm_arr_r b64 t) /\
  (forall v, 0 <= norm_arr_r b64 t v) /\ (forall a b, norm_arr_r b64 t (rvsub b64 a b) = norm_arr_r b64 t (rvsub b64 b a)) /\ forall a, norm_arr_r b64 t (rvsub b64 a a) = 0.
Proof. exact C89_norm_l. Qed.
Print Assumptions C89_norm.
Example C89_norm_ex : norm64 2 2 (norm_arr_r b64 (comb 1)).
Proof. exact ex_nrm. Qed.

(** C89.  Forward error of the estimator nrg, array and numba implementation (with any norm of relative error n roundings). *)
Theorem C89_nrg :
forall M D y x tn1 tn2 t1 t2 h nrm n, mvens64 M D y x -> orders M D h tn1 -> orders (M * M) D h tn2 -> adds t1 M -> adds t2 (M * M) -> (Z.of_nat h <= 2 ^ 52)%Z ->
  norm64 n D nrm -> (Z.of_nat n <= 2 ^ 52)%Z ->
  let err := sumn M (es_err D y x) / INR M in let half_spread := sumn M (fun i => sumn M (es_dist D x i)) / (2 * INR M * INR M) in
  Rabs (es_nrg_arr_r b64 tn1 tn2 t1 t2 M y x - k_exact M (es_err D y x) (es_dist D x))
    <= ((1 + u64) ^ (height t1 + h / 2 + 5) - 1) * err + ((1 + u64) ^ (height t2 + h / 2 + 6) - 1) * half_spread /\
  Rabs (es_nrg_k_r b64 nrm M y x - k_exact M (es_err D y x) (es_dist D x))
    <= ((1 + u64) ^ (M + n + 3) - 1) * err + ((1 + u64) ^ (M * (M - 1) / 2 + n + 4) - 1) * half_spread.
Proof. exact C89_nrg_l. Qed.
Print Assumptions C89_nrg.
Example C89_nrg_ex : Rabs (es_nrg_arr_r b64 (fun _ => comb 1) (fun _ => comb 1) (comb 2) (comb 8) 3 ex_y ex_x - k_exact 3 (es_err 2 ex_y ex_x) (es_dist 2 ex_x))
    <= ((1 + u64) ^ 7 - 1) * (sumn 3 (es_err 2 ex_y ex_x) / INR 3) + ((1 + u64) ^ 14 - 1) * (sumn 3 (fun i => sumn 3 (es_dist 2 ex_x i)) / (2 * INR 3 * INR 3)).
Proof.
  destruct (comb_adds 2) as [A E]. destruct (comb_adds 8) as [A' E'].
  pose proof (C89_nrg 3 2 ex_y ex_x (fun _ => comb 1) (fun _ => comb 1) (comb 2) (comb 8) 1 (norm_arr_r b64 (comb 1)) 2  ex_mv (ex_ord 3) (ex_ord 9) A A' ltac:(lia) ex_nrm ltac:(lia)) as [H _].
  rewrite E, E' in H. exact H.
Qed.

(** C89.  Forward error of the estimator fair, array and numba implementation (with any norm of relative error n roundings). *)
Theorem C89_fair :
forall M D y x tn1 tn2 t1 t2 h nrm n, (1 < M)%nat -> mvens64 M D y x -> orders M D h tn1 -> orders (M * M) D h tn2 -> adds t1 M -> adds t2 (M * M) -> (Z.of_nat h <= 2 ^ 52)%Z ->
  norm64 n D nrm -> (Z.of_nat n <= 2 ^ 52)%Z ->
  let err := sumn M (es_err D y x) / INR M in let half_spread := sumn M (fun i => sumn M (es_dist D x i)) / (2 * INR M * (INR M - 1)) in
  Rabs (es_fair_arr_r b64 tn1 tn2 t1 t2 M y x - k_fair M (es_err D y x) (es_dist D x))
    <= ((1 + u64) ^ (height t1 + h / 2 + 5) - 1) * err + ((1 + u64) ^ (height t2 + h / 2 + 6) - 1) * half_spread /\
  Rabs (es_fair_k_r b64 nrm M y x - k_fair M (es_err D y x) (es_dist D x))
    <= ((1 + u64) ^ (M + n + 3) - 1) * err + ((1 + u64) ^ (M * (M - 1) / 2 + n + 4) - 1) * half_spread.
Proof. exact C89_fair_l. Qed.
Print Assumptions C89_fair.
Example C89_fair_ex : Rabs (es_fair_arr_r b64 (fun _ => comb 1) (fun _ => comb 1) (comb 2) (comb 8) 3 ex_y ex_x - k_fair 3 (es_err 2 ex_y ex_x) (es_dist 2 ex_x))
    <= ((1 + u64) ^ 7 - 1) * (sumn 3 (es_err 2 ex_y ex_x) / INR 3) + ((1 + u64) ^ 14 - 1) * (sumn 3 (fun i => sumn 3 (es_dist 2 ex_x i)) / (2 * INR 3 * (INR 3 - 1))).
Proof.
  destruct (comb_adds 2) as [A E]. destruct (comb_adds 8) as [A' E'].
  pose proof (C89_fair 3 2 ex_y ex_x (fun _ => comb 1) (fun _ => comb 1) (comb 2) (comb 8) 1 (norm_arr_r b64 (comb 1)) 2 ltac:(lia) ex_mv (ex_ord 3) (ex_ord 9) A A' ltac:(lia) ex_nrm ltac:(lia)) as [H _].
  rewrite E, E' in H. exact H.
Qed.

(** C89.  Forward error of the estimators akr and akr_circperm. *)
Theorem C89_akr :
forall M D y x tn1 tn2 t1 t2 h nrm n, mvens64 M D y x -> orders M D h tn1 -> orders M D h tn2 -> adds t1 M -> adds t2 M -> (Z.of_nat h <= 2 ^ 52)%Z ->
  norm64 n D nrm -> (Z.of_nat n <= 2 ^ 52)%Z ->
  let err := sumn M (es_err D y x) / INR M in let half_spread g := sumn M (fun i => es_dist D x i (g i)) / (2 * INR M) in
  let bound a b g := ((1 + u64) ^ a - 1) * err + ((1 + u64) ^ b - 1) * half_spread g in
  let e := es_err D y x in let d := es_dist D x in
  Rabs (es_akr_arr_r b64 tn1 tn2 t1 t2 M y x - k_lag M (lag1 M) e d) <= bound (height t1 + h / 2 + 5)%nat (height t2 + h / 2 + 6)%nat (lag1 M) /\
  Rabs (es_akr_circperm_arr_r b64 tn1 tn2 t1 t2 M y x - k_lag M (lagc M) e d) <= bound (height t1 + h / 2 + 5)%nat (height t2 + h / 2 + 6)%nat (lagc M) /\
  Rabs (es_akr_k_r b64 nrm M y x - k_lag M (lag1 M) e d) <= bound (M + n + 3)%nat (M + n + 4)%nat (lag1 M) /\
  Rabs (es_akr_circperm_k_r b64 nrm M y x - k_lag M (lagf M) e d) <= bound (M + n + 3)%nat (M + n + 4)%nat (lagf M).
Proof. exact C89_akr_l. Qed.
Print Assumptions C89_akr.
Example C89_akr_ex : Rabs (es_akr_k_r b64 (norm_arr_r b64 (comb 1)) 3 ex_y ex_x - k_lag 3 (lag1 3) (es_err 2 ex_y ex_x) (es_dist 2 ex_x))
    <= ((1 + u64) ^ 8 - 1) * (sumn 3 (es_err 2 ex_y ex_x) / INR 3) + ((1 + u64) ^ 9 - 1) * (sumn 3 (fun i => es_dist 2 ex_x i (lag1 3 i)) / (2 * INR 3)).
Proof.
  destruct (comb_adds 2) as [A E].
  apply (C89_akr 3 2 ex_y ex_x (fun _ => comb 1) (fun _ => comb 1) (comb 2) (comb 2) 1 (norm_arr_r b64 (comb 1)) 2 ex_mv (ex_ord 3) (ex_ord 3) A A ltac:(lia) ex_nrm ltac:(lia)).
Qed.

(** C89.  The computed score of the estimator nrg is not negative as long as M times the number of roundings is at most 2^53; for the numba implementation that holds for all ensembles of up to 200000 members. *)
Theorem C89_nonneg :
forall M D y x tn1 tn2 t1 t2 h nrm n, mvens64 M D y x -> orders M D h tn1 -> orders (M * M) D h tn2 -> adds t1 M -> adds t2 (M * M) -> (Z.of_nat h <= 2 ^ 52)%Z ->
  norm64 n D nrm -> (Z.of_nat n <= 2 ^ 52)%Z ->
  ((Z.of_nat M * Z.of_nat (height t1 + height t2 + h + 9) <= 2 ^ 53)%Z -> 0 <= es_nrg_arr_r b64 tn1 tn2 t1 t2 M y x) /\
  ((Z.of_nat M <= 200000)%Z -> (Z.of_nat n <= 10 ^ 9)%Z -> 0 <= es_nrg_k_r b64 nrm M y x).
Proof. exact C89_nonneg_l. Qed.
Print Assumptions C89_nonneg.
Example C89_nonneg_ex : 0 <= es_nrg_k_r b64 (norm_arr_r b64 (comb 1)) 3 ex_y ex_x.
Proof.
  destruct (comb_adds 2) as [A _]. destruct (comb_adds 8) as [A' _].
  apply (C89_nonneg 3 2 ex_y ex_x (fun _ => comb 1) (fun _ => comb 1) (comb 2) (comb 8) 1 (norm_arr_r b64 (comb 1)) 2 ex_mv (ex_ord 3) (ex_ord 9) A A' ltac:(lia) ex_nrm ltac:(lia)); lia.
Qed.

(** C89.  If all members equal the observation, every estimator returns exactly zero. *)
Theorem C89_perfect :
forall M D y x tn1 tn2 t1 t2 nrm n, (forall i k, x i k = y k) -> norm64 n D nrm ->
  es_nrg_arr_r b64 tn1 tn2 t1 t2 M y x = 0 /\ es_fair_arr_r b64 tn1 tn2 t1 t2 M y x = 0 /\ es_akr_arr_r b64 tn1 tn2 t1 t2 M y x = 0 /\ es_akr_circperm_arr_r b64 tn1 tn2 t1 t2 M y x = 0 /\
  es_nrg_k_r b64 nrm M y x = 0 /\ es_fair_k_r b64 nrm M y x = 0 /\ es_akr_k_r b64 nrm M y x = 0 /\ es_akr_circperm_k_r b64 nrm M y x = 0.
Proof. exact C89_perfect_l. Qed.
Print Assumptions C89_perfect.
Example C89_perfect_ex : es_fair_k_r b64 (norm_arr_r b64 (comb 1)) 5 (fun k => / (INR k + 3)) (fun _ k => / (INR k + 3)) = 0.
Proof. apply (C89_perfect 5 2 _ (fun _ k => / (INR k + 3)) (fun _ => comb 1) (fun _ => comb 1) (comb 4) (comb 4) _ 2); [auto|exact ex_nrm]. Qed.

(** C89.  Without rounding, the definitions are the exact scores, and the numba ones are the kernels of M_energy.v. *)
Theorem C89_unrounded :
forall M D y x tn1 tn2 tn3 t1 t2 t3 h, (0 < M)%nat -> orders M D h tn1 -> orders (M * M) D h tn2 -> orders M D h tn3 -> adds t1 M -> adds t2 (M * M) -> adds t3 M ->
  let id := fun r : R => r in let e := es_err D y x in let d := es_dist D x in
  let obs := map (fun k => Fin (y k)) (seq 0 D) in let fct := map (fun i => map (fun k => Fin (x i k)) (seq 0 D)) (seq 0 M) in
  es_nrg_arr_r id tn1 tn2 t1 t2 M y x = k_exact M e d /\ es_nrg_k obs fct = Fin (es_nrg_k_r id (enorm D) M y x) /\
  ((1 < M)%nat -> es_fair_arr_r id tn1 tn2 t1 t2 M y x = k_fair M e d /\ es_fair_k obs fct = Fin (es_fair_k_r id (enorm D) M y x)) /\
  es_akr_arr_r id tn1 tn3 t1 t3 M y x = k_lag M (lag1 M) e d /\ es_akr_k obs fct = Fin (es_akr_k_r id (enorm D) M y x) /\
  es_akr_circperm_arr_r id tn1 tn3 t1 t3 M y x = k_lag M (lagc M) e d /\ es_akr_circperm_k obs fct = Fin (es_akr_circperm_k_r id (enorm D) M y x).
Proof. exact C89_unrounded_l. Qed.
Print Assumptions C89_unrounded.
Example C89_unrounded_ex : es_nrg_k (map (fun k => Fin (ex_y k)) (seq 0 2)) (map (fun i => map (fun k => Fin (ex_x i k)) (seq 0 2)) (seq 0 3)) = Fin (es_nrg_k_r (fun r => r) (enorm 2) 3 ex_y ex_x).
Proof.
  apply (C89_unrounded 3 2 ex_y ex_x (fun _ => comb 1) (fun _ => comb 1) (fun _ => comb 1) (comb 2) (comb 8) (comb 2) 1); try apply ex_ord; try apply comb_adds. lia.
Qed.
