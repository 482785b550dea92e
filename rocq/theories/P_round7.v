(** C94.  Rounding errors of the fair estimators of the weighted ensemble CRPS and of the weighted energy score in binary64. *)
From Coq Require Import Reals List ZArith Lia Lra.
From Verif Require Import Num M_crps M_energy T_round7.
From Verif Require Export S_round6 M_round7.
Open Scope R_scope.


(** C94.  The constant 1 - sum(w * w) has an absolute error of at most height + 2 height + 6 roundings of one, and is at most one. *)
Theorem C94_constant :
forall M w tw t, (Z.of_nat M <= 2 ^ 26)%Z -> wts64 M w -> adds tw M -> adds t M -> (Z.of_nat (height tw) <= 2 ^ 52)%Z ->
  let W := nw M w in let c := fair_c_r b64 t (weights_r b64 tw w) in
  Rabs (c - (1 - sumn M (fun i => W i * W i))) <= (1 + u64) ^ (height t + 2 * height tw + 6) - 1 /\ c <= 1.
Proof. exact C94_constant_l. Qed.
Print Assumptions C94_constant.
Example C94_constant_ex : Rabs (fair_c_r b64 (comb 2) (weights_r b64 (comb 2) ex_w) - (1 - sumn 3 (fun i => nw 3 ex_w i * nw 3 ex_w i))) <= (1 + u64) ^ 12 - 1.
Proof. destruct (comb_adds 2) as [A E]. pose proof (proj1 (C94_constant 3 ex_w (comb 2) (comb 2) ltac:(lia) ex_wts A A ltac:(rewrite E; lia))) as H. rewrite E in H. exact H. Qed.

(** C94.  If no normalised weight exceeds one half, the constant is at least one half and its relative error is at most four times the number of roundings times 2^-53. *)
Theorem C94_balanced :
forall M w tw t, wts64 M w -> (forall i, (i < M)%nat -> nw M w i <= / 2) -> (Z.of_nat (height t + 2 * height tw + 6) <= 2 ^ 49)%Z ->
  let c := 1 - sumn M (fun i => nw M w i * nw M w i) in let g := (1 + u64) ^ (height t + 2 * height tw + 6) - 1 in
  / 2 <= c /\ g < c /\ g / c <= 4 * (INR (height t + 2 * height tw + 6) * u64).
Proof. exact C94_balanced_l. Qed.
Print Assumptions C94_balanced.
Example C94_balanced_ex : / 2 <= 1 - sumn 3 (fun i => nw 3 ex_w i * nw 3 ex_w i).
Proof.
  apply (C94_balanced 3 ex_w (comb 2) (comb 2) ex_wts).
  - intros i Hi. unfold nw. replace (sumn 3 ex_w) with 6 by (unfold sumn, ex_w, Rsum; simpl; lra). unfold ex_w. assert (INR (S i) <= INR 3) by (apply le_INR; lia). simpl (INR 3) in *. lra.
  - rewrite (proj2 (comb_adds 2)). lia.
Qed.

(** C94.  Forward error of the weighted fair CRPS, array and numba implementation: the error of the constant is amplified by its size. [g < c]: the constant is not lost in its own error. *)
Theorem C94_crps_fair :
forall M y x w tw t1 t2 t3, wens64 M y x -> wts64 M w -> adds tw M -> adds t1 M -> adds t2 (M * M) -> adds t3 M -> (Z.of_nat (height tw) <= 2 ^ 52)%Z ->
  let W := nw M w in let wc := weights_r b64 tw w in let h := height tw in
  let c := 1 - sumn M (fun i => W i * W i) in let g := (1 + u64) ^ (height t3 + 2 * h + 6) - 1 in
  let bound a b := ((1 + u64) ^ a - 1) * wmae M W y x + ((1 + u64) ^ b / (1 - g / c) - 1) * (wpairsum M W x / (2 * c)) in
  g < c ->
  (exists s, crps_fair_w_arr_r b64 t1 t2 t3 M y x wc = Fin s /\ Rabs (s - wfair_crps M W y x) <= bound (height t1 + h + 5)%nat (height t2 + 2 * h + 10)%nat) /\
  (exists s, crps_fair_w_k_r b64 t3 M y x wc = Fin s /\ Rabs (s - wfair_crps M W y x) <= bound (M + h + 5)%nat (M * (M - 1) / 2 + 2 * h + 9)%nat).
Proof. exact C94_crps_fair_l. Qed.
Print Assumptions C94_crps_fair.
Example C94_crps_fair_ex : exists s, crps_fair_w_k_r b64 (comb 2) 3 1 ex_u (weights_r b64 (comb 2) ex_w) = Fin s.
Proof.
  destruct (comb_adds 2) as [A E]. destruct (comb_adds 8) as [A' _].
  destruct (C94_balanced 3 ex_w (comb 2) (comb 2) ex_wts) as (_ & G & _).
  - intros i Hi. unfold nw. replace (sumn 3 ex_w) with 6 by (unfold sumn, ex_w, Rsum; simpl; lra). unfold ex_w. assert (INR (S i) <= INR 3) by (apply le_INR; lia). simpl (INR 3) in *. lra.
  - rewrite E. lia.
  - destruct (C94_crps_fair 3 1 ex_u ex_w (comb 2) (comb 2) (comb 8) (comb 2) ex_uni ex_wts A A A' A ltac:(rewrite E; lia) G) as [_ (s & H & _)]. exists s. exact H.
Qed.

(** C94.  Forward error of the weighted fair energy score, array and numba implementation (with any norm of relative error n roundings). *)
Theorem C94_es_fair :
forall M D y x w tw tn1 tn2 t1 t2 t3 h nrm n, mvens64 M D y x -> wts64 M w -> adds tw M -> orders M D h tn1 -> orders (M * M) D h tn2 -> adds t1 M -> adds t2 (M * M) -> adds t3 M ->
  (Z.of_nat (height tw) <= 2 ^ 52)%Z -> (Z.of_nat h <= 2 ^ 52)%Z -> norm64 n D nrm -> (Z.of_nat n <= 2 ^ 52)%Z ->
  let W := nw M w in let wc := weights_r b64 tw w in let e := es_err D y x in let d := es_dist D x in
  let c := 1 - sumn M (fun i => W i * W i) in let g := (1 + u64) ^ (height t3 + 2 * height tw + 6) - 1 in
  let bound a b := ((1 + u64) ^ a - 1) * sumn M (fun i => W i * e i) + ((1 + u64) ^ b / (1 - g / c) - 1) * (sumn M (fun i => sumn M (fun j => W i * W j * d i j)) / (2 * c)) in
  g < c ->
  (exists s, es_fair_w_arr_r b64 tn1 tn2 t1 t2 t3 M y x wc = Fin s /\ Rabs (s - k_wfair M W e d) <= bound (height t1 + h / 2 + height tw + 7)%nat (height t2 + h / 2 + 2 * height tw + 12)%nat) /\
  (exists s, es_fair_w_k_r b64 nrm t3 M y x wc = Fin s /\ Rabs (s - k_wfair M W e d) <= bound (M + n + height tw + 5)%nat (M * (M - 1) / 2 + n + 2 * height tw + 10)%nat).
Proof. exact C94_es_fair_l. Qed.
Print Assumptions C94_es_fair.
Example C94_es_fair_ex : exists s, es_fair_w_arr_r b64 (fun _ => comb 1) (fun _ => comb 1) (comb 2) (comb 8) (comb 2) 3 ex_y ex_x (weights_r b64 (comb 2) ex_w) = Fin s.
Proof.
  destruct (comb_adds 2) as [A E]. destruct (comb_adds 8) as [A' _].
  destruct (C94_balanced 3 ex_w (comb 2) (comb 2) ex_wts) as (_ & G & _).
  - intros i Hi. unfold nw. replace (sumn 3 ex_w) with 6 by (unfold sumn, ex_w, Rsum; simpl; lra). unfold ex_w. assert (INR (S i) <= INR 3) by (apply le_INR; lia). simpl (INR 3) in *. lra.
  - rewrite E. lia.
  - destruct (C94_es_fair 3 2 ex_y ex_x ex_w (comb 2) (fun _ => comb 1) (fun _ => comb 1) (comb 2) (comb 8) (comb 2) 1 (norm_arr_r b64 (comb 1)) 2 ex_mv ex_wts A (ex_ord 3) (ex_ord 9) A A' A ltac:(rewrite E; lia) ltac:(lia) ex_nrm ltac:(lia) G) as [(s & H & _) _]. exists s. exact H.
Qed.

(** C94.  If the constant is computed as zero and the ensemble has spread, the array implementations and the numba energy score return minus infinity, the best possible score, and the numba CRPS returns NaN. *)
Theorem C94_lost :
forall M D y x yu xu w tw tn1 tn2 t1 t2 t3 h nrm n, mvens64 M D y x -> wens64 M yu xu -> wts64 M w -> adds tw M -> orders M D h tn1 -> orders (M * M) D h tn2 -> adds t1 M -> adds t2 (M * M) -> adds t3 M ->
  (Z.of_nat (height tw) <= 2 ^ 52)%Z -> (Z.of_nat h <= 2 ^ 52)%Z -> norm64 n D nrm -> (Z.of_nat n <= 2 ^ 52)%Z ->
  let W := nw M w in let wc := weights_r b64 tw w in let e := es_err D y x in let d := es_dist D x in
  fair_c_r b64 t3 wc = 0 ->
  crps_fair_w_k_r b64 t3 M yu xu wc = NaN /\
  (0 < wpairsum M W xu -> crps_fair_w_arr_r b64 t1 t2 t3 M yu xu wc = NInf) /\
  (0 < sumn M (fun i => sumn M (fun j => W i * W j * d i j)) ->
    es_fair_w_arr_r b64 tn1 tn2 t1 t2 t3 M y x wc = NInf /\ es_fair_w_k_r b64 nrm t3 M y x wc = NInf).
Proof. exact C94_lost_l. Qed.
Print Assumptions C94_lost.
Example C94_lost_ex : fair_c_r b64 (comb 1) (weights_r b64 (comb 1) ex_wd) = 0 /\ wts64 2 ex_wd.
Proof. split; [exact ex_wd_c|exact ex_wdts]. Qed.

(** C94.  Refuted: the computed fair score is finite when at least two members have positive weight.  Two members 0 and 1 with weights 1 and 2^-60, observation 0: the exact score is -1/2 up to 2^-59, the array implementation returns minus infinity and numba NaN. *)
Theorem C94_fair_refuted :
exists M y x w tw t1 t2 t3, (1 < M)%nat /\ wens64 M y x /\ wts64 M w /\ adds tw M /\ adds t1 M /\ adds t2 (M * M) /\ adds t3 M /\ (forall i, (i < M)%nat -> 0 < w i) /\
  Rabs (wfair_crps M (nw M w) y x + / 2) <= / 2 ^ 59 /\
  crps_fair_w_arr_r b64 t1 t2 t3 M y x (weights_r b64 tw w) = NInf /\ crps_fair_w_k_r b64 t3 M y x (weights_r b64 tw w) = NaN.
Proof. exact C94_fair_refuted_l. Qed.
Print Assumptions C94_fair_refuted.
Example C94_fair_refuted_ex : wts64 2 ex_wd /\ wens64 2 0 ex_u.
Proof. split; [exact ex_wdts|exact ex_uni2]. Qed.

(** C94.  If all members equal the observation, every implementation returns exactly zero, or NaN if the constant is computed as zero. *)
Theorem C94_perfect :
forall M D y x yv xv w tn1 tn2 t1 t2 t3 nrm n, (forall i, x i = y) -> (forall i k, xv i k = yv k) -> norm64 n D nrm ->
  let s := if Req_EM_T (fair_c_r b64 t3 w) 0 then NaN else Fin 0 in
  crps_fair_w_arr_r b64 t1 t2 t3 M y x w = s /\ crps_fair_w_k_r b64 t3 M y x w = s /\
  es_fair_w_arr_r b64 tn1 tn2 t1 t2 t3 M yv xv w = s /\ es_fair_w_k_r b64 nrm t3 M yv xv w = s.
Proof. exact C94_perfect_l. Qed.
Print Assumptions C94_perfect.
Example C94_perfect_ex : crps_fair_w_k_r b64 (comb 1) 2 1 (fun _ => 1) (weights_r b64 (comb 1) ex_wd) = NaN.
Proof.
  destruct (C94_perfect 2 2 1 (fun _ => 1) ex_y (fun _ => ex_y) (weights_r b64 (comb 1) ex_wd) (fun _ => comb 1) (fun _ => comb 1) (comb 1) (comb 3) (comb 1) (norm_arr_r b64 (comb 1)) 2) as (_ & H & _); [reflexivity|reflexivity|exact ex_nrm|].
  rewrite H, ex_wd_c. destruct (Req_EM_T 0 0); [reflexivity|lra].
Qed.

(** C94.  Without rounding and with a constant other than zero, the definitions are the exact fair scores, and the numba ones are the kernels of M_crps.v and M_energy.v. *)
Theorem C94_unrounded :
forall M D y x yv xv w tn1 tn2 t1 t2 t3 h, (0 < M)%nat -> orders M D h tn1 -> orders (M * M) D h tn2 -> adds t1 M -> adds t2 (M * M) -> adds t3 M -> sumn M (fun i => w i * w i) <> 1 ->
  let id := fun r : R => r in let e := es_err D yv xv in let d := es_dist D xv in let v f := map (fun k => Fin (f k)) (seq 0 M) in
  let obs := map (fun k => Fin (yv k)) (seq 0 D) in let fct := map (fun i => map (fun k => Fin (xv i k)) (seq 0 D)) (seq 0 M) in
  crps_fair_w_arr_r id t1 t2 t3 M y x w = Fin (wfair_crps M w y x) /\ crps_fair_w_k (Fin y) (v x) (v w) = crps_fair_w_k_r id t3 M y x w /\
  es_fair_w_arr_r id tn1 tn2 t1 t2 t3 M yv xv w = Fin (k_wfair M w e d) /\ es_fair_w_k obs fct (v w) = es_fair_w_k_r id (enorm D) t3 M yv xv w.
Proof. exact C94_unrounded_l. Qed.
Print Assumptions C94_unrounded.
Example C94_unrounded_ex : crps_fair_w_arr_r (fun r => r) (comb 2) (comb 8) (comb 2) 3 1 ex_u (nw 3 ex_w) = Fin (wfair_crps 3 (nw 3 ex_w) 1 ex_u).
Proof.
  apply (C94_unrounded 3 2 1 ex_u ex_y ex_x (nw 3 ex_w) (fun _ => comb 1) (fun _ => comb 1) (comb 2) (comb 8) (comb 2) 1); try apply ex_ord; try apply comb_adds; [lia|].
  unfold nw. replace (sumn 3 ex_w) with 6 by (unfold sumn, ex_w, Rsum; simpl; lra). unfold sumn, Rsum, ex_w. simpl. lra.
Qed.
