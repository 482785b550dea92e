(** C97: rounding errors of the estimator int of the CRPS with ensemble weights. *)
From Coq Require Import Reals List ZArith Permutation Lia Lra Psatz.
From Verif Require Import Num S_crps S_round5 S_round6 S_round M_crps M_round M_round3 M_round6 M_round10 T_round10.
Open Scope R_scope.


(** C97.  With members in ascending order the weighted estimator int differs from the exact CRPS by at most a stated number of roundings of four times the distance between the smallest and the largest of the members and the observation. *)
Theorem C97_int :
forall M y x w tw tc t1 t2 h, wens64 M y x -> wts64 M w -> adds tw M -> cumorders M h tc -> adds t1 M -> adds t2 M -> (Z.of_nat (height tw) <= 2 ^ 52)%Z -> ascending M x ->
  let wc := weights_r b64 tw w in let r := 4 * (Rmax y (x (M - 1)%nat) - Rmin y (x 0%nat)) in
  Rabs (crps_int_w_arr_r b64 tc t1 t2 M y x wc - wexact_crps M (nw M w) y x) <= ((1 + u64) ^ (height t2 + 2 * Nat.max h (height t1) + 2 * height tw + 9) - 1) * r /\
  Rabs (crps_int_w_k_r b64 M y x wc - wexact_crps M (nw M w) y x) <= ((1 + u64) ^ (3 * M + 2 * height tw + 10) - 1) * r.
Proof. exact C97_int_l. Qed.
Print Assumptions C97_int.
Example C97_int_ex : Rabs (crps_int_w_k_r b64 5 0 ex_qx (weights_r b64 (comb 4) ex_qw) - wexact_crps 5 (nw 5 ex_qw) 0 ex_qx) <= ((1 + u64) ^ 33 - 1) * (4 * (Rmax 0 1 - Rmin 0 0)).
Proof. destruct (comb_adds 4) as [A L]. destruct (C97_int 5 0 ex_qx ex_qw (comb 4) comb (comb 4) (comb 4) 4 ex_qens ex_qwts A ex_qcum A A ltac:(rewrite L; lia) ex_qasc) as [_ H]. rewrite L in H. exact H. Qed.

(** C97.  The two implementations differ by at most the sum of the two bounds. *)
Theorem C97_agree :
forall M y x w tw tc t1 t2 h, wens64 M y x -> wts64 M w -> adds tw M -> cumorders M h tc -> adds t1 M -> adds t2 M -> (Z.of_nat (height tw) <= 2 ^ 52)%Z -> ascending M x ->
  let wc := weights_r b64 tw w in
  Rabs (crps_int_w_arr_r b64 tc t1 t2 M y x wc - crps_int_w_k_r b64 M y x wc) <=
  ((1 + u64) ^ (height t2 + 2 * Nat.max h (height t1) + 2 * height tw + 9) + (1 + u64) ^ (3 * M + 2 * height tw + 10) - 2) * (4 * (Rmax y (x (M - 1)%nat) - Rmin y (x 0%nat))).
Proof. exact C97_agree_l. Qed.
Print Assumptions C97_agree.
Example C97_agree_ex : Rabs (crps_int_w_arr_r b64 comb (comb 4) (comb 4) 5 0 ex_qx (weights_r b64 (comb 4) ex_qw) - crps_int_w_k_r b64 5 0 ex_qx (weights_r b64 (comb 4) ex_qw)) <= ((1 + u64) ^ 29 + (1 + u64) ^ 33 - 2) * (4 * (Rmax 0 1 - Rmin 0 0)).
Proof. destruct (comb_adds 4) as [A L]. pose proof (C97_agree 5 0 ex_qx ex_qw (comb 4) comb (comb 4) (comb 4) 4 ex_qens ex_qwts A ex_qcum A A ltac:(rewrite L; lia) ex_qasc) as H. cbv zeta in H. rewrite L in H. exact H. Qed.

(** C97.  The computed score is never negative: neither with the array implementation, whatever the order of the members, nor with numba if they are in ascending order.  The weights are arbitrary. *)
Theorem C97_nonnegative :
forall M y x w tc t1 t2, adds t2 M -> 0 <= crps_int_w_arr_r b64 tc t1 t2 M y x w /\ ((0 < M)%nat -> ascending M x -> 0 <= crps_int_w_k_r b64 M y x w).
Proof. exact C97_nonnegative_l. Qed.
Print Assumptions C97_nonnegative.
Example C97_nonnegative_ex : 0 <= crps_int_w_k_r b64 5 0 ex_qx (weights_r b64 (comb 4) ex_qw).
Proof. apply (C97_nonnegative 5 0 ex_qx (weights_r b64 (comb 4) ex_qw) comb (comb 4) (comb 4)); [apply comb_adds|lia|apply ex_qasc]. Qed.

(** C97.  If every member equals the observation both implementations return exactly zero, whatever the weights. *)
Theorem C97_perfect :
forall M y x w tc t1 t2, (0 < M)%nat -> adds t2 M -> (forall i, (i < M)%nat -> x i = y) -> crps_int_w_arr_r b64 tc t1 t2 M y x w = 0 /\ crps_int_w_k_r b64 M y x w = 0.
Proof. exact C97_perfect_l. Qed.
Print Assumptions C97_perfect.
Example C97_perfect_ex : crps_int_w_k_r b64 5 1 (fun _ => 1) (weights_r b64 (comb 4) ex_qw) = 0.
Proof. apply (C97_perfect 5 1 (fun _ => 1) (weights_r b64 (comb 4) ex_qw) comb (comb 4) (comb 4)); [lia|apply comb_adds|reflexivity]. Qed.

(** C97.  No bound relative to the score itself holds, unlike for the estimator without weights: with the weights 1, 6, 3, 3 and 2^-60, four members at the observation and one above it, the computed score is more than a million times the exact one. *)
Theorem C97_relative_refuted :
exists M y x w tw tc t1 t2 h, wens64 M y x /\ wts64 M w /\ adds tw M /\ cumorders M h tc /\ adds t1 M /\ adds t2 M /\ (Z.of_nat (height tw) <= 2 ^ 52)%Z /\ ascending M x /\
  0 < wexact_crps M (nw M w) y x /\ 1000000 * wexact_crps M (nw M w) y x < crps_int_w_arr_r b64 tc t1 t2 M y x (weights_r b64 tw w) /\
  1000000 * wexact_crps M (nw M w) y x < crps_int_w_k_r b64 M y x (weights_r b64 tw w).
Proof. exact C97_relative_refuted_l. Qed.
Print Assumptions C97_relative_refuted.
Example C97_relative_refuted_ex : crps_int_w_k_r b64 5 0 ex_qx (weights_r b64 (comb 4) ex_qw) = powerRZ 2 (-104).
Proof. rewrite ex_ik. rewrite Raux.bpow_powerRZ. reflexivity. Qed.

(** C97.  Without rounding both definitions are the exact CRPS of the weighted ensemble, and the numba one is the kernel of M_crps.v. *)
Theorem C97_unrounded :
forall M y x w tc t1 t2 h, (0 < M)%nat -> cumorders M h tc -> adds t1 M -> adds t2 M -> ascending M x -> (forall i, (i < M)%nat -> 0 <= w i) -> sumn M w = 1 ->
  let id := fun r : R => r in let v f := map (fun k => Fin (f k)) (seq 0 M) in
  crps_int_w_arr_r id tc t1 t2 M y x w = wexact_crps M w y x /\ crps_int_w_k (Fin y) (v x) (v w) = Fin (crps_int_w_k_r id M y x w).
Proof. exact C97_unrounded_l. Qed.
Print Assumptions C97_unrounded.
Example C97_unrounded_ex : crps_int_w_arr_r (fun r => r) comb (comb 4) (comb 4) 5 0 ex_qx (nw 5 ex_qw) = wexact_crps 5 (nw 5 ex_qw) 0 ex_qx.
Proof. destruct (comb_adds 4) as [A L]. apply (C97_unrounded 5 0 ex_qx (nw 5 ex_qw) comb (comb 4) (comb 4) 4); [lia|apply ex_qcum|exact A|exact A|apply ex_qasc| |apply (qsum1 5 ex_qw ex_qwts)]. intros i Hi. apply (qw0 5 0 ex_qx ex_qw (comb 4) ex_qens ex_qwts A); [rewrite L; lia|exact Hi]. Qed.
