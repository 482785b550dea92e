(** C95: rounding errors of the quantile decomposition of the CRPS with ensemble weights. *)
From Coq Require Import Reals List ZArith Permutation Lia Lra Psatz.
From Verif Require Import Num S_crps S_round5 S_round6 S_round M_crps M_round M_round6 M_round8 T_round8.
Open Scope R_scope.


(** C95.  With members in ascending order the weighted quantile decomposition differs from the exact CRPS by at most a stated number of roundings of five times the weighted mean absolute error. *)
Theorem C95_qd :
forall M y x w tw tc t h, wens64 M y x -> wts64 M w -> adds tw M -> cumorders M h tc -> adds t M -> (Z.of_nat (height tw) <= 2 ^ 52)%Z -> ascending M x ->
  let wc := weights_r b64 tw w in let e := 5 * wmae M (nw M w) y x in
  Rabs (crps_qd_w_arr_r b64 tc t y x wc - wexact_crps M (nw M w) y x) <= ((1 + u64) ^ (height t + h + 2 * height tw + 9) - 1) * e /\
  Rabs (crps_qd_w_k_r b64 M y x wc - wexact_crps M (nw M w) y x) <= ((1 + u64) ^ (2 * M + 2 * height tw + 9) - 1) * e.
Proof. exact C95_qd_l. Qed.
Print Assumptions C95_qd.
Example C95_qd_ex : Rabs (crps_qd_w_k_r b64 5 0 ex_qx (weights_r b64 (comb 4) ex_qw) - wexact_crps 5 (nw 5 ex_qw) 0 ex_qx) <= ((1 + u64) ^ 27 - 1) * (5 * wmae 5 (nw 5 ex_qw) 0 ex_qx).
Proof. destruct (comb_adds 4) as [A L]. destruct (C95_qd 5 0 ex_qx ex_qw (comb 4) comb (comb 4) 4 ex_qens ex_qwts A ex_qcum A ltac:(rewrite L; lia) ex_qasc) as [_ H]. rewrite L in H. exact H. Qed.

(** C95.  The two implementations differ by at most the sum of the two bounds. *)
Theorem C95_agree :
forall M y x w tw tc t h, wens64 M y x -> wts64 M w -> adds tw M -> cumorders M h tc -> adds t M -> (Z.of_nat (height tw) <= 2 ^ 52)%Z -> ascending M x ->
  let wc := weights_r b64 tw w in
  Rabs (crps_qd_w_arr_r b64 tc t y x wc - crps_qd_w_k_r b64 M y x wc) <=
  ((1 + u64) ^ (height t + h + 2 * height tw + 9) + (1 + u64) ^ (2 * M + 2 * height tw + 9) - 2) * (5 * wmae M (nw M w) y x).
Proof. exact C95_agree_l. Qed.
Print Assumptions C95_agree.
Example C95_agree_ex : Rabs (crps_qd_w_arr_r b64 comb (comb 4) 0 ex_qx (weights_r b64 (comb 4) ex_qw) - crps_qd_w_k_r b64 5 0 ex_qx (weights_r b64 (comb 4) ex_qw)) <= ((1 + u64) ^ 25 + (1 + u64) ^ 27 - 2) * (5 * wmae 5 (nw 5 ex_qw) 0 ex_qx).
Proof. destruct (comb_adds 4) as [A L]. pose proof (C95_agree 5 0 ex_qx ex_qw (comb 4) comb (comb 4) 4 ex_qens ex_qwts A ex_qcum A ltac:(rewrite L; lia) ex_qasc) as H. cbv zeta in H. rewrite L in H. exact H. Qed.

(** C95.  If every member equals the observation both implementations return exactly zero, whatever the weights. *)
Theorem C95_perfect :
forall M y x w tc t, adds t M -> (forall i, (i < M)%nat -> x i = y) -> crps_qd_w_arr_r b64 tc t y x w = 0 /\ crps_qd_w_k_r b64 M y x w = 0.
Proof. exact C95_perfect_l. Qed.
Print Assumptions C95_perfect.
Example C95_perfect_ex : crps_qd_w_k_r b64 5 1 (fun _ => 1) (weights_r b64 (comb 4) ex_qw) = 0.
Proof. apply (C95_perfect 5 1 (fun _ => 1) (weights_r b64 (comb 4) ex_qw) comb (comb 4)); [apply comb_adds|reflexivity]. Qed.

(** C95.  The exact score is not negative, but the computed one can be: the normalised weights of 1, 6, 3, 3 and 2^-60 add up to 1 + 2^-52, which makes the level of the last member exceed one. *)
Theorem C95_nonnegative_refuted :
exists M y x w tw tc t h, wens64 M y x /\ wts64 M w /\ adds tw M /\ cumorders M h tc /\ adds t M /\ (Z.of_nat (height tw) <= 2 ^ 52)%Z /\ ascending M x /\
  0 <= wexact_crps M (nw M w) y x /\ crps_qd_w_arr_r b64 tc t y x (weights_r b64 tw w) < 0 /\ crps_qd_w_k_r b64 M y x (weights_r b64 tw w) < 0.
Proof. exact C95_nonnegative_refuted_l. Qed.
Print Assumptions C95_nonnegative_refuted.
Example C95_nonnegative_refuted_ex : tsum b64 (comb 4) (weights_r b64 (comb 4) ex_qw) = 4503599627370497 / 2 ^ 52 /\ 1 < 4503599627370497 / 2 ^ 52.
Proof. rewrite ex_qcum4. split; simpl; lra. Qed.

(** C95.  Without rounding both definitions are the exact CRPS of the weighted ensemble, and the numba one is the kernel of M_crps.v. *)
Theorem C95_unrounded :
forall M y x w tc t h, (0 < M)%nat -> cumorders M h tc -> adds t M -> ascending M x -> sumn M w = 1 ->
  let id := fun r : R => r in let v f := map (fun k => Fin (f k)) (seq 0 M) in
  crps_qd_w_arr_r id tc t y x w = wexact_crps M w y x /\ crps_qd_w_k (Fin y) (v x) (v w) = Fin (crps_qd_w_k_r id M y x w).
Proof. exact C95_unrounded_l. Qed.
Print Assumptions C95_unrounded.
Example C95_unrounded_ex : crps_qd_w_arr_r (fun r => r) comb (comb 4) 0 ex_qx (nw 5 ex_qw) = wexact_crps 5 (nw 5 ex_qw) 0 ex_qx.
Proof. apply (C95_unrounded 5 0 ex_qx (nw 5 ex_qw) comb (comb 4) 4); [lia|apply ex_qcum|apply comb_adds|apply ex_qasc|apply (qsum1 5 ex_qw ex_qwts)]. Qed.
