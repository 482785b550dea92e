(** Rounding errors of the outcome-weighted ensemble CRPS. *)
From Coq Require Import Reals List ZArith Permutation Lia Lra.
From Verif Require Import Num S_crps S_round5 S_round6 S_round M_crps M_round M_round11 T_round11.
Open Scope R_scope.


(** C98.  The outcome-weighted CRPS differs from the weight of the observation times the exact CRPS of the ensemble weighted by the normalised weights by at most a stated number of roundings of twice the weighted mean distance to the observation. *)
Theorem C98_ow :
forall M y x ow fw t0 t1 t2, wens64 M y x -> wts64 M fw -> is64 ow /\ (ow = 0 \/ / 2 ^ 100 <= ow <= 2 ^ 100) -> adds t0 M -> (Z.of_nat (height t0) <= 2 ^ 50)%Z -> adds t1 M -> adds t2 (M * M) ->
  let e := ow * wexact_crps M (nw M fw) y x in let a := 2 * (ow * wmae M (nw M fw) y x) in
  Rabs (ow_ensemble_arr_r b64 t0 t1 t2 M y x ow fw - e) <= ((1 + u64) ^ (height t1 + height t2 + 2 * height t0 + 12) - 1) * a /\
  Rabs (owcrps_nrg_k_r b64 t0 M y x ow fw - e) <= ((1 + u64) ^ (M + M * (M - 1) / 2 + 2 * height t0 + 13) - 1) * a.
Proof. exact C98_ow_l. Qed.
Print Assumptions C98_ow.
Example C98_ow_ex : Rabs (owcrps_nrg_k_r b64 (comb 2) 3 1 ex_u 1 ex_w - 1 * wexact_crps 3 (nw 3 ex_w) 1 ex_u) <= ((1 + u64) ^ 23 - 1) * (2 * (1 * wmae 3 (nw 3 ex_w) 1 ex_u)).
Proof. destruct (comb_adds 2) as [A L]. destruct (C98_ow 3 1 ex_u 1 ex_w (comb 2) (comb 2) (comb 8) ex_uni ex_wts ex_oone A ltac:(rewrite L; lia) A ltac:(apply comb_adds)) as [_ H]. rewrite L in H. exact H. Qed.

(** C98.  The two implementations differ by at most the sum of the two bounds. *)
Theorem C98_agree :
forall M y x ow fw t0 t1 t2, wens64 M y x -> wts64 M fw -> is64 ow /\ (ow = 0 \/ / 2 ^ 100 <= ow <= 2 ^ 100) -> adds t0 M -> (Z.of_nat (height t0) <= 2 ^ 50)%Z -> adds t1 M -> adds t2 (M * M) ->
  Rabs (ow_ensemble_arr_r b64 t0 t1 t2 M y x ow fw - owcrps_nrg_k_r b64 t0 M y x ow fw) <=
  ((1 + u64) ^ (height t1 + height t2 + 2 * height t0 + 12) + (1 + u64) ^ (M + M * (M - 1) / 2 + 2 * height t0 + 13) - 2) * (2 * (ow * wmae M (nw M fw) y x)).
Proof. exact C98_agree_l. Qed.
Print Assumptions C98_agree.
Example C98_agree_ex : Rabs (ow_ensemble_arr_r b64 (comb 2) (comb 2) (comb 8) 3 1 ex_u 1 ex_w - owcrps_nrg_k_r b64 (comb 2) 3 1 ex_u 1 ex_w) <= ((1 + u64) ^ 26 + (1 + u64) ^ 23 - 2) * (2 * (1 * wmae 3 (nw 3 ex_w) 1 ex_u)).
Proof. destruct (comb_adds 2) as [A L]. destruct (comb_adds 8) as [A' L']. pose proof (C98_agree 3 1 ex_u 1 ex_w (comb 2) (comb 2) (comb 8) ex_uni ex_wts ex_oone A ltac:(rewrite L; lia) A A') as H. rewrite L, L' in H. exact H. Qed.

(** C98.  If every member equals the observation both implementations return exactly zero. *)
Theorem C98_perfect :
forall M y x ow fw t0 t1 t2, (0 < M)%nat -> wts64 M fw -> adds t1 M -> adds t2 (M * M) -> (forall i, (i < M)%nat -> x i = y) ->
  ow_ensemble_arr_r b64 t0 t1 t2 M y x ow fw = 0 /\ owcrps_nrg_k_r b64 t0 M y x ow fw = 0.
Proof. exact C98_perfect_l. Qed.
Print Assumptions C98_perfect.
Example C98_perfect_ex : owcrps_nrg_k_r b64 (comb 2) 3 1 (fun _ => 1) 1 ex_w = 0.
Proof. apply (C98_perfect 3 1 (fun _ => 1) 1 ex_w (comb 2) (comb 2) (comb 8)); [lia|apply ex_wts|apply comb_adds|apply comb_adds|reflexivity]. Qed.

(** C98.  The computed score can be negative although the exact score is positive, in both implementations: with the members 0 and 1, the observation 0 and the weights 2^27 + 1 and 2^-60 it is -2^-140. *)
Theorem C98_nonnegative_refuted :
exists M y x ow fw t0 t1 t2, wens64 M y x /\ wts64 M fw /\ (is64 ow /\ (ow = 0 \/ / 2 ^ 100 <= ow <= 2 ^ 100)) /\ adds t0 M /\ (Z.of_nat (height t0) <= 2 ^ 50)%Z /\ adds t1 M /\ adds t2 (M * M) /\
  0 < ow * wexact_crps M (nw M fw) y x /\ ow_ensemble_arr_r b64 t0 t1 t2 M y x ow fw < 0 /\ owcrps_nrg_k_r b64 t0 M y x ow fw < 0.
Proof. exact C98_nonnegative_refuted_l. Qed.
Print Assumptions C98_nonnegative_refuted.
Example C98_nonnegative_refuted_ex : owcrps_nrg_k_r b64 (comb 1) 2 0 ex_u 1 ex_ow = - powerRZ 2 (-140).
Proof. rewrite ex_ok. rewrite Raux.bpow_powerRZ. reflexivity. Qed.

(** C98.  Without rounding both definitions are the weight of the observation times the exact CRPS of the weighted ensemble, and the numba one is the kernel of M_crps.v. *)
Theorem C98_unrounded :
forall M y x ow fw t0 t1 t2, (0 < M)%nat -> adds t0 M -> adds t1 M -> adds t2 (M * M) -> sumn M fw <> 0 ->
  let id := fun r : R => r in let v f := map (fun k => Fin (f k)) (seq 0 M) in let e := ow * wexact_crps M (nw M fw) y x in
  ow_ensemble_arr_r id t0 t1 t2 M y x ow fw = e /\ owcrps_nrg_k_r id t0 M y x ow fw = e /\ owcrps_nrg_k (Fin y) (v x) (Fin ow) (v fw) = Fin (owcrps_nrg_k_r id t0 M y x ow fw).
Proof. exact C98_unrounded_l. Qed.
Print Assumptions C98_unrounded.
Example C98_unrounded_ex : ow_ensemble_arr_r (fun r => r) (comb 2) (comb 2) (comb 8) 3 1 ex_u 1 ex_w = 1 * wexact_crps 3 (nw 3 ex_w) 1 ex_u.
Proof. apply (C98_unrounded 3 1 ex_u 1 ex_w (comb 2) (comb 2) (comb 8)); [lia|apply comb_adds|apply comb_adds|apply comb_adds|]. apply Rgt_not_eq, (wts_pos 3 ex_w ex_wts). Qed.
