(** Rounding errors of the vertically re-scaled ensemble CRPS. *)
From Coq Require Import Reals List ZArith Permutation Lia Lra.
From Verif Require Import Num S_crps S_ow S_round5 S_round6 S_round7 S_round M_crps M_round M_round12 T_round12.
Open Scope R_scope.


(** C99.  The vertically re-scaled CRPS differs from the exact one by at most a stated number of roundings of the sum of the absolute values of its parts. *)
Theorem C99_vr :
forall M y x ow fw t0 ta t1 t2, vens64 M y x -> wts64 M fw -> wt64 ow -> adds t0 M -> adds ta M -> adds t1 M -> adds t2 (M * M) ->
  Rabs (vr_ensemble_arr_r b64 t0 ta t1 t2 M y x ow fw - vr_exact M ow y x fw) <= ((1 + u64) ^ (height t1 + height t2 + height ta + height t0 + 7) - 1) * vr_size M ow y x fw /\
  Rabs (vrcrps_nrg_k_r b64 t0 ta M y x ow fw - vr_exact M ow y x fw) <= ((1 + u64) ^ (M + M * (M - 1) / 2 + height ta + height t0 + 7) - 1) * vr_size M ow y x fw.
Proof. exact C99_vr_l. Qed.
Print Assumptions C99_vr.
Example C99_vr_ex : Rabs (vrcrps_nrg_k_r b64 (comb 2) (comb 2) 3 1 ex_u 1 ex_w - vr_exact 3 1 1 ex_u ex_w) <= ((1 + u64) ^ 17 - 1) * vr_size 3 1 1 ex_u ex_w.
Proof. destruct (comb_adds 2) as [A L]. destruct (C99_vr 3 1 ex_u 1 ex_w (comb 2) (comb 2) (comb 2) (comb 8) ex_vens ex_wts ex_oone A A A ltac:(apply comb_adds)) as [_ H]. rewrite L in H. exact H. Qed.

(** C99.  The two implementations differ by at most the sum of the two bounds. *)
Theorem C99_agree :
forall M y x ow fw t0 ta t1 t2, vens64 M y x -> wts64 M fw -> wt64 ow -> adds t0 M -> adds ta M -> adds t1 M -> adds t2 (M * M) ->
  Rabs (vr_ensemble_arr_r b64 t0 ta t1 t2 M y x ow fw - vrcrps_nrg_k_r b64 t0 ta M y x ow fw) <=
  ((1 + u64) ^ (height t1 + height t2 + height ta + height t0 + 7) + (1 + u64) ^ (M + M * (M - 1) / 2 + height ta + height t0 + 7) - 2) * vr_size M ow y x fw.
Proof. exact C99_agree_l. Qed.
Print Assumptions C99_agree.
Example C99_agree_ex : Rabs (vr_ensemble_arr_r b64 (comb 2) (comb 2) (comb 2) (comb 8) 3 1 ex_u 1 ex_w - vrcrps_nrg_k_r b64 (comb 2) (comb 2) 3 1 ex_u 1 ex_w) <= ((1 + u64) ^ 21 + (1 + u64) ^ 17 - 2) * vr_size 3 1 1 ex_u ex_w.
Proof. destruct (comb_adds 2) as [A L]. destruct (comb_adds 8) as [A' L']. pose proof (C99_agree 3 1 ex_u 1 ex_w (comb 2) (comb 2) (comb 2) (comb 8) ex_vens ex_wts ex_oone A A A A') as H. rewrite L, L' in H. exact H. Qed.

(** C99.  If every member equals the observation both implementations return the same value, namely the computed product of the two differences of means; it is exactly zero if the computed mean of the weights is the weight of the observation. *)
Theorem C99_perfect :
forall M y x ow fw t0 ta t1 t2, (0 < M)%nat -> adds t1 M -> adds t2 (M * M) -> (forall i, (i < M)%nat -> x i = y) ->
  vr_ensemble_arr_r b64 t0 ta t1 t2 M y x ow fw = vrcrps_nrg_k_r b64 t0 ta M y x ow fw /\
  (b64 (tsum b64 t0 fw / INR M) = ow -> vrcrps_nrg_k_r b64 t0 ta M y x ow fw = 0).
Proof. exact C99_perfect_l. Qed.
Print Assumptions C99_perfect.
Example C99_perfect_ex : vr_ensemble_arr_r b64 (comb 2) (comb 2) (comb 2) (comb 8) 3 1 (fun _ => 1) 1 ex_w = vrcrps_nrg_k_r b64 (comb 2) (comb 2) 3 1 (fun _ => 1) 1 ex_w.
Proof. apply (C99_perfect 3 1 (fun _ => 1) 1 ex_w (comb 2) (comb 2) (comb 2) (comb 8)); [lia|apply comb_adds|apply comb_adds|reflexivity]. Qed.

(** C99.  A perfect forecast can get a negative score: with three members and the observation equal to 7 and all weights equal to 7319843605468574 both implementations return -8, although the exact score is zero. *)
Theorem C99_nonnegative_refuted :
exists M y x ow fw t0 ta t1 t2, vens64 M y x /\ wts64 M fw /\ wt64 ow /\ adds t0 M /\ adds ta M /\ adds t1 M /\ adds t2 (M * M) /\
  (forall i, x i = y) /\ (forall i, fw i = ow) /\ vr_exact M ow y x fw = 0 /\ vr_ensemble_arr_r b64 t0 ta t1 t2 M y x ow fw < 0 /\ vrcrps_nrg_k_r b64 t0 ta M y x ow fw < 0.
Proof. exact C99_nonnegative_refuted_l. Qed.
Print Assumptions C99_nonnegative_refuted.
Example C99_nonnegative_refuted_ex : vrcrps_nrg_k_r b64 (comb 2) (comb 2) 3 7 (fun _ => 7) 7319843605468574 (fun _ => 7319843605468574) = - (8).
Proof. destruct (vr_third 3 7 (fun _ => 7) 7319843605468574 (fun _ => 7319843605468574) (comb 2) (comb 2) (comb 2) (comb 8)) as [_ ->]; [apply comb_adds|apply comb_adds|auto|]. apply ex_v3rd. Qed.

(** C99.  Without rounding both definitions are the exact score, which is the integral of the vertically re-scaled CRPS, and the numba one is the kernel of M_crps.v. *)
Theorem C99_unrounded :
forall M y x ow fw t0 ta t1 t2, (0 < M)%nat -> adds t0 M -> adds ta M -> adds t1 M -> adds t2 (M * M) ->
  let id := fun r : R => r in let v f := map (fun k => Fin (f k)) (seq 0 M) in
  vr_ensemble_arr_r id t0 ta t1 t2 M y x ow fw = vr_exact M ow y x fw /\ vrcrps_nrg_k_r id t0 ta M y x ow fw = vr_exact M ow y x fw /\
  vrcrps_nrg_k (Fin y) (v x) (Fin ow) (v fw) = Fin (vrcrps_nrg_k_r id t0 ta M y x ow fw) /\ is_vrcrps M (fun _ => / INR M) fw ow y x (vr_exact M ow y x fw).
Proof. exact C99_unrounded_l. Qed.
Print Assumptions C99_unrounded.
Example C99_unrounded_ex : vr_ensemble_arr_r (fun r => r) (comb 2) (comb 2) (comb 2) (comb 8) 3 1 ex_u 1 ex_w = vr_exact 3 1 1 ex_u ex_w.
Proof. apply (C99_unrounded 3 1 ex_u 1 ex_w (comb 2) (comb 2) (comb 2) (comb 8)); [lia|apply comb_adds|apply comb_adds|apply comb_adds|apply comb_adds]. Qed.
