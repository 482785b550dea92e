(** Rounding errors of the outcome-weighted and the vertically re-scaled energy score. *)
From Coq Require Import Reals List ZArith Permutation Lia Lra.
From Verif Require Import Num S_round5 S_round6 S_round7 S_round8 S_round M_energy M_round M_round4 M_round13 T_round13.
Open Scope R_scope.


(** C100.  The outcome-weighted energy score differs from the exact one by at most a stated number of roundings of the sum of its two terms. *)
Theorem C100_ow :
forall M D y x ow fw tn1 tn2 t0 t1 t2 h nrm n, mvens64 M D y x -> wts64 M fw -> wt64 ow -> adds t0 M -> orders M D h tn1 -> orders (M * M) D h tn2 -> (Z.of_nat h <= 2 ^ 52)%Z -> adds t1 M -> adds t2 (M * M) -> norm64 n D nrm -> (Z.of_nat n <= 2 ^ 52)%Z ->
  let W := nw M fw in let e := es_err D y x in let d := es_dist D x in
  Rabs (owes_arr_r b64 tn1 tn2 t0 t1 t2 M y x ow fw - ow * k_wexact M W e d) <= ((1 + u64) ^ (h / 2 + height t1 + height t2 + 2 * height t0 + 14) - 1) * (ow * k_wsize M W e d) /\
  Rabs (owes_k_r b64 nrm t0 M y x ow fw - ow * k_wexact M W e d) <= ((1 + u64) ^ (n + M + M * (M - 1) / 2 + 2 * height t0 + 12) - 1) * (ow * k_wsize M W e d).
Proof. exact C100_ow_l. Qed.
Print Assumptions C100_ow.
Example C100_ow_ex : Rabs (owes_k_r b64 (norm_arr_r b64 (comb 1)) (comb 2) 3 ex_y ex_x 1 ex_w - 1 * k_wexact 3 (nw 3 ex_w) (es_err 2 ex_y ex_x) (es_dist 2 ex_x)) <= ((1 + u64) ^ 24 - 1) * (1 * k_wsize 3 (nw 3 ex_w) (es_err 2 ex_y ex_x) (es_dist 2 ex_x)).
Proof. destruct (comb_adds 2) as [A L]. destruct (C100_ow 3 2 ex_y ex_x 1 ex_w (fun _ => comb 1) (fun _ => comb 1) (comb 2) (comb 2) (comb 8) 1 (norm_arr_r b64 (comb 1)) 2 ex_mv ex_wts ex_oone A (ex_ord 3) (ex_ord 9) ltac:(lia) A ltac:(apply comb_adds) ex_nrm ltac:(lia)) as [_ H]. rewrite L in H. exact H. Qed.

(** C100.  The vertically re-scaled energy score differs from the exact one by at most a stated number of roundings of the sum of the absolute values of its parts. *)
Theorem C100_vr :
forall M D y x ow fw tn1 tn2 tn3 ty t0 ta t1 t2 h nrm n, vmv64 M D y x -> wts64 M fw -> wt64 ow -> adds t0 M -> orders M D h tn1 -> orders (M * M) D h tn2 -> orders M D h tn3 -> orders 1 D h (fun _ => ty) -> (Z.of_nat h <= 2 ^ 52)%Z -> adds ta M -> adds t1 M -> adds t2 (M * M) -> norm64 n D nrm -> (Z.of_nat n <= 2 ^ 52)%Z ->
  let u i := fw i / INR M in let e := es_err D y x in let d := es_dist D x in let nx i := enorm D (x i) in
  Rabs (vres_arr_r b64 tn1 tn2 tn3 ty t0 ta t1 t2 M y x ow fw - k_vr M ow u e d (enorm D y) nx) <= ((1 + u64) ^ (h / 2 + height t1 + height t2 + height ta + height t0 + 9) - 1) * k_vrsize M ow u e d (enorm D y) nx /\
  Rabs (vres_k_r b64 nrm t0 M y x ow fw - k_vr M ow u e d (enorm D y) nx) <= ((1 + u64) ^ (n + M + M * (M - 1) / 2 + height t0 + 7) - 1) * k_vrsize M ow u e d (enorm D y) nx.
Proof. exact C100_vr_l. Qed.
Print Assumptions C100_vr.
Example C100_vr_ex : let u i := ex_w i / INR 3 in let nx i := enorm 2 (ex_x i) in
  Rabs (vres_k_r b64 (norm_arr_r b64 (comb 1)) (comb 2) 3 ex_y ex_x 1 ex_w - k_vr 3 1 u (es_err 2 ex_y ex_x) (es_dist 2 ex_x) (enorm 2 ex_y) nx) <= ((1 + u64) ^ 17 - 1) * k_vrsize 3 1 u (es_err 2 ex_y ex_x) (es_dist 2 ex_x) (enorm 2 ex_y) nx.
Proof. destruct (comb_adds 2) as [A L]. destruct (C100_vr 3 2 ex_y ex_x 1 ex_w (fun _ => comb 1) (fun _ => comb 1) (fun _ => comb 1) (comb 1) (comb 2) (comb 2) (comb 2) (comb 8) 1 (norm_arr_r b64 (comb 1)) 2 ex_vmv ex_wts ex_oone A (ex_ord 3) (ex_ord 9) (ex_ord 3) (ex_ord 1) ltac:(lia) A A ltac:(apply comb_adds) ex_nrm ltac:(lia)) as [_ H]. rewrite L in H. exact H. Qed.

(** C100.  For both scores the two implementations differ by at most the sum of the two bounds. *)
Theorem C100_agree :
forall M D y x ow fw tn1 tn2 tn3 ty t0 ta t1 t2 h nrm n, vmv64 M D y x -> wts64 M fw -> wt64 ow -> adds t0 M -> orders M D h tn1 -> orders (M * M) D h tn2 -> orders M D h tn3 -> orders 1 D h (fun _ => ty) -> (Z.of_nat h <= 2 ^ 52)%Z -> adds ta M -> adds t1 M -> adds t2 (M * M) -> norm64 n D nrm -> (Z.of_nat n <= 2 ^ 52)%Z ->
  let W := nw M fw in let u i := fw i / INR M in let e := es_err D y x in let d := es_dist D x in let nx i := enorm D (x i) in
  Rabs (owes_arr_r b64 tn1 tn2 t0 t1 t2 M y x ow fw - owes_k_r b64 nrm t0 M y x ow fw) <= ((1 + u64) ^ (h / 2 + height t1 + height t2 + 2 * height t0 + 14) + (1 + u64) ^ (n + M + M * (M - 1) / 2 + 2 * height t0 + 12) - 2) * (ow * k_wsize M W e d) /\
  Rabs (vres_arr_r b64 tn1 tn2 tn3 ty t0 ta t1 t2 M y x ow fw - vres_k_r b64 nrm t0 M y x ow fw) <= ((1 + u64) ^ (h / 2 + height t1 + height t2 + height ta + height t0 + 9) + (1 + u64) ^ (n + M + M * (M - 1) / 2 + height t0 + 7) - 2) * k_vrsize M ow u e d (enorm D y) nx.
Proof. exact C100_agree_l. Qed.
Print Assumptions C100_agree.
Example C100_agree_ex : Rabs (owes_arr_r b64 (fun _ => comb 1) (fun _ => comb 1) (comb 2) (comb 2) (comb 8) 3 ex_y ex_x 1 ex_w - owes_k_r b64 (norm_arr_r b64 (comb 1)) (comb 2) 3 ex_y ex_x 1 ex_w) <= ((1 + u64) ^ 28 + (1 + u64) ^ 24 - 2) * (1 * k_wsize 3 (nw 3 ex_w) (es_err 2 ex_y ex_x) (es_dist 2 ex_x)).
Proof. destruct (comb_adds 2) as [A L]. destruct (comb_adds 8) as [A' L']. destruct (C100_agree 3 2 ex_y ex_x 1 ex_w (fun _ => comb 1) (fun _ => comb 1) (fun _ => comb 1) (comb 1) (comb 2) (comb 2) (comb 2) (comb 8) 1 (norm_arr_r b64 (comb 1)) 2 ex_vmv ex_wts ex_oone A (ex_ord 3) (ex_ord 9) (ex_ord 3) (ex_ord 1) ltac:(lia) A A A' ex_nrm ltac:(lia)) as [H _]. rewrite L, L' in H. exact H. Qed.

(** C100.  If every member equals the observation the outcome-weighted score is exactly zero in both implementations, and so is the vertically re-scaled one if the computed mean of the weights is the weight of the observation. *)
Theorem C100_perfect :
forall M D y x ow fw tn1 tn2 tn3 ty t0 ta t1 t2 nrm n, adds t1 M -> adds t2 (M * M) -> norm64 n D nrm -> (forall i k, (i < M)%nat -> x i k = y k) ->
  owes_arr_r b64 tn1 tn2 t0 t1 t2 M y x ow fw = 0 /\ owes_k_r b64 nrm t0 M y x ow fw = 0 /\
  (b64 (tsum b64 t0 fw / INR M) = ow -> vres_arr_r b64 tn1 tn2 tn3 ty t0 ta t1 t2 M y x ow fw = 0 /\ vres_k_r b64 nrm t0 M y x ow fw = 0).
Proof. exact C100_perfect_l. Qed.
Print Assumptions C100_perfect.
Example C100_perfect_ex : owes_arr_r b64 (fun _ => comb 1) (fun _ => comb 1) (comb 2) (comb 2) (comb 8) 3 ex_y (fun _ => ex_y) 1 ex_w = 0 /\ owes_k_r b64 (norm_arr_r b64 (comb 1)) (comb 2) 3 ex_y (fun _ => ex_y) 1 ex_w = 0.
Proof. destruct (C100_perfect 3 2 ex_y (fun _ => ex_y) 1 ex_w (fun _ => comb 1) (fun _ => comb 1) (fun _ => comb 1) (comb 1) (comb 2) (comb 2) (comb 2) (comb 8) (norm_arr_r b64 (comb 1)) 2) as (A & B & _); [apply comb_adds|apply comb_adds|apply ex_nrm|reflexivity|auto]. Qed.

(** C100.  Both scores can be negative in both implementations: the outcome-weighted one although the exact score is positive, and the vertically re-scaled one for a perfect forecast. *)
Theorem C100_nonnegative_refuted :
(exists M D y x ow fw tn1 tn2 t0 t1 t2 nrm, mvens64 M D y x /\ wts64 M fw /\ wt64 ow /\ adds t0 M /\ orders M D 0 tn1 /\ orders (M * M) D 0 tn2 /\ adds t1 M /\ adds t2 (M * M) /\ norm64 2 D nrm /\
  0 < ow * k_wexact M (nw M fw) (es_err D y x) (es_dist D x) /\ owes_arr_r b64 tn1 tn2 t0 t1 t2 M y x ow fw < 0 /\ owes_k_r b64 nrm t0 M y x ow fw < 0) /\
  (exists M D y x ow fw tn1 tn2 tn3 ty t0 ta t1 t2 nrm, vmv64 M D y x /\ wts64 M fw /\ wt64 ow /\ adds t0 M /\ orders M D 0 tn1 /\ orders (M * M) D 0 tn2 /\ orders M D 0 tn3 /\ adds ty D /\ adds ta M /\ adds t1 M /\ adds t2 (M * M) /\ norm64 2 D nrm /\
  (forall i, x i = y) /\ (forall i, fw i = ow) /\ vres_arr_r b64 tn1 tn2 tn3 ty t0 ta t1 t2 M y x ow fw < 0 /\ vres_k_r b64 nrm t0 M y x ow fw < 0).
Proof. exact C100_nonnegative_refuted_l. Qed.
Print Assumptions C100_nonnegative_refuted.
Example C100_nonnegative_refuted_ex : vres_k_r b64 (norm_arr_r b64 (comb 0)) (comb 2) 3 (fun _ => 7) (fun _ _ => 7) 7319843605468574 (fun _ => 7319843605468574) = - (8).
Proof. apply ex_w3rd. Qed.

(** C100.  Without rounding all four definitions are the exact scores, and the numba ones are the kernels of M_energy.v. *)
Theorem C100_unrounded :
forall M D y x ow fw tn1 tn2 tn3 ty t0 ta t1 t2 h, (0 < M)%nat -> sumn M fw <> 0 -> adds t0 M -> orders M D h tn1 -> orders (M * M) D h tn2 -> orders M D h tn3 -> adds ty D -> adds ta M -> adds t1 M -> adds t2 (M * M) ->
  let id := fun r : R => r in let W := nw M fw in let u i := fw i / INR M in let e := es_err D y x in let d := es_dist D x in let nx i := enorm D (x i) in
  let obs := map (fun k => Fin (y k)) (seq 0 D) in let fct := map (fun i => map (fun k => Fin (x i k)) (seq 0 D)) (seq 0 M) in let v := map (fun i => Fin (fw i)) (seq 0 M) in
  owes_arr_r id tn1 tn2 t0 t1 t2 M y x ow fw = ow * k_wexact M W e d /\ owes_k_r id (enorm D) t0 M y x ow fw = ow * k_wexact M W e d /\
  owes_k obs fct (Fin ow) v = Fin (owes_k_r id (enorm D) t0 M y x ow fw) /\
  vres_arr_r id tn1 tn2 tn3 ty t0 ta t1 t2 M y x ow fw = k_vr M ow u e d (enorm D y) nx /\ vres_k_r id (enorm D) t0 M y x ow fw = k_vr M ow u e d (enorm D y) nx /\
  vres_k obs fct (Fin ow) v = Fin (vres_k_r id (enorm D) t0 M y x ow fw).
Proof. exact C100_unrounded_l. Qed.
Print Assumptions C100_unrounded.
Example C100_unrounded_ex : owes_arr_r (fun r => r) (fun _ => comb 1) (fun _ => comb 1) (comb 2) (comb 2) (comb 8) 3 ex_y ex_x 1 ex_w = 1 * k_wexact 3 (nw 3 ex_w) (es_err 2 ex_y ex_x) (es_dist 2 ex_x).
Proof. apply (C100_unrounded 3 2 ex_y ex_x 1 ex_w (fun _ => comb 1) (fun _ => comb 1) (fun _ => comb 1) (comb 1) (comb 2) (comb 2) (comb 2) (comb 8) 1); try apply comb_adds; try apply ex_ord; [lia|]. intros E. pose proof (L_round12.wts_pos 3 ex_w ex_wts) as Q. rewrite E in Q. lra. Qed.
