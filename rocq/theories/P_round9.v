(** C96: rounding errors of the weighted CRPS from probability weighted moments. *)
From Coq Require Import Reals List ZArith Permutation Lia Lra Psatz.
From Verif Require Import Num S_crps S_round2 S_round5 S_round6 S_round M_crps M_round M_round6 M_round7 M_round9 P_round7 T_round9.
Open Scope R_scope.


(** C96.  As long as the constant 1 - sum(w * w) exceeds the error with which it is computed, the weighted score from probability weighted moments is finite and its error is at most a stated number of roundings of the weighted error plus the weighted size of the members times an explicit factor, plus a term for the error of the constant; underflow is included. *)
Theorem C96_pwm :
forall M y x w tw tc t1 t2 t3 t4 h, wens64 M y x -> wts64 M w -> adds tw M -> cumorders M h tc -> adds t1 M -> adds t2 M -> adds t3 M -> adds t4 M -> (Z.of_nat (height tw) <= 2 ^ 52)%Z ->
  let W := nw M w in let wc := weights_r b64 tw w in
  let c := 1 - sumn M (fun i => W i * W i) in let g := (1 + u64) ^ (height t4 + 2 * height tw + 6) - 1 in let size := sumn M (fun i => W i * Rabs (x i)) in
  let bound k := err64 k (INR M + 6 * INR M / (c - g) + 2) (wmae M W y x + size + 4 * size / (c - g)) + 4 * size * g / (c * (c - g)) in
  g < c ->
  (exists s, crps_pwm_w_arr_r b64 tc t1 t2 t3 t4 y x wc = Fin s /\ Rabs (s - wpwm_crps M W y x) <= bound (height t1 + height t2 + height t3 + h + 2 * height tw + 9)%nat) /\
  (exists s, crps_pwm_w_k_r b64 t4 M y x wc = Fin s /\ Rabs (s - wpwm_crps M W y x) <= bound (2 * M + 2 * height tw + 9)%nat).
Proof. exact C96_pwm_l. Qed.
Print Assumptions C96_pwm.
Example C96_pwm_ex : exists s, crps_pwm_w_k_r b64 (comb 2) 3 1 ex_u (weights_r b64 (comb 2) ex_w) = Fin s.
Proof.
  destruct (comb_adds 2) as [A E]. assert (cumorders 3 2 comb) as O by (intros k Hk; destruct (comb_adds k) as [B L]; split; [exact B|lia]).
  destruct (C96_pwm 3 1 ex_u ex_w (comb 2) comb (comb 2) (comb 2) (comb 2) (comb 2) 2 ex_uni ex_wts A O A A A A ltac:(rewrite E; lia)) as [_ (s & Hs & _)]; [|now exists s].
  destruct (C94_balanced 3 ex_w (comb 2) (comb 2) ex_wts) as (_ & H & _); [|rewrite E; lia|exact H].
  intros i Hi. unfold nw. replace (sumn 3 ex_w) with 6 by (unfold sumn, ex_w, Rsum; simpl; lra). destruct i as [|[|[|i]]]; [| | |lia]; unfold ex_w; simpl; lra.
Qed.

(** C96.  If the constant is computed as zero, the score is minus infinity, plus infinity or NaN according to the sign of the computed second moment. *)
Theorem C96_lost :
forall M y x w tc t1 t2 t3 t4, fair_c_r b64 t4 w = 0 ->
  let n := tsum b64 t3 (fun i => rmul b64 (rmul b64 (x i) (w i)) (rsub b64 (tsum b64 (tc i) w) (w i))) in
  let m := lsum b64 (map (fun i => rmul b64 (rmul b64 (x i) (w i)) (rsub b64 (lsum b64 (map w (seq 0 (S i)))) (w i))) (seq 0 M)) in
  let s := crps_pwm_w_arr_r b64 tc t1 t2 t3 t4 y x w in let k := crps_pwm_w_k_r b64 t4 M y x w in
  (0 < n -> s = NInf) /\ (n < 0 -> s = PInf) /\ (n = 0 -> s = NaN) /\ (0 < m -> k = NInf) /\ (m < 0 -> k = PInf) /\ (m = 0 -> k = NaN).
Proof. exact C96_lost_l. Qed.
Print Assumptions C96_lost.
Example C96_lost_ex : crps_pwm_w_k_r b64 (comb 1) 2 1 (fun _ => 0) (weights_r b64 (comb 1) ex_wd) = NaN.
Proof.
  destruct (C96_lost 2 1 (fun _ => 0) (weights_r b64 (comb 1) ex_wd) comb (comb 1) (comb 1) (comb 1) (comb 1) ex_wd_c) as (_ & _ & _ & _ & _ & H). apply H.
  cbn [seq map]. unfold rmul, lsum, radd. cbn [fold_left]. rewrite !Rmult_0_l, !b64_0, !Rmult_0_l, !b64_0, !Rplus_0_l, !b64_0, ?Rplus_0_l, ?b64_0. reflexivity.
Qed.

(** C96.  Positive weights do not ensure a finite score: for the weights 1 and 2^-60 and the members 0 and 1 both implementations return minus infinity, although the exact value is close to -1. *)
Theorem C96_finite_refuted :
exists M y x w tw tc t1 t2 t3 t4, (1 < M)%nat /\ wens64 M y x /\ wts64 M w /\ adds tw M /\ cumorders M M tc /\ adds t1 M /\ adds t2 M /\ adds t3 M /\ adds t4 M /\ (forall i, (i < M)%nat -> 0 < w i) /\
  Rabs (wpwm_crps M (nw M w) y x + 1) <= / 2 ^ 59 /\
  crps_pwm_w_arr_r b64 tc t1 t2 t3 t4 y x (weights_r b64 tw w) = NInf /\ crps_pwm_w_k_r b64 t4 M y x (weights_r b64 tw w) = NInf.
Proof. exact C96_finite_refuted_l. Qed.
Print Assumptions C96_finite_refuted.
Example C96_finite_refuted_ex : weights_r b64 (comb 1) ex_wd 0 = 1 /\ weights_r b64 (comb 1) ex_wd 1 = / 2 ^ 60 /\ fair_c_r b64 (comb 1) (weights_r b64 (comb 1) ex_wd) = 0.
Proof. split; [apply ex_wdw|]. split; [apply ex_wdw|exact ex_wd_c]. Qed.

(** C96.  Without rounding and with a constant other than zero, the array definition is the specified score and the numba one is the kernel of M_crps.v. *)
Theorem C96_unrounded :
forall M y x w tc t1 t2 t3 t4 h, cumorders M h tc -> adds t1 M -> adds t2 M -> adds t3 M -> adds t4 M -> sumn M (fun i => w i * w i) <> 1 ->
  let id := fun r : R => r in let v f := map (fun k => Fin (f k)) (seq 0 M) in
  crps_pwm_w_arr_r id tc t1 t2 t3 t4 y x w = Fin (wpwm_crps M w y x) /\ crps_pwm_w_k (Fin y) (v x) (v w) = crps_pwm_w_k_r id t4 M y x w.
Proof. exact C96_unrounded_l. Qed.
Print Assumptions C96_unrounded.
Example C96_unrounded_ex : crps_pwm_w_arr_r (fun r => r) comb (comb 2) (comb 2) (comb 2) (comb 2) 1 ex_u (nw 3 ex_w) = Fin (wpwm_crps 3 (nw 3 ex_w) 1 ex_u).
Proof.
  apply (C96_unrounded 3 1 ex_u (nw 3 ex_w) comb (comb 2) (comb 2) (comb 2) (comb 2) 2); try apply comb_adds; [intros k Hk; destruct (comb_adds k) as [B L]; split; [exact B|lia]|].
  unfold nw. replace (sumn 3 ex_w) with 6 by (unfold sumn, ex_w, Rsum; simpl; lra). unfold sumn, Rsum, ex_w. simpl. lra.
Qed.
