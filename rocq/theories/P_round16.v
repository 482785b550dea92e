(** Rounding errors of the outcome-weighted variogram score. *)
From Coq Require Import Reals List ZArith Permutation Lia Lra.
From Verif Require Import Num S_vario S_mv S_crps S_round4 S_round5 S_round6 S_round7 S_round8 S_round10 S_round9 S_round2 S_round M_vario M_round M_round16 T_round16.
Open Scope R_scope.


(** C103.  The outcome-weighted variogram score differs from the exact one by at most a stated number of roundings of the score with sums instead of differences. *)
Theorem C103_ow :
forall e n q M D p pw y x h ow fw ta tb t0 t1 t2 g, vgens64 e M D y x -> pow64 e n p pw -> 0 < p <= INR q -> (Z.of_nat n <= 2 ^ 52)%Z -> (e * q <= 97)%nat -> (forall i j, (i < D)%nat -> (j < D)%nat -> wt64 (h i j)) -> wts64 M fw -> wt64 ow -> adds t0 M -> orders M (D * D) g ta -> orders (M * M) (D * D) g tb -> adds t1 M -> adds t2 (M * M) ->
  let E := ow * k_wexact M (nw M fw) (vs_err D h p y x) (vs_dist D h p x) in
  Rabs (owvs_arr_r b64 pw ta tb t0 t1 t2 M D y x h ow fw - E) <= ((1 + u64) ^ (2 * (n + q) + 4 + g + height t1 + height t2 + 2 * height t0 + 11) - 1) * (ow * k_wsize M (nw M fw) (fun i => vplus D h p (x i) y) (vpair D h p x)) /\
  Rabs (owvs_k_r b64 pw t0 M D y x h ow fw - E) <= ((1 + u64) ^ (2 * (n + q) + 4 + Nat.max M (M * (M - 1) / 2) * (D * D) + 2 * height t0 + 11) - 1) * (ow * k_wsize M (nw M fw) (fun i => vplus D h p (x i) y) (vpair D h p x)).
Proof. exact C103_ow_l. Qed.
Print Assumptions C103_ow.
Example C103_ow_ex : Rabs (owvs_k_r b64 (fun v => b64 (sqrt v)) (comb 2) 3 2 ex_y ex_x (fun _ _ => 1) 1 ex_w - 1 * k_wexact 3 (nw 3 ex_w) (vs_err 2 (fun _ _ => 1) (1 / 2) ex_y ex_x) (vs_dist 2 (fun _ _ => 1) (1 / 2) ex_x)) <= ((1 + u64) ^ 35 - 1) * (1 * k_wsize 3 (nw 3 ex_w) (fun i => vplus 2 (fun _ _ => 1) (1 / 2) (ex_x i) ex_y) (vpair 2 (fun _ _ => 1) (1 / 2) ex_x)).
Proof. destruct (comb_adds 2) as [A L]. pose proof (C103_ow 90 1 1 3 2 (1 / 2) (fun v => b64 (sqrt v)) ex_y ex_x (fun _ _ => 1) 1 ex_w (fun _ => comb 3) (fun _ => comb 3) (comb 2) (comb 2) (comb 8) 3) as H. cbv zeta in H. rewrite L in H. apply H; [exact ex_vg90|apply C101_powers_l; lia|simpl; lra|lia|lia|intros; apply ex_oone|exact ex_wts|exact ex_oone|apply comb_adds|apply ex_ordv|apply ex_ordv|apply comb_adds|apply comb_adds]. Qed.

(** C103.  The two implementations differ by at most the sum of the two bounds. *)
Theorem C103_agree :
forall e n q M D p pw y x h ow fw ta tb t0 t1 t2 g, vgens64 e M D y x -> pow64 e n p pw -> 0 < p <= INR q -> (Z.of_nat n <= 2 ^ 52)%Z -> (e * q <= 97)%nat -> (forall i j, (i < D)%nat -> (j < D)%nat -> wt64 (h i j)) -> wts64 M fw -> wt64 ow -> adds t0 M -> orders M (D * D) g ta -> orders (M * M) (D * D) g tb -> adds t1 M -> adds t2 (M * M) ->
  Rabs (owvs_arr_r b64 pw ta tb t0 t1 t2 M D y x h ow fw - owvs_k_r b64 pw t0 M D y x h ow fw) <= ((1 + u64) ^ (2 * (n + q) + 4 + g + height t1 + height t2 + 2 * height t0 + 11) + (1 + u64) ^ (2 * (n + q) + 4 + Nat.max M (M * (M - 1) / 2) * (D * D) + 2 * height t0 + 11) - 2) * (ow * k_wsize M (nw M fw) (fun i => vplus D h p (x i) y) (vpair D h p x)).
Proof. exact C103_agree_l. Qed.
Print Assumptions C103_agree.
Example C103_agree_ex : Rabs (owvs_arr_r b64 (fun v => b64 (sqrt v)) (fun _ => comb 3) (fun _ => comb 3) (comb 2) (comb 2) (comb 8) 3 2 ex_y ex_x (fun _ _ => 1) 1 ex_w - owvs_k_r b64 (fun v => b64 (sqrt v)) (comb 2) 3 2 ex_y ex_x (fun _ _ => 1) 1 ex_w) <= ((1 + u64) ^ 36 + (1 + u64) ^ 35 - 2) * (1 * k_wsize 3 (nw 3 ex_w) (fun i => vplus 2 (fun _ _ => 1) (1 / 2) (ex_x i) ex_y) (vpair 2 (fun _ _ => 1) (1 / 2) ex_x)).
Proof. destruct (comb_adds 2) as [A L]. destruct (comb_adds 8) as [A' L']. pose proof (C103_agree 90 1 1 3 2 (1 / 2) (fun v => b64 (sqrt v)) ex_y ex_x (fun _ _ => 1) 1 ex_w (fun _ => comb 3) (fun _ => comb 3) (comb 2) (comb 2) (comb 8) 3) as H. rewrite L, L' in H. apply H; [exact ex_vg90|apply C101_powers_l; lia|simpl; lra|lia|lia|intros; apply ex_oone|exact ex_wts|exact ex_oone|apply comb_adds|apply ex_ordv|apply ex_ordv|apply comb_adds|apply comb_adds]. Qed.

(** C103.  If every member equals the observation the computed score is exactly zero in both implementations, whatever the powers and the weights. *)
Theorem C103_perfect :
forall M D pw y x h ow fw ta tb t0 t1 t2 g, orders M (D * D) g ta -> orders (M * M) (D * D) g tb -> adds t1 M -> adds t2 (M * M) -> (forall m i, (m < M)%nat -> (i < D)%nat -> x m i = y i) ->
  owvs_arr_r b64 pw ta tb t0 t1 t2 M D y x h ow fw = 0 /\ owvs_k_r b64 pw t0 M D y x h ow fw = 0.
Proof. exact C103_perfect_l. Qed.
Print Assumptions C103_perfect.
Example C103_perfect_ex : owvs_k_r b64 (fun v => v) (comb 2) 3 2 ex_v (fun _ => ex_v) (fun _ _ => 1) 1 ex_w = 0.
Proof. apply (C103_perfect 3 2 (fun v => v) ex_v (fun _ => ex_v) (fun _ _ => 1) 1 ex_w (fun _ => comb 3) (fun _ => comb 3) (comb 2) (comb 2) (comb 8) 3); [apply ex_ordv|apply ex_ordv|apply comb_adds|apply comb_adds|auto]. Qed.

(** C103.  Without rounding both definitions are the exact score, and the numba one is the kernel of M_vario.v. *)
Theorem C103_unrounded :
forall M D p y x h ow fw ta tb t0 t1 t2 g, (0 < M)%nat -> 0 < p -> 0 < sumn M fw -> adds t0 M -> orders M (D * D) g ta -> orders (M * M) (D * D) g tb -> adds t1 M -> adds t2 (M * M) ->
  let id := fun r : R => r in let pw v := vpow v p in let E := ow * k_wexact M (nw M fw) (vs_err D h p y x) (vs_dist D h p x) in
  let vec n f := map (fun k => Fin (f k)) (seq 0 n) in let rows n f := map (fun i => map (fun k => Fin (f i k)) (seq 0 D)) (seq 0 n) in
  owvs_arr_r id pw ta tb t0 t1 t2 M D y x h ow fw = E /\ owvs_k_r id pw t0 M D y x h ow fw = E /\
  owvs_k (vec D y) (rows M x) (rows D h) (Fin ow) (vec M fw) p = Fin (owvs_k_r id pw t0 M D y x h ow fw).
Proof. exact C103_unrounded_l. Qed.
Print Assumptions C103_unrounded.
Example C103_unrounded_ex : owvs_k_r (fun r => r) (fun v => vpow v (1 / 2)) (comb 2) 3 2 ex_y ex_x (fun _ _ => 1) 1 ex_w = 1 * k_wexact 3 (nw 3 ex_w) (vs_err 2 (fun _ _ => 1) (1 / 2) ex_y ex_x) (vs_dist 2 (fun _ _ => 1) (1 / 2) ex_x).
Proof. apply (C103_unrounded 3 2 (1 / 2) ex_y ex_x (fun _ _ => 1) 1 ex_w (fun _ => comb 3) (fun _ => comb 3) (comb 2) (comb 2) (comb 8) 3); [lia|lra|apply (wts_pos 3 ex_w ex_wts)|apply comb_adds|apply ex_ordv|apply ex_ordv|apply comb_adds|apply comb_adds]. Qed.
