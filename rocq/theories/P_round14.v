(** Rounding errors of the variogram score. *)
From Coq Require Import Reals List ZArith Permutation Lia Lra.
From Verif Require Import Num S_vario S_round4 S_round5 S_round6 S_round7 S_round9 S_round M_vario M_round M_round14 T_round14.
Open Scope R_scope.


(** C101.  The orders 1/2, 1 and 2, computed as a root, not at all and as a product, meet the assumption about powers. *)
Theorem C101_powers :
forall e, (e <= 400)%nat -> pow64 e 1 (1 / 2) (fun v => b64 (sqrt v)) /\ pow64 e 0 1 (fun v => v) /\ pow64 e 1 2 (fun v => b64 (v * v)).
Proof. exact C101_powers_l. Qed.
Print Assumptions C101_powers.
Example C101_powers_ex : pow64 100 1 (1 / 2) (fun v => b64 (sqrt v)).
Proof. apply C101_powers. lia. Qed.

(** C101.  The variogram score differs from the exact one by at most a stated number of roundings of the score with sums instead of differences. *)
Theorem C101_vs :
forall e n q M D p pw y x h tm t g, vgens64 e M D y x -> pow64 e n p pw -> 0 < p <= INR q -> (Z.of_nat n <= 2 ^ 52)%Z -> (e * q <= 340)%nat -> (forall i j, (i < D)%nat -> (j < D)%nat -> wt64 (h i j)) -> orders (D * D) M g tm -> adds t (D * D) ->
  let E := vs_score D h p M (fun _ => / INR M) y x in
  Rabs (vs_nrg_arr_r b64 pw tm t M D y x h - E) <= ((1 + u64) ^ (2 * (n + q + g) + 6 + height t) - 1) * vs_size D h p M y x /\
  Rabs (vs_nrg_k_r b64 pw M D y x h - E) <= ((1 + u64) ^ (2 * (n + q + M) + 6 + D * D) - 1) * vs_size D h p M y x.
Proof. exact C101_vs_l. Qed.
Print Assumptions C101_vs.
Example C101_vs_ex : Rabs (vs_nrg_k_r b64 (fun v => b64 (sqrt v)) 3 2 ex_y ex_x (fun _ _ => 1) - vs_score 2 (fun _ _ => 1) (1 / 2) 3 (fun _ => / INR 3) ex_y ex_x) <= ((1 + u64) ^ 20 - 1) * vs_size 2 (fun _ _ => 1) (1 / 2) 3 ex_y ex_x.
Proof. apply (C101_vs 100 1 1 3 2 (1 / 2) (fun v => b64 (sqrt v)) ex_y ex_x (fun _ _ => 1) (fun _ => comb 2) (comb 3) 2 ex_vg); [apply C101_powers; lia|simpl; lra|lia|lia|intros; apply ex_oone| |apply comb_adds]. intros k _. destruct (comb_adds 2) as [A L]. split; [exact A|rewrite L; lia]. Qed.

(** C101.  The two implementations differ by at most the sum of the two bounds. *)
Theorem C101_agree :
forall e n q M D p pw y x h tm t g, vgens64 e M D y x -> pow64 e n p pw -> 0 < p <= INR q -> (Z.of_nat n <= 2 ^ 52)%Z -> (e * q <= 340)%nat -> (forall i j, (i < D)%nat -> (j < D)%nat -> wt64 (h i j)) -> orders (D * D) M g tm -> adds t (D * D) ->
  Rabs (vs_nrg_arr_r b64 pw tm t M D y x h - vs_nrg_k_r b64 pw M D y x h) <= ((1 + u64) ^ (2 * (n + q + g) + 6 + height t) + (1 + u64) ^ (2 * (n + q + M) + 6 + D * D) - 2) * vs_size D h p M y x.
Proof. exact C101_agree_l. Qed.
Print Assumptions C101_agree.
Example C101_agree_ex : Rabs (vs_nrg_arr_r b64 (fun v => b64 (sqrt v)) (fun _ => comb 2) (comb 3) 3 2 ex_y ex_x (fun _ _ => 1) - vs_nrg_k_r b64 (fun v => b64 (sqrt v)) 3 2 ex_y ex_x (fun _ _ => 1)) <= ((1 + u64) ^ 17 + (1 + u64) ^ 20 - 2) * vs_size 2 (fun _ _ => 1) (1 / 2) 3 ex_y ex_x.
Proof. destruct (comb_adds 2) as [A L]. destruct (comb_adds 3) as [A' L']. pose proof (C101_agree 100 1 1 3 2 (1 / 2) (fun v => b64 (sqrt v)) ex_y ex_x (fun _ _ => 1) (fun _ => comb 2) (comb 3) 2 ex_vg) as H. rewrite L' in H. apply H; [apply C101_powers; lia|simpl; lra|lia|lia|intros; apply ex_oone| |exact A']. intros k _. split; [exact A|rewrite L; lia]. Qed.

(** C101.  The computed score is never negative, whatever the powers, and it is exactly zero for a single member equal to the observation. *)
Theorem C101_nonnegative :
forall M D pw y x h tm t, (forall i j, (i < D)%nat -> (j < D)%nat -> wt64 (h i j)) -> adds t (D * D) ->
  0 <= vs_nrg_arr_r b64 pw tm t M D y x h /\ 0 <= vs_nrg_k_r b64 pw M D y x h /\
  (M = 1%nat -> (forall v, is64 (pw v)) -> (forall k, (k < D * D)%nat -> adds (tm k) 1) -> (forall i, (i < D)%nat -> x 0%nat i = y i) -> vs_nrg_arr_r b64 pw tm t M D y x h = 0 /\ vs_nrg_k_r b64 pw M D y x h = 0).
Proof. exact C101_nonnegative_l. Qed.
Print Assumptions C101_nonnegative.
Example C101_nonnegative_ex : 0 <= vs_nrg_k_r b64 (fun v => b64 (sqrt v)) 3 2 ex_y ex_x (fun _ _ => 1).
Proof. apply (C101_nonnegative 3 2 (fun v => b64 (sqrt v)) ex_y ex_x (fun _ _ => 1) (fun _ => comb 2) (comb 3)); [intros; apply ex_oone|apply comb_adds]. Qed.

(** C101.  With three members a perfect forecast can get a positive score: with observation and members (0, 7319843605468574), order 1 and weights 1 both implementations return 2, although the exact score is zero. *)
Theorem C101_perfect_refuted :
exists e M D p pw y x h tm t, vgens64 e M D y x /\ pow64 e 0 p pw /\ 0 < p <= INR 1 /\ (e * 1 <= 340)%nat /\ (forall i j, wt64 (h i j)) /\ (forall k, adds (tm k) M) /\ adds t (D * D) /\
  (forall m, x m = y) /\ vs_score D h p M (fun _ => / INR M) y x = 0 /\ vs_nrg_arr_r b64 pw tm t M D y x h = 2 /\ vs_nrg_k_r b64 pw M D y x h = 2.
Proof. exact C101_perfect_refuted_l. Qed.
Print Assumptions C101_perfect_refuted.
Example C101_perfect_refuted_ex : vs_nrg_k_r b64 (fun v => v) 3 2 ex_v (fun _ => ex_v) (fun _ _ => 1) = 2.
Proof. apply ex_vk. Qed.

(** C101.  Without rounding both definitions are the exact score, and the numba one is the kernel of M_vario.v. *)
Theorem C101_unrounded :
forall M D p y x h tm t g, (0 < M)%nat -> 0 < p -> orders (D * D) M g tm -> adds t (D * D) ->
  let id := fun r : R => r in let pw v := vpow v p in
  let obs := map (fun k => Fin (y k)) (seq 0 D) in let rows n f := map (fun i => map (fun k => Fin (f i k)) (seq 0 D)) (seq 0 n) in
  vs_nrg_arr_r id pw tm t M D y x h = vs_score D h p M (fun _ => / INR M) y x /\ vs_nrg_k_r id pw M D y x h = vs_score D h p M (fun _ => / INR M) y x /\
  vs_nrg_k (fun a => a) obs (rows M x) (rows D h) p = Fin (vs_nrg_k_r id pw M D y x h).
Proof. exact C101_unrounded_l. Qed.
Print Assumptions C101_unrounded.
Example C101_unrounded_ex : vs_nrg_k_r (fun r => r) (fun v => vpow v (1 / 2)) 3 2 ex_y ex_x (fun _ _ => 1) = vs_score 2 (fun _ _ => 1) (1 / 2) 3 (fun _ => / INR 3) ex_y ex_x.
Proof. apply (C101_unrounded 3 2 (1 / 2) ex_y ex_x (fun _ _ => 1) (fun _ => comb 2) (comb 3) 2); [lia|lra| |apply comb_adds]. intros k _. destruct (comb_adds 2) as [A L]. split; [exact A|rewrite L; lia]. Qed.
