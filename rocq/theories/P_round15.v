(** Rounding errors of the fair estimator of the variogram score. *)
From Coq Require Import Reals List ZArith Permutation Lia Lra.
From Verif Require Import Num S_vario S_mv S_round4 S_round5 S_round6 S_round7 S_round10 S_round9 S_round2 S_round M_vario M_round M_round15 T_round15.
Open Scope R_scope.


(** C102.  The fair variogram score differs from the exact one by at most a stated number of roundings of the score with sums instead of differences, and three times the smallest error. *)
Theorem C102_fair :
forall e n q M D p pw y x h ta tb t1 t2 g, (1 < M)%nat -> vgens64 e M D y x -> pow64 e n p pw -> 0 < p <= INR q -> (Z.of_nat n <= 2 ^ 52)%Z -> (e * q <= 340)%nat -> (forall i j, (i < D)%nat -> (j < D)%nat -> wt64 (h i j)) -> orders M (D * D) g ta -> orders (M * M) (D * D) g tb -> adds t1 M -> adds t2 (M * M) ->
  let E := k_fair M (vs_err D h p y x) (vs_dist D h p x) in
  Rabs (vs_fair_arr_r b64 pw ta tb t1 t2 M D y x h - E) <= err64 (2 * (n + q) + 4 + g + Nat.max (height t1) (height t2) + 3) 3 (vs_fair_size D h p M y x) /\
  Rabs (vs_fair_k_r b64 pw M D y x h - E) <= err64 (2 * (n + q) + 4 + Nat.max M (M * (M - 1) / 2) * (D * D) + 3) 3 (vs_fair_size D h p M y x).
Proof. exact C102_fair_l. Qed.
Print Assumptions C102_fair.
Example C102_fair_ex : Rabs (vs_fair_k_r b64 (fun v => b64 (sqrt v)) 3 2 ex_y ex_x (fun _ _ => 1) - k_fair 3 (vs_err 2 (fun _ _ => 1) (1 / 2) ex_y ex_x) (vs_dist 2 (fun _ _ => 1) (1 / 2) ex_x)) <= err64 23 3 (vs_fair_size 2 (fun _ _ => 1) (1 / 2) 3 ex_y ex_x).
Proof. apply (C102_fair 100 1 1 3 2 (1 / 2) (fun v => b64 (sqrt v)) ex_y ex_x (fun _ _ => 1) (fun _ => comb 3) (fun _ => comb 3) (comb 2) (comb 8) 3); [lia|exact ex_vg|apply C101_powers_l; lia|simpl; lra|lia|lia|intros; apply ex_oone|apply ex_ordv|apply ex_ordv|apply comb_adds|apply comb_adds]. Qed.

(** C102.  The two implementations differ by at most the sum of the two bounds. *)
Theorem C102_agree :
forall e n q M D p pw y x h ta tb t1 t2 g, (1 < M)%nat -> vgens64 e M D y x -> pow64 e n p pw -> 0 < p <= INR q -> (Z.of_nat n <= 2 ^ 52)%Z -> (e * q <= 340)%nat -> (forall i j, (i < D)%nat -> (j < D)%nat -> wt64 (h i j)) -> orders M (D * D) g ta -> orders (M * M) (D * D) g tb -> adds t1 M -> adds t2 (M * M) ->
  Rabs (vs_fair_arr_r b64 pw ta tb t1 t2 M D y x h - vs_fair_k_r b64 pw M D y x h) <= err64 (2 * (n + q) + 4 + g + Nat.max (height t1) (height t2) + 3) 3 (vs_fair_size D h p M y x) + err64 (2 * (n + q) + 4 + Nat.max M (M * (M - 1) / 2) * (D * D) + 3) 3 (vs_fair_size D h p M y x).
Proof. exact C102_agree_l. Qed.
Print Assumptions C102_agree.
Example C102_agree_ex : Rabs (vs_fair_arr_r b64 (fun v => b64 (sqrt v)) (fun _ => comb 3) (fun _ => comb 3) (comb 2) (comb 8) 3 2 ex_y ex_x (fun _ _ => 1) - vs_fair_k_r b64 (fun v => b64 (sqrt v)) 3 2 ex_y ex_x (fun _ _ => 1)) <= err64 22 3 (vs_fair_size 2 (fun _ _ => 1) (1 / 2) 3 ex_y ex_x) + err64 23 3 (vs_fair_size 2 (fun _ _ => 1) (1 / 2) 3 ex_y ex_x).
Proof. destruct (comb_adds 2) as [A L]. destruct (comb_adds 8) as [A' L']. pose proof (C102_agree 100 1 1 3 2 (1 / 2) (fun v => b64 (sqrt v)) ex_y ex_x (fun _ _ => 1) (fun _ => comb 3) (fun _ => comb 3) (comb 2) (comb 8) 3) as H. rewrite L, L' in H. apply H; [lia|exact ex_vg|apply C101_powers_l; lia|simpl; lra|lia|lia|intros; apply ex_oone|apply ex_ordv|apply ex_ordv|exact A|exact A']. Qed.

(** C102.  If all members are equal the computed score is not negative, and if they equal the observation it is exactly zero, whatever the powers. *)
Theorem C102_perfect :
forall M D pw y x h ta tb t1 t2 g, (forall i j, (i < D)%nat -> (j < D)%nat -> wt64 (h i j)) -> orders M (D * D) g ta -> orders (M * M) (D * D) g tb -> adds t1 M -> adds t2 (M * M) ->
  (forall m i, (m < M)%nat -> (i < D)%nat -> x m i = x 0%nat i) ->
  0 <= vs_fair_arr_r b64 pw ta tb t1 t2 M D y x h /\ 0 <= vs_fair_k_r b64 pw M D y x h /\
  ((forall i, (i < D)%nat -> x 0%nat i = y i) -> vs_fair_arr_r b64 pw ta tb t1 t2 M D y x h = 0 /\ vs_fair_k_r b64 pw M D y x h = 0).
Proof. exact C102_perfect_l. Qed.
Print Assumptions C102_perfect.
Example C102_perfect_ex : vs_fair_k_r b64 (fun v => v) 3 2 ex_v (fun _ => ex_v) (fun _ _ => 1) = 0.
Proof. apply (C102_perfect 3 2 (fun v => v) ex_v (fun _ => ex_v) (fun _ _ => 1) (fun _ => comb 3) (fun _ => comb 3) (comb 2) (comb 8) 3); [intros; apply ex_oone|apply ex_ordv|apply ex_ordv|apply comb_adds|apply comb_adds|auto|auto]. Qed.

(** C102.  Without rounding both definitions are the exact score, and the numba one is the kernel of M_vario.v. *)
Theorem C102_unrounded :
forall M D p y x h ta tb t1 t2 g, (1 < M)%nat -> 0 < p -> orders M (D * D) g ta -> orders (M * M) (D * D) g tb -> adds t1 M -> adds t2 (M * M) ->
  let id := fun r : R => r in let pw v := vpow v p in let E := k_fair M (vs_err D h p y x) (vs_dist D h p x) in
  let obs := map (fun k => Fin (y k)) (seq 0 D) in let rows n f := map (fun i => map (fun k => Fin (f i k)) (seq 0 D)) (seq 0 n) in
  vs_fair_arr_r id pw ta tb t1 t2 M D y x h = E /\ vs_fair_k_r id pw M D y x h = E /\
  vs_fair_k obs (rows M x) (rows D h) p = Fin (vs_fair_k_r id pw M D y x h).
Proof. exact C102_unrounded_l. Qed.
Print Assumptions C102_unrounded.
Example C102_unrounded_ex : vs_fair_k_r (fun r => r) (fun v => vpow v (1 / 2)) 3 2 ex_y ex_x (fun _ _ => 1) = k_fair 3 (vs_err 2 (fun _ _ => 1) (1 / 2) ex_y ex_x) (vs_dist 2 (fun _ _ => 1) (1 / 2) ex_x).
Proof. apply (C102_unrounded 3 2 (1 / 2) ex_y ex_x (fun _ _ => 1) (fun _ => comb 3) (fun _ => comb 3) (comb 2) (comb 8) 3); [lia|lra|apply ex_ordv|apply ex_ordv|apply comb_adds|apply comb_adds]. Qed.
