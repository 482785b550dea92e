(** Proofs of the rounding properties of the energy score (statements in P_round4.v). *)
From Coq Require Import Reals List ZArith Permutation Lia Lra Psatz.
From Flocq Require Import Core.
From Verif Require Import L_crps_row L_crps_gu L_crps_ens L_energy L_stab.
From Verif Require Export L_round9 S_round.
Open Scope R_scope.

Lemma dist_calc M D y x n nrm i : mvens64 M D y x -> norm64 n D nrm -> (Z.of_nat n <= 2 ^ 52)%Z -> (i < M)%nat ->
  calc (n + 1) 401 (nrm (rvsub b64 (x i) y)) (es_err D y x i).
Proof.
  intros (_ & _ & Hy & Hx & _) HN Hn Hi. apply (nrm_calc n D nrm (x i) y); auto. intros k Hk. destruct (Hx i k Hi Hk). split; [now apply is64_fmt|]. split; [apply is64_fmt, Hy, Hk|auto].
Qed.
Lemma pair_calc M D y x n nrm i j : mvens64 M D y x -> norm64 n D nrm -> (Z.of_nat n <= 2 ^ 52)%Z -> (i < M)%nat -> (j < M)%nat ->
  calc (n + 1) 401 (nrm (rvsub b64 (x i) (x j))) (es_dist D x i j).
Proof.
  intros (_ & _ & _ & Hx & Hp) HN Hn Hi Hj. apply (nrm_calc n D nrm (x i) (x j)); auto. intros k Hk. destruct (Hx i k Hi Hk), (Hx j k Hj Hk). split; [now apply is64_fmt|]. split; [now apply is64_fmt|auto].
Qed.
Lemma order_norm N D h tn i : orders N D h tn -> (i < N)%nat -> norm64 (h / 2 + 2) D (norm_arr_r b64 (tn i)).
Proof.
  intros H Hi. destruct (H i Hi) as [A L]. eapply norm64_le; [|apply norm_arr_64, A]. pose proof (Nat.div_le_mono _ _ 2 ltac:(lia) L). lia.
Qed.
Lemma half52 h : (Z.of_nat h <= 2 ^ 52)%Z -> (Z.of_nat (h / 2 + 2) <= 2 ^ 52)%Z.
Proof. intros H. change (2 ^ 52)%Z with 4503599627370496%Z in *. rewrite Nat2Z.inj_add, Nat2Z.inj_div. simpl (Z.of_nat 2). assert (Z.of_nat h / 2 <= 2251799813685248)%Z by (apply Z.div_le_upper_bound; lia). lia. Qed.
Lemma arr_e1 M D y x tn1 t1 h : mvens64 M D y x -> orders M D h tn1 -> adds t1 M -> (Z.of_nat h <= 2 ^ 52)%Z ->
  calc (height t1 + h / 2 + 4) 427 (rdiv b64 (tsum b64 t1 (fun i => norm_arr_r b64 (tn1 i) (rvsub b64 (x i) y))) (INR M)) (sumn M (es_err D y x) / INR M).
Proof.
  intros H O A Hh. replace (height t1 + h / 2 + 4)%nat with (height t1 + (h / 2 + 2 + 1) + 1)%nat by lia.
  pose proof H as (HM & HB & _). apply d1_arr; auto. intros i Hi. apply (dist_calc M D y x (h / 2 + 2) (norm_arr_r b64 (tn1 i))); auto; [now apply (order_norm M D h)|now apply half52].
Qed.
Lemma arr_e2 M D y x tn2 t2 h c : mvens64 M D y x -> orders (M * M) D h tn2 -> adds t2 (M * M) -> (Z.of_nat h <= 2 ^ 52)%Z -> (0 < c)%nat -> (Z.of_nat c <= 2 ^ 52)%Z ->
  calc (height t2 + h / 2 + 5) 454 (rmul b64 (1 / 2) (rdiv b64 (tsum b64 t2 (fun n => norm_arr_r b64 (tn2 n) (rvsub b64 (x (n mod M)%nat) (x (n / M)%nat)))) (INR c)))
    (/ 2 * (sumn M (fun i => sumn M (es_dist D x i)) / INR c)).
Proof.
  intros H O A Hh Hc Hb. replace (height t2 + h / 2 + 5)%nat with (height t2 + (h / 2 + 2 + 1) + 2)%nat by lia.
  pose proof H as (HM & HB & _). apply d2_arr; auto. intros n Hn.
  assert (n / M < M)%nat as K1 by (apply Nat.div_lt_upper_bound; lia). assert (n mod M < M)%nat as K2 by (apply Nat.mod_upper_bound; lia).
  rewrite es_dist_sym. apply (pair_calc M D y x (h / 2 + 2) (norm_arr_r b64 (tn2 n))); auto; [now apply (order_norm (M * M) D h)|now apply half52].
Qed.
Lemma arr_lag M D y x tn2 t2 h s : mvens64 M D y x -> orders M D h tn2 -> adds t2 M -> (Z.of_nat h <= 2 ^ 52)%Z ->
  calc (height t2 + h / 2 + 5) 428 (rmul b64 (1 / 2) (rdiv b64 (tsum b64 t2 (fun i => norm_arr_r b64 (tn2 i) (rvsub b64 (x i) (x ((i + M - s) mod M)%nat)))) (INR M)))
    (/ 2 * (sumn M (fun i => es_dist D x i ((i + M - s) mod M)%nat) / INR M)).
Proof.
  intros H O A Hh. replace (height t2 + h / 2 + 5)%nat with (height t2 + (h / 2 + 2 + 1) + 2)%nat by lia.
  pose proof H as (HM & HB & _). apply (d2_lag_arr M _ (es_dist D x) HM HB t2 (fun i => ((i + M - s) mod M)%nat)); auto. intros i Hi.
  apply (pair_calc M D y x (h / 2 + 2) (norm_arr_r b64 (tn2 i))); auto; [now apply (order_norm M D h)|now apply half52|apply Nat.mod_upper_bound; lia].
Qed.
Lemma k_e1 M D y x n nrm : mvens64 M D y x -> norm64 n D nrm -> (Z.of_nat n <= 2 ^ 52)%Z ->
  calc (M + n + 2) 427 (rdiv b64 (lsum b64 (map (fun i => nrm (rvsub b64 (x i) y)) (seq 0 M))) (INR M)) (sumn M (es_err D y x) / INR M).
Proof.
  intros H HN Hn. pose proof H as (HM & HB & _). replace (M + n + 2)%nat with (M + (n + 1) + 1)%nat by lia. apply d1_k; auto. intros i Hi. now apply (dist_calc M D y x n nrm).
Qed.
Lemma k_e2 M D y x n nrm c : mvens64 M D y x -> norm64 n D nrm -> (Z.of_nat n <= 2 ^ 52)%Z -> (0 < c)%nat -> (Z.of_nat c <= 2 ^ 52)%Z ->
  calc (M * (M - 1) / 2 + n + 3) 454 (rmul b64 (rdiv b64 (1 / 2) (INR c)) (lsum b64 (flat_map (fun i => map (fun j => rmul b64 2 (nrm (rvsub b64 (x i) (x j)))) (seq (i + 1) (M - (i + 1)))) (seq 0 M))))
    (/ 2 * (sumn M (fun i => sumn M (es_dist D x i)) / INR c)).
Proof.
  intros H HN Hn Hc Hb. pose proof H as (HM & HB & _). replace (M * (M - 1) / 2 + n + 3)%nat with (M * (M - 1) / 2 + (n + 1) + 2)%nat by lia.
  apply (d2_k M (n + 1) (fun i j => nrm (rvsub b64 (x i) (x j))) (es_dist D x)); auto; [|apply es_dist_sym|apply es_dist_refl]. intros i j Hi Hj. now apply (pair_calc M D y x n nrm).
Qed.
Lemma k_lag2 M D y x n nrm g : mvens64 M D y x -> norm64 n D nrm -> (Z.of_nat n <= 2 ^ 52)%Z -> (forall i, (i < M)%nat -> (g i < M)%nat) ->
  calc (M + n + 3) 428 (rmul b64 (rdiv b64 (rmul b64 (1 / 2) 1) (INR M)) (lsum b64 (map (fun i => nrm (rvsub b64 (x i) (x (g i)))) (seq 0 M)))) (/ 2 * (sumn M (fun i => es_dist D x i (g i)) / INR M)).
Proof.
  intros H HN Hn Hg. pose proof H as (HM & HB & _). replace (M + n + 3)%nat with (M + (n + 1) + 2)%nat by lia.
  apply (d2_lag_k M (n + 1) (es_dist D x) HM HB g). intros i Hi. apply (pair_calc M D y x n nrm); auto.
Qed.
Lemma diff_err' k l p q x X y Y : calc k p x X -> calc l q y Y -> Rabs (rsub b64 x y - (X - Y)) <= ((1 + u64) ^ (k + 1) - 1) * X + ((1 + u64) ^ (l + 1) - 1) * Y.
Proof. rewrite !Nat.add_1_r. apply diff_err. Qed.
Lemma zero_norm n D nrm v : norm64 n D nrm -> (forall k, v k = 0) -> nrm v = 0.
Proof.
  intros H E. destruct (H v) as [_ [W1 W2]]. { intros k _. rewrite E. split; [apply is64_fmt, fmt_0|now left]. }
  assert (enorm D v = 0) as Z. { unfold enorm. rewrite (sumn_ext D _ (fun _ => 0)) by (intros; rewrite E; ring). rewrite sumn_const, Rmult_0_r. apply sqrt_0. }
  rewrite Z, !Rmult_0_l in *. lra.
Qed.
Lemma zero_tsum t a : (forall i, a i = 0) -> tsum b64 t a = 0.
Proof. intros H. induction t as [i|t1 IH1 t2 IH2]; simpl; [apply H|]. unfold radd. rewrite IH1, IH2, Rplus_0_r. apply b64_0. Qed.
Lemma zero_lsum l : List.Forall (fun a => a = 0) l -> lsum b64 l = 0.
Proof.
  unfold lsum. intros H. induction H as [|a l E H IH]; [reflexivity|]. cbn [fold_left]. unfold radd at 2. rewrite E, Rplus_0_r, b64_0. exact IH.
Qed.
Lemma zero_norm_arr t v : (forall k, v k = 0) -> norm_arr_r b64 t v = 0.
Proof. intros H. unfold norm_arr_r. rewrite zero_tsum; [rewrite sqrt_0; apply b64_0|]. intros i. unfold rmul. rewrite H, Rmult_0_r. apply b64_0. Qed.
Lemma eucl_id D a b : enorm D (rvsub idr a b) = eucl D a b. Proof. reflexivity. Qed.
Lemma norm_id D t a b : adds t D -> norm_arr_r idr t (rvsub idr a b) = eucl D a b.
Proof. intros H. unfold norm_arr_r, eucl. unfold idr at 1. f_equal. rewrite (tsum_id t D _ H). apply sumn_ext. intros. unfold rmul, rvsub, rsub, idr. ring. Qed.
Lemma tsum_idr_ext t N a b : adds t N -> (forall i, (i < N)%nat -> a i = b i) -> tsum idr t a = sumn N b.
Proof. intros H E. rewrite (tsum_id t N _ H). apply sumn_ext. exact E. Qed.
(** instance: the members (0, 0), (0, 1), (0, 2) of the plane, observation (0, 1), sums from left to right *)
Definition ex_x (i k : nat) : R := INR (i * k).
Definition ex_y (k : nat) : R := INR k.
Lemma ex_mv : mvens64 3 2 ex_y ex_x.
Proof.
  assert (forall n, (Z.of_nat n < 2 ^ 53)%Z -> is64 (INR n)) as F by (intros n Hn; rewrite INR_IZR_INZ; exists (Z.of_nat n), 0%Z; simpl; split; [ring|split; lia]).
  assert (forall i j, apart 400 (INR i) (INR j)) as A.
  { intros i j. destruct (Nat.eq_dec i j) as [->|N]; [now left|right]. apply Rle_trans with 1.
    - rewrite <- Rinv_1. apply Rinv_le_contravar; [lra|]. apply pow_R1_Rle. lra.
    - rewrite !INR_IZR_INZ, <- minus_IZR, <- abs_IZR. apply IZR_le. lia. }
  repeat split; try lia; unfold ex_x, ex_y; intros; first [apply A|apply F; nia].
Qed.
Lemma ex_ord N : orders N 2 1 (fun _ => comb 1).
Proof. intros i _. destruct (comb_adds 1) as [A E]. split; [exact A|]. rewrite E. lia. Qed.
Lemma ex_nrm : norm64 2 2 (norm_arr_r b64 (comb 1)).
Proof. pose proof (norm_arr_64 2 (comb 1) (proj1 (comb_adds 1))) as H. rewrite (proj2 (comb_adds 1)) in H. exact H. Qed.
Lemma C89_norm_l :
forall D t, adds t D -> norm64 (height t / 2 + 2) D (norm_arr_r b64 t) /\
  (forall v, 0 <= norm_arr_r b64 t v) /\ (forall a b, norm_arr_r b64 t (rvsub b64 a b) = norm_arr_r b64 t (rvsub b64 b a)) /\ forall a, norm_arr_r b64 t (rvsub b64 a a) = 0.
Proof.
intros D t Ht. split; [now apply norm_arr_64|]. split; [intros; apply b64_ge0, sqrt_pos|]. split; [intros; apply norm_sym; intros; apply b64_opp|].
intros a. apply zero_norm_arr. intros k. unfold rvsub, rsub. rewrite Rminus_eq_0. apply b64_0.
Qed.
Lemma C89_nrg_l :
forall M D y x tn1 tn2 t1 t2 h nrm n, mvens64 M D y x -> orders M D h tn1 -> orders (M * M) D h tn2 -> adds t1 M -> adds t2 (M * M) -> (Z.of_nat h <= 2 ^ 52)%Z ->
  norm64 n D nrm -> (Z.of_nat n <= 2 ^ 52)%Z ->
  let err := sumn M (es_err D y x) / INR M in let half_spread := sumn M (fun i => sumn M (es_dist D x i)) / (2 * INR M * INR M) in
  Rabs (es_nrg_arr_r b64 tn1 tn2 t1 t2 M y x - k_exact M (es_err D y x) (es_dist D x))
    <= ((1 + u64) ^ (height t1 + h / 2 + 5) - 1) * err + ((1 + u64) ^ (height t2 + h / 2 + 6) - 1) * half_spread /\
  Rabs (es_nrg_k_r b64 nrm M y x - k_exact M (es_err D y x) (es_dist D x))
    <= ((1 + u64) ^ (M + n + 3) - 1) * err + ((1 + u64) ^ (M * (M - 1) / 2 + n + 4) - 1) * half_spread.
Proof.
intros M D y x tn1 tn2 t1 t2 h nrm n H O1 O2 A1 A2 Hh HN Hn err hs. pose proof H as (HM & HB & _). pose proof (lt_0_INR M HM) as P.
assert (/ 2 * (sumn M (fun i => sumn M (es_dist D x i)) / INR (M * M)) = hs) as E by (unfold hs; rewrite mult_INR; field; lra).
assert (0 < M * M)%nat as C by nia. pose proof (proj1 (sq52 M HB)) as Cb.
unfold k_exact. fold err hs. rewrite <- E. split.
- pose proof (diff_err' _ _ _ _ _ _ _ _ (arr_e1 M D y x tn1 t1 h H O1 A1 Hh) (arr_e2 M D y x tn2 t2 h _ H O2 A2 Hh C Cb)) as Q. rewrite <- !Nat.add_assoc in *. exact Q.
- pose proof (diff_err' _ _ _ _ _ _ _ _ (k_e1 M D y x n nrm H HN Hn) (k_e2 M D y x n nrm _ H HN Hn C Cb)) as Q. rewrite <- !Nat.add_assoc in *. exact Q.
Qed.
Lemma C89_fair_l :
forall M D y x tn1 tn2 t1 t2 h nrm n, (1 < M)%nat -> mvens64 M D y x -> orders M D h tn1 -> orders (M * M) D h tn2 -> adds t1 M -> adds t2 (M * M) -> (Z.of_nat h <= 2 ^ 52)%Z ->
  norm64 n D nrm -> (Z.of_nat n <= 2 ^ 52)%Z ->
  let err := sumn M (es_err D y x) / INR M in let half_spread := sumn M (fun i => sumn M (es_dist D x i)) / (2 * INR M * (INR M - 1)) in
  Rabs (es_fair_arr_r b64 tn1 tn2 t1 t2 M y x - k_fair M (es_err D y x) (es_dist D x))
    <= ((1 + u64) ^ (height t1 + h / 2 + 5) - 1) * err + ((1 + u64) ^ (height t2 + h / 2 + 6) - 1) * half_spread /\
  Rabs (es_fair_k_r b64 nrm M y x - k_fair M (es_err D y x) (es_dist D x))
    <= ((1 + u64) ^ (M + n + 3) - 1) * err + ((1 + u64) ^ (M * (M - 1) / 2 + n + 4) - 1) * half_spread.
Proof.
intros M D y x tn1 tn2 t1 t2 h nrm n M1 H O1 O2 A1 A2 Hh HN Hn err hs. pose proof H as (HM & HB & _). pose proof (lt_0_INR M HM) as P.
assert (/ 2 * (sumn M (fun i => sumn M (es_dist D x i)) / INR (M * (M - 1))) = hs) as E. { unfold hs. rewrite mult_INR, minus_INR by lia. apply lt_INR in M1. simpl INR in *. field. lra. }
assert (0 < M * (M - 1))%nat as C by nia. pose proof (proj2 (sq52 M HB)) as Cb.
unfold k_fair. fold err hs. rewrite <- E. split.
- pose proof (diff_err' _ _ _ _ _ _ _ _ (arr_e1 M D y x tn1 t1 h H O1 A1 Hh) (arr_e2 M D y x tn2 t2 h _ H O2 A2 Hh C Cb)) as Q. rewrite <- !Nat.add_assoc in *. exact Q.
- pose proof (diff_err' _ _ _ _ _ _ _ _ (k_e1 M D y x n nrm H HN Hn) (k_e2 M D y x n nrm _ H HN Hn C Cb)) as Q. rewrite <- !Nat.add_assoc in *. exact Q.
Qed.
Lemma C89_akr_l :
forall M D y x tn1 tn2 t1 t2 h nrm n, mvens64 M D y x -> orders M D h tn1 -> orders M D h tn2 -> adds t1 M -> adds t2 M -> (Z.of_nat h <= 2 ^ 52)%Z ->
  norm64 n D nrm -> (Z.of_nat n <= 2 ^ 52)%Z ->
  let err := sumn M (es_err D y x) / INR M in let half_spread g := sumn M (fun i => es_dist D x i (g i)) / (2 * INR M) in
  let bound a b g := ((1 + u64) ^ a - 1) * err + ((1 + u64) ^ b - 1) * half_spread g in
  let e := es_err D y x in let d := es_dist D x in
  Rabs (es_akr_arr_r b64 tn1 tn2 t1 t2 M y x - k_lag M (lag1 M) e d) <= bound (height t1 + h / 2 + 5)%nat (height t2 + h / 2 + 6)%nat (lag1 M) /\
  Rabs (es_akr_circperm_arr_r b64 tn1 tn2 t1 t2 M y x - k_lag M (lagc M) e d) <= bound (height t1 + h / 2 + 5)%nat (height t2 + h / 2 + 6)%nat (lagc M) /\
  Rabs (es_akr_k_r b64 nrm M y x - k_lag M (lag1 M) e d) <= bound (M + n + 3)%nat (M + n + 4)%nat (lag1 M) /\
  Rabs (es_akr_circperm_k_r b64 nrm M y x - k_lag M (lagf M) e d) <= bound (M + n + 3)%nat (M + n + 4)%nat (lagf M).
Proof.
intros M D y x tn1 tn2 t1 t2 h nrm n H O1 O2 A1 A2 Hh HN Hn err hs bound e d. pose proof H as (HM & HB & _). pose proof (lt_0_INR M HM) as P.
assert (forall g, / 2 * (sumn M (fun i => es_dist D x i (g i)) / INR M) = hs g) as E by (intros g; unfold hs; field; lra).
unfold bound, k_lag, e, d. fold err. split; [|split; [|split]].
- pose proof (diff_err' _ _ _ _ _ _ _ _ (arr_e1 M D y x tn1 t1 h H O1 A1 Hh) (arr_lag M D y x tn2 t2 h 1 H O2 A2 Hh)) as Q. rewrite (E (lag1 M) : / 2 * (sumn M (fun i => es_dist D x i ((i + M - 1) mod M)%nat) / INR M) = _) in Q. rewrite <- !Nat.add_assoc in *. exact Q.
- pose proof (diff_err' _ _ _ _ _ _ _ _ (arr_e1 M D y x tn1 t1 h H O1 A1 Hh) (arr_lag M D y x tn2 t2 h (M / 2) H O2 A2 Hh)) as Q. rewrite (E (lagc M) : / 2 * (sumn M (fun i => es_dist D x i ((i + M - M / 2) mod M)%nat) / INR M) = _) in Q. rewrite <- !Nat.add_assoc in *. exact Q.
- pose proof (diff_err' _ _ _ _ _ _ _ _ (k_e1 M D y x n nrm H HN Hn) (k_lag2 M D y x n nrm (lag1 M) H HN Hn ltac:(intros; now apply lag1_lt))) as Q. rewrite (E (lag1 M)) in Q. rewrite <- !Nat.add_assoc in *.
  unfold es_akr_k_r, es_lag_k_r. rewrite (map_ext_in (fun i => nrm (rvsub b64 (x i) (x (if (i =? 0)%nat then (M - 1)%nat else (i - 1)%nat)))) (fun i => nrm (rvsub b64 (x i) (x (lag1 M i)))) (seq 0 M)); [exact Q|]. intros i Hi. apply in_seq in Hi. rewrite (lag1_if M HM i) by lia. reflexivity.
- pose proof (diff_err' _ _ _ _ _ _ _ _ (k_e1 M D y x n nrm H HN Hn) (k_lag2 M D y x n nrm (lagf M) H HN Hn ltac:(intros; apply Nat.mod_upper_bound; lia))) as Q. rewrite (E (lagf M)) in Q. rewrite <- !Nat.add_assoc in *. exact Q.
Qed.
Lemma C89_nonneg_l :
forall M D y x tn1 tn2 t1 t2 h nrm n, mvens64 M D y x -> orders M D h tn1 -> orders (M * M) D h tn2 -> adds t1 M -> adds t2 (M * M) -> (Z.of_nat h <= 2 ^ 52)%Z ->
  norm64 n D nrm -> (Z.of_nat n <= 2 ^ 52)%Z ->
  ((Z.of_nat M * Z.of_nat (height t1 + height t2 + h + 9) <= 2 ^ 53)%Z -> 0 <= es_nrg_arr_r b64 tn1 tn2 t1 t2 M y x) /\
  ((Z.of_nat M <= 200000)%Z -> (Z.of_nat n <= 10 ^ 9)%Z -> 0 <= es_nrg_k_r b64 nrm M y x).
Proof.
intros M D y x tn1 tn2 t1 t2 h nrm n H O1 O2 A1 A2 Hh HN Hn. pose proof H as (HM & HB & _).
  assert (2 ^ 53 = IZR (2 ^ 53)) as E53 by (rewrite (IZR_Zpower radix2) by lia; rewrite bp_pow; reflexivity).
  assert (0 < M * M)%nat as C by nia. pose proof (proj1 (sq52 M HB)) as Cb.
  assert (/ 2 * (sumn M (fun i => sumn M (es_dist D x i)) / INR (M * M)) <= sumn M (es_err D y x) / INR M * (1 - / INR M)) as S.
  { apply share; auto; [intros; apply sqrt_pos| |apply es_dist_refl]. intros i j _ _. unfold es_dist, es_err. rewrite (eucl_sym D (x j) y). apply eucl_triangle. }
  split; [intros L|intros L Ln]; (apply b64_ge0, Rge_le, Rge_minus, Rle_ge).
  - eapply (ge_calc M HM); [apply (arr_e1 M D y x tn1 t1 h H O1 A1 Hh)|apply (arr_e2 M D y x tn2 t2 h _ H O2 A2 Hh C Cb)|exact S|].
    rewrite E53, !INR_IZR, <- mult_IZR. apply IZR_le. eapply Z.le_trans; [|exact L]. apply Z.mul_le_mono_nonneg_l; [lia|]. apply Nat2Z.inj_le.
    pose proof (Nat.div_mod h 2 ltac:(lia)). lia.
  - eapply (ge_calc M HM); [apply (k_e1 M D y x n nrm H HN Hn)|apply (k_e2 M D y x n nrm _ H HN Hn C Cb)|exact S|].
    rewrite E53, !INR_IZR, <- mult_IZR. apply IZR_le. clear - L Ln HM. rewrite !Nat2Z.inj_add, Nat2Z.inj_div, Nat2Z.inj_mul, Nat2Z.inj_sub by lia. simpl (Z.of_nat 1). simpl (Z.of_nat 2). simpl (Z.of_nat 3).
    set (m := Z.of_nat M) in *. set (k := Z.of_nat n) in *. assert (0 <= k)%Z by (subst k; lia). assert (1 <= m)%Z by lia. change (2 ^ 53)%Z with 9007199254740992%Z. change (10 ^ 9)%Z with 1000000000%Z in Ln.
    assert (m * (m - 1) / 2 <= 20000000000)%Z. { apply Z.div_le_upper_bound; [lia|]. assert (m * (m - 1) <= 200000 * 200000)%Z by (apply Z.mul_le_mono_nonneg; lia). lia. }
    assert (0 <= m * (m - 1) / 2)%Z by (apply Z.div_pos; nia).
    eapply Z.le_trans; [apply (Z.mul_le_mono_nonneg m 200000 _ (200000 + 1000000000 + 2 + (20000000000 + 1000000000 + 3))); lia|]. lia.
Qed.
Lemma C89_perfect_l :
forall M D y x tn1 tn2 t1 t2 nrm n, (forall i k, x i k = y k) -> norm64 n D nrm ->
  es_nrg_arr_r b64 tn1 tn2 t1 t2 M y x = 0 /\ es_fair_arr_r b64 tn1 tn2 t1 t2 M y x = 0 /\ es_akr_arr_r b64 tn1 tn2 t1 t2 M y x = 0 /\ es_akr_circperm_arr_r b64 tn1 tn2 t1 t2 M y x = 0 /\
  es_nrg_k_r b64 nrm M y x = 0 /\ es_fair_k_r b64 nrm M y x = 0 /\ es_akr_k_r b64 nrm M y x = 0 /\ es_akr_circperm_k_r b64 nrm M y x = 0.
Proof.
intros M D y x tn1 tn2 t1 t2 nrm n Hx HN.
assert (forall i k, rvsub b64 (x i) y k = 0) as Z1 by (intros; unfold rvsub, rsub; rewrite Hx, Rminus_eq_0; apply b64_0).
assert (forall i j k, rvsub b64 (x i) (x j) k = 0) as Z2 by (intros; unfold rvsub, rsub; rewrite !Hx, Rminus_eq_0; apply b64_0).
assert (forall c, es_energy_arr_r b64 tn1 tn2 t1 t2 M c y x = 0) as A.
{ intros c. unfold es_energy_arr_r. rewrite (zero_tsum t1), (zero_tsum t2) by (intros; apply zero_norm_arr; auto). unfold rdiv, rmul, rsub, Rdiv. rewrite !Rmult_0_l, b64_0, Rmult_0_r, b64_0, Rminus_eq_0. apply b64_0. }
assert (forall s, es_lag_arr_r b64 s tn1 tn2 t1 t2 M y x = 0) as B.
{ intros s. unfold es_lag_arr_r. rewrite (zero_tsum t1), (zero_tsum t2) by (intros; apply zero_norm_arr; auto). unfold rdiv, rmul, rsub, Rdiv. rewrite !Rmult_0_l, b64_0, Rmult_0_r, b64_0, Rminus_eq_0. apply b64_0. }
assert (forall l, List.Forall (fun a => a = 0) (map (fun i => nrm (rvsub b64 (x i) y)) l)) as L1.
{ intros l. apply List.Forall_forall. intros a Ha. apply in_map_iff in Ha. destruct Ha as (i & <- & _). apply (zero_norm n D); auto. }
assert (forall c, es_energy_k_r b64 nrm M c y x = 0) as A'.
{ intros c. unfold es_energy_k_r. rewrite (zero_lsum (map _ _)) by apply L1. rewrite zero_lsum; [unfold rdiv, rmul, rsub, Rdiv; rewrite !Rmult_0_l, b64_0, Rmult_0_r, b64_0, Rminus_eq_0; apply b64_0|].
  apply List.Forall_forall. intros a Ha. apply in_flat_map in Ha. destruct Ha as (i & _ & Ha). apply in_map_iff in Ha. destruct Ha as (j & <- & _). unfold rmul. rewrite (zero_norm n D nrm) by auto. rewrite Rmult_0_r. apply b64_0. }
assert (forall g, es_lag_k_r b64 nrm g M y x = 0) as B'.
{ intros g. unfold es_lag_k_r. rewrite (zero_lsum (map (fun i => nrm (rvsub b64 (x i) y)) _)) by apply L1. rewrite zero_lsum; [unfold rdiv, rmul, rsub, Rdiv; rewrite !Rmult_0_l, b64_0, Rmult_0_r, b64_0, Rminus_eq_0; apply b64_0|].
  apply List.Forall_forall. intros a Ha. apply in_map_iff in Ha. destruct Ha as (i & <- & _). apply (zero_norm n D); auto. }
exact (conj (A _) (conj (A _) (conj (B _) (conj (B _) (conj (A' _) (conj (A' _) (conj (B' _) (B' _)))))))).
Qed.
Lemma C89_unrounded_l :
forall M D y x tn1 tn2 tn3 t1 t2 t3 h, (0 < M)%nat -> orders M D h tn1 -> orders (M * M) D h tn2 -> orders M D h tn3 -> adds t1 M -> adds t2 (M * M) -> adds t3 M ->
  let id := fun r : R => r in let e := es_err D y x in let d := es_dist D x in
  let obs := map (fun k => Fin (y k)) (seq 0 D) in let fct := map (fun i => map (fun k => Fin (x i k)) (seq 0 D)) (seq 0 M) in
  es_nrg_arr_r id tn1 tn2 t1 t2 M y x = k_exact M e d /\ es_nrg_k obs fct = Fin (es_nrg_k_r id (enorm D) M y x) /\
  ((1 < M)%nat -> es_fair_arr_r id tn1 tn2 t1 t2 M y x = k_fair M e d /\ es_fair_k obs fct = Fin (es_fair_k_r id (enorm D) M y x)) /\
  es_akr_arr_r id tn1 tn3 t1 t3 M y x = k_lag M (lag1 M) e d /\ es_akr_k obs fct = Fin (es_akr_k_r id (enorm D) M y x) /\
  es_akr_circperm_arr_r id tn1 tn3 t1 t3 M y x = k_lag M (lagc M) e d /\ es_akr_circperm_k obs fct = Fin (es_akr_circperm_k_r id (enorm D) M y x).
Proof.
intros M D y x tn1 tn2 tn3 t1 t2 t3 h HM O1 O2 O3 A1 A2 A3 id e d obs fct. pose proof (lt_0_INR M HM) as P. change id with idr. clear id.
assert (tsum idr t1 (fun i => norm_arr_r idr (tn1 i) (rvsub idr (x i) y)) = sumn M e) as S1 by (apply (tsum_idr_ext t1 M _ e A1); intros i Hi; apply norm_id; now apply O1).
assert (tsum idr t2 (fun n => norm_arr_r idr (tn2 n) (rvsub idr (x (n mod M)%nat) (x (n / M)%nat))) = sumn M (fun i => sumn M (d i))) as S2.
{ rewrite (tsum_idr_ext t2 (M * M) _ (fun n => d (n / M)%nat (n mod M)%nat) A2); [now apply sumn_grid|]. intros n Hn. unfold d. rewrite es_dist_sym. apply norm_id. now apply O2. }
assert (forall g, tsum idr t3 (fun i => norm_arr_r idr (tn3 i) (rvsub idr (x i) (x (g i)))) = sumn M (fun i => d i (g i))) as S3.
{ intros g. apply (tsum_idr_ext t3 M _ (fun i => d i (g i)) A3). intros i Hi. apply norm_id. now apply O3. }
assert (lsum idr (flat_map (fun i => map (fun j => rmul idr 2 (enorm D (rvsub idr (x i) (x j)))) (seq (i + 1) (M - (i + 1)))) (seq 0 M)) = sumn M (fun i => sumn M (d i))) as S4.
{ rewrite lsum_id, Rsum_flat_map. symmetry. apply (eq_sym (tri_gen M d (es_dist_sym D x) (es_dist_refl D x))). }
assert (lsum idr (map (fun i => enorm D (rvsub idr (x i) y)) (seq 0 M)) = sumn M e) as S5 by (rewrite lsum_id; reflexivity).
assert (forall g, lsum idr (map (fun i => enorm D (rvsub idr (x i) (x (g i)))) (seq 0 M)) = sumn M (fun i => d i (g i))) as S6 by (intros g; rewrite lsum_id; reflexivity).
assert (forall k, (k < D)%nat -> Fin (y k) = Fin (y k)) as Hy by auto. assert (forall i k, (i < M)%nat -> (k < D)%nat -> Fin (x i k) = Fin (x i k)) as Hx by auto.
split; [unfold es_nrg_arr_r, es_energy_arr_r; rewrite S1, S2; unfold rsub, rmul, rdiv, idr, k_exact; rewrite mult_INR; field; lra|].
split; [rewrite (es_nrg_k_real M D (fun k => Fin (y k)) (fun i k => Fin (x i k)) y x HM Hy Hx : es_nrg_k obs fct = _); f_equal; unfold es_nrg_k_r, es_energy_k_r; rewrite S4, S5; unfold rsub, rmul, rdiv, idr, k_exact; rewrite mult_INR; fold e d; field; lra|].
split.
{ intros M1. assert (0 < INR M - 1) as P1 by (apply lt_INR in M1; simpl INR in M1; lra).
  split; [unfold es_fair_arr_r, es_energy_arr_r; rewrite S1, S2; unfold rsub, rmul, rdiv, idr, k_fair; rewrite mult_INR, minus_INR by lia; simpl INR; field; lra|].
  rewrite (es_fair_k_real M D (fun k => Fin (y k)) (fun i k => Fin (x i k)) y x HM Hy Hx M1 : es_fair_k obs fct = _); f_equal; unfold es_fair_k_r, es_energy_k_r; rewrite S4, S5; unfold rsub, rmul, rdiv, idr, k_fair; rewrite mult_INR, minus_INR by lia; simpl INR; fold e d; field; lra. }
split; [unfold es_akr_arr_r, es_lag_arr_r; rewrite S1, (S3 (lag1 M) : tsum idr t3 (fun i => norm_arr_r idr (tn3 i) (rvsub idr (x i) (x ((i + M - 1) mod M)%nat))) = _); unfold rsub, rmul, rdiv, idr, k_lag; field; lra|].
split; [rewrite (es_akr_k_real M D (fun k => Fin (y k)) (fun i k => Fin (x i k)) y x HM Hy Hx : es_akr_k obs fct = _); f_equal; unfold es_akr_k_r, es_lag_k_r; rewrite S5, S6; unfold rsub, rmul, rdiv, idr, k_lag; fold e d|].
{ rewrite (sumn_ext M (fun i => d i (if (i =? 0)%nat then (M - 1)%nat else (i - 1)%nat)) (fun i => d i (lag1 M i))) by (intros i Hi; now rewrite (lag1_if M HM i Hi)). field. lra. }
split; [unfold es_akr_circperm_arr_r, es_lag_arr_r; rewrite S1, (S3 (lagc M) : tsum idr t3 (fun i => norm_arr_r idr (tn3 i) (rvsub idr (x i) (x ((i + M - M / 2) mod M)%nat))) = _); unfold rsub, rmul, rdiv, idr, k_lag; field; lra|].
rewrite (es_akrc_k_real M D (fun k => Fin (y k)) (fun i k => Fin (x i k)) y x HM Hy Hx : es_akr_circperm_k obs fct = _); f_equal; unfold es_akr_circperm_k_r, es_lag_k_r; rewrite S5, S6; unfold rsub, rmul, rdiv, idr, k_lag; fold e d; unfold lagf; field; lra.
Qed.
