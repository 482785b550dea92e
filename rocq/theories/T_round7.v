(** Proofs of the rounding properties of the fair estimators for weighted ensembles (statements in P_round7.v). *)
From Coq Require Import Reals List ZArith Permutation Lia Lra Psatz.
From Flocq Require Import Core.
From Verif Require Import L_crps_row L_crps_roww L_crps_gu L_crps_ens L_energy L_stab L_round6.
From Verif Require Export T_round6 L_round13 Num S_round.
Open Scope R_scope.

Lemma u2_sum M y x w tw t : wens64 M y x -> wts64 M w -> adds tw M -> (Z.of_nat (height tw) <= 2 ^ 52)%Z -> adds t (M * M) -> calc (height t + 2 * height tw + 7) 855
  (tsum b64 t (fun n => rmul b64 (rmul b64 (Rabs (rsub b64 (x (n / M)%nat) (x (n mod M)%nat))) (weights_r b64 tw w (n / M)%nat)) (weights_r b64 tw w (n mod M)%nat))) (wpairsum M (nw M w) x).
Proof.
  intros HE HW AW BW A. pose proof (uM M y x HE) as HM. unfold wpairsum. rewrite <- (sumn_grid M M (fun i j => nw M w i * nw M w j * Rabs (x i - x j))) by exact HM.
  replace (height t + 2 * height tw + 7)%nat with (1 + 2 * (height tw + 2) + 2 + height t)%nat by lia. apply (tsum_n t (M * M)); [lia|exact A|]. intros n Hn.
  apply (wterm2 M 1 (height tw + 2) (weights_r b64 tw w) (nw M w) HM (uwts M y x w tw HE HW AW BW)); [apply Nat.div_lt_upper_bound; lia|apply Nat.mod_upper_bound; lia|].
  apply (upair_calc M y x); auto; [apply Nat.div_lt_upper_bound; lia|apply Nat.mod_upper_bound; lia].
Qed.
Lemma g_ge0 K : 0 <= (1 + u64) ^ K - 1. Proof. pose proof (pow_hi K). lra. Qed.
Lemma ratio g c : 0 <= g -> g < c -> 0 <= g / c < 1.
Proof. intros. assert (0 < / c) by (apply Rinv_0_lt_compat; lra). split; [apply Rmult_le_pos; lra|]. apply (Rmult_lt_reg_r c); [lra|]. unfold Rdiv. rewrite Rmult_assoc, Rinv_l; lra. Qed.
Lemma nsub_r a b : nrnd b64 (nsub (Fin a) (Fin b)) = Fin (b64 (a - b)). Proof. reflexivity. Qed.
Lemma ndiv_r a b : b <> 0 -> nrnd b64 (ndiv (Fin a) (Fin b)) = Fin (b64 (a / b)). Proof. intros H. simpl. destruct (Req_EM_T b 0); [contradiction|reflexivity]. Qed.
Lemma ndiv_p a : 0 < a -> nrnd b64 (ndiv (Fin a) (Fin 0)) = PInf. Proof. intros H. simpl. destruct (Req_EM_T 0 0) as [_|N]; [|lra]. unfold infsgn. destruct (Rlt_dec 0 a); [reflexivity|lra]. Qed.
Lemma ndiv_z : nrnd b64 (ndiv (Fin 0) (Fin 0)) = NaN. Proof. simpl. destruct (Req_EM_T 0 0) as [_|N]; [|lra]. unfold infsgn. destruct (Rlt_dec 0 0); [lra|]. reflexivity. Qed.
Lemma nmul_p : nrnd b64 (nmul (Fin (1 / 2)) PInf) = PInf. Proof. simpl. unfold infsgn. destruct (Rlt_dec 0 (1 / 2)); [reflexivity|lra]. Qed.
Section Q.
Variables (M : nat) (w : nat -> R) (tw t3 : stree).
Hypothesis HB : (Z.of_nat M <= 2 ^ 26)%Z.
Hypothesis HW : wts64 M w.
Hypothesis AW : adds tw M.
Hypothesis BW : (Z.of_nat (height tw) <= 2 ^ 52)%Z.
Hypothesis A3 : adds t3 M.
Local Notation wc := (weights_r b64 tw w).
Local Notation W := (nw M w).
Local Notation c := (1 - sumn M (fun i => nw M w i * nw M w i)).
Local Notation g := ((1 + u64) ^ (height t3 + 2 * height tw + 6) - 1).
Hypothesis G : g < c.
Lemma cpos : 0 < c. Proof. pose proof (g_ge0 (height t3 + 2 * height tw + 6)). lra. Qed.
Lemma rpos : 0 <= g / c < 1. Proof. apply ratio; [apply g_ge0|exact G]. Qed.
Lemma fair_near k p b B : (p <= 1022)%Z -> calc k p b B -> 0 < fair_c_r b64 t3 wc /\ near (S k) (g / c) p (b64 (b / fair_c_r b64 t3 wc)) (B / c).
Proof.
  intros Hp C. destruct (fair_c_err M w tw t3 HB HW AW BW A3) as [E L]. pose proof cpos. apply near_div; auto; [apply rpos|]. eapply Rle_trans; [exact E|]. right. field. lra.
Qed.
End Q.
(** instance: one of two weights is 2^-60 *)
Definition ex_wd (i : nat) : R := if (i =? 0)%nat then 1 else / 2 ^ 60.
Lemma ex_wdts : wts64 2 ex_wd.
Proof.
  assert (/ 2 ^ 100 <= 1) by (rewrite <- Rinv_1; apply Rinv_le_contravar; [lra|]; apply pow_R1_Rle; lra). assert (1 <= 2 ^ 100) by (apply pow_R1_Rle; lra).
  assert (/ 2 ^ 60 <= 1) by (rewrite <- Rinv_1; apply Rinv_le_contravar; [lra|]; apply pow_R1_Rle; lra).
  assert (/ 2 ^ 100 <= / 2 ^ 60) by (apply Rinv_le_contravar; [apply pow_lt; lra|]; apply Rle_pow; [lra|lia]).
  split; [|exists 0%nat; split; [lia|unfold ex_wd; simpl; lra]]. intros i Hi. unfold ex_wd. destruct (Nat.eqb_spec i 0); (split; [|right; lra]).
  - apply is64_fmt, (fmt_int 1). lia.
  - apply is64_fmt. rewrite bp_inv. apply fmt_bp. simpl; lia.
Qed.
Lemma b64_1p e : 0 <= e <= bpow radix2 (-54) -> b64 (1 + e) = 1.
Proof.
  intros H. pose proof (bpow_gt_0 radix2 52). assert (bpow radix2 52 * bpow radix2 (-54) = / 4) as Q by (rewrite <- bpow_plus; simpl; lra).
  assert (bpow radix2 52 * bpow radix2 (-52) = 1) as Q1 by (rewrite <- bpow_plus; reflexivity).
  replace (1 + e) with (bpow radix2 52 * (1 + e) * bpow radix2 (-52)) by (rewrite Rmult_comm, <- Rmult_assoc, (Rmult_comm (bpow radix2 (-52))), Q1; ring).
  assert (bpow radix2 52 * e <= / 4) by (rewrite <- Q; apply Rmult_le_compat_l; lra). assert (0 <= bpow radix2 52 * e) by nra.
  rewrite b64_grid; [|lia|].
  - rewrite (Znearest_imp _ _ (2 ^ 52)).
    + change (IZR (2 ^ 52)) with (IZR (Zpower radix2 52)). rewrite (IZR_Zpower radix2) by lia. exact Q1.
    + change (IZR (2 ^ 52)) with (IZR (Zpower radix2 52)). rewrite (IZR_Zpower radix2) by lia. apply Rabs_lt. lra.
  - assert (bpow radix2 53 = 2 * bpow radix2 52) as -> by (change 53%Z with (1 + 52)%Z; rewrite bpow_plus; reflexivity). 
    assert (4 <= bpow radix2 52) by (change 4 with (bpow radix2 2); apply bpow_le; lia). lra.
Qed.
Lemma ex_wd_c : fair_c_r b64 (comb 1) (weights_r b64 (comb 1) ex_wd) = 0.
Proof.
  set (e := / 2 ^ 60). assert (e = bpow radix2 (-60)) as Ee by (unfold e; now rewrite bp_inv). pose proof (bpow_gt_0 radix2 (-60)) as P.
  assert (tsum b64 (comb 1) ex_wd = 1) as T. { simpl. unfold radd, ex_wd. simpl Nat.eqb. cbn iota. fold e. apply b64_1p. rewrite Ee. split; [lra|]. apply bpow_le. lia. }
  assert (weights_r b64 (comb 1) ex_wd 0 = 1) as W0. { unfold weights_r, rdiv. rewrite T. unfold ex_wd. simpl Nat.eqb. cbn iota. replace (1 / 1) with 1 by field. apply b64_id, (fmt_int 1). lia. }
  assert (weights_r b64 (comb 1) ex_wd 1 = e) as W1. { unfold weights_r, rdiv. rewrite T. unfold ex_wd. simpl Nat.eqb. cbn iota. fold e. replace (e / 1) with e by field. apply b64_id. rewrite Ee. apply fmt_bp. lia. }
  unfold fair_c_r. change (tsum b64 (comb 1) ?a) with (b64 (a 0%nat + a 1%nat)). cbv beta. rewrite W0, W1. unfold rmul, rsub. rewrite Rmult_1_l, (b64_id 1) by (apply (fmt_int 1); lia).
  rewrite Ee, <- bpow_plus, (b64_id (bpow radix2 (-60 + -60))) by (apply fmt_bp; lia). rewrite b64_1p by (split; [apply bpow_ge_0|apply bpow_le; lia]). rewrite Rminus_eq_0. apply b64_0.
Qed.
Lemma ex_uni2 : wens64 2 0 ex_u.
Proof.
  assert (forall n, (Z.of_nat n < 2 ^ 53)%Z -> is64 (INR n)) as F by (intros n Hn; rewrite INR_IZR_INZ; exists (Z.of_nat n), 0%Z; simpl; split; [ring|split; lia]).
  assert (forall i j, apart 400 (INR i) (INR j)) as A.
  { intros i j. destruct (Nat.eq_dec i j) as [->|N]; [now left|right]. apply Rle_trans with 1.
    - rewrite <- Rinv_1. apply Rinv_le_contravar; [lra|]. apply pow_R1_Rle. lra.
    - rewrite !INR_IZR_INZ, <- minus_IZR, <- abs_IZR. apply IZR_le. lia. }
  change 0 with (INR 0). repeat split; try lia; unfold ex_u; intros; first [apply A|apply F; lia].
Qed.
Lemma C94_constant_l :
forall M w tw t, (Z.of_nat M <= 2 ^ 26)%Z -> wts64 M w -> adds tw M -> adds t M -> (Z.of_nat (height tw) <= 2 ^ 52)%Z ->
  let W := nw M w in let c := fair_c_r b64 t (weights_r b64 tw w) in
  Rabs (c - (1 - sumn M (fun i => W i * W i))) <= (1 + u64) ^ (height t + 2 * height tw + 6) - 1 /\ c <= 1.
Proof.
intros M w tw t HB HW AW A BW W c. now apply fair_c_err.
Qed.
Lemma C94_balanced_l :
forall M w tw t, wts64 M w -> (forall i, (i < M)%nat -> nw M w i <= / 2) -> (Z.of_nat (height t + 2 * height tw + 6) <= 2 ^ 49)%Z ->
  let c := 1 - sumn M (fun i => nw M w i * nw M w i) in let g := (1 + u64) ^ (height t + 2 * height tw + 6) - 1 in
  / 2 <= c /\ g < c /\ g / c <= 4 * (INR (height t + 2 * height tw + 6) * u64).
Proof.
intros M w tw t HW HH HK c g. set (K := (height t + 2 * height tw + 6)%nat) in *.
assert (INR K * u64 <= / 16) as KU. { rewrite u64_bp, INR_IZR. apply Rle_trans with (bpow radix2 49 * bpow radix2 (-53)); [|rewrite <- bpow_plus; simpl; lra]. apply Rmult_le_compat_r; [apply bpow_ge_0|]. rewrite <- (IZR_Zpower radix2) by lia. apply IZR_le. exact HK. }
assert (0 <= INR K * u64) as K0 by (apply Rmult_le_pos; [apply pos_INR|apply Rlt_le, u64_pos]).
assert (g <= 2 * (INR K * u64)) as G. { unfold g. pose proof (bern K). pose proof (pow_both K) as [_ B]. pose proof (pow_hi K). set (a := (1 + u64) ^ K) in *. set (b := (1 - u64) ^ K) in *. assert (a * (1 - INR K * u64) <= 1) by nra. nra. }
assert (/ 2 <= c) as C. { unfold c. assert (sumn M (fun i => nw M w i * nw M w i) <= / 2); [|lra]. rewrite <- (Rmult_1_r (/ 2)), <- (nw_one M w HW), <- sumn_scal. apply sumn_le. intros i Hi. apply Rmult_le_compat_r; [now apply nw_pos|now apply HH]. }
split; [exact C|]. split; [lra|]. apply (Rmult_le_reg_r c); [lra|]. unfold Rdiv. rewrite Rmult_assoc, Rinv_l by lra. nra.
Qed.
Lemma C94_crps_fair_l :
forall M y x w tw t1 t2 t3, wens64 M y x -> wts64 M w -> adds tw M -> adds t1 M -> adds t2 (M * M) -> adds t3 M -> (Z.of_nat (height tw) <= 2 ^ 52)%Z ->
  let W := nw M w in let wc := weights_r b64 tw w in let h := height tw in
  let c := 1 - sumn M (fun i => W i * W i) in let g := (1 + u64) ^ (height t3 + 2 * h + 6) - 1 in
  let bound a b := ((1 + u64) ^ a - 1) * wmae M W y x + ((1 + u64) ^ b / (1 - g / c) - 1) * (wpairsum M W x / (2 * c)) in
  g < c ->
  (exists s, crps_fair_w_arr_r b64 t1 t2 t3 M y x wc = Fin s /\ Rabs (s - wfair_crps M W y x) <= bound (height t1 + h + 5)%nat (height t2 + 2 * h + 10)%nat) /\
  (exists s, crps_fair_w_k_r b64 t3 M y x wc = Fin s /\ Rabs (s - wfair_crps M W y x) <= bound (M + h + 5)%nat (M * (M - 1) / 2 + 2 * h + 9)%nat).
Proof.
intros M y x w tw t1 t2 t3 HE HW AW A1 A2 A3 BW W wc h c g bound G. assert (Z.of_nat M <= 2 ^ 26)%Z as HB by apply HE.
pose proof (cpos M w tw t3 G) as C0. pose proof (rpos M w tw t3 G) as R0. fold W c in C0. fold W c h g in R0. unfold bound, wfair_crps. fold c. split.
- destruct (fair_near M w tw t3 HB HW AW BW A3 G _ 855%Z _ _ ltac:(lia) (u2_sum M y x w tw t2 HE HW AW BW A2)) as [P N]. fold W c h g in N. fold wc in P, N.
  apply near_half in N; [|exact R0|lia]. pose proof (near_diff _ _ _ _ _ _ _ _ _ R0 (u1_arr M y x w tw HE HW AW BW t1 A1) N) as Q.
  eexists. split; [unfold crps_fair_w_arr_r; cbv zeta; rewrite ndiv_r by (apply Rgt_not_eq; exact P); cbn [nmul nrnd]; rewrite nsub_r; reflexivity|].
  fold W wc h in Q. replace (S (S (S (height t2 + 2 * h + 7)))) with (height t2 + 2 * h + 10)%nat in Q by lia. replace (S (height t1 + 1 + (h + 2) + 1)) with (height t1 + h + 5)%nat in Q by lia.
  replace (wpairsum M W x / (2 * c)) with (/ 2 * (wpairsum M W x / c)) by (field; lra). exact Q.
- destruct (fair_near M w tw t3 HB HW AW BW A3 G _ 855%Z _ _ ltac:(lia) (u2_k M y x w tw HE HW AW BW)) as [P N]. fold W c h g in N. fold wc in P, N.
  pose proof (near_diff _ _ _ _ _ _ _ _ _ R0 (u1_k M y x w tw HE HW AW BW) N) as Q.
  eexists. split; [unfold crps_fair_w_k_r; cbv zeta; destruct (Req_EM_T (fair_c_r b64 t3 wc) 0) as [Z|_]; [exfalso; rewrite Z in P; exact (Rlt_irrefl 0 P)|]; rewrite ndiv_r by (apply Rgt_not_eq; exact P); rewrite nsub_r; reflexivity|].
  fold W wc h in Q. replace (S (S (M * (M - 1) / 2 + 1 + 2 * (h + 2) + 2))) with (M * (M - 1) / 2 + 2 * h + 9)%nat in Q by lia. replace (S (M + 1 + (h + 2) + 1)) with (M + h + 5)%nat in Q by lia.
  replace (wpairsum M W x / (2 * c)) with (/ 2 * wpairsum M W x / c) by (field; lra). exact Q.
Qed.
Lemma C94_es_fair_l :
forall M D y x w tw tn1 tn2 t1 t2 t3 h nrm n, mvens64 M D y x -> wts64 M w -> adds tw M -> orders M D h tn1 -> orders (M * M) D h tn2 -> adds t1 M -> adds t2 (M * M) -> adds t3 M ->
  (Z.of_nat (height tw) <= 2 ^ 52)%Z -> (Z.of_nat h <= 2 ^ 52)%Z -> norm64 n D nrm -> (Z.of_nat n <= 2 ^ 52)%Z ->
  let W := nw M w in let wc := weights_r b64 tw w in let e := es_err D y x in let d := es_dist D x in
  let c := 1 - sumn M (fun i => W i * W i) in let g := (1 + u64) ^ (height t3 + 2 * height tw + 6) - 1 in
  let bound a b := ((1 + u64) ^ a - 1) * sumn M (fun i => W i * e i) + ((1 + u64) ^ b / (1 - g / c) - 1) * (sumn M (fun i => sumn M (fun j => W i * W j * d i j)) / (2 * c)) in
  g < c ->
  (exists s, es_fair_w_arr_r b64 tn1 tn2 t1 t2 t3 M y x wc = Fin s /\ Rabs (s - k_wfair M W e d) <= bound (height t1 + h / 2 + height tw + 7)%nat (height t2 + h / 2 + 2 * height tw + 12)%nat) /\
  (exists s, es_fair_w_k_r b64 nrm t3 M y x wc = Fin s /\ Rabs (s - k_wfair M W e d) <= bound (M + n + height tw + 5)%nat (M * (M - 1) / 2 + n + 2 * height tw + 10)%nat).
Proof.
intros M D y x w tw tn1 tn2 t1 t2 t3 h nrm n HE HW AW O1 O2 A1 A2 A3 BW Hh HN Hn W wc e d. assert (Z.of_nat M <= 2 ^ 26)%Z as HB by apply HE. intros c g bound G.
pose proof (cpos M w tw t3 G) as C0. pose proof (rpos M w tw t3 G) as R0. fold W c in C0. fold W c g in R0. unfold bound, k_wfair. fold c. split.
- destruct (fair_near M w tw t3 HB HW AW BW A3 G _ 856%Z _ _ ltac:(lia) (v2_arr M D y x w tw HE HW AW BW tn2 t2 h O2 Hh A2)) as [P N]. fold W c g in N. fold wc in P, N.
  pose proof (near_diff _ _ _ _ _ _ _ _ _ R0 (v1_arr M D y x w tw HE HW AW BW tn1 t1 h O1 Hh A1) N) as Q.
  eexists. split; [unfold es_fair_w_arr_r; cbv zeta; cbn [nmul]; cbn [nrnd]; rewrite ndiv_r by (apply Rgt_not_eq; exact P); rewrite nsub_r; reflexivity|].
  fold W wc e d in Q. replace (S (S (height t2 + (h / 2 + 2 + 1) + 2 * (height tw + 2) + 3))) with (height t2 + h / 2 + 2 * height tw + 12)%nat in Q by lia.
  replace (S (height t1 + (h / 2 + 2 + 1) + (height tw + 2) + 1)) with (height t1 + h / 2 + height tw + 7)%nat in Q by lia.
  match goal with |- context [?s / (2 * c)] => replace (s / (2 * c)) with (/ 2 * s / c) by (field; lra) end. exact Q.
- destruct (fair_near M w tw t3 HB HW AW BW A3 G _ 856%Z _ _ ltac:(lia) (v2_k M D y x w tw HE HW AW BW n nrm HN Hn)) as [P N]. fold W c g in N. fold wc in P, N.
  pose proof (near_diff _ _ _ _ _ _ _ _ _ R0 (v1_k M D y x w tw HE HW AW BW n nrm HN Hn) N) as Q.
  eexists. split; [unfold es_fair_w_k_r; cbv zeta; cbn [nmul]; cbn [nrnd]; rewrite ndiv_r by (apply Rgt_not_eq; exact P); rewrite nsub_r; reflexivity|].
  fold W wc e d in Q. replace (S (S (S (M * (M - 1) / 2 + (n + 1) + 2 * (height tw + 2) + 2)))) with (M * (M - 1) / 2 + n + 2 * height tw + 10)%nat in Q by lia.
  replace (S (M + (n + 1) + (height tw + 2) + 1)) with (M + n + height tw + 5)%nat in Q by lia.
  match goal with |- context [?s / (2 * c)] => replace (s / (2 * c)) with (/ 2 * s / c) by (field; lra) end. exact Q.
Qed.
Lemma C94_lost_l :
forall M D y x yu xu w tw tn1 tn2 t1 t2 t3 h nrm n, mvens64 M D y x -> wens64 M yu xu -> wts64 M w -> adds tw M -> orders M D h tn1 -> orders (M * M) D h tn2 -> adds t1 M -> adds t2 (M * M) -> adds t3 M ->
  (Z.of_nat (height tw) <= 2 ^ 52)%Z -> (Z.of_nat h <= 2 ^ 52)%Z -> norm64 n D nrm -> (Z.of_nat n <= 2 ^ 52)%Z ->
  let W := nw M w in let wc := weights_r b64 tw w in let e := es_err D y x in let d := es_dist D x in
  fair_c_r b64 t3 wc = 0 ->
  crps_fair_w_k_r b64 t3 M yu xu wc = NaN /\
  (0 < wpairsum M W xu -> crps_fair_w_arr_r b64 t1 t2 t3 M yu xu wc = NInf) /\
  (0 < sumn M (fun i => sumn M (fun j => W i * W j * d i j)) ->
    es_fair_w_arr_r b64 tn1 tn2 t1 t2 t3 M y x wc = NInf /\ es_fair_w_k_r b64 nrm t3 M y x wc = NInf).
Proof.
intros M D y x yu xu w tw tn1 tn2 t1 t2 t3 h nrm n HE HU HW AW O1 O2 A1 A2 A3 BW Hh HN Hn W wc e d. assert (Z.of_nat M <= 2 ^ 26)%Z as HB by apply HE. intros C. clear e.
assert (forall k p b B, calc k p b B -> 0 < B -> 0 < b) as POS. { intros k p b B (_ & _ & [Q _] & _) HB0. eapply Rlt_le_trans; [|exact Q]. apply Rmult_lt_0_compat; [exact HB0|apply pow_lo]. }
split; [unfold crps_fair_w_k_r; cbv zeta; rewrite C; destruct (Req_EM_T 0 0); [reflexivity|lra]|]. split; [|intros S; split].
- intros S. pose proof (POS _ _ _ _ (u2_sum M yu xu w tw t2 HU HW AW BW A2) S) as P. fold wc in P. unfold crps_fair_w_arr_r. cbv zeta. rewrite C, ndiv_p by exact P. rewrite nmul_p. reflexivity.
- pose proof (POS _ _ _ _ (v2_arr M D y x w tw HE HW AW BW tn2 t2 h O2 Hh A2) ltac:(fold W d; lra)) as P. fold wc in P. unfold es_fair_w_arr_r. cbv zeta. cbn [nmul]. cbn [nrnd]. rewrite C, ndiv_p by exact P. reflexivity.
- pose proof (POS _ _ _ _ (v2_k M D y x w tw HE HW AW BW n nrm HN Hn) ltac:(fold W d; lra)) as P. fold wc in P. unfold es_fair_w_k_r. cbv zeta. cbn [nmul]. cbn [nrnd]. rewrite C, ndiv_p by exact P. reflexivity.
Qed.
Lemma C94_fair_refuted_l :
exists M y x w tw t1 t2 t3, (1 < M)%nat /\ wens64 M y x /\ wts64 M w /\ adds tw M /\ adds t1 M /\ adds t2 (M * M) /\ adds t3 M /\ (forall i, (i < M)%nat -> 0 < w i) /\
  Rabs (wfair_crps M (nw M w) y x + / 2) <= / 2 ^ 59 /\
  crps_fair_w_arr_r b64 t1 t2 t3 M y x (weights_r b64 tw w) = NInf /\ crps_fair_w_k_r b64 t3 M y x (weights_r b64 tw w) = NaN.
Proof.
exists 2%nat, 0, ex_u, ex_wd, (comb 1), (comb 1), (comb 3), (comb 1). destruct (comb_adds 1) as [A E]. destruct (comb_adds 3) as [A' _]. pose proof ex_wdts as HW. pose proof ex_uni2 as HU.
pose proof (pow_lt 2 60 ltac:(lra)) as P60. set (e := / 2 ^ 60). assert (0 < e) as e0 by (apply Rinv_0_lt_compat, P60).
assert (sumn 2 ex_wd = 1 + e) as S. { unfold sumn, Rsum. cbn [seq map fold_right]. unfold ex_wd. cbn [Nat.eqb]. fold e. ring. }
assert (nw 2 ex_wd 0 = / (1 + e)) as N0 by (unfold nw; rewrite S; unfold ex_wd; simpl Nat.eqb; cbn iota; field; lra).
assert (nw 2 ex_wd 1 = e / (1 + e)) as N1 by (unfold nw; rewrite S; unfold ex_wd; simpl Nat.eqb; cbn iota; fold e; reflexivity).
assert (wpairsum 2 (nw 2 ex_wd) ex_u = 2 * (/ (1 + e) * (e / (1 + e)))) as WP.
{ unfold wpairsum, sumn, Rsum. cbn [seq map fold_right]. rewrite N0, N1. unfold ex_u. cbn [INR]. rewrite !Rminus_eq_0, Rabs_R0. replace (0 - 1) with (-1) by ring. replace (1 - 0) with 1 by ring. rewrite Rabs_R1, Rabs_left by lra. ring. }
assert (0 < / (1 + e)) as I by (apply Rinv_0_lt_compat; lra). assert (0 < e / (1 + e)) as I' by (apply Rmult_lt_0_compat; assumption).
assert (0 < wpairsum 2 (nw 2 ex_wd) ex_u) as WP0 by (rewrite WP; nra).
split; [lia|]. split; [exact HU|]. split; [exact HW|]. split; [exact A|]. split; [exact A|]. split; [exact A'|]. split; [exact A|]. split; [intros i _; unfold ex_wd; destruct (i =? 0)%nat; [lra|exact e0]|]. split; [|split].
- unfold wfair_crps. rewrite WP. unfold wmae, sumn, Rsum. cbn [seq map fold_right]. rewrite N0, N1. unfold ex_u. cbn [INR]. rewrite Rminus_eq_0, Rabs_R0, Rminus_0_r, Rabs_R1.
  match goal with |- Rabs ?z <= _ => replace z with (e / (1 + e)) by (field; split; [lra|]; nra) end. rewrite Rabs_pos_eq by lra. apply Rle_trans with e.
  + apply (Rmult_le_reg_r (1 + e)); [lra|]. unfold Rdiv. rewrite Rmult_assoc, Rinv_l by lra. nra.
  + apply Rinv_le_contravar; [apply pow_lt; lra|]. apply Rle_pow; [lra|lia].
- pose proof (u2_sum 2 0 ex_u ex_wd (comb 1) (comb 3) HU HW A ltac:(rewrite E; lia) A') as (_ & _ & [Q _] & _). unfold crps_fair_w_arr_r. cbv zeta. rewrite ex_wd_c, ndiv_p; [rewrite nmul_p; reflexivity|].
  eapply Rlt_le_trans; [|exact Q]. apply Rmult_lt_0_compat; [exact WP0|apply pow_lo].
- unfold crps_fair_w_k_r. cbv zeta. rewrite ex_wd_c. destruct (Req_EM_T 0 0); [reflexivity|lra].
Qed.
Lemma C94_perfect_l :
forall M D y x yv xv w tn1 tn2 t1 t2 t3 nrm n, (forall i, x i = y) -> (forall i k, xv i k = yv k) -> norm64 n D nrm ->
  let s := if Req_EM_T (fair_c_r b64 t3 w) 0 then NaN else Fin 0 in
  crps_fair_w_arr_r b64 t1 t2 t3 M y x w = s /\ crps_fair_w_k_r b64 t3 M y x w = s /\
  es_fair_w_arr_r b64 tn1 tn2 t1 t2 t3 M yv xv w = s /\ es_fair_w_k_r b64 nrm t3 M yv xv w = s.
Proof.
intros M D y x yv xv w tn1 tn2 t1 t2 t3 nrm n Hx Hv HN s.
assert (forall a, rmul b64 0 a = 0) as M0 by (intros; unfold rmul; rewrite Rmult_0_l; apply b64_0).
assert (rmul b64 2 0 = 0) as M2 by (unfold rmul; rewrite Rmult_0_r; apply b64_0).
assert (forall i, Rabs (rsub b64 (x i) y) = 0) as Z1 by (intros; unfold rsub; rewrite Hx, Rminus_eq_0, b64_0; apply Rabs_R0).
assert (forall i, Rabs (rsub b64 y (x i)) = 0) as Z1' by (intros; unfold rsub; rewrite Hx, Rminus_eq_0, b64_0; apply Rabs_R0).
assert (forall i j, Rabs (rsub b64 (x i) (x j)) = 0) as Z2 by (intros; unfold rsub; rewrite !Hx, Rminus_eq_0, b64_0; apply Rabs_R0).
assert (forall t i, norm_arr_r b64 t (rvsub b64 (xv i) yv) = 0) as V1 by (intros; apply zero_norm_arr; intros; unfold rvsub, rsub; rewrite Hv, Rminus_eq_0; apply b64_0).
assert (forall t i j, norm_arr_r b64 t (rvsub b64 (xv i) (xv j)) = 0) as V2 by (intros; apply zero_norm_arr; intros; unfold rvsub, rsub; rewrite !Hv, Rminus_eq_0; apply b64_0).
assert (forall i, nrm (rvsub b64 (xv i) yv) = 0) as V3 by (intros; apply (zero_norm n D); auto; intros; unfold rvsub, rsub; rewrite Hv, Rminus_eq_0; apply b64_0).
assert (forall i j, nrm (rvsub b64 (xv i) (xv j)) = 0) as V4 by (intros; apply (zero_norm n D); auto; intros; unfold rvsub, rsub; rewrite !Hv, Rminus_eq_0; apply b64_0).
assert (forall (f : nat -> R) l, (forall i, f i = 0) -> lsum b64 (map f l) = 0) as LM by (intros f l Hf; apply zero_lsum, List.Forall_forall; intros a Ha; apply in_map_iff in Ha; destruct Ha as (i & <- & _); apply Hf).
assert (forall (f : nat -> nat -> R) l, (forall i j, f i j = 0) -> lsum b64 (flat_map (fun i => map (f i) (seq (i + 1) (M - (i + 1)))) l) = 0) as LF.
{ intros f l Hf. apply zero_lsum, List.Forall_forall. intros a Ha. apply in_flat_map in Ha. destruct Ha as (i & _ & Ha). apply in_map_iff in Ha. destruct Ha as (j & <- & _). apply Hf. }
assert (nrnd b64 (nsub (Fin 0) (Fin 0)) = Fin 0) as NS by (rewrite nsub_r, Rminus_eq_0, b64_0; reflexivity).
assert (nrnd b64 (nmul (Fin (1 / 2)) (Fin 0)) = Fin 0) as NM by (cbn [nmul nrnd]; rewrite Rmult_0_r, b64_0; reflexivity).
assert (nrnd b64 (ndiv (Fin 0) (Fin (fair_c_r b64 t3 w))) = s) as ND.
{ unfold s. destruct (Req_EM_T (fair_c_r b64 t3 w) 0) as [->|N]; [apply ndiv_z|]. rewrite ndiv_r by exact N. unfold Rdiv. now rewrite Rmult_0_l, b64_0. }
split; [|split; [|split]].
- unfold crps_fair_w_arr_r. cbv zeta. rewrite (zero_tsum t1), (zero_tsum t2); [|intros; now rewrite Z2, !M0|intros; now rewrite Z1', M0]. rewrite ND. unfold s. destruct (Req_EM_T _ 0); [reflexivity|]. now rewrite NM.
- unfold crps_fair_w_k_r. cbv zeta. rewrite LM by (intros; now rewrite Z1, M0). rewrite (LF (fun i j => rmul b64 (rmul b64 (Rabs (rsub b64 (x j) (x i))) (w j)) (w i))) by (intros; now rewrite Z2, !M0). rewrite ND. unfold s. destruct (Req_EM_T _ 0); [reflexivity|exact NS].
- unfold es_fair_w_arr_r. cbv zeta. rewrite (zero_tsum t1), (zero_tsum t2); [|intros; now rewrite V2, !M0|intros; now rewrite V1, M0]. rewrite NM, ND. unfold s. destruct (Req_EM_T _ 0); [reflexivity|exact NS].
- unfold es_fair_w_k_r. cbv zeta. rewrite LM by (intros; now rewrite V3, M0). rewrite (LF (fun i j => rmul b64 (rmul b64 (rmul b64 2 (nrm (rvsub b64 (xv i) (xv j)))) (w i)) (w j))) by (intros; now rewrite V4, M2, !M0). rewrite NM, ND. unfold s. destruct (Req_EM_T _ 0); [reflexivity|exact NS].
Qed.
Lemma C94_unrounded_l :
forall M D y x yv xv w tn1 tn2 t1 t2 t3 h, (0 < M)%nat -> orders M D h tn1 -> orders (M * M) D h tn2 -> adds t1 M -> adds t2 (M * M) -> adds t3 M -> sumn M (fun i => w i * w i) <> 1 ->
  let id := fun r : R => r in let e := es_err D yv xv in let d := es_dist D xv in let v f := map (fun k => Fin (f k)) (seq 0 M) in
  let obs := map (fun k => Fin (yv k)) (seq 0 D) in let fct := map (fun i => map (fun k => Fin (xv i k)) (seq 0 D)) (seq 0 M) in
  crps_fair_w_arr_r id t1 t2 t3 M y x w = Fin (wfair_crps M w y x) /\ crps_fair_w_k (Fin y) (v x) (v w) = crps_fair_w_k_r id t3 M y x w /\
  es_fair_w_arr_r id tn1 tn2 t1 t2 t3 M yv xv w = Fin (k_wfair M w e d) /\ es_fair_w_k obs fct (v w) = es_fair_w_k_r id (enorm D) t3 M yv xv w.
Proof.
intros M D y x yv xv w tn1 tn2 t1 t2 t3 h HM O1 O2 A1 A2 A3 HC id e d v obs fct. change id with idr. clear id.
assert (forall f g : nat -> R, (forall i, (i < M)%nat -> f i = g i) -> tsum idr t1 f = sumn M g) as T1 by (intros f g; apply (tsum_idr_ext t1 M f g A1)).
assert (forall f (g : nat -> nat -> R), (forall n, (n < M * M)%nat -> f n = g (n / M)%nat (n mod M)%nat) -> tsum idr t2 f = sumn M (fun i => sumn M (g i))) as T2.
{ intros f g Hf. rewrite (tsum_idr_ext t2 (M * M) f _ A2 Hf). now apply sumn_grid. }
assert (fair_c_r idr t3 w = 1 - sumn M (fun i => w i * w i)) as FC. { unfold fair_c_r. rewrite (tsum_idr_ext t3 M _ (fun i => w i * w i) A3) by (intros; reflexivity). reflexivity. }
assert (forall f g : nat -> R, (forall i, (i < M)%nat -> f i = g i) -> lsum idr (map f (seq 0 M)) = sumn M g) as L1 by (intros f g Hf; rewrite lsum_id; now apply (sumn_ext M f g)).
assert (forall (f g : nat -> nat -> R) c, (forall i j, g i j = g j i) -> (forall i, g i i = 0) -> (forall i j, f i j = c * g i j) ->
  lsum idr (flat_map (fun i => map (f i) (seq (i + 1) (M - (i + 1)))) (seq 0 M)) = c * (/ 2 * sumn M (fun i => sumn M (g i)))) as L2.
{ intros f g c G1 G2 Hf. rewrite lsum_id, Rsum_flat_map. change (fun i => sumn M (g i)) with (fun i => sumn M (fun j => g i j)). rewrite (sumn_triangle M g G1 G2).
  match goal with |- _ = c * (/ 2 * (2 * ?s)) => replace (c * (/ 2 * (2 * s))) with (c * s) by field end. rewrite <- sumn_scal. apply Rsum_map_ext. intros i _. rewrite <- Rsum_map_scal. apply Rsum_map_ext. intros j _. apply Hf. }
assert (forall i, (i < M)%nat -> Fin (w i) = Fin (w i)) as Hw by auto. assert (forall k, (k < M)%nat -> Fin (x k) = Fin (x k)) as Hx by auto.
assert (forall k, (k < D)%nat -> Fin (yv k) = Fin (yv k)) as Hyv by auto. assert (forall i k, (i < M)%nat -> (k < D)%nat -> Fin (xv i k) = Fin (xv i k)) as Hxv by auto.
assert (forall a b, b <> 0 -> nrnd idr (ndiv (Fin a) (Fin b)) = Fin (a / b)) as ND. { intros a b Hb. cbn [ndiv]. destruct (Req_EM_T b 0); [contradiction|reflexivity]. }
set (c := 1 - sumn M (fun i => w i * w i)) in *. assert (c <> 0) as C0 by (unfold c; lra).
split; [|split; [|split]].
- unfold crps_fair_w_arr_r. cbv zeta. rewrite FC. rewrite (T1 _ (fun i => w i * Rabs (x i - y))) by (intros; unfold rmul, rsub, idr; rewrite Rabs_minus_sym; ring). rewrite (T2 _ (fun i j => w i * w j * Rabs (x i - x j))) by (intros; unfold rmul, rsub, idr; ring).
  rewrite ND by exact C0. cbn [nmul nrnd]. change (nrnd idr (nsub (Fin ?a) (Fin ?b))) with (Fin (a - b)). unfold nsub. cbn [nopp nadd nrnd]. f_equal. unfold idr, wfair_crps, wmae. fold c. unfold wpairsum. field. exact C0.
- rewrite (fair_w_k_real M (Fin y) (fun k => Fin (x k)) (fun k => Fin (w k)) y x w eq_refl Hx Hw C0 : crps_fair_w_k (Fin y) (v x) (v w) = _). unfold crps_fair_w_k_r. cbv zeta. rewrite FC. destruct (Req_EM_T c 0) as [Z|_]; [contradiction|].
  rewrite (L1 _ (fun i => w i * Rabs (x i - y))) by (intros; unfold rmul, rsub, idr; ring).
  rewrite (L2 (fun i j => rmul idr (rmul idr (Rabs (rsub idr (x j) (x i))) (w j)) (w i)) (fun i j => w i * w j * Rabs (x i - x j)) 1).
  + rewrite ND by exact C0. unfold nsub. cbn [nopp nadd nrnd]. f_equal. unfold idr, wfair_crps, wmae. fold c. unfold wpairsum. field. exact C0.
  + intros. rewrite Rabs_minus_sym. ring.
  + intros. rewrite Rminus_eq_0, Rabs_R0. ring.
  + intros. unfold rmul, rsub, idr. rewrite Rabs_minus_sym. ring.
- unfold es_fair_w_arr_r. cbv zeta. rewrite FC. rewrite (T1 _ (fun i => w i * e i)) by (intros i Hi; rewrite (norm_id D) by (apply O1, Hi); unfold rmul, idr, e, es_err; ring).
  rewrite (T2 _ (fun i j => w i * w j * d i j)) by (intros n Hn; rewrite (norm_id D) by (apply O2, Hn); unfold d; rewrite es_dist_sym; unfold rmul, idr, es_dist; ring).
  cbn [nmul]. cbn [nrnd]. rewrite ND by exact C0. unfold nsub. cbn [nopp nadd nrnd]. f_equal. unfold idr, k_wfair. fold c. field. exact C0.
- rewrite (es_fair_w_k_real M D (fun k => Fin (yv k)) (fun i k => Fin (xv i k)) yv xv HM Hyv Hxv (fun k => Fin (w k)) w Hw HC : es_fair_w_k obs fct (v w) = _). unfold es_fair_w_k_r. cbv zeta. rewrite FC.
  rewrite (L1 _ (fun i => w i * e i)) by (intros i Hi; unfold rmul, idr at 1; rewrite Rmult_comm; reflexivity).
  rewrite (L2 (fun i j => rmul idr (rmul idr (rmul idr 2 (enorm D (rvsub idr (xv i) (xv j)))) (w i)) (w j)) (fun i j => w i * w j * d i j) 2).
  + cbn [nmul]. cbn [nrnd]. rewrite ND by exact C0. unfold nsub. cbn [nopp nadd nrnd]. f_equal. unfold idr, k_wfair. fold e d c. field. exact C0.
  + intros. unfold d. rewrite es_dist_sym. ring.
  + intros. unfold d. rewrite es_dist_refl. ring.
  + intros i j. change (enorm D (rvsub idr (xv i) (xv j))) with (d i j). unfold rmul, idr. ring.
Qed.
