(** Proofs of the rounding properties of weighted ensemble scores (statements in P_round6.v). *)
From Coq Require Import Reals List ZArith Permutation Lia Lra Psatz.
From Flocq Require Import Core.
From Verif Require Import L_crps_row L_crps_roww L_crps_gu L_crps_ens L_energy L_stab.
From Verif Require Export T_round4 L_round12 S_round.
Open Scope R_scope.

Lemma uerr_calc M y x i : wens64 M y x -> (i < M)%nat -> calc 1 401 (Rabs (rsub b64 y (x i))) (Rabs (x i - y)) /\ calc 1 401 (Rabs (rsub b64 (x i) y)) (Rabs (x i - y)).
Proof.
  intros (_ & _ & Hy & Hx & _) Hi. destruct (Hx i Hi) as [F A]. apply is64_fmt in F, Hy.
  assert (apart 400 y (x i)) as A' by (destruct A as [->|A]; [now left|right; now rewrite Rabs_minus_sym]).
  split; [rewrite (Rabs_minus_sym (x i) y)|]; (apply (calc_le 1 1 (Z.of_nat 400)); [lia|lia|]; apply calc_sub; auto; lia).
Qed.
Lemma upair_calc M y x i j : wens64 M y x -> (i < M)%nat -> (j < M)%nat -> calc 1 401 (Rabs (rsub b64 (x i) (x j))) (Rabs (x i - x j)).
Proof.
  intros (_ & _ & _ & Hx & Hp) Hi Hj. destruct (Hx i Hi) as [F _], (Hx j Hj) as [F' _]. apply is64_fmt in F, F'.
  apply (calc_le 1 1 (Z.of_nat 400)); [lia|lia|]. apply calc_sub; auto; lia.
Qed.
Lemma wdiff_err k l k' l' p q x X y Y : calc k p x X -> calc l q y Y -> S k = k' -> S l = l' -> Rabs (rsub b64 x y - (X - Y)) <= ((1 + u64) ^ k' - 1) * X + ((1 + u64) ^ l' - 1) * Y.
Proof. intros H1 H2 <- <-. now apply (diff_err k l p q). Qed.
Section U.
Variables (M : nat) (y : R) (x w : nat -> R) (tw : stree).
Hypothesis HE : wens64 M y x.
Hypothesis HW : wts64 M w.
Hypothesis AW : adds tw M.
Hypothesis BW : (Z.of_nat (height tw) <= 2 ^ 52)%Z.
Local Notation wc := (weights_r b64 tw w).
Local Notation E := (fun i => Rabs (x i - y)).
Local Notation F := (fun i j => Rabs (x i - x j)).
Lemma uM : (0 < M)%nat. Proof. apply HE. Qed.
Lemma uwts i : (i < M)%nat -> calc (height tw + 2) 227 (wc i) (nw M w i).
Proof. intros. apply wts_calc; auto. apply HE. Qed.
Lemma u1_arr t : adds t M -> calc (height t + 1 + (height tw + 2) + 1) 628 (tsum b64 t (fun i => rmul b64 (Rabs (rsub b64 y (x i))) (wc i))) (wmae M (nw M w) y x).
Proof. intros A. apply (wd1_arr M 1 (height tw + 2) (fun i => Rabs (rsub b64 y (x i))) E wc (nw M w)); auto using uwts, uM. intros i Hi. now apply (uerr_calc M y x). Qed.
Lemma u1_k : calc (M + 1 + (height tw + 2) + 1) 628 (lsum b64 (map (fun i => rmul b64 (Rabs (rsub b64 (x i) y)) (wc i)) (seq 0 M))) (wmae M (nw M w) y x).
Proof. apply (wd1_k M 1 (height tw + 2) (fun i => Rabs (rsub b64 (x i) y)) E wc (nw M w)); auto using uwts, uM. intros i Hi. now apply (uerr_calc M y x). Qed.
Lemma u2_arr t : adds t (M * M) -> calc (height t + 1 + 2 * (height tw + 2) + 3) 856
  (rmul b64 (1 / 2) (tsum b64 t (fun n => rmul b64 (rmul b64 (Rabs (rsub b64 (x (n / M)%nat) (x (n mod M)%nat))) (wc (n / M)%nat)) (wc (n mod M)%nat)))) (/ 2 * wpairsum M (nw M w) x).
Proof.
  intros A. pose proof uM. apply (wd2_arr M 1 (height tw + 2) wc (nw M w) F uM uwts t (fun n => Rabs (rsub b64 (x (n / M)%nat) (x (n mod M)%nat))) A).
  intros n Hn. apply (upair_calc M y x); auto; [apply Nat.div_lt_upper_bound; lia|apply Nat.mod_upper_bound; lia].
Qed.
Lemma u2_k : calc (M * (M - 1) / 2 + 1 + 2 * (height tw + 2) + 2) 855
  (lsum b64 (flat_map (fun i => map (fun j => rmul b64 (rmul b64 (Rabs (rsub b64 (x j) (x i))) (wc j)) (wc i)) (seq (i + 1) (M - (i + 1)))) (seq 0 M))) (/ 2 * wpairsum M (nw M w) x).
Proof.
  pose proof uM. rewrite <- (Rmult_1_l (/ 2 * _)). apply (wtri M 1 (height tw + 2) (nw M w) F uM (fun i j => rmul b64 (rmul b64 (Rabs (rsub b64 (x j) (x i))) (wc j)) (wc i)) 1).
  - intros. apply Rabs_minus_sym.
  - intros. rewrite Rminus_eq_0. apply Rabs_R0.
  - intros i j Hi Hj. replace (1 * (nw M w i * nw M w j * Rabs (x i - x j))) with (nw M w j * nw M w i * Rabs (x j - x i)) by (rewrite Rabs_minus_sym; ring).
    apply (wterm2 M 1 (height tw + 2) wc (nw M w) uM uwts); auto. now apply (upair_calc M y x).
Qed.
Lemma ulag_arr t s : (s <= M)%nat -> adds t M -> calc (height t + 1 + (height tw + 2) + 2) 629
  (rmul b64 (1 / 2) (tsum b64 t (fun i => rmul b64 (Rabs (rsub b64 (x ((i + s) mod M)%nat) (x i))) (wc ((i + s) mod M)%nat))))
  (/ 2 * sumn M (fun k => nw M w k * Rabs (x k - x ((k + M - s) mod M)%nat))).
Proof.
  intros Hs A. pose proof uM. pose proof (wlag_shift M s (nw M w) y x Hs) as L. unfold wlag_crps in L.
  replace (/ 2 * sumn M (fun k => nw M w k * Rabs (x k - x ((k + M - s) mod M)%nat))) with (/ 2 * sumn M (fun k => nw M w ((k + s) mod M)%nat * Rabs (x ((k + s) mod M)%nat - x k))) by lra.
  apply (wd2_lag_arr M 1 (height tw + 2) wc (nw M w) F uM uwts t (fun i => i) (fun i => ((i + s) mod M)%nat) (fun i => Rabs (rsub b64 (x ((i + s) mod M)%nat) (x i))) A).
  - intros. apply Nat.mod_upper_bound. lia.
  - intros i Hi. apply (upair_calc M y x); auto. apply Nat.mod_upper_bound. lia.
Qed.
Lemma ulag_k g : (forall i, (i < M)%nat -> (g i < M)%nat) -> calc (M + 1 + (height tw + 2) + 2) 629
  (rmul b64 (1 / 2) (lsum b64 (map (fun i => rmul b64 (Rabs (rsub b64 (x i) (x (g i)))) (wc i)) (seq 0 M)))) (/ 2 * sumn M (fun k => nw M w k * Rabs (x k - x (g k)))).
Proof.
  intros Hg. apply (wd2_lag_k M 1 (height tw + 2) wc (nw M w) F uM uwts g (fun i => Rabs (rsub b64 (x i) (x (g i))))). intros i Hi. apply (upair_calc M y x); auto.
Qed.
End U.
Section V.
Variables (M D : nat) (y : nat -> R) (x : nat -> nat -> R) (w : nat -> R) (tw : stree).
Hypothesis HE : mvens64 M D y x.
Hypothesis HW : wts64 M w.
Hypothesis AW : adds tw M.
Hypothesis BW : (Z.of_nat (height tw) <= 2 ^ 52)%Z.
Local Notation wc := (weights_r b64 tw w).
Local Notation E := (es_err D y x).
Local Notation F := (es_dist D x).
Lemma vM : (0 < M)%nat. Proof. apply HE. Qed.
Lemma vwts i : (i < M)%nat -> calc (height tw + 2) 227 (wc i) (nw M w i).
Proof. intros. apply wts_calc; auto. apply HE. Qed.
Lemma v1_arr tn1 t h : orders M D h tn1 -> (Z.of_nat h <= 2 ^ 52)%Z -> adds t M ->
  calc (height t + (h / 2 + 2 + 1) + (height tw + 2) + 1) 628 (tsum b64 t (fun i => rmul b64 (norm_arr_r b64 (tn1 i) (rvsub b64 (x i) y)) (wc i))) (sumn M (fun i => nw M w i * E i)).
Proof.
  intros O Hh A. apply (wd1_arr M (h / 2 + 2 + 1) (height tw + 2) (fun i => norm_arr_r b64 (tn1 i) (rvsub b64 (x i) y)) E wc (nw M w)); auto using vwts, vM.
  intros i Hi. apply (dist_calc M D y x (h / 2 + 2) (norm_arr_r b64 (tn1 i))); auto; [now apply (order_norm M D h)|now apply half52].
Qed.
Lemma v2_arr tn2 t h : orders (M * M) D h tn2 -> (Z.of_nat h <= 2 ^ 52)%Z -> adds t (M * M) ->
  calc (height t + (h / 2 + 2 + 1) + 2 * (height tw + 2) + 3) 856
    (rmul b64 (1 / 2) (tsum b64 t (fun n => rmul b64 (rmul b64 (norm_arr_r b64 (tn2 n) (rvsub b64 (x (n mod M)%nat) (x (n / M)%nat))) (wc (n / M)%nat)) (wc (n mod M)%nat))))
    (/ 2 * sumn M (fun i => sumn M (fun j => nw M w i * nw M w j * F i j))).
Proof.
  intros O Hh A. pose proof vM. apply (wd2_arr M (h / 2 + 2 + 1) (height tw + 2) wc (nw M w) F vM vwts t (fun n => norm_arr_r b64 (tn2 n) (rvsub b64 (x (n mod M)%nat) (x (n / M)%nat))) A).
  intros n Hn. assert (n / M < M)%nat as K1 by (apply Nat.div_lt_upper_bound; lia). assert (n mod M < M)%nat as K2 by (apply Nat.mod_upper_bound; lia).
  rewrite es_dist_sym. apply (pair_calc M D y x (h / 2 + 2) (norm_arr_r b64 (tn2 n))); auto; [now apply (order_norm (M * M) D h)|now apply half52].
Qed.
Lemma vlag_arr tn2 t h g : orders M D h tn2 -> (Z.of_nat h <= 2 ^ 52)%Z -> adds t M -> (forall i, (i < M)%nat -> (g i < M)%nat) ->
  calc (height t + (h / 2 + 2 + 1) + (height tw + 2) + 2) 629
    (rmul b64 (1 / 2) (tsum b64 t (fun i => rmul b64 (norm_arr_r b64 (tn2 i) (rvsub b64 (x i) (x (g i)))) (wc i)))) (/ 2 * sumn M (fun i => nw M w i * F i (g i))).
Proof.
  intros O Hh A Hg. apply (wd2_lag_arr M (h / 2 + 2 + 1) (height tw + 2) wc (nw M w) F vM vwts t g (fun i => i) (fun i => norm_arr_r b64 (tn2 i) (rvsub b64 (x i) (x (g i)))) A); auto.
  intros i Hi. apply (pair_calc M D y x (h / 2 + 2) (norm_arr_r b64 (tn2 i))); auto; [now apply (order_norm M D h)|now apply half52].
Qed.
Variables (n : nat) (nrm : (nat -> R) -> R).
Hypothesis HN : norm64 n D nrm.
Hypothesis Hn : (Z.of_nat n <= 2 ^ 52)%Z.
Lemma v1_k : calc (M + (n + 1) + (height tw + 2) + 1) 628 (lsum b64 (map (fun i => rmul b64 (nrm (rvsub b64 (x i) y)) (wc i)) (seq 0 M))) (sumn M (fun i => nw M w i * E i)).
Proof. apply (wd1_k M (n + 1) (height tw + 2) (fun i => nrm (rvsub b64 (x i) y)) E wc (nw M w)); auto using vwts, vM. intros i Hi. now apply (dist_calc M D y x n nrm). Qed.
Lemma v2_k : calc (S (M * (M - 1) / 2 + (n + 1) + 2 * (height tw + 2) + 2)) 856
  (rmul b64 (1 / 2) (lsum b64 (flat_map (fun i => map (fun j => rmul b64 (rmul b64 (rmul b64 2 (nrm (rvsub b64 (x i) (x j)))) (wc i)) (wc j)) (seq (i + 1) (M - (i + 1)))) (seq 0 M))))
  (/ 2 * sumn M (fun i => sumn M (fun j => nw M w i * nw M w j * F i j))).
Proof.
  pose proof vM as HM. apply (half_calc M HM _ 855); [lia|].
  match goal with |- calc _ _ _ ?s => replace s with (2 * (/ 2 * s)) by field end.
  apply (wtri M (n + 1) (height tw + 2) (nw M w) F vM (fun i j => rmul b64 (rmul b64 (rmul b64 2 (nrm (rvsub b64 (x i) (x j)))) (wc i)) (wc j)) 2); [apply es_dist_sym|apply es_dist_refl|].
  intros i j Hi Hj. replace (2 * (nw M w i * nw M w j * F i j)) with (nw M w i * nw M w j * (2 * F i j)) by ring.
  apply (wterm2 M (n + 1) (height tw + 2) wc (nw M w) vM vwts); auto. apply calc_double. now apply (pair_calc M D y x n nrm).
Qed.
Lemma vlag_k g : (forall i, (i < M)%nat -> (g i < M)%nat) -> calc (M + (n + 1) + (height tw + 2) + 2) 629
  (rmul b64 (1 / 2) (lsum b64 (map (fun i => rmul b64 (nrm (rvsub b64 (x i) (x (g i)))) (wc i)) (seq 0 M)))) (/ 2 * sumn M (fun k => nw M w k * F k (g k))).
Proof.
  intros Hg. apply (wd2_lag_k M (n + 1) (height tw + 2) wc (nw M w) F vM vwts g (fun i => nrm (rvsub b64 (x i) (x (g i))))). intros i Hi. apply (pair_calc M D y x n nrm); auto.
Qed.
End V.
Lemma ksum_ext M g h (d : nat -> nat -> R) (W : nat -> R) : (forall k, (k < M)%nat -> g k = h k) -> sumn M (fun k => W k * d k (g k)) = sumn M (fun k => W k * d k (h k)).
Proof. intros H. apply sumn_ext. intros k Hk. now rewrite H. Qed.
(** instance: members 0, 1, 2, observation 1, weights 1, 2, 3 *)
Definition ex_u (i : nat) : R := INR i.
Definition ex_w (i : nat) : R := INR (S i).
Lemma ex_wts : wts64 3 ex_w.
Proof.
  split; [|exists 0%nat; split; [lia|unfold ex_w; simpl; lra]]. intros i Hi. unfold ex_w. split; [rewrite INR_IZR_INZ; exists (Z.of_nat (S i)), 0%Z; simpl Z.mul; split; [simpl; ring|split; lia]|right].
  assert (1 <= INR (S i) <= 3) as B. { rewrite S_INR. pose proof (pos_INR i). assert (INR i <= INR 2) by (apply le_INR; lia). simpl INR in *. lra. }
  assert (3 <= 2 ^ 100). { apply Rle_trans with (2 ^ 2); [simpl; lra|]. apply Rle_pow; [lra|lia]. }
  assert (/ 2 ^ 100 <= 1) by (rewrite <- Rinv_1; apply Rinv_le_contravar; lra). lra.
Qed.
Lemma ex_uni : wens64 3 1 ex_u.
Proof.
  assert (forall n, (Z.of_nat n < 2 ^ 53)%Z -> is64 (INR n)) as F by (intros n Hn; rewrite INR_IZR_INZ; exists (Z.of_nat n), 0%Z; simpl; split; [ring|split; lia]).
  assert (forall i j, apart 400 (INR i) (INR j)) as A.
  { intros i j. destruct (Nat.eq_dec i j) as [->|N]; [now left|right]. apply Rle_trans with 1.
    - rewrite <- Rinv_1. apply Rinv_le_contravar; [lra|]. apply pow_R1_Rle. lra.
    - rewrite !INR_IZR_INZ, <- minus_IZR, <- abs_IZR. apply IZR_le. lia. }
  change 1 with (INR 1). repeat split; try lia; unfold ex_u; intros; first [apply A|apply F; lia].
Qed.
Lemma C93_weights_l :
forall M w tw, wts64 M w -> (Z.of_nat M <= 2 ^ 26)%Z -> adds tw M -> (Z.of_nat (height tw) <= 2 ^ 52)%Z ->
  (forall i, (i < M)%nat -> within (height tw + 2) (weights_r b64 tw w i) (nw M w i)) /\
  within (height tw + 2) (sumn M (weights_r b64 tw w)) 1 /\ forall i, w i = 0 -> weights_r b64 tw w i = 0.
Proof.
intros M w tw HW HB A Hh. assert (forall i, (i < M)%nat -> within (height tw + 2) (weights_r b64 tw w i) (nw M w i)) as W by (intros i Hi; apply (wts_calc M tw w i HW HB A Hh Hi)).
split; [exact W|]. split.
- rewrite <- (nw_sum M w) by (pose proof (wts_pos M w HW); lra). unfold within. rewrite !(Rmult_comm (sumn M (nw M w))), <- !sumn_scal. split; apply sumn_le; intros i Hi; destruct (W i Hi); lra.
- intros i E. unfold weights_r, rdiv, Rdiv. rewrite E, Rmult_0_l. apply b64_0.
Qed.
Lemma C93_crps_nrg_l :
forall M y x w tw t1 t2, wens64 M y x -> wts64 M w -> adds tw M -> adds t1 M -> adds t2 (M * M) -> (Z.of_nat (height tw) <= 2 ^ 52)%Z ->
  let W := nw M w in let wc := weights_r b64 tw w in let h := height tw in
  Rabs (crps_nrg_w_arr_r b64 t1 t2 M y x wc - wexact_crps M W y x)
    <= ((1 + u64) ^ (height t1 + h + 5) - 1) * wmae M W y x + ((1 + u64) ^ (height t2 + 2 * h + 9) - 1) * (/ 2 * wpairsum M W x) /\
  Rabs (crps_nrg_w_k_r b64 M y x wc - wexact_crps M W y x)
    <= ((1 + u64) ^ (M + h + 5) - 1) * wmae M W y x + ((1 + u64) ^ (M * (M - 1) / 2 + 2 * h + 8) - 1) * (/ 2 * wpairsum M W x).
Proof.
intros M y x w tw t1 t2 HE HW AW A1 A2 BW W wc h. unfold wexact_crps. split.
- eapply wdiff_err; [apply (u1_arr M y x w tw HE HW AW BW t1 A1)|apply (u2_arr M y x w tw HE HW AW BW t2 A2)|unfold h; lia|unfold h; lia].
- eapply wdiff_err; [apply (u1_k M y x w tw HE HW AW BW)|apply (u2_k M y x w tw HE HW AW BW)|unfold h; lia|unfold h; lia].
Qed.
Lemma C93_crps_akr_l :
forall M y x w tw t1 t2, wens64 M y x -> wts64 M w -> adds tw M -> adds t1 M -> adds t2 M -> (Z.of_nat (height tw) <= 2 ^ 52)%Z ->
  let W := nw M w in let wc := weights_r b64 tw w in let h := height tw in
  let bound a b g := ((1 + u64) ^ a - 1) * wmae M W y x + ((1 + u64) ^ b - 1) * (/ 2 * sumn M (fun k => W k * Rabs (x k - x (g k)))) in
  let ga := fun k => ((k + M - (M - 1) / 2) mod M)%nat in
  Rabs (crps_akr_w_arr_r b64 t1 t2 M y x wc - wlag_crps M (lag1 M) W y x) <= bound (height t1 + h + 5)%nat (height t2 + h + 6)%nat (lag1 M) /\
  Rabs (crps_akr_circperm_w_arr_r b64 t1 t2 M y x wc - wlag_crps M ga W y x) <= bound (height t1 + h + 5)%nat (height t2 + h + 6)%nat ga /\
  Rabs (crps_akr_w_k_r b64 M y x wc - wlag_crps M (lag1 M) W y x) <= bound (M + h + 5)%nat (M + h + 6)%nat (lag1 M) /\
  Rabs (crps_akr_circperm_w_k_r b64 M y x wc - wlag_crps M (lagc M) W y x) <= bound (M + h + 5)%nat (M + h + 6)%nat (lagc M).
Proof.
intros M y x w tw t1 t2 HE HW AW A1 A2 BW W wc h bound ga. pose proof (uM M y x HE) as HM. unfold bound. split; [|split; [|split]].
- eapply wdiff_err; [apply (u1_arr M y x w tw HE HW AW BW t1 A1)|apply (ulag_arr M y x w tw HE HW AW BW t2 1 ltac:(lia) A2)|unfold h; lia|unfold h; lia].
- assert ((M - 1) / 2 <= M)%nat as L by (apply Nat.div_le_upper_bound; lia).
  eapply wdiff_err; [apply (u1_arr M y x w tw HE HW AW BW t1 A1)|apply (ulag_arr M y x w tw HE HW AW BW t2 _ L A2)|unfold h; lia|unfold h; lia].
- rewrite <- (wlag_ext M (fun i => if (0 <? i)%nat then (i - 1)%nat else (M - 1)%nat) (lag1 M)) by (intros; now apply lag1_gu').
  rewrite <- (ksum_ext M (fun i => if (0 <? i)%nat then (i - 1)%nat else (M - 1)%nat) (lag1 M) (fun i j => Rabs (x i - x j))) by (intros; now apply lag1_gu').
  eapply wdiff_err; [apply (u1_k M y x w tw HE HW AW BW)|apply (ulag_k M y x w tw HE HW AW BW (fun i => if (0 <? i)%nat then (i - 1)%nat else (M - 1)%nat))|unfold h; lia|unfold h; lia].
  intros i Hi. destruct (Nat.ltb_spec 0 i); lia.
- rewrite <- (wlag_ext M (circperm_idx M) (lagc M)) by (intros; now apply lagc_gu).
  rewrite <- (ksum_ext M (circperm_idx M) (lagc M) (fun i j => Rabs (x i - x j))) by (intros; now apply lagc_gu).
  eapply wdiff_err; [apply (u1_k M y x w tw HE HW AW BW)|apply (ulag_k M y x w tw HE HW AW BW (circperm_idx M))|unfold h; lia|unfold h; lia].
  intros i Hi. rewrite lagc_gu by exact Hi. now apply lagc_lt.
Qed.
Lemma C93_es_nrg_l :
forall M D y x w tw tn1 tn2 t1 t2 h nrm n, mvens64 M D y x -> wts64 M w -> adds tw M -> orders M D h tn1 -> orders (M * M) D h tn2 -> adds t1 M -> adds t2 (M * M) ->
  (Z.of_nat (height tw) <= 2 ^ 52)%Z -> (Z.of_nat h <= 2 ^ 52)%Z -> norm64 n D nrm -> (Z.of_nat n <= 2 ^ 52)%Z ->
  let W := nw M w in let wc := weights_r b64 tw w in let e := es_err D y x in let d := es_dist D x in let err := sumn M (fun i => W i * e i) in
  let half_spread := / 2 * sumn M (fun i => sumn M (fun j => W i * W j * d i j)) in
  Rabs (es_nrg_w_arr_r b64 tn1 tn2 t1 t2 M y x wc - k_wexact M W e d)
    <= ((1 + u64) ^ (height t1 + h / 2 + height tw + 7) - 1) * err + ((1 + u64) ^ (height t2 + h / 2 + 2 * height tw + 11) - 1) * half_spread /\
  Rabs (es_nrg_w_k_r b64 nrm M y x wc - k_wexact M W e d)
    <= ((1 + u64) ^ (M + n + height tw + 5) - 1) * err + ((1 + u64) ^ (M * (M - 1) / 2 + n + 2 * height tw + 9) - 1) * half_spread.
Proof.
intros M D y x w tw tn1 tn2 t1 t2 h nrm n HE HW AW O1 O2 A1 A2 BW Hh HN Hn W wc e d err. pose proof (vM M D y x HE) as HM. intros hs. split.
- eapply wdiff_err; [apply (v1_arr M D y x w tw HE HW AW BW tn1 t1 h O1 Hh A1)|apply (v2_arr M D y x w tw HE HW AW BW tn2 t2 h O2 Hh A2)|lia|lia].
- eapply wdiff_err; [apply (v1_k M D y x w tw HE HW AW BW n nrm HN Hn)|apply (v2_k M D y x w tw HE HW AW BW n nrm HN Hn)|lia|lia].
Qed.
Lemma C93_es_akr_l :
forall M D y x w tw tn1 tn2 t1 t2 h nrm n, mvens64 M D y x -> wts64 M w -> adds tw M -> orders M D h tn1 -> orders M D h tn2 -> adds t1 M -> adds t2 M ->
  (Z.of_nat (height tw) <= 2 ^ 52)%Z -> (Z.of_nat h <= 2 ^ 52)%Z -> norm64 n D nrm -> (Z.of_nat n <= 2 ^ 52)%Z ->
  let W := nw M w in let wc := weights_r b64 tw w in let e := es_err D y x in let d := es_dist D x in let err := sumn M (fun i => W i * e i) in
  let bound a b g := ((1 + u64) ^ a - 1) * err + ((1 + u64) ^ b - 1) * (/ 2 * sumn M (fun i => W i * d i (g i))) in
  let a1 := (height t1 + h / 2 + height tw + 7)%nat in let a2 := (height t2 + h / 2 + height tw + 8)%nat in
  Rabs (es_akr_w_arr_r b64 tn1 tn2 t1 t2 M y x wc - k_wlag M (lag1 M) W e d) <= bound a1 a2 (lag1 M) /\
  Rabs (es_akr_circperm_w_arr_r b64 tn1 tn2 t1 t2 M y x wc - k_wlag M (lagc M) W e d) <= bound a1 a2 (lagc M) /\
  Rabs (es_akr_w_k_r b64 nrm M y x wc - k_wlag M (lag1 M) W e d) <= bound (M + n + height tw + 5)%nat (M + n + height tw + 6)%nat (lag1 M) /\
  Rabs (es_akr_circperm_w_k_r b64 nrm M y x wc - k_wlag M (lagf M) W e d) <= bound (M + n + height tw + 5)%nat (M + n + height tw + 6)%nat (lagf M).
Proof.
intros M D y x w tw tn1 tn2 t1 t2 h nrm n HE HW AW O1 O2 A1 A2 BW Hh HN Hn W wc e d err. pose proof (vM M D y x HE) as HM. intros bound a1 a2. unfold bound, a1, a2. split; [|split; [|split]].
- eapply wdiff_err; [apply (v1_arr M D y x w tw HE HW AW BW tn1 t1 h O1 Hh A1)|apply (vlag_arr M D y x w tw HE HW AW BW tn2 t2 h (lag1 M) O2 Hh A2); intros; now apply lag1_lt|lia|lia].
- eapply wdiff_err; [apply (v1_arr M D y x w tw HE HW AW BW tn1 t1 h O1 Hh A1)|apply (vlag_arr M D y x w tw HE HW AW BW tn2 t2 h (lagc M) O2 Hh A2); intros; now apply lagc_lt|lia|lia].
- unfold k_wlag. rewrite <- (ksum_ext M (fun i => if (i =? 0)%nat then (M - 1)%nat else (i - 1)%nat) (lag1 M) d) by (intros i Hi; now apply (lag1_if M HM)).
  eapply wdiff_err; [apply (v1_k M D y x w tw HE HW AW BW n nrm HN Hn)|apply (vlag_k M D y x w tw HE HW AW BW n nrm HN Hn (fun i => if (i =? 0)%nat then (M - 1)%nat else (i - 1)%nat))|lia|lia].
  intros i Hi. destruct (Nat.eqb_spec i 0); lia.
- eapply wdiff_err; [apply (v1_k M D y x w tw HE HW AW BW n nrm HN Hn)|apply (vlag_k M D y x w tw HE HW AW BW n nrm HN Hn (lagf M))|lia|lia].
  intros i Hi. apply Nat.mod_upper_bound. lia.
Qed.
Lemma C93_nonneg_l :
forall M D y x yv xv w tw tn1 tn2 t1 t2 h nrm n delta, wens64 M y x -> mvens64 M D yv xv -> wts64 M w -> adds tw M -> orders M D h tn1 -> orders (M * M) D h tn2 -> adds t1 M -> adds t2 (M * M) ->
  (Z.of_nat (height tw) <= 2 ^ 52)%Z -> (Z.of_nat h <= 2 ^ 52)%Z -> norm64 n D nrm -> (Z.of_nat n <= 2 ^ 52)%Z ->
  (forall i, (i < M)%nat -> w i = 0 \/ delta <= nw M w i) -> let wc := weights_r b64 tw w in
  (INR (height t1 + height t2 + 3 * height tw + 12) * u64 <= delta -> 0 <= crps_nrg_w_arr_r b64 t1 t2 M y x wc) /\
  (INR (M + M * (M - 1) / 2 + 3 * height tw + 11) * u64 <= delta -> 0 <= crps_nrg_w_k_r b64 M y x wc) /\
  (INR (height t1 + height t2 + h + 3 * height tw + 16) * u64 <= delta -> 0 <= es_nrg_w_arr_r b64 tn1 tn2 t1 t2 M yv xv wc) /\
  (INR (M + M * (M - 1) / 2 + 2 * n + 3 * height tw + 12) * u64 <= delta -> 0 <= es_nrg_w_k_r b64 nrm M yv xv wc).
Proof.
intros M D y x yv xv w tw tn1 tn2 t1 t2 h nrm n delta HU HV HW AW O1 O2 A1 A2 BW Hh HN Hn HD wc.
pose proof (wts_pos M w HW) as [W0 S0]. assert (sumn M (nw M w) = 1) as S1 by (apply nw_sum; lra).
assert (forall i, (i < M)%nat -> nw M w i = 0 \/ delta <= nw M w i) as D' by (intros i Hi; destruct (HD i Hi) as [E|E]; [left; unfold nw; rewrite E; unfold Rdiv; ring|now right]).
assert (forall i, (i < M)%nat -> 0 <= nw M w i) as N0 by (intros i Hi; apply Rmult_le_pos; [now apply W0|apply Rlt_le, Rinv_0_lt_compat, S0]).
assert (/ 2 * wpairsum M (nw M w) x <= wmae M (nw M w) y x * (1 - delta)) as SU.
{ apply (wshare M (fun i => Rabs (x i - y)) (nw M w) (fun i j => Rabs (x i - x j)) delta); auto; intros; [apply Rabs_pos| |rewrite Rminus_eq_0; apply Rabs_R0].
  replace (x i - x j) with ((x i - y) - (x j - y)) by ring. eapply Rle_trans; [apply Rabs_triang|]. rewrite Rabs_Ropp. lra. }
assert (/ 2 * sumn M (fun i => sumn M (fun j => nw M w i * nw M w j * es_dist D xv i j)) <= sumn M (fun i => nw M w i * es_err D yv xv i) * (1 - delta)) as SV.
{ apply wshare; auto; [intros; apply sqrt_pos| |apply es_dist_refl]. intros i j _ _. unfold es_dist, es_err. rewrite (eucl_sym D (xv j) yv). apply eucl_triangle. }
assert (forall a b, (a <= b)%nat -> INR b * u64 <= delta -> INR a * u64 <= delta) as MO by (intros a b L Q; eapply Rle_trans; [|exact Q]; apply Rmult_le_compat_r; [apply Rlt_le, u64_pos|now apply le_INR]).
split; [|split; [|split]]; intros L; (apply b64_ge0, Rge_le, Rge_minus, Rle_ge).
- eapply wge_calc; [apply (u1_arr M y x w tw HU HW AW BW t1 A1)|apply (u2_arr M y x w tw HU HW AW BW t2 A2)|exact SU|]. eapply MO; [|exact L]. lia.
- eapply wge_calc; [apply (u1_k M y x w tw HU HW AW BW)|apply (u2_k M y x w tw HU HW AW BW)|exact SU|]. eapply MO; [|exact L]. lia.
- eapply wge_calc; [apply (v1_arr M D yv xv w tw HV HW AW BW tn1 t1 h O1 Hh A1)|apply (v2_arr M D yv xv w tw HV HW AW BW tn2 t2 h O2 Hh A2)|exact SV|]. eapply MO; [|exact L].
  pose proof (Nat.div_mod h 2 ltac:(lia)). lia.
- eapply wge_calc; [apply (v1_k M D yv xv w tw HV HW AW BW n nrm HN Hn)|apply (v2_k M D yv xv w tw HV HW AW BW n nrm HN Hn)|exact SV|]. eapply MO; [|exact L]. lia.
Qed.
Lemma C93_perfect_l :
forall M D y x yv xv w tn1 tn2 t1 t2 nrm n, (forall i, x i = y) -> (forall i k, xv i k = yv k) -> norm64 n D nrm ->
  crps_nrg_w_arr_r b64 t1 t2 M y x w = 0 /\ crps_akr_w_arr_r b64 t1 t2 M y x w = 0 /\ crps_akr_circperm_w_arr_r b64 t1 t2 M y x w = 0 /\
  crps_nrg_w_k_r b64 M y x w = 0 /\ crps_akr_w_k_r b64 M y x w = 0 /\ crps_akr_circperm_w_k_r b64 M y x w = 0 /\
  es_nrg_w_arr_r b64 tn1 tn2 t1 t2 M yv xv w = 0 /\ es_akr_w_arr_r b64 tn1 tn2 t1 t2 M yv xv w = 0 /\ es_akr_circperm_w_arr_r b64 tn1 tn2 t1 t2 M yv xv w = 0 /\
  es_nrg_w_k_r b64 nrm M yv xv w = 0 /\ es_akr_w_k_r b64 nrm M yv xv w = 0 /\ es_akr_circperm_w_k_r b64 nrm M yv xv w = 0.
Proof.
intros M D y x yv xv w tn1 tn2 t1 t2 nrm n Hx Hv HN.
assert (forall a, rmul b64 0 a = 0) as M0 by (intros; unfold rmul; rewrite Rmult_0_l; apply b64_0).
assert (rmul b64 (1 / 2) 0 = 0) as MH by (unfold rmul; rewrite Rmult_0_r; apply b64_0). assert (rmul b64 2 0 = 0) as M2 by (unfold rmul; rewrite Rmult_0_r; apply b64_0).
assert (rsub b64 0 0 = 0) as S0 by (unfold rsub; rewrite Rminus_eq_0; apply b64_0).
assert (forall i, Rabs (rsub b64 (x i) y) = 0) as Z1 by (intros; unfold rsub; rewrite Hx, Rminus_eq_0, b64_0; apply Rabs_R0).
assert (forall i, Rabs (rsub b64 y (x i)) = 0) as Z1' by (intros; unfold rsub; rewrite Hx, Rminus_eq_0, b64_0; apply Rabs_R0).
assert (forall i j, Rabs (rsub b64 (x i) (x j)) = 0) as Z2 by (intros; unfold rsub; rewrite !Hx, Rminus_eq_0, b64_0; apply Rabs_R0).
assert (forall t i, norm_arr_r b64 t (rvsub b64 (xv i) yv) = 0) as V1 by (intros; apply zero_norm_arr; intros; unfold rvsub, rsub; rewrite Hv, Rminus_eq_0; apply b64_0).
assert (forall t i j, norm_arr_r b64 t (rvsub b64 (xv i) (xv j)) = 0) as V2 by (intros; apply zero_norm_arr; intros; unfold rvsub, rsub; rewrite !Hv, Rminus_eq_0; apply b64_0).
assert (forall i, nrm (rvsub b64 (xv i) yv) = 0) as V3 by (intros; apply (zero_norm n D); auto; intros; unfold rvsub, rsub; rewrite Hv, Rminus_eq_0; apply b64_0).
assert (forall i j, nrm (rvsub b64 (xv i) (xv j)) = 0) as V4 by (intros; apply (zero_norm n D); auto; intros; unfold rvsub, rsub; rewrite !Hv, Rminus_eq_0; apply b64_0).
assert (forall (f : nat -> R) l, (forall i, f i = 0) -> lsum b64 (map f l) = 0) as LM by (intros f l Hf; apply zero_lsum, List.Forall_forall; intros a Ha; apply in_map_iff in Ha; destruct Ha as (i & <- & _); apply Hf).
assert (forall (f : nat -> nat -> R) l, (forall i j, f i j = 0) -> lsum b64 (flat_map (fun i => map (f i) (seq (i + 1) (M - (i + 1)))) l) = 0) as LF.
{ intros f l Hf. apply zero_lsum, List.Forall_forall. intros a Ha. apply in_flat_map in Ha. destruct Ha as (i & _ & Ha). apply in_map_iff in Ha. destruct Ha as (j & <- & _). apply Hf. }
assert (forall s, crps_lag_w_arr_r b64 s t1 t2 M y x w = 0) as A by (intros s; unfold crps_lag_w_arr_r; rewrite (zero_tsum t1), (zero_tsum t2); [now rewrite MH|intros; now rewrite Z2, M0|intros; now rewrite Z1', M0]).
assert (forall g, crps_lag_w_k_r b64 g M y x w = 0) as B by (intros g; unfold crps_lag_w_k_r; rewrite !LM; [now rewrite MH|intros; now rewrite Z2, M0|intros; now rewrite Z1, M0]).
assert (forall s, es_lag_w_arr_r b64 s tn1 tn2 t1 t2 M yv xv w = 0) as A' by (intros s; unfold es_lag_w_arr_r; rewrite (zero_tsum t1), (zero_tsum t2); [now rewrite MH|intros; now rewrite V2, M0|intros; now rewrite V1, M0]).
assert (forall g, es_lag_w_k_r b64 nrm g M yv xv w = 0) as B' by (intros g; unfold es_lag_w_k_r; rewrite !LM; [now rewrite MH|intros; now rewrite V4, M0|intros; now rewrite V3, M0]).
split; [unfold crps_nrg_w_arr_r; rewrite (zero_tsum t1), (zero_tsum t2); [now rewrite MH|intros; now rewrite Z2, !M0|intros; now rewrite Z1', M0]|].
split; [apply A|]. split; [apply A|].
split; [unfold crps_nrg_w_k_r; rewrite LM by (intros; now rewrite Z1, M0); rewrite (LF (fun i j => rmul b64 (rmul b64 (Rabs (rsub b64 (x j) (x i))) (w j)) (w i))) by (intros; now rewrite Z2, !M0); exact S0|].
split; [apply B|]. split; [apply B|].
split; [unfold es_nrg_w_arr_r; rewrite (zero_tsum t1), (zero_tsum t2); [now rewrite MH|intros; now rewrite V2, !M0|intros; now rewrite V1, M0]|].
split; [apply A'|]. split; [apply A'|].
split; [unfold es_nrg_w_k_r; rewrite LM by (intros; now rewrite V3, M0); rewrite (LF (fun i j => rmul b64 (rmul b64 (rmul b64 2 (nrm (rvsub b64 (xv i) (xv j)))) (w i)) (w j))) by (intros; now rewrite V4, M2, !M0); rewrite MH; exact S0|].
split; [apply B'|apply B'].
Qed.
Lemma C93_unrounded_l :
forall M D y x yv xv w tw tn1 tn2 tn3 t1 t2 t3 h, (0 < M)%nat -> adds tw M -> orders M D h tn1 -> orders (M * M) D h tn2 -> orders M D h tn3 -> adds t1 M -> adds t2 (M * M) -> adds t3 M ->
  let id := fun r : R => r in let e := es_err D yv xv in let d := es_dist D xv in let v f := map (fun k => Fin (f k)) (seq 0 M) in
  let obs := map (fun k => Fin (yv k)) (seq 0 D) in let fct := map (fun i => map (fun k => Fin (xv i k)) (seq 0 D)) (seq 0 M) in
  (forall i, weights_r id tw w i = nw M w i) /\
  crps_nrg_w_arr_r id t1 t2 M y x w = wexact_crps M w y x /\ crps_nrg_w_k (Fin y) (v x) (v w) = Fin (crps_nrg_w_k_r id M y x w) /\
  crps_akr_w_arr_r id t1 t3 M y x w = wlag_crps M (lag1 M) w y x /\ crps_akr_w_k (Fin y) (v x) (v w) = Fin (crps_akr_w_k_r id M y x w) /\
  crps_akr_circperm_w_arr_r id t1 t3 M y x w = wlag_crps M (fun k => ((k + M - (M - 1) / 2) mod M)%nat) w y x /\ crps_akr_circperm_w_k (Fin y) (v x) (v w) = Fin (crps_akr_circperm_w_k_r id M y x w) /\
  es_nrg_w_arr_r id tn1 tn2 t1 t2 M yv xv w = k_wexact M w e d /\ es_nrg_w_k obs fct (v w) = Fin (es_nrg_w_k_r id (enorm D) M yv xv w) /\
  es_akr_w_arr_r id tn1 tn3 t1 t3 M yv xv w = k_wlag M (lag1 M) w e d /\ es_akr_w_k obs fct (v w) = Fin (es_akr_w_k_r id (enorm D) M yv xv w) /\
  es_akr_circperm_w_arr_r id tn1 tn3 t1 t3 M yv xv w = k_wlag M (lagc M) w e d /\ es_akr_circperm_w_k obs fct (v w) = Fin (es_akr_circperm_w_k_r id (enorm D) M yv xv w).
Proof.
intros M D y x yv xv w tw tn1 tn2 tn3 t1 t2 t3 h HM AW O1 O2 O3 A1 A2 A3 id e d v obs fct. change id with idr. clear id.
assert (forall f g : nat -> R, (forall i, (i < M)%nat -> f i = g i) -> tsum idr t1 f = sumn M g) as T1 by (intros f g; apply (tsum_idr_ext t1 M f g A1)).
assert (forall f g : nat -> R, (forall i, (i < M)%nat -> f i = g i) -> tsum idr t3 f = sumn M g) as T3 by (intros f g; apply (tsum_idr_ext t3 M f g A3)).
assert (forall f (g : nat -> nat -> R), (forall n, (n < M * M)%nat -> f n = g (n / M)%nat (n mod M)%nat) -> tsum idr t2 f = sumn M (fun i => sumn M (g i))) as T2.
{ intros f g Hf. rewrite (tsum_idr_ext t2 (M * M) f _ A2 Hf). now apply sumn_grid. }
assert (forall f g : nat -> R, (forall i, (i < M)%nat -> f i = g i) -> lsum idr (map f (seq 0 M)) = sumn M g) as L1 by (intros f g Hf; rewrite lsum_id; now apply (sumn_ext M f g)).
assert (forall (f g : nat -> nat -> R) c, (forall i j, g i j = g j i) -> (forall i, g i i = 0) -> (forall i j, f i j = c * g i j) ->
  lsum idr (flat_map (fun i => map (f i) (seq (i + 1) (M - (i + 1)))) (seq 0 M)) = c * (/ 2 * sumn M (fun i => sumn M (g i)))) as L2.
{ intros f g c G1 G2 Hf. rewrite lsum_id, Rsum_flat_map. change (fun i => sumn M (g i)) with (fun i => sumn M (fun j => g i j)). rewrite (sumn_triangle M g G1 G2).
  match goal with |- _ = c * (/ 2 * (2 * ?s)) => replace (c * (/ 2 * (2 * s))) with (c * s) by field end. rewrite <- sumn_scal. apply Rsum_map_ext. intros i _. rewrite <- Rsum_map_scal. apply Rsum_map_ext. intros j _. apply Hf. }
assert (forall i, (i < M)%nat -> Fin (w i) = Fin (w i)) as Hw by auto. assert (forall k, (k < M)%nat -> Fin (x k) = Fin (x k)) as Hx by auto.
assert (forall k, (k < D)%nat -> Fin (yv k) = Fin (yv k)) as Hyv by auto. assert (forall i k, (i < M)%nat -> (k < D)%nat -> Fin (xv i k) = Fin (xv i k)) as Hxv by auto.
assert (forall i, rmul idr (Rabs (rsub idr y (x i))) (w i) = w i * Rabs (x i - y)) as R1 by (intros; unfold rmul, rsub, idr; rewrite Rabs_minus_sym; ring).
assert (forall i, rmul idr (Rabs (rsub idr (x i) y)) (w i) = w i * Rabs (x i - y)) as R2 by (intros; unfold rmul, rsub, idr; ring).
assert (forall tn i, adds (tn i) D -> rmul idr (norm_arr_r idr (tn i) (rvsub idr (xv i) yv)) (w i) = w i * e i) as R3 by (intros tn i Ht; rewrite (norm_id D) by exact Ht; unfold rmul, idr, e, es_err; ring).
assert (forall s, (s <= M)%nat -> crps_lag_w_arr_r idr s t1 t3 M y x w = wlag_crps M (fun k => ((k + M - s) mod M)%nat) w y x) as LA.
{ intros s Hs. rewrite <- wlag_shift by exact Hs. unfold crps_lag_w_arr_r. rewrite (T1 _ (fun i => w i * Rabs (x i - y))) by (intros; apply R1).
  rewrite (T3 _ (fun k => w ((k + s) mod M)%nat * Rabs (x ((k + s) mod M)%nat - x k))) by (intros; unfold rmul, rsub, idr; ring). unfold rmul, rsub, idr, wmae. lra. }
assert (forall g, crps_lag_w_k_r idr g M y x w = wlag_crps M g w y x) as LK.
{ intros g. unfold crps_lag_w_k_r. rewrite (L1 _ (fun i => w i * Rabs (x i - y))) by (intros; apply R2). rewrite (L1 _ (fun k => w k * Rabs (x k - x (g k)))) by (intros; unfold rmul, rsub, idr; ring). unfold rmul, rsub, idr, wlag_crps, wmae. lra. }
assert (forall s, es_lag_w_arr_r idr s tn1 tn3 t1 t3 M yv xv w = k_wlag M (fun k => ((k + M - s) mod M)%nat) w e d) as VA.
{ intros s. unfold es_lag_w_arr_r. rewrite (T1 _ (fun i => w i * e i)) by (intros i Hi; apply R3, O1, Hi).
  rewrite (T3 _ (fun k => w k * d k ((k + M - s) mod M)%nat)) by (intros k Hk; rewrite (norm_id D) by (apply O3, Hk); unfold rmul, idr, d, es_dist; ring). unfold rmul, rsub, idr, k_wlag. lra. }
assert (forall g, es_lag_w_k_r idr (enorm D) g M yv xv w = k_wlag M g w e d) as VK.
{ intros g. unfold es_lag_w_k_r. rewrite (L1 _ (fun i => w i * e i)) by (intros i Hi; unfold rmul, idr at 1; rewrite Rmult_comm; reflexivity).
  rewrite (L1 _ (fun k => w k * d k (g k))) by (intros i Hi; unfold rmul, idr at 1; rewrite Rmult_comm; reflexivity). unfold rmul, rsub, idr, k_wlag. lra. }
split; [intros i; unfold weights_r, rdiv, idr at 1, nw; now rewrite (tsum_id tw M w AW)|].
split; [unfold crps_nrg_w_arr_r; rewrite (T1 _ (fun i => w i * Rabs (x i - y))) by (intros; apply R1); rewrite (T2 _ (fun i j => w i * w j * Rabs (x i - x j))) by (intros; unfold rmul, rsub, idr; ring); unfold rmul, rsub, idr, wexact_crps, wmae, wpairsum; lra|].
split; [rewrite (nrg_w_k_real M (Fin y) (fun k => Fin (x k)) (fun k => Fin (w k)) y x w eq_refl Hx Hw : crps_nrg_w_k (Fin y) (v x) (v w) = _); f_equal; unfold crps_nrg_w_k_r|].
{ rewrite (L1 _ (fun i => w i * Rabs (x i - y))) by (intros; apply R2).
  rewrite (L2 (fun i j => rmul idr (rmul idr (Rabs (rsub idr (x j) (x i))) (w j)) (w i)) (fun i j => w i * w j * Rabs (x i - x j)) 1).
  - unfold rsub, idr, wexact_crps, wmae, wpairsum. lra.
  - intros. rewrite Rabs_minus_sym. ring.
  - intros. rewrite Rminus_eq_0, Rabs_R0. ring.
  - intros. unfold rmul, rsub, idr. rewrite Rabs_minus_sym. ring. }
split; [apply LA; lia|].
split; [rewrite (akr_w_k_real M (Fin y) (fun k => Fin (x k)) (fun k => Fin (w k)) y x w eq_refl Hx Hw HM : crps_akr_w_k (Fin y) (v x) (v w) = _); f_equal; symmetry; apply LK|].
split; [apply LA; apply Nat.div_le_upper_bound; lia|].
split; [rewrite (akr_circperm_w_k_real M (Fin y) (fun k => Fin (x k)) (fun k => Fin (w k)) y x w eq_refl Hx Hw HM : crps_akr_circperm_w_k (Fin y) (v x) (v w) = _); f_equal; symmetry; apply LK|].
split; [unfold es_nrg_w_arr_r; rewrite (T1 _ (fun i => w i * e i)) by (intros i Hi; apply R3, O1, Hi); rewrite (T2 _ (fun i j => w i * w j * d i j));
  [unfold rmul, rsub, idr, k_wexact; lra|intros n Hn; rewrite (norm_id D) by (apply O2, Hn); unfold d; rewrite es_dist_sym; unfold rmul, idr, es_dist; ring]|].
split; [rewrite (es_nrg_w_k_real M D (fun k => Fin (yv k)) (fun i k => Fin (xv i k)) yv xv HM Hyv Hxv (fun k => Fin (w k)) w Hw : es_nrg_w_k obs fct (v w) = _); f_equal; unfold es_nrg_w_k_r|].
{ rewrite (L1 _ (fun i => w i * e i)) by (intros i Hi; unfold rmul, idr at 1; rewrite Rmult_comm; reflexivity).
  rewrite (L2 (fun i j => rmul idr (rmul idr (rmul idr 2 (enorm D (rvsub idr (xv i) (xv j)))) (w i)) (w j)) (fun i j => w i * w j * d i j) 2).
  - unfold rmul, rsub, idr, k_wexact. fold e d. lra.
  - intros. unfold d. rewrite es_dist_sym. ring.
  - intros. unfold d. rewrite es_dist_refl. ring.
  - intros i j. change (enorm D (rvsub idr (xv i) (xv j))) with (d i j). unfold rmul, idr. ring. }
split; [apply VA|].
split; [rewrite (es_akr_w_k_real M D (fun k => Fin (yv k)) (fun i k => Fin (xv i k)) yv xv HM Hyv Hxv (fun k => Fin (w k)) w Hw : es_akr_w_k obs fct (v w) = _); f_equal; unfold es_akr_w_k_r; rewrite VK|].
{ unfold k_wlag. f_equal. f_equal. apply ksum_ext. intros i Hi. symmetry. now apply (lag1_if M HM). }
split; [apply VA|].
rewrite (es_akrc_w_k_real M D (fun k => Fin (yv k)) (fun i k => Fin (xv i k)) yv xv HM Hyv Hxv (fun k => Fin (w k)) w Hw : es_akr_circperm_w_k obs fct (v w) = _). f_equal. symmetry. apply VK.
Qed.
