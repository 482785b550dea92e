(** Proofs of the rounding properties (statements in P_round.v). *)
From Coq Require Import Reals List ZArith Permutation Lia Lra Psatz.
From Flocq Require Import Core.
From Verif Require Import M_crps L_crps_row L_crps_gu.
From Verif Require Export L_round3.
Open Scope R_scope.
Local Notation fmt := (generic_format radix2 (FLT_exp (-1074) 53)).
Local Notation bp := (bpow radix2).
Lemma within_of k p x X : calc k p x X -> within k x X. Proof. intros (_ & _ & H & _). exact H. Qed.
Lemma apart_0 a e : 0 <= a -> apart e a 0 -> apart e 0 a. Proof. intros _. apply apart_sym. Qed.
Lemma fmt1 : fmt 1. Proof. apply (fmt_int 1). lia. Qed.
Lemma sq_le a b : Rabs a <= Rabs b -> a * a <= b * b.
Proof. intros H. apply (Rsqr_le_abs_1 a b). exact H. Qed.
(** instances: numbers of the format, and the order 0, 1, ..., n - 1 of summation *)
Lemma ex_int z : (Z.abs z < 2 ^ 53)%Z -> is64 (IZR z).
Proof. intros H. exists z, 0%Z. simpl. split; [ring|]. split; [exact H|lia]. Qed.
Lemma ex_half : is64 (/ 2). Proof. exists 1%Z, (-1)%Z. simpl. split; [field|lia]. Qed.
Lemma ex_apart e a b : 1 / 2 <= Rabs (a - b) -> apart (S e) a b.
Proof.
  intros H. right. apply Rle_trans with (/ 2); [|lra]. apply Rinv_le_contravar; [lra|]. simpl. pose proof (pow_R1_Rle 2 e ltac:(lra)). lra.
Qed.
Lemma ex_ens : ens64 3 1 INR.
Proof.
  assert (forall i, (i < 3)%nat -> is64 (INR i)) as F by (intros i Hi; rewrite INR_IZR_INZ; apply ex_int; lia).
  assert (forall i j, (i < 3)%nat -> (j < 3)%nat -> apart 900 (INR i) (INR j)) as A.
  { intros i j Hi Hj. destruct (Nat.eq_dec i j) as [->|N]; [now left|]. apply ex_apart. rewrite !INR_IZR_INZ, <- minus_IZR, <- abs_IZR.
    apply Rle_trans with 1; [lra|]. apply IZR_le. lia. }
  split; [lia|]. split; [lia|]. split; [apply (ex_int 1); lia|]. split; [|exact A]. intros i Hi. split; [auto|]. change 1 with (INR 1). apply A; [exact Hi|lia].
Qed.
Lemma ex_asc : ascending 3 INR. Proof. intros i j H. apply le_INR. lia. Qed.
Lemma C81_rounding_l :
forall x, is64 (b64 x) /\ (forall z, is64 z -> Rabs (b64 x - x) <= Rabs (z - x)) /\ (is64 x -> b64 x = x) /\ (forall y, x <= y -> b64 x <= b64 y) /\
  (/ 2 ^ 1022 <= Rabs x -> Rabs (b64 x - x) <= u64 * Rabs x).
Proof.
intros x. split; [apply is64_fmt, b64_fmt|]. split; [intros z Hz; apply b64_nearest; now apply is64_fmt|]. split; [intros H; apply b64_id; now apply is64_fmt|].
  split; [apply b64_le|]. rewrite bp_inv. apply b64_norm.
Qed.
Lemma C81_quantile_l :
forall obs alpha, 0 <= alpha <= 1 ->
  (forall fct, 0 <= quantile_score_r b64 obs fct alpha) /\ quantile_score_r b64 obs obs alpha = 0 /\
  forall f g, obs <= f <= g \/ g <= f <= obs -> quantile_score_r b64 obs f alpha <= quantile_score_r b64 obs g alpha.
Proof.
intros y a Ha.
  assert (forall f, y < f -> quantile_score_r b64 y f a = b64 (b64 (1 - a) * b64 (f - y))) as U.
  { intros f Hf. unfold quantile_score_r, rmul, rsub, rbool, rlt. destruct (Rlt_dec y f); [reflexivity|lra]. }
  assert (forall f, f <= y -> quantile_score_r b64 y f a = b64 (b64 a * b64 (y - f))) as D.
  { intros f Hf. unfold quantile_score_r, rmul, rsub, rbool, rlt. destruct (Rlt_dec y f); [lra|]. f_equal.
    replace (0 - a) with (- a) by ring. replace (f - y) with (- (y - f)) by ring. rewrite !b64_opp. ring. }
  pose proof (b64_ge0 a ltac:(lra)) as A0. pose proof (b64_ge0 (1 - a) ltac:(lra)) as A1.
  assert (forall f, 0 <= quantile_score_r b64 y f a) as N.
  { intros f. destruct (Rlt_dec y f).
    - rewrite U by auto. apply b64_ge0, Rmult_le_pos; [auto|apply b64_ge0; lra].
    - rewrite D by lra. apply b64_ge0, Rmult_le_pos; [auto|apply b64_ge0; lra]. }
  assert (quantile_score_r b64 y y a = 0) as Z by (rewrite D by lra; rewrite Rminus_eq_0, b64_0, Rmult_0_r; apply b64_0).
  split; [exact N|]. split; [exact Z|]. intros f g [H|H].
  - destruct (Req_dec y f) as [<-|E]; [rewrite Z; apply N|]. rewrite !U by lra. apply b64_le, Rmult_le_compat_l; [auto|apply b64_le; lra].
  - rewrite !D by lra. apply b64_le, Rmult_le_compat_l; [auto|apply b64_le; lra].
Qed.
Lemma C81_quantile_error_l :
forall obs fct alpha, is64 obs -> is64 fct -> is64 alpha -> 0 <= alpha <= 1 -> apart 900 fct obs -> apart 100 alpha 0 -> apart 100 1 alpha ->
  within 3 (quantile_score_r b64 obs fct alpha) ((ind_lt obs fct - alpha) * (fct - obs)).
Proof.
intros y f a Fy Ff Fa Ha Hd H0 H1. apply is64_fmt in Fy, Ff, Fa. unfold quantile_score_r, rmul, rsub, rbool, rlt, ind_lt. destruct (Rlt_dec y f).
  - pose proof (calc_sub 900 f y ltac:(lia) Ff Fy Hd) as C1. pose proof (calc_sub 100 1 a ltac:(lia) fmt1 Fa H1) as C2.
    rewrite (Rabs_pos_eq (f - y)) in C1 by lra. rewrite (Rabs_pos_eq (1 - a)) in C2 by lra. rewrite Rabs_pos_eq in C1, C2 by (apply b64_ge0; lra).
    apply (within_of _ 1000), (calc_mul 1 1 100 900 1000); auto; lia.
  - pose proof (calc_sub 900 f y ltac:(lia) Ff Fy Hd) as C1. pose proof (calc_sub 100 0 a ltac:(lia) fmt_0 Fa (apart_sym _ _ _ H0)) as C2.
    rewrite (Rabs_left1 (f - y)) in C1 by lra. rewrite (Rabs_left1 (0 - a)) in C2 by lra. rewrite Rabs_left1 in C1, C2 by (apply b64_le0; lra).
    replace ((0 - a) * (f - y)) with (- (0 - a) * - (f - y)) by ring. replace (b64 (0 - a) * b64 (f - y)) with (- b64 (0 - a) * - b64 (f - y)) by ring.
    apply (within_of _ 1000), (calc_mul 1 1 100 900 1000); auto; lia.
Qed.
Lemma C81_brier_l :
forall obs fct, obs = 0 \/ obs = 1 -> 0 <= fct <= 1 ->
  0 <= brier_score_r b64 obs fct <= 1 /\ brier_score_r b64 obs obs = 0 /\ brier_score_r b64 obs (1 - obs) = 1 /\
  (forall g, Rabs (fct - obs) <= Rabs (g - obs) -> brier_score_r b64 obs fct <= brier_score_r b64 obs g) /\
  (is64 fct -> apart 500 fct obs -> within 3 (brier_score_r b64 obs fct) ((fct - obs) ^ 2)).
Proof.
intros y f Hy Hf.
  assert (forall g h, Rabs (g - y) <= Rabs (h - y) -> brier_score_r b64 y g <= brier_score_r b64 y h) as M.
  { intros g h H. unfold brier_score_r, rmul, rsub. apply b64_le, sq_le. rewrite <- !b64_abs. now apply b64_le. }
  assert (brier_score_r b64 y y = 0) as Z by (unfold brier_score_r, rmul, rsub; rewrite Rminus_eq_0, b64_0, Rmult_0_r; apply b64_0).
  assert (brier_score_r b64 y (1 - y) = 1) as O.
  { unfold brier_score_r, rmul, rsub. destruct Hy as [-> | ->].
    - replace (1 - 0 - 0) with 1 by ring. rewrite (b64_id 1 fmt1), Rmult_1_r. apply b64_id, fmt1.
    - replace (1 - 1 - 1) with (Ropp 1) by ring. rewrite b64_opp, (b64_id 1 fmt1). replace (Ropp 1 * Ropp 1) with 1 by ring. apply b64_id, fmt1. }
  split; [split|].
  - rewrite <- Z. apply M. rewrite Rminus_eq_0, Rabs_R0. apply Rabs_pos.
  - rewrite <- O. apply M. destruct Hy as [-> | ->]; [rewrite !Rabs_right by lra; lra|rewrite !Rabs_left1 by lra; lra].
  - split; [exact Z|]. split; [exact O|]. split; [intros g; apply M|]. intros F A. apply is64_fmt in F.
    assert (fmt y) as Fy by (destruct Hy as [-> | ->]; [apply fmt_0|apply fmt1]).
    pose proof (calc_sub 500 f y ltac:(lia) F Fy A) as C. replace ((f - y) ^ 2) with (Rabs (f - y) * Rabs (f - y)) by (rewrite <- Rabs_mult; rewrite Rabs_pos_eq; [ring|apply Rle_0_sqr]).
    unfold brier_score_r, rmul, rsub. replace (b64 (f - y) * b64 (f - y)) with (Rabs (b64 (f - y)) * Rabs (b64 (f - y))) by (rewrite <- Rabs_mult; apply Rabs_pos_eq, Rle_0_sqr).
    apply (within_of _ 1000), (calc_mul 1 1 500 500 1000); auto; lia.
Qed.
Lemma C81_interval_l :
forall obs lower upper alpha, lower <= upper -> 0 < alpha <= 1 ->
  (lower <= obs <= upper -> interval_score_r b64 obs lower upper alpha = b64 (upper - lower)) /\
  0 <= b64 (upper - lower) <= interval_score_r b64 obs lower upper alpha /\
  (is64 obs -> is64 lower -> is64 upper -> is64 alpha -> apart 900 upper lower -> apart 900 obs lower -> apart 900 obs upper ->
   within 4 (interval_score_r b64 obs lower upper alpha) (upper - lower + 2 / alpha * Rmax 0 (lower - obs) + 2 / alpha * Rmax 0 (obs - upper))).
Proof.
intros y l u a Hlu Ha. assert (0 < / a) as Ia by (apply Rinv_0_lt_compat; lra). assert (0 <= 2 / a) as Ia2 by (unfold Rdiv; lra). pose proof (b64_ge0 (2 / a) Ia2) as B0.
  pose proof (b64_ge0 (u - l) ltac:(lra)) as W0.
  assert (y < l -> interval_score_r b64 y l u a = b64 (b64 (u - l) + b64 (b64 (2 / a) * b64 (l - y)))) as B.
  { intros H. unfold interval_score_r, radd, rmul, rdiv, rsub, rbool, rlt. destruct (Rlt_dec u y); [lra|]. destruct (Rlt_dec y l); [|lra].
    rewrite Rmult_1_l, Rmult_0_l, b64_0, Rmult_0_l, b64_0, Rplus_0_r, (b64_id (b64 (2 / a)) (b64_fmt _)). apply b64_id, b64_fmt. }
  assert (u < y -> interval_score_r b64 y l u a = b64 (b64 (u - l) + b64 (b64 (2 / a) * b64 (y - u)))) as A.
  { intros H. unfold interval_score_r, radd, rmul, rdiv, rsub, rbool, rlt. destruct (Rlt_dec u y); [|lra]. destruct (Rlt_dec y l); [lra|].
    rewrite Rmult_1_l, Rmult_0_l, b64_0, Rmult_0_l, b64_0, Rplus_0_r, (b64_id (b64 (2 / a)) (b64_fmt _)), (b64_id (b64 (u - l)) (b64_fmt _)). reflexivity. }
  assert (l <= y <= u -> interval_score_r b64 y l u a = b64 (u - l)) as I.
  { intros H. unfold interval_score_r, radd, rmul, rdiv, rsub, rbool, rlt. destruct (Rlt_dec u y); [lra|]. destruct (Rlt_dec y l); [lra|].
    rewrite !Rmult_0_l, !b64_0, !Rmult_0_l, !b64_0, !Rplus_0_r, !(b64_id (b64 (u - l)) (b64_fmt _)). reflexivity. }
  split; [exact I|]. split; [split; [exact W0|]|].
  - destruct (Rlt_dec y l); [|destruct (Rlt_dec u y)]; [rewrite B by auto|rewrite A by auto|rewrite I by lra; lra]; apply b64_ge_fmt; try apply b64_fmt.
    + pose proof (b64_ge0 (b64 (2 / a) * b64 (l - y)) ltac:(apply Rmult_le_pos; [auto|apply b64_ge0; lra])). lra.
    + pose proof (b64_ge0 (b64 (2 / a) * b64 (y - u)) ltac:(apply Rmult_le_pos; [auto|apply b64_ge0; lra])). lra.
  - intros Fy Fl Fu Fa H1 H2 H3. apply is64_fmt in Fy, Fl, Fu, Fa.
    pose proof (calc_sub 900 u l ltac:(lia) Fu Fl H1) as C1. rewrite (Rabs_pos_eq (u - l)) in C1 by lra. rewrite Rabs_pos_eq in C1 by exact W0.
    assert (calc 1 0 (b64 (2 / a)) (2 / a)) as C2.
    { assert (big 0 (2 / a)) as BG. { right. change (bp (- 0)) with 1. apply (Rmult_le_reg_r a); [lra|]. unfold Rdiv. rewrite Rmult_assoc, Rinv_l by lra. lra. }
      split; [apply b64_fmt|]. split; [exact Ia2|]. split; [|apply big_rnd; [lia|exact BG]].
      apply within_rnd; [exact Ia2|exact Ia2|apply within_0|apply (big_err 0); [lia|exact BG]]. }
    destruct (Rlt_dec y l); [|destruct (Rlt_dec u y)].
    + rewrite B by auto. rewrite Rmax_right, Rmax_left by lra. rewrite Rmult_0_r, Rplus_0_r.
      pose proof (calc_sub 900 l y ltac:(lia) Fl Fy (apart_sym _ _ _ H2)) as C3. rewrite (Rabs_pos_eq (l - y)) in C3 by lra. rewrite Rabs_pos_eq in C3 by (apply b64_ge0; lra).
      apply (within_of _ 900), calc_add; [lia|now apply (calc_le 1 3 900 900); [lia|lia|]|]. apply (calc_mul 1 1 0 900 900); auto; lia.
    + rewrite A by auto. rewrite Rmax_left, Rmax_right by lra. rewrite Rmult_0_r, Rplus_0_r.
      pose proof (calc_sub 900 y u ltac:(lia) Fy Fu H3) as C3. rewrite (Rabs_pos_eq (y - u)) in C3 by lra. rewrite Rabs_pos_eq in C3 by (apply b64_ge0; lra).
      apply (within_of _ 900), calc_add; [lia|now apply (calc_le 1 3 900 900); [lia|lia|]|]. apply (calc_mul 1 1 0 900 900); auto; lia.
    + rewrite I by lra. rewrite !Rmax_left by lra. rewrite !Rmult_0_r, !Rplus_0_r. apply (within_of _ 900), (calc_le 1 4 900 900); [lia|lia|exact C1].
Qed.
Lemma C81_unrounded_l :
forall obs fct alpha lower upper,
  quantile_score_r (fun r => r) obs fct alpha = (ind_lt obs fct - alpha) * (fct - obs) /\
  brier_score_r (fun r => r) obs fct = (fct - obs) ^ 2 /\
  (lower <= upper -> interval_score_r (fun r => r) obs lower upper alpha = upper - lower + 2 / alpha * Rmax 0 (lower - obs) + 2 / alpha * Rmax 0 (obs - upper)).
Proof.
intros y f a l u. split; [|split].
  - unfold quantile_score_r, rmul, rsub, rbool, rlt, ind_lt. destruct (Rlt_dec y f); reflexivity.
  - unfold brier_score_r, rmul, rsub. ring.
  - intros H. unfold interval_score_r, radd, rmul, rdiv, rsub, rbool, rlt. destruct (Rlt_dec u y); destruct (Rlt_dec y l); try lra.
    + rewrite Rmax_left, Rmax_right by lra. ring.
    + rewrite Rmax_right, Rmax_left by lra. ring.
    + rewrite !Rmax_left by lra. ring.
Qed.
Lemma C82_qd_l :
forall M y x t, ens64 M y x -> ascending M x -> adds t M ->
  within (height t + 3) (crps_qd_arr_r b64 t M y x) (exact_crps M y x) /\ within (M + 4) (crps_qd_k_r b64 M y x) (exact_crps M y x).
Proof.
intros M y x t H Ha Ht. destruct (ens64_good _ _ _ H) as [G _]. split; [apply (within_of _ 953), qd_arr_calc; auto|apply (within_of _ 953), qd_k_calc; auto].
Qed.
Lemma C82_qd_nonneg_l :
forall M y x t, (0 < M)%nat -> (Z.of_nat M <= 2 ^ 26)%Z -> adds t M ->
  0 <= crps_qd_arr_r b64 t M y x /\ (ascending M x -> 0 <= crps_qd_k_r b64 M y x).
Proof.
intros M y x t HM HB Ht. split; [now apply qd_arr_ge0|intros; now apply qd_k_ge0].
Qed.
Lemma C82_nrg_l :
forall M y x t1 t2, ens64 M y x -> adds t1 M -> adds t2 (M * M) ->
  let half_spread := pairsum M x / (2 * INR M * INR M) in
  Rabs (crps_nrg_arr_r b64 t1 t2 M y x - exact_crps M y x)
    <= ((1 + u64) ^ (height t1 + 3) - 1) * mae M y x + ((1 + u64) ^ (height t2 + 4) - 1) * half_spread /\
  Rabs (crps_nrg_k_r b64 M y x - exact_crps M y x)
    <= ((1 + u64) ^ (M + 3) - 1) * mae M y x + ((1 + u64) ^ (M * (M - 1) / 2 + 5) - 1) * half_spread.
Proof.
intros M y x t1 t2 H H1 H2 hs. destruct (ens64_good _ _ _ H) as [G Gp]. pose proof (INRM M y x G) as P. destruct H as (HM & HB & _).
  assert (/ 2 * (pairsum M x / INR (M * M)) = hs) as E by (unfold hs; rewrite mult_INR; field; lra).
  unfold exact_crps. fold hs. rewrite <- E. split; [apply energy_arr_err|apply energy_k_err]; auto; try lia; apply sq52, HB.
Qed.
Lemma C82_fair_l :
forall M y x t1 t2, (1 < M)%nat -> ens64 M y x -> adds t1 M -> adds t2 (M * M) ->
  let half_spread := pairsum M x / (2 * INR M * (INR M - 1)) in
  Rabs (crps_fair_arr_r b64 t1 t2 M y x - fair_crps M y x)
    <= ((1 + u64) ^ (height t1 + 3) - 1) * mae M y x + ((1 + u64) ^ (height t2 + 4) - 1) * half_spread /\
  Rabs (crps_fair_k_r b64 M y x - fair_crps M y x)
    <= ((1 + u64) ^ (M + 3) - 1) * mae M y x + ((1 + u64) ^ (M * (M - 1) / 2 + 5) - 1) * half_spread.
Proof.
intros M y x t1 t2 M1 H H1 H2 hs. destruct (ens64_good _ _ _ H) as [G Gp]. pose proof (INRM M y x G) as P. destruct H as (HM & HB & _).
  assert (/ 2 * (pairsum M x / INR (M * (M - 1))) = hs) as E. { unfold hs. rewrite mult_INR, minus_INR by lia. apply lt_INR in M1. simpl INR in *. field. lra. }
  unfold fair_crps. fold hs. rewrite <- E. split; [apply energy_arr_err|apply energy_k_err]; auto; try nia; apply sq52, HB.
Qed.
Lemma C82_nrg_nonneg_l :
forall M y x t1 t2, ens64 M y x -> adds t1 M -> adds t2 (M * M) ->
  ((Z.of_nat M * Z.of_nat (height t1 + height t2 + 5) <= 2 ^ 53)%Z -> 0 <= crps_nrg_arr_r b64 t1 t2 M y x) /\
  ((Z.of_nat M <= 200000)%Z -> 0 <= crps_nrg_k_r b64 M y x).
Proof.
intros M y x t1 t2 H H1 H2. destruct (ens64_good _ _ _ H) as [G Gp]. destruct H as (HM & HB & _).
  assert (2 ^ 53 = IZR (2 ^ 53)) as E53 by (rewrite (IZR_Zpower radix2) by lia; rewrite bp_pow; reflexivity).
  destruct (sq52 M HB) as [S1 _]. split; intros L.
  - apply b64_ge0. apply Rge_le, Rge_minus, Rle_ge. eapply (ge_from_calc M y x G); [apply (e1_arr M y x G t1 H1)|apply (e2_arr M y x G t2 (M * M) H2 Gp ltac:(lia) S1)|].
    rewrite E53, !INR_IZR, <- mult_IZR. apply IZR_le. eapply Z.le_trans; [|exact L]. apply Z.mul_le_mono_nonneg_l; lia.
  - apply b64_ge0. apply Rge_le, Rge_minus, Rle_ge. eapply (ge_from_calc M y x G); [apply (e1_k M y x G)|apply (e2_k M y x G (M * M) Gp ltac:(lia) S1)|].
    rewrite E53, !INR_IZR, <- mult_IZR. apply IZR_le. clear - L HM. rewrite !Nat2Z.inj_add, Nat2Z.inj_div, Nat2Z.inj_mul, Nat2Z.inj_sub by lia. simpl (Z.of_nat 1). simpl (Z.of_nat 2). simpl (Z.of_nat 4).
    set (m := Z.of_nat M) in *. assert (1 <= m)%Z by lia. change (2 ^ 53)%Z with 9007199254740992%Z.
    assert (m * (m - 1) / 2 <= 20000000000)%Z. { apply Z.div_le_upper_bound; [lia|]. assert (m * (m - 1) <= 200000 * 200000)%Z by (apply Z.mul_le_mono_nonneg; lia). lia. }
    assert (m * (m + 2 + (m * (m - 1) / 2 + 4)) <= 200000 * (200000 + 2 + (20000000000 + 4)))%Z; [|lia].
    apply Z.mul_le_mono_nonneg; try lia. assert (0 <= m * (m - 1) / 2)%Z by (apply Z.div_pos; nia). lia.
Qed.
Lemma C82_nrg_nonneg_refuted_l :
exists M y x, (0 < M)%nat /\ is64 y /\ (forall i, is64 (x i)) /\ (exists t1 t2, adds t1 M /\ adds t2 (M * M)) /\
  forall t1 t2, adds t1 M -> adds t2 (M * M) -> crps_nrg_arr_r b64 t1 t2 M y x < 0.
Proof.
exists 20%nat, 0, xt. split; [lia|]. split; [apply is64_fmt, fmt_0|]. split; [apply xt_64|]. split; [exists (comb 19), (comb 399); split; apply comb_adds|].
  intros t1 t2 H1 H2. rewrite tiny_nrg by assumption. pose proof (bpow_gt_0 radix2 (-1074)). unfold eps. lra.
Qed.
Lemma C82_unrounded_l :
forall M y x t1 t2, (0 < M)%nat -> adds t1 M -> adds t2 (M * M) ->
  let e := map (fun i => Fin (x i)) (seq 0 M) in
  crps_nrg_arr_r (fun r => r) t1 t2 M y x = exact_crps M y x /\
  crps_nrg_k (Fin y) e = Fin (crps_nrg_k_r (fun r => r) M y x) /\
  ((1 < M)%nat -> crps_fair_arr_r (fun r => r) t1 t2 M y x = fair_crps M y x /\ crps_fair_k (Fin y) e = Fin (crps_fair_k_r (fun r => r) M y x)) /\
  (ascending M x -> crps_qd_arr_r (fun r => r) t1 M y x = exact_crps M y x /\ crps_qd_k (Fin y) e = Fin (crps_qd_k_r (fun r => r) M y x)).
Proof.
intros M y x t1 t2 HM H1 H2 e. pose proof (lt_0_INR M HM) as P.
  assert (forall c, mae M y x - / 2 * (pairsum M x / c) = mae M y x - pairsum M x / (2 * c) \/ c = 0) as Q.
  { intros c. destruct (Req_dec c 0); [now right|left]. field. auto. }
  assert (mae M y x - / 2 * (pairsum M x / INR (M * M)) = exact_crps M y x) as E by (unfold exact_crps; rewrite mult_INR; field; lra).
  assert ((1 < M)%nat -> mae M y x - / 2 * (pairsum M x / INR (M * (M - 1))) = fair_crps M y x) as F.
  { intros M1. unfold fair_crps. rewrite mult_INR, minus_INR by lia. apply lt_INR in M1. simpl INR in *. field. lra. }
  split; [rewrite <- E; now apply energy_arr_id|]. split; [|split].
  - transitivity (Fin (exact_crps M y x)); [apply (nrg_k_real M (Fin y) (fun i => Fin (x i)) y x HM eq_refl); auto|]. rewrite <- E. f_equal. symmetry. apply energy_k_id.
  - intros M1. split; [rewrite <- (F M1); now apply energy_arr_id|].
    transitivity (Fin (fair_crps M y x)); [apply (fair_k_real M (Fin y) (fun i => Fin (x i)) y x HM eq_refl); auto|]. rewrite <- (F M1). f_equal. symmetry. apply energy_k_id.
  - intros Ha. split; [now apply qd_arr_id|].
    transitivity (Fin (exact_crps M y x)); [apply (qd_k_real M (Fin y) (fun i => Fin (x i)) y x HM eq_refl); auto|]. f_equal. symmetry. now apply qd_k_id.
Qed.
