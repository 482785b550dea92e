(** Proofs of the rounding properties of the quantile, interval, ranked probability and log scores (statements in P_round5.v). *)
From Coq Require Import Reals List ZArith Permutation Lia Lra Psatz.
From Flocq Require Import Core.
From Verif Require Import M_crps M_prob L_crps_row L_quant L_interval L_prob.
From Verif Require Export L_round11 S_round5 S_round.
Open Scope R_scope.
Local Notation fmt := (generic_format radix2 (FLT_exp (-1074) 53)).
Local Notation bp := (bpow radix2).
Lemma wof k p x X : calc k p x X -> within k x X. Proof. intros (_ & _ & H & _). exact H. Qed.
Lemma twice_mono c x z : (0 < c)%nat -> x <= z -> b64 (2 * b64 (x / INR c)) <= b64 (2 * b64 (z / INR c)).
Proof. intros Hc H. apply b64_le, Rmult_le_compat_l; [lra|]. apply b64_le. unfold Rdiv. apply Rmult_le_compat_r; [left; now apply Rinv_0_lt_compat, lt_0_INR|exact H]. Qed.
Lemma tsum_zero t a : (forall i, In i (leaves t) -> a i = 0) -> tsum b64 t a = 0.
Proof.
  induction t as [i|l IHl r IHr]; intros H; simpl; [apply H; now left|]. rewrite IHl, IHr; [unfold radd; rewrite Rplus_0_r; apply b64_0| |]; intros; apply H; simpl; apply in_or_app; auto.
Qed.
Lemma lsum_zero l : (forall r, In r l -> r = 0) -> lsum b64 l = 0.
Proof.
  unfold lsum. induction l as [|r l IH]; intros H; simpl; [reflexivity|]. rewrite (H r) by now left. unfold radd at 2. rewrite Rplus_0_r, b64_0. apply IH. intros; apply H; now right.
Qed.
Lemma ex_q64 : quant64 2 1 INR (fun _ => / 2).
Proof.
  split; [lia|]. split; [lia|]. split; [apply (ex_int 1); lia|]. intros k Hk. split; [rewrite INR_IZR_INZ; apply ex_int; lia|]. split; [|split; [exact ex_half|split; [lra|apply ex_apart; rewrite Rabs_right; lra]]].
  destruct k as [|[|k]]; [apply ex_apart; simpl; rewrite Rabs_left; lra|now left|lia].
Qed.
Lemma ex_w64 : wis64 1 1 (fun _ => 2) (fun _ => 3) (fun _ => / 2) (fun _ => / 2).
Proof.
  split; [lia|]. split; [apply (ex_int 1); lia|]. intros k _. split; [apply (ex_int 2); lia|]. split; [apply (ex_int 3); lia|]. split; [lra|].
  repeat split; try exact ex_half; try lra; try (apply ex_apart; try (rewrite Rabs_right by lra; lra); rewrite Rabs_left by lra; lra).
Qed.
Lemma ex_p64 : probs64 2 (fun _ => / 2).
Proof. split; [lia|]. split; [lia|]. intros k _. split; [exact ex_half|]. split; [lra|]. apply ex_apart. rewrite Rabs_right; lra. Qed.
Lemma ex_cum : cumorders 2 1 comb.
Proof. intros k Hk. destruct (comb_adds k) as [A ->]. split; [exact A|lia]. Qed.
Lemma C90_quantiles_error_l :
forall Q y x a t, quant64 Q y x a -> adds t Q ->
  let score := 2 / INR Q * sumn Q (fun k => pinball (a k) (x k) y) in
  within (height t + 4) (quantile_pinball_arr_r b64 t Q y x a) score /\ within (Q + 4) (quantile_pinball_k_r b64 Q y x a) score.
Proof.
intros Q y x a t H Ht score. split; [apply (wof _ 926), qp_arr_calc; assumption|apply (wof _ 926), qp_k_calc; assumption].
Qed.
Lemma C90_quantiles_l :
forall Q y x a t, (0 < Q)%nat -> adds t Q -> (forall k, (k < Q)%nat -> is64 (a k) /\ 0 <= a k <= 1) ->
  (0 <= quantile_pinball_arr_r b64 t Q y x a /\ 0 <= quantile_pinball_k_r b64 Q y x a) /\
  ((forall k, (k < Q)%nat -> x k = y) -> quantile_pinball_arr_r b64 t Q y x a = 0 /\ quantile_pinball_k_r b64 Q y x a = 0) /\
  forall z, (forall k, (k < Q)%nat -> y <= x k <= z k \/ z k <= x k <= y) ->
    quantile_pinball_arr_r b64 t Q y x a <= quantile_pinball_arr_r b64 t Q y z a /\ quantile_pinball_k_r b64 Q y x a <= quantile_pinball_k_r b64 Q y z a.
Proof.
intros Q y x a t HQ Ht H. assert (forall k, (k < Q)%nat -> fmt (a k)) as G by (intros k Hk; apply is64_fmt, (H k Hk)).
  assert (forall k, In k (leaves t) -> (k < Q)%nat) as L by (intros k Hk; apply (Permutation_in k Ht), in_seq in Hk; lia).
  assert (forall k, In k (seq 0 Q) -> (k < Q)%nat) as L' by (intros k Hk; apply in_seq in Hk; lia).
  pose proof (fun v => qp_arr_eq Q y v a G t Ht) as EA. pose proof (fun v => qp_k_eq Q y v a G) as EK.
  assert (forall v, (forall k, (k < Q)%nat -> v k = y) -> quantile_pinball_arr_r b64 t Q y v a = 0 /\ quantile_pinball_k_r b64 Q y v a = 0) as Z.
  { intros v E. rewrite EA, EK, tsum_zero, lsum_zero.
    - unfold Rdiv. rewrite Rmult_0_l, b64_0, Rmult_0_r, b64_0. auto.
    - intros r Hr. apply in_map_iff in Hr. destruct Hr as (k & <- & Hk). rewrite (E k (L' k Hk)). apply pb_eq.
    - intros k Hk. rewrite (E k (L k Hk)). apply pb_eq. }
  assert (forall v z, (forall k, (k < Q)%nat -> y <= v k <= z k \/ z k <= v k <= y) ->
    quantile_pinball_arr_r b64 t Q y v a <= quantile_pinball_arr_r b64 t Q y z a /\ quantile_pinball_k_r b64 Q y v a <= quantile_pinball_k_r b64 Q y z a) as M.
  { intros v z D. rewrite !EA, !EK. split; apply twice_mono; auto; [apply tsum_mono|apply lsum_mono]; intros k Hk; apply pb_mono; auto; apply H; auto. }
  split; [|split; [apply Z|apply M]]. destruct (Z (fun _ => y) (fun _ _ => eq_refl)) as [Z1 Z2]. rewrite <- Z1 at 1. rewrite <- Z2 at 1. apply M. intros k Hk. destruct (Rle_dec y (x k)); [left|right]; lra.
Qed.
Lemma C90_wis_error_l :
forall K y l u a w m wm, wis64 K y l u a w -> is64 m -> is64 wm -> 0 <= wm -> apart 50 wm 0 ->
  (apart 800 y m -> within (K + 7) (wis_k_r b64 K y m l u a wm w) ((wissum K y l u a w + wm * Rabs (y - m)) / (INR K + 1 / 2))) /\
  (forall t, adds t K -> 0 <= m -> apart 800 m 0 -> within (height t + 7) (wis_arr_r b64 t K y m l u a wm w) ((wissum K y l u a w + wm * m) / (INR K + 1 / 2))).
Proof.
intros K y l u a w m wm H Fm Fw Pw Aw. split.
  - intros A. apply (wof _ 878), wis_k_calc; assumption.
  - intros t Ht Pm Am. pose proof (wis_arr_sum t K y l u a w H Ht) as C. apply is64_fmt in Fm, Fw. destruct H as (HK & _ & _). unfold wis_arr_r. replace (height t + 7)%nat with (S (S (5 + height t))) by lia.
    apply (wof _ (851 + 27)), (div_K _ 851); [exact HK|lia|]. apply calc_add; [lia|exact C|]. apply (calc_le 1 _ 850 851); [lia|lia|].
    apply (calc_mul 0 0 50 800 850); [lia|lia|now apply wt_calc|]. apply calc_exact; [exact Fm|]. apply apart_bigp in Am. now rewrite Rminus_0_r, Rabs_pos_eq in Am.
Qed.
Lemma C90_wis_l :
forall K y l u a w m wm, (Z.of_nat K <= 2 ^ 26)%Z -> (forall k, (k < K)%nat -> l k <= u k /\ 0 < a k <= 1 /\ 0 <= w k) -> 0 <= wm ->
  0 <= wis_k_r b64 K y m l u a wm w /\
  ((forall k, (k < K)%nat -> l k = y /\ u k = y) -> m = y -> wis_k_r b64 K y m l u a wm w = 0).
Proof.
intros K y l u a w m wm HK H Pw. unfold wis_k_r, radd at 2. rewrite (b64_id _ (fmt_K K HK)). pose proof (pos_INR K). split.
  - apply b64_ge0. apply Rmult_le_pos; [|left; apply Rinv_0_lt_compat; lra]. apply b64_ge0, Rplus_le_le_0_compat; [|apply b64_ge0, Rmult_le_pos; [exact Pw|apply Rabs_pos]].
    apply lsum_ge0. apply Forall_forall. intros r Hr. apply in_map_iff in Hr. destruct Hr as (k & <- & Hk). apply in_seq in Hk. destruct (H k ltac:(lia)) as (H1 & H2 & H3).
    apply b64_ge0, Rmult_le_pos; [exact H3|]. destruct (C81_interval_l y (l k) (u k) (a k) H1 H2) as (_ & H4 & _). lra.
  - intros E ->. unfold rsub. rewrite Rminus_eq_0, b64_0, Rabs_R0. unfold rmul at 2. rewrite Rmult_0_r, b64_0, lsum_zero.
    + unfold radd. rewrite Rplus_0_r, b64_0. unfold rdiv, Rdiv. rewrite Rmult_0_l. apply b64_0.
    + intros r Hr. apply in_map_iff in Hr. destruct Hr as (k & <- & Hk). apply in_seq in Hk. destruct (H k ltac:(lia)) as (H1 & H2 & H3). destruct (E k ltac:(lia)) as [E1 E2].
      destruct (C81_interval_l y (l k) (u k) (a k) H1 H2) as (H4 & _ & _). unfold rmul. rewrite H4 by lra. rewrite E1, E2, Rminus_eq_0, b64_0, Rmult_0_r. apply b64_0.
Qed.
Lemma C90_rps_error_l :
forall K c p t tf ty hc, probs64 K p -> (0 < c)%nat -> adds t K -> cumorders K hc tf -> (forall k, (k < K)%nat -> adds (ty k) (S k)) ->
  let score := rps_score_r b64 t tf ty (onehot c) p in
  (exists F, (forall k, (k < K)%nat -> within hc (F k) (cum p k)) /\ within (height t + 3) score (sumn K (fun k => (F k - ind_cat c k) ^ 2))) /\
  Rabs (score - rps K p c) <= ((1 + u64) ^ (2 * hc + height t + 3) - 1) * sumn K (fun k => (cum p k + ind_cat c k) ^ 2).
Proof.
intros K c p t tf ty hc Hp Hc Ht Hf Hy score. split; [|now apply rps_err]. exists (fun k => tsum b64 (tf k) p). split.
  - intros k Hk. apply (wof _ 400), (cum_calc K p tf hc k Hp Hf Hk).
  - rewrite (Nat.add_comm (height t)). apply (wof _ 800), (rps_calc K c p t tf ty hc); assumption.
Qed.
Lemma C90_rps_l :
forall K c p t tf ty, adds t K -> 0 <= rps_score_r b64 t tf ty (onehot c) p /\
  ((0 < c)%nat -> (forall k, (k < K)%nat -> adds (tf k) (S k) /\ adds (ty k) (S k)) -> rps_score_r b64 t tf ty (onehot c) (onehot c) = 0).
Proof.
intros K c p t tf ty Ht. split.
  - apply tsum_ge0. intros k Hk. apply b64_ge0, Rle_0_sqr.
  - intros Hc H. rewrite (rps_eq K c (onehot c) t tf ty Hc Ht) by apply H. apply tsum_zero. intros k Hk. apply (Permutation_in k Ht), in_seq in Hk.
    destruct (H k ltac:(lia)) as [H1 _]. rewrite (cum_onehot _ _ _ Hc H1), Rminus_eq_0, b64_0, Rmult_0_r. apply b64_0.
Qed.
Lemma C90_log_l :
(forall f, is64 f -> 0 <= f < 1 -> exists s, log_score_r b64 0 f = Fin s /\ Rabs (s - logsc f 0) <= 2 * u64) /\
  (forall f, / 2 ^ 51 <= f <= 1 -> exists s, log_score_r b64 1 f = Fin s /\ Rabs (s - logsc f 1) <= 2 * u64 / f).
Proof.
split.
  - intros f F H. apply is64_fmt in F. unfold logsc. destruct (Req_EM_T 0 1); [lra|]. now apply log_0.
  - intros f H. unfold logsc. destruct (Req_EM_T 1 1); [|lra]. now apply log_1.
Qed.
Lemma C90_log_finite_refuted_l :
exists f, is64 f /\ 0 < f <= 1 /\ log_score_r b64 1 f = PInf /\ forall g, 0 < g < / 2 ^ 54 -> log_score_r b64 1 g = PInf.
Proof.
assert (forall f, 0 < f < / 2 ^ 54 -> log_score_r b64 1 f = PInf) as A.
  { intros f H. apply log_score_zero. rewrite log_arg_1; [rewrite log_arg_tiny by lra; ring|]. split; [lra|]. apply Rle_trans with (/ 2 ^ 54); [lra|]. rewrite <- Rinv_1. apply Rinv_le_contravar; [lra|]. apply pow_R1_Rle. lra. }
  exists (bp (-60)). assert (0 < bp (-60)) by apply bpow_gt_0. assert (bp (-60) < / 2 ^ 54) by (rewrite bp_inv; apply bpow_lt; lia). split; [apply is64_fmt, fmt_bp; lia|]. split; [|split; [apply A; lra|exact A]].
  split; [lra|]. change 1 with (bp 0). apply bpow_le. lia.
Qed.
Lemma C90_unrounded_l :
forall n t y x a l u w m wm c tf ty, (0 < n)%nat -> adds t n ->
  let id := fun r : R => r in let v g := map (fun k => Fin (g k)) (seq 0 n) in
  let q := 2 / INR n * sumn n (fun k => pinball (a k) (x k) y) in
  quantile_pinball_arr_r id t n y x a = q /\ quantile_pinball_k_r id n y x a = q /\ quantile_pinball_k (Fin y) (v x) (v a) = Fin q /\
  wis_arr_r id t n y m l u a wm w = (wissum n y l u a w + wm * m) / (INR n + 1 / 2) /\
  ((forall k, (k < n)%nat -> a k <> 0) -> wis_k (Fin y) (Fin m) (v l) (v u) (v a) (Fin wm) (v w) = Fin (wis_k_r id n y m l u a wm w)) /\
  ((0 < c)%nat -> (forall k, (k < n)%nat -> adds (tf k) (S k) /\ adds (ty k) (S k)) -> rps_score_r id t tf ty (onehot c) x = rps n x c) /\
  forall f, (0 < f -> log_score_r id 1 f = Fin (logsc f 1)) /\ (f < 1 -> log_score_r id 0 f = Fin (logsc f 0)).
Proof.
intros n t y x a l u w m wm c tf ty Hn Ht id v q. change id with idr. pose proof (lt_0_INR n Hn) as P.
  assert (forall al lo up, interval_score_r idr y lo up al = winkler al lo up y) as IS.
  { intros. unfold interval_score_r, winkler, radd, rmul, rdiv, rsub, rbool, rlt, idr. destruct (Rlt_dec y lo), (Rlt_dec up y); ring. }
  split; [|split; [|split; [|split; [|split; [|split]]]]].
  - unfold quantile_pinball_arr_r. rewrite (tsum_id t n) by exact Ht. unfold rmul, rdiv, idr, q. unfold Rdiv. rewrite Rmult_assoc, (Rmult_comm (/ INR n)). do 2 f_equal. apply sumn_ext. intros k _.
    rewrite pinball_le. unfold radd, rsub, rle, rlt, rbool, ind_le, ind_lt. destruct (Rle_dec (x k) y), (Rlt_dec y (x k)); ring.
  - unfold quantile_pinball_k_r. rewrite lsum_id. unfold rmul, rdiv, idr, q. unfold Rdiv. rewrite Rmult_assoc, (Rmult_comm (/ INR n)). do 2 f_equal. apply (sumn_ext n _ (fun k => pinball (a k) (x k) y)). intros k _.
    rewrite pinball_lt. unfold radd, rsub, rle, rlt, rbool, ind_le, ind_lt. destruct (Rlt_dec (x k) y), (Rle_dec y (x k)); ring.
  - apply (pinball_gu n (Fin y) (fun k => Fin (x k)) (fun k => Fin (a k)) y x a Hn eq_refl); auto.
  - unfold wis_arr_r. rewrite (tsum_id t n) by exact Ht. unfold rdiv, radd, rmul, idr, wissum. do 2 f_equal. apply sumn_ext. intros k _. rewrite <- IS. apply Rmult_comm.
  - intros Ha. etransitivity; [apply (wis_k_value n (Fin y) (Fin m) (fun k => Fin (l k)) (fun k => Fin (u k)) (fun k => Fin (a k)) (Fin wm) (fun k => Fin (w k)) y m l u a wm w); auto|].
    f_equal. unfold wis_k_r. rewrite lsum_id. unfold rdiv, radd, rmul, rsub, idr. do 2 f_equal. apply (sumn_ext n (fun k => w k * winkler (a k) (l k) (u k) y) (fun k => w k * interval_score_r idr y (l k) (u k) (a k))). intros k _. now rewrite IS.
  - intros Hc H. unfold rps_score_r. rewrite (tsum_id t n) by exact Ht. unfold rps. apply sumn_ext. intros k Hk. destruct (H k Hk) as [H1 H2]. rewrite (tsum_id (tf k) (S k)), (tsum_id (ty k) (S k)) by assumption.
    rewrite (onehot_le c k Hc). unfold rmul, rsub, idr, cum. ring.
  - intros f. unfold log_score_r, rsub, radd, idr, logsc. destruct (Req_EM_T 1 1); [|lra]. destruct (Req_EM_T 0 1); [lra|]. split; intros H.
    + replace (f + 1 - 1) with f by ring. rewrite Rabs_pos_eq by lra. unfold nlog. destruct (Rlt_dec 0 f); [reflexivity|lra].
    + rewrite Rabs_left by lra. replace (- (f + 0 - 1)) with (1 - f) by ring. unfold nlog. destruct (Rlt_dec 0 (1 - f)); [reflexivity|lra].
Qed.
