(** Rounding errors of the fair estimators for weighted ensembles. *)
From Coq Require Import Reals List ZArith Permutation Lia Lra Psatz.
From Flocq Require Import Core.
From Verif Require Import Num L_crps_row L_crps_omit.
From Verif Require Export L_round12 M_round7 S_round.
Open Scope R_scope.

Local Notation fmt := (generic_format radix2 (FLT_exp (-1074) 53)).
Local Notation bp := (bpow radix2).

(** ** numbers with k roundings and one relative error of at most r *)
Definition near (k : nat) (r : R) (p : Z) (x X : R) : Prop :=
  fmt x /\ 0 <= X /\ X * ((1 - u64) ^ k / (1 + r)) <= x <= X * ((1 + u64) ^ k / (1 - r)) /\ big p x.
Lemma near_hi k r : 0 <= r < 1 -> 1 <= (1 + u64) ^ k / (1 - r).
Proof. intros H. pose proof (pow_hi k). apply (Rmult_le_reg_r (1 - r)); [lra|]. unfold Rdiv. rewrite Rmult_assoc, Rinv_l by lra. lra. Qed.
Lemma near_lo k r : 0 <= r < 1 -> 0 < (1 - u64) ^ k / (1 + r).
Proof. intros H. pose proof (pow_lo k). apply Rmult_lt_0_compat; [lra|]. apply Rinv_0_lt_compat. lra. Qed.
Lemma near_sum k r : 0 <= r < 1 -> 2 <= (1 - u64) ^ k / (1 + r) + (1 + u64) ^ k / (1 - r).
Proof.
  intros H. pose proof (bern k). pose proof (bern2 k). pose proof (near_lo k r H). pose proof (near_hi k r H).
  set (a := (1 + u64) ^ k) in *. set (b := (1 - u64) ^ k) in *. assert (0 < b) by apply (pow_lo k). assert (2 <= a + b) by lra.
  apply (Rmult_le_reg_r ((1 + r) * (1 - r))); [nra|]. replace ((b / (1 + r) + a / (1 - r)) * ((1 + r) * (1 - r))) with (b * (1 - r) + a * (1 + r)) by (field; lra).
  assert (1 <= a) by apply (pow_hi k). nra.
Qed.
Lemma near_abs k r p x X : 0 <= r < 1 -> near k r p x X -> Rabs (x - X) <= ((1 + u64) ^ k / (1 - r) - 1) * X.
Proof. intros Hr (_ & P & [H1 H2] & _). pose proof (near_sum k r Hr). apply Rabs_le. split; nra. Qed.
Lemma near_rnd k r p x X : 0 <= r < 1 -> (p <= 1022)%Z -> 0 <= X -> X * ((1 - u64) ^ k / (1 + r)) <= x <= X * ((1 + u64) ^ k / (1 - r)) -> big p x -> near (S k) r p (b64 x) X.
Proof.
  intros Hr Hp P [H1 H2] B. split; [apply b64_fmt|]. split; [exact P|]. split; [|apply big_rnd; [lia|exact B]].
  pose proof (big_err p x Hp B) as E. apply Rabs_le_inv in E. pose proof u64_pos. pose proof u1. pose proof (near_lo k r Hr). pose proof (near_hi k r Hr). cbn [pow].
  replace ((1 - u64) * (1 - u64) ^ k / (1 + r)) with ((1 - u64) * ((1 - u64) ^ k / (1 + r))) by (unfold Rdiv; ring).
  replace ((1 + u64) * (1 + u64) ^ k / (1 - r)) with ((1 + u64) * ((1 + u64) ^ k / (1 - r))) by (unfold Rdiv; ring). split; nra.
Qed.
Lemma near_div k p b B c C r : 0 <= r < 1 -> (p <= 1022)%Z -> calc k p b B -> 0 < C -> Rabs (c - C) <= r * C -> c <= 1 -> 0 < c /\ near (S k) r p (b64 (b / c)) (B / C).
Proof.
  intros Hr Hp (F & P & [W1 W2] & G) HC E Hc. apply Rabs_le_inv in E. assert (C * (1 - r) <= c <= C * (1 + r)) as [E1 E2] by lra.
  assert (0 < C * (1 - r)) by nra. assert (0 < c) as c0 by lra. split; [exact c0|]. pose proof (big_ge0 _ _ G) as b0.
  apply near_rnd; [exact Hr|exact Hp|apply Rmult_le_pos; [exact P|apply Rlt_le, Rinv_0_lt_compat, HC]| |].
  - split.
    + apply Rle_trans with (b * / (C * (1 + r))). 2:{ apply Rmult_le_compat_l; [exact b0|]. apply Rinv_le_contravar; lra. }
      apply Rle_trans with (B * (1 - u64) ^ k * / (C * (1 + r))). { right. field. lra. }
      apply Rmult_le_compat_r; [|exact W1]. apply Rlt_le, Rinv_0_lt_compat. nra.
    + apply Rle_trans with (b * / (C * (1 - r))). { apply Rmult_le_compat_l; [exact b0|]. apply Rinv_le_contravar; lra. }
      apply Rle_trans with (B * (1 + u64) ^ k * / (C * (1 - r))). 2:{ right. field. lra. }
      apply Rmult_le_compat_r; [|exact W2]. apply Rlt_le, Rinv_0_lt_compat. lra.
  - destruct G as [->|G]; [left; unfold Rdiv; ring|right]. eapply Rle_trans; [exact G|]. apply (Rmult_le_reg_r c); [exact c0|]. unfold Rdiv. rewrite Rmult_assoc, Rinv_l by lra. nra.
Qed.
Lemma near_half k r p x X : 0 <= r < 1 -> (p <= 1000)%Z -> near k r p x X -> near (S k) r (p + 1) (b64 (1 / 2 * x)) (/ 2 * X).
Proof.
  intros Hr Hp (F & P & [H1 H2] & B). apply near_rnd; [exact Hr|lia|lra|lra|]. apply (big_scal p 1); [|exact B]. change (bp (- (1))) with (/ 2). lra.
Qed.
Lemma near_diff k l r p q x X y Y : 0 <= r < 1 -> calc k p x X -> near l r q y Y ->
  Rabs (b64 (x - y) - (X - Y)) <= ((1 + u64) ^ S k - 1) * X + ((1 + u64) ^ S l / (1 - r) - 1) * Y.
Proof.
  intros Hr (F & P & W & B) N. pose proof (near_abs _ _ _ _ _ Hr N) as W'. destruct N as (F' & P' & [_ N2] & B'). pose proof (b64_minus x y F F') as E.
  pose proof (within_abs _ _ _ P W) as WA. destruct W as [_ W2]. pose proof u64_pos as U. pose proof (big_ge0 _ _ B). pose proof (big_ge0 _ _ B').
  assert (Rabs (x - y) <= (1 + u64) ^ k * X + ((1 + u64) ^ l / (1 - r)) * Y) as A by (apply Rabs_le; split; lra).
  replace (b64 (x - y) - (X - Y)) with ((b64 (x - y) - (x - y)) + ((x - X) - (y - Y))) by ring.
  eapply Rle_trans; [apply Rabs_triang|].
  assert (Rabs (x - X - (y - Y)) <= ((1 + u64) ^ k - 1) * X + ((1 + u64) ^ l / (1 - r) - 1) * Y) as A2.
  { apply Rabs_le. apply Rabs_le_inv in WA. apply Rabs_le_inv in W'. split; lra. }
  cbn [pow]. replace ((1 + u64) * (1 + u64) ^ l / (1 - r)) with ((1 + u64) * ((1 + u64) ^ l / (1 - r))) by (unfold Rdiv; ring). nra.
Qed.
(** ** the constant *)
Section Const.
Variables (M : nat) (w : nat -> R) (tw t : stree).
Hypothesis HB : (Z.of_nat M <= 2 ^ 26)%Z.
Hypothesis HW : wts64 M w.
Hypothesis AW : adds tw M.
Hypothesis BW : (Z.of_nat (height tw) <= 2 ^ 52)%Z.
Hypothesis A : adds t M.
Local Notation wc := (weights_r b64 tw w).
Local Notation W := (nw M w).
Lemma nw_pos i : (i < M)%nat -> 0 <= W i.
Proof. intros Hi. pose proof (wts_pos M w HW) as [P S]. apply Rmult_le_pos; [now apply P|apply Rlt_le, Rinv_0_lt_compat, S]. Qed.
Lemma nw_one : sumn M W = 1.
Proof. apply nw_sum. pose proof (wts_pos M w HW). lra. Qed.
Lemma nw_le1 i : (i < M)%nat -> W i <= 1.
Proof.
  intros Hi. rewrite <- nw_one. apply Rle_trans with (sumn M (fun j => if Nat.eq_dec j i then W i else 0)); [right; symmetry; now apply sumn_delta|].
  apply sumn_le. intros j Hj. destruct (Nat.eq_dec j i) as [->|_]; [lra|now apply nw_pos].
Qed.
Lemma sq_le1 : 0 <= sumn M (fun i => W i * W i) <= 1.
Proof.
  split; [apply sumn_nonneg; intros i Hi; pose proof (nw_pos i Hi); nra|]. rewrite <- nw_one. apply sumn_le. intros i Hi. pose proof (nw_pos i Hi). pose proof (nw_le1 i Hi). nra.
Qed.
Lemma sq_calc : calc (height t + 2 * height tw + 5) 454 (tsum b64 t (fun i => rmul b64 (wc i) (wc i))) (sumn M (fun i => W i * W i)).
Proof.
  replace (height t + 2 * height tw + 5)%nat with (S (height tw + 2 + (height tw + 2)) + height t)%nat by lia. apply tsum_n; [lia|exact A|]. intros i Hi.
  apply (calc_mul _ _ 227 227 454); try lia; now apply wts_calc.
Qed.
Lemma fair_c_err : Rabs (fair_c_r b64 t wc - (1 - sumn M (fun i => W i * W i))) <= (1 + u64) ^ (height t + 2 * height tw + 6) - 1 /\ fair_c_r b64 t wc <= 1.
Proof.
  pose proof sq_calc as C. pose proof sq_le1 as L. unfold fair_c_r, rsub. set (s := tsum _ _ _) in *. set (S0 := sumn M (fun i => W i * W i)) in *.
  destruct C as (F & _ & Wt & B). split.
  - pose proof (within_abs _ _ _ (proj1 L) Wt) as E. replace (height t + 2 * height tw + 6)%nat with (S (height t + 2 * height tw + 5)) by lia. set (k := (height t + 2 * height tw + 5)%nat) in *.
    pose proof (b64_minus 1 s (fmt_int 1 ltac:(lia)) F) as E2. pose proof (pow_hi k) as K. pose proof u64_pos. pose proof (big_ge0 _ _ B). cbn [pow]. set (g := (1 + u64) ^ k) in *.
    apply Rabs_le_inv in E. assert (Rabs (1 - s) <= 1 - S0 + (g - 1) * S0) as E3 by (apply Rabs_le; nra).
    assert (Rabs (b64 (1 - s) - (1 - s)) <= u64 * (1 - S0 + (g - 1) * S0)) as E4 by (eapply Rle_trans; [exact E2|apply Rmult_le_compat_l; lra]).
    apply Rabs_le_inv in E4. assert (0 <= (g - 1) * (1 - S0)) by nra. assert (0 <= u64 * ((g - 1) * (1 - S0))) by nra. assert (0 <= u64 * (g - 1)) by nra. apply Rabs_le. split; nra.
  - apply b64_le_fmt; [exact (fmt_int 1 ltac:(lia))|]. pose proof (big_ge0 _ _ B). lra.
Qed.
End Const.
