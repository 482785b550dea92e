(** Rounding errors of weighted ensemble scores. *)
From Coq Require Import Reals List ZArith Permutation Lia Lra Psatz.
From Flocq Require Import Core.
From Verif Require Import L_crps_row L_crps_omit.
From Verif Require Export L_round9 S_round6 S_round.
Open Scope R_scope.

Local Notation fmt := (generic_format radix2 (FLT_exp (-1074) 53)).
Local Notation bp := (bpow radix2).

(** ** quotients *)
Lemma hu h : (Z.of_nat h <= 2 ^ 52)%Z -> INR h * u64 <= / 2.
Proof.
  intros H. rewrite u64_bp, INR_IZR. apply Rle_trans with (bp 52 * bp (-53)); [|rewrite <- bpow_plus; right; reflexivity].
  apply Rmult_le_compat_r; [apply bpow_ge_0|]. rewrite <- (IZR_Zpower radix2) by lia. apply IZR_le. exact H.
Qed.
Lemma pow_both h : 1 - INR h * (u64 * u64) <= (1 - u64) ^ h * (1 + u64) ^ h <= 1.
Proof.
  rewrite <- Rpow_mult_distr. replace ((1 - u64) * (1 + u64)) with (1 - u64 * u64) by ring. pose proof u64_pos as U. assert (u64 < 1) by (unfold u64; rewrite <- Rinv_1; apply Rinv_lt_contravar; [rewrite Rmult_1_l; apply pow_lt; lra|apply Rlt_pow_R1; [lra|lia]]).
  set (q := u64 * u64). assert (0 <= q <= 1) by (unfold q; nra). clearbody q. induction h as [|h IH]; [simpl; lra|]. rewrite S_INR. cbn [pow]. pose proof (pos_INR h). nra.
Qed.
Lemma pow_hi2 h : (Z.of_nat h <= 2 ^ 52)%Z -> (1 + u64) ^ h <= 2.
Proof. intros H. pose proof (hu h H). pose proof (bern h). pose proof (pow_both h). pose proof (pow_hi h). nra. Qed.
Lemma pow_quot h : (Z.of_nat h <= 2 ^ 52)%Z -> 1 <= (1 - u64) ^ h * (1 + u64) ^ S h.
Proof.
  intros H. pose proof (hu h H) as L. pose proof (pow_both h) as [B _]. cbn [pow]. pose proof u64_pos as U. pose proof (pos_INR h).
  assert (u64 <= 1) by (unfold u64; rewrite <- Rinv_1; apply Rinv_le_contravar; [lra|apply pow_R1_Rle; lra]).
  apply Rle_trans with ((1 - INR h * (u64 * u64)) * (1 + u64)); [nra|]. replace ((1 - u64) ^ h * ((1 + u64) * (1 + u64) ^ h)) with ((1 - u64) ^ h * (1 + u64) ^ h * (1 + u64)) by ring.
  apply Rmult_le_compat_r; lra.
Qed.
Lemma calc_quot h p q r t w s S0 : (Z.of_nat h <= 2 ^ 52)%Z -> (p + r <= t)%Z -> (t <= 1022)%Z -> fmt w -> big p w -> calc h q s S0 -> 0 < S0 -> s <= bp r ->
  calc (h + 2) t (b64 (w / s)) (w / S0).
Proof.
  intros Hh L L' Fw Bw (Fs & Ps & [W1 W2] & _) P Hs. pose proof (pow_lo h) as Q1. pose proof (pow_hi h) as Q2. pose proof (big_ge0 _ _ Bw) as W0.
  assert (0 < s) as S1 by (eapply Rlt_le_trans; [|exact W1]; apply Rmult_lt_0_compat; lra).
  assert (0 <= w / S0) as N by (apply Rmult_le_pos; [exact W0|apply Rlt_le, Rinv_0_lt_compat, P]).
  assert (big t (w / s)) as B.
  { eapply big_le; [exact L|]. unfold Rdiv. rewrite Rmult_comm, Z.add_comm, Z.add_comm. apply big_scal; [|exact Bw]. rewrite bpow_opp. apply Rinv_le_contravar; assumption. }
  assert (within (S h) (w / s) (w / S0)) as W.
  { pose proof (pow_both h) as [_ Q3]. pose proof (pow_quot h Hh) as Q4. unfold within. cbn [pow] in Q4 |- *. split.
    - apply (Rmult_le_reg_r s); [exact S1|]. replace (w / s * s) with w by (field; lra).
      assert (w / S0 * S0 = w) as E by (field; lra). pose proof u64_pos.
      apply Rle_trans with (w / S0 * (1 - u64) ^ h * s). { apply Rmult_le_compat_r; [lra|]. apply Rmult_le_compat_l; [exact N|]. nra. }
      apply Rle_trans with (w / S0 * (1 - u64) ^ h * (S0 * (1 + u64) ^ h)). { apply Rmult_le_compat_l; [apply Rmult_le_pos; lra|exact W2]. }
      replace (w / S0 * (1 - u64) ^ h * (S0 * (1 + u64) ^ h)) with (w * ((1 - u64) ^ h * (1 + u64) ^ h)) by (field; lra). nra.
    - apply (Rmult_le_reg_r s); [exact S1|]. replace (w / s * s) with w by (field; lra).
      apply Rle_trans with (w / S0 * ((1 + u64) * (1 + u64) ^ h) * (S0 * (1 - u64) ^ h)).
      2:{ apply Rmult_le_compat_l; [|exact W1]. pose proof u64_pos. apply Rmult_le_pos; [exact N|nra]. }
      replace (w / S0 * ((1 + u64) * (1 + u64) ^ h) * (S0 * (1 - u64) ^ h)) with (w * ((1 - u64) ^ h * ((1 + u64) * (1 + u64) ^ h))) by (field; lra). nra. }
  split; [apply b64_fmt|]. split; [exact N|]. split; [|apply big_rnd; [lia|exact B]].
  replace (h + 2)%nat with (S (S h)) by lia. apply within_rnd; [apply (big_ge0 t), B|exact N|exact W|apply (big_err t); auto].
Qed.
(** ** the weights *)
Lemma sumn_bound M f c : (forall i, (i < M)%nat -> f i <= c) -> sumn M f <= INR M * c.
Proof. intros H. rewrite <- (sumn_const M c). now apply sumn_le. Qed.
Lemma wts_pos M w : wts64 M w -> (forall i, (i < M)%nat -> 0 <= w i) /\ 0 < sumn M w.
Proof.
  intros [H [i [Hi N]]]. pose proof (pow_lt 2 100 ltac:(lra)) as P. apply Rinv_0_lt_compat in P.
  assert (forall i, (i < M)%nat -> 0 <= w i) as Z. { intros j Hj. destruct (H j Hj) as [_ [->|Q]]; lra. }
  split; [exact Z|]. apply Rlt_le_trans with (w i). { destruct (H i Hi) as [_ [E|Q]]; [contradiction|lra]. }
  apply Rle_trans with (sumn M (fun j => if Nat.eq_dec j i then w i else 0)); [right; symmetry; now apply sumn_delta|].
  apply sumn_le. intros j Hj. destruct (Nat.eq_dec j i) as [->|_]; [lra|now apply Z].
Qed.
Lemma wts_calc M t w i : wts64 M w -> (Z.of_nat M <= 2 ^ 26)%Z -> adds t M -> (Z.of_nat (height t) <= 2 ^ 52)%Z -> (i < M)%nat ->
  calc (height t + 2) 227 (weights_r b64 t w i) (nw M w i).
Proof.
  intros H HB A Hh Hi. pose proof (wts_pos M w H) as [_ P]. destruct H as [H _].
  assert (forall i, (i < M)%nat -> fmt (w i) /\ big 100 (w i)) as C.
  { intros j Hj. destruct (H j Hj) as [F Q]. split; [now apply is64_fmt|]. destruct Q as [Q|Q]; [now left|right]. rewrite bp_inv in Q. apply Q. }
  assert (calc (0 + height t) 100 (tsum b64 t w) (sumn M w)) as S.
  { apply tsum_n; [lia|exact A|]. intros j Hj. apply calc_exact; now apply C. }
  unfold weights_r, nw, rdiv. destruct (C i Hi). apply (calc_quot (height t) 100 100 127 227); auto; try lia.
  destruct S as (_ & _ & [_ W] & _). eapply Rle_trans; [exact W|]. simpl Nat.add.
  apply Rle_trans with (bp 126 * 2); [|change 2 with (bp 1); rewrite <- bpow_plus; right; reflexivity].
  apply Rmult_le_compat; [lra|pose proof (pow_hi (height t)); lra| |now apply pow_hi2].
  apply Rle_trans with (INR M * bp 100).
  - apply sumn_bound. intros j Hj. destruct (H j Hj) as [_ [->|Q]]; [apply bpow_ge_0|]. replace (bp 100) with (2 ^ 100); [apply Q|]. rewrite (bp_pow 100). exact (pow_powerRZ 2 100).
  - change 126%Z with (26 + 100)%Z. rewrite bpow_plus. apply Rmult_le_compat_r; [apply bpow_ge_0|]. rewrite INR_IZR, <- (IZR_Zpower radix2) by lia. apply IZR_le. exact HB.
Qed.
Lemma nw_sum M w : sumn M w <> 0 -> sumn M (nw M w) = 1.
Proof. intros H. unfold nw, Rdiv. rewrite (sumn_ext M _ (fun i => / sumn M w * w i)) by (intros; ring). rewrite sumn_scal. now apply Rinv_l. Qed.

(** ** scores from computed distances and computed weights *)
Section Wdist.
Variables (M k kw : nat) (e E w W : nat -> R) (d F : nat -> nat -> R).
Hypothesis HM : (0 < M)%nat.
Hypothesis He : forall i, (i < M)%nat -> calc k 401 (e i) (E i).
Hypothesis Hd : forall i j, (i < M)%nat -> (j < M)%nat -> calc k 401 (d i j) (F i j).
Hypothesis Hw : forall i, (i < M)%nat -> calc kw 227 (w i) (W i).
Lemma wterm a A i : (i < M)%nat -> calc k 401 a A -> calc (k + kw + 1) 628 (rmul b64 a (w i)) (W i * A).
Proof. intros Hi H. rewrite Rmult_comm, Nat.add_1_r. apply (calc_mul k kw 401 227 628); auto; lia. Qed.
Lemma wterm2 a A i j : (i < M)%nat -> (j < M)%nat -> calc k 401 a A -> calc (k + 2 * kw + 2) 855 (rmul b64 (rmul b64 a (w i)) (w j)) (W i * W j * A).
Proof.
  intros Hi Hj H. replace (W i * W j * A) with (W i * A * W j) by ring. replace (k + 2 * kw + 2)%nat with (S (k + kw + 1 + kw)) by lia.
  apply (calc_mul _ kw 628 227 855); auto; try lia. now apply wterm.
Qed.
Lemma wd1_arr t : adds t M -> calc (height t + k + kw + 1) 628 (tsum b64 t (fun i => rmul b64 (e i) (w i))) (sumn M (fun i => W i * E i)).
Proof.
  intros Ht. replace (height t + k + kw + 1)%nat with (k + kw + 1 + height t)%nat by lia. apply tsum_n; [lia|exact Ht|]. intros i Hi. now apply wterm; auto.
Qed.
Lemma wd1_k : calc (M + k + kw + 1) 628 (lsum b64 (map (fun i => rmul b64 (e i) (w i)) (seq 0 M))) (sumn M (fun i => W i * E i)).
Proof.
  replace (M + k + kw + 1)%nat with (k + kw + 1 + length (map (fun i => rmul b64 (e i) (w i)) (seq 0 M)))%nat by (rewrite map_length, seq_length; lia).
  apply lsum_calc; [lia|]. apply F2_map. intros i Hi. apply in_seq in Hi. apply wterm; [lia|]. apply He. lia.
Qed.
Lemma wd2_arr t f : adds t (M * M) -> (forall n, (n < M * M)%nat -> calc k 401 (f n) (F (n / M)%nat (n mod M)%nat)) ->
  calc (height t + k + 2 * kw + 3) 856 (rmul b64 (1 / 2) (tsum b64 t (fun n => rmul b64 (rmul b64 (f n) (w (n / M)%nat)) (w (n mod M)%nat))))
    (/ 2 * sumn M (fun i => sumn M (fun j => W i * W j * F i j))).
Proof.
  intros Ht Hf. replace (height t + k + 2 * kw + 3)%nat with (S (k + 2 * kw + 2 + height t)) by lia. apply (half_calc M HM _ 855); [lia|].
  rewrite <- (sumn_grid M M (fun i j => W i * W j * F i j)) by exact HM. apply (tsum_n t (M * M)); [lia|exact Ht|]. intros n Hn. apply wterm2; [apply Nat.div_lt_upper_bound; lia|apply Nat.mod_upper_bound; lia|now apply Hf].
Qed.
Lemma wd2_lag_arr t (g h : nat -> nat) f : adds t M -> (forall i, (i < M)%nat -> (h i < M)%nat) -> (forall i, (i < M)%nat -> calc k 401 (f i) (F (h i) (g i))) ->
  calc (height t + k + kw + 2) 629 (rmul b64 (1 / 2) (tsum b64 t (fun i => rmul b64 (f i) (w (h i))))) (/ 2 * sumn M (fun i => W (h i) * F (h i) (g i))).
Proof.
  intros Ht Hh Hf. replace (height t + k + kw + 2)%nat with (S (k + kw + 1 + height t)) by lia. apply (half_calc M HM _ 628); [lia|].
  apply (tsum_n t M); [lia|exact Ht|]. intros i Hi. apply wterm; auto.
Qed.
Lemma wtri (a : nat -> nat -> R) (c : R) : (forall i j, F i j = F j i) -> (forall i, F i i = 0) ->
  (forall i j, (i < M)%nat -> (j < M)%nat -> calc (k + 2 * kw + 2) 855 (a i j) (c * (W i * W j * F i j))) ->
  calc (M * (M - 1) / 2 + k + 2 * kw + 2) 855 (lsum b64 (flat_map (fun i => map (a i) (seq (i + 1) (M - (i + 1)))) (seq 0 M)))
    (c * (/ 2 * sumn M (fun i => sumn M (fun j => W i * W j * F i j)))).
Proof.
  intros Fs F0 Ha.
  assert (M * (M - 1) / 2 = length (flat_map (fun i => map (a i) (seq (i + 1) (M - (i + 1)))) (seq 0 M)))%nat as ->.
  { symmetry. apply Nat.div_unique with (r := O); [lia|]. rewrite (tri_len M a M) by lia. nia. }
  set (l := flat_map _ _). replace (length l + k + 2 * kw + 2)%nat with (k + 2 * kw + 2 + length l)%nat by lia.
  assert (c * (/ 2 * sumn M (fun i => sumn M (fun j => W i * W j * F i j))) = Rsum (flat_map (fun i => map (fun j => c * (W i * W j * F i j)) (seq (i + 1) (M - (i + 1)))) (seq 0 M))) as ->.
  { rewrite Rsum_flat_map. rewrite (sumn_triangle M (fun i j => W i * W j * F i j)); [|intros; rewrite Fs; ring|intros; rewrite F0; ring].
    match goal with |- c * (/ 2 * (2 * ?s)) = _ => replace (c * (/ 2 * (2 * s))) with (c * s) by field end. rewrite <- sumn_scal. unfold sumn at 1. apply Rsum_map_ext. intros i _. now rewrite <- Rsum_map_scal. }
  apply lsum_calc; [lia|]. apply F2_flat. intros i Hi. apply in_seq in Hi. apply F2_map. intros j Hj. apply in_seq in Hj. apply Ha; lia.
Qed.
Lemma wd2_lag_k (g : nat -> nat) f : (forall i, (i < M)%nat -> calc k 401 (f i) (F i (g i))) ->
  calc (M + k + kw + 2) 629 (rmul b64 (1 / 2) (lsum b64 (map (fun i => rmul b64 (f i) (w i)) (seq 0 M)))) (/ 2 * sumn M (fun i => W i * F i (g i))).
Proof.
  intros Hf. replace (M + k + kw + 2)%nat with (S (k + kw + 1 + length (map (fun i => rmul b64 (f i) (w i)) (seq 0 M)))) by (rewrite map_length, seq_length; lia).
  apply (half_calc M HM _ 628); [lia|]. apply lsum_calc; [lia|]. apply F2_map. intros i Hi. apply in_seq in Hi. apply wterm; [lia|]. apply Hf. lia.
Qed.
(** the spread is at most the share 1 - delta of the error, delta the smallest positive weight *)
Lemma wshare delta : sumn M W = 1 -> (forall i, (i < M)%nat -> W i = 0 \/ delta <= W i) -> (forall i, (i < M)%nat -> 0 <= W i) -> (forall i, (i < M)%nat -> 0 <= E i) ->
  (forall i j, (i < M)%nat -> (j < M)%nat -> F i j <= E i + E j) -> (forall i, F i i = 0) ->
  / 2 * sumn M (fun i => sumn M (fun j => W i * W j * F i j)) <= sumn M (fun i => W i * E i) * (1 - delta).
Proof.
  intros S1 D W0 E0 Ft F0.
  apply Rle_trans with (/ 2 * sumn M (fun i => sumn M (fun j => W i * W j * (E i + E j)) - 2 * (W i * W i * E i))).
  - apply Rmult_le_compat_l; [lra|]. apply sumn_le. intros i Hi. replace (2 * (W i * W i * E i)) with (sumn M (fun j => if Nat.eq_dec j i then 2 * (W i * W i * E i) else 0)) by now apply sumn_delta.
    rewrite <- sumn_minus. apply sumn_le. intros j Hj. destruct (Nat.eq_dec j i) as [->|Hn]; [rewrite F0; lra|]. rewrite Rminus_0_r. apply Rmult_le_compat_l; [apply Rmult_le_pos; auto|now apply Ft].
  - rewrite sumn_minus, sumn_scal.
    assert (sumn M (fun i => sumn M (fun j => W i * W j * (E i + E j))) = 2 * sumn M (fun i => W i * E i)) as ->.
    { rewrite (sumn_ext M _ (fun i => W i * E i * sumn M W + sumn M (fun j => W j * E j) * W i)).
      2:{ intros i Hi. rewrite <- sumn_scal. rewrite (Rmult_comm _ (W i)), <- sumn_scal, <- sumn_plus. apply sumn_ext. intros. ring. }
      rewrite sumn_plus, sumn_scal, S1. rewrite (sumn_ext M (fun i => W i * E i * 1) (fun i => W i * E i)) by (intros; ring). lra. }
    assert (delta * sumn M (fun i => W i * E i) <= sumn M (fun i => W i * W i * E i)); [|lra].
    rewrite <- sumn_scal. apply sumn_le. intros i Hi. destruct (D i Hi) as [->|H]; [lra|]. rewrite <- Rmult_assoc. apply Rmult_le_compat_r; [auto|]. apply Rmult_le_compat_r; auto.
Qed.
Lemma wge_calc delta i j p q a A b B : calc i p a A -> calc j q b B -> B <= A * (1 - delta) -> INR (i + j) * u64 <= delta -> b <= a.
Proof.
  intros (_ & P & [W1 _] & _) (_ & P' & [_ W'] & _) S0 L. pose proof u64_pos as U.
  pose proof (bern (i + j)) as BE. rewrite pow_add in BE.
  pose proof (pow_lo i) as PK. pose proof (pow_lo j) as PL. pose proof (pow_hi j) as PH. pose proof (pow_both j) as [_ C].
  apply Rle_trans with (A * (1 - u64) ^ i); [|exact W1]. eapply Rle_trans; [exact W'|].
  apply Rle_trans with (A * (1 - delta) * (1 + u64) ^ j); [apply Rmult_le_compat_r; lra|].
  rewrite Rmult_assoc. apply Rmult_le_compat_l; [exact P|].
  apply Rle_trans with ((1 - u64) ^ i * (1 - u64) ^ j * (1 + u64) ^ j); [apply Rmult_le_compat_r; lra|].
  rewrite Rmult_assoc. pose proof (Rmult_le_compat_l ((1 - u64) ^ i) _ _ ltac:(lra) C). lra.
Qed.
End Wdist.
