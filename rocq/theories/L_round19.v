(** Rounding errors of the outcome-weighted and the vertically re-scaled energy score, for computed
    distances with a known number of roundings. *)
From Coq Require Import Reals List ZArith Permutation Lia Lra Psatz.
From Flocq Require Import Core.
From Verif Require Import Num L_crps_row L_crps_real L_crps_omit L_crps_math.
From Verif Require Export L_round18 M_round13 S_round4 S_round7 S_round5 S_round.
Import ListNotations.
Open Scope R_scope.

Local Notation fmt := (generic_format radix2 (FLT_exp (-1074) 53)).
Local Notation bp := (bpow radix2).

Lemma calc_diff2 k l K p q x X y Y : calc k p x X -> calc l q y Y -> (S (Nat.max k l) <= K)%nat -> Rabs (b64 (x - y) - (X - Y)) <= ((1 + u64) ^ K - 1) * (X + Y).
Proof.
  intros H H' L. destruct K as [|K]; [lia|]. apply appr_of_calc, (appr_le k K 0 0) in H; [|lia|lra]. apply appr_of_calc, (appr_le l K 0 0) in H'; [|lia|lra].
  destruct (appr_sub _ _ _ _ _ _ _ _ _ H H') as (_ & _ & _ & E). rewrite Rplus_0_r, Rmult_0_l, Rplus_0_r in E. lra.
Qed.
Lemma dummy M : (0 < M)%nat -> (Z.of_nat M <= 2 ^ 26)%Z -> wens64 M 0 (fun _ => 0).
Proof. intros H L. assert (is64 0) as F by (exists 0%Z, 0%Z; split; [simpl; ring|split; lia]). split; [exact H|]. split; [exact L|]. split; [exact F|]. split; intros; [split; [exact F|]|]; now left. Qed.

Section G.
Variables (M : nat) (ow : R) (fw : nat -> R) (t0 : stree) (k : nat) (E : nat -> R) (Dd : nat -> nat -> R).
Hypothesis HM : (0 < M)%nat.
Hypothesis LM : (Z.of_nat M <= 2 ^ 26)%Z.
Hypothesis HW : wts64 M fw.
Hypothesis Ho : wt64 ow.
Hypothesis A0 : adds t0 M.
Hypothesis Ds : forall i j, Dd i j = Dd j i.
Hypothesis Dz : forall i, Dd i i = 0.
Local Notation h0 := (height t0).
Local Notation S0 := (sumn M fw).
Local Notation wbar := (b64 (tsum b64 t0 fw / INR M)).
Local Notation mw := (b64 (INR M * wbar)).
Local Notation W := (nw M fw).
Local Notation u i := (fw i / INR M).
Lemma gPM : 0 < INR M. Proof. now apply lt_0_INR. Qed.
Lemma gS : 0 < S0. Proof. apply (wts_pos M fw HW). Qed.
Lemma gfw i : (i < M)%nat -> calc 0 100 (fw i) (fw i). Proof. now apply (ofw M fw HW). Qed.
Lemma gow : calc 0 100 ow ow. Proof. now apply oow. Qed.
Lemma gbar : calc (h0 + 1) 126 wbar (S0 / INR M). Proof. apply (owbar M 0 (fun _ => 0) fw t0); auto using dummy. Qed.
Lemma gmw : calc (h0 + 2) 126 mw S0. Proof. apply (omw M 0 (fun _ => 0) fw t0); auto using dummy. Qed.
Lemma gMM : (Z.of_nat (M * M) <= 2 ^ 52)%Z.
Proof. rewrite Nat2Z.inj_mul. change (2 ^ 52)%Z with (2 ^ 26 * 2 ^ 26)%Z. apply Z.mul_le_mono_nonneg; lia. Qed.
Lemma gbar_le : S0 / INR M <= bp 100.
Proof.
  pose proof gPM. apply Rmult_le_reg_r with (INR M); [assumption|]. unfold Rdiv. rewrite Rmult_assoc, Rinv_l, Rmult_1_r, Rmult_comm by lra. apply sumn_bound. intros j Hj. destruct HW as [H' _]. destruct (H' j Hj) as [_ [->|Q]]; [apply bpow_ge_0|].
  replace (bp 100) with (2 ^ 100); [apply Q|]. rewrite (bp_pow 100). exact (pow_powerRZ 2 100).
Qed.
Lemma gsq : calc (2 * h0 + 3) 252 (b64 (wbar * wbar)) (S0 / INR M * (S0 / INR M)).
Proof. replace (2 * h0 + 3)%nat with (S (h0 + 1 + (h0 + 1))) by lia. apply (calc_mul (h0 + 1) (h0 + 1) 126 126 252); try lia; apply gbar. Qed.
Lemma gbarp : 0 < S0 / INR M. Proof. apply Rdiv_lt_0_compat; [apply gS|apply gPM]. Qed.
Lemma gsq_le : S0 / INR M * (S0 / INR M) <= bp 200.
Proof. change 200%Z with (100 + 100)%Z. rewrite bpow_plus. pose proof gbar_le. pose proof gbarp. apply Rmult_le_compat; lra. Qed.
Local Notation E1 := (ow * sumn M (fun i => W i * E i)).
Local Notation E2 := (ow * (/ 2 * sumn M (fun i => sumn M (fun j => W i * W j * Dd i j)))).
Lemma gE1 : E1 = sumn M (fun i => E i * fw i * ow) / S0.
Proof. pose proof gS. unfold nw. rewrite (sumn_ext M (fun i => E i * fw i * ow) (fun i => ow * S0 * (fw i / S0 * E i))) by (intros; field; lra). rewrite sumn_scal. field. lra. Qed.
Lemma gE2 : E2 = / 2 * (sumn M (fun i => sumn M (fun j => Dd i j * (fw i * fw j * ow))) / (S0 * S0)).
Proof.
  pose proof gS. unfold nw. rewrite (sumn_ext M (fun i => sumn M (fun j => Dd i j * (fw i * fw j * ow))) (fun i => ow * (S0 * S0) * sumn M (fun j => fw i / S0 * (fw j / S0) * Dd i j))).
  - rewrite sumn_scal. field. lra.
  - intros i Hi. rewrite <- sumn_scal. apply sumn_ext. intros. field. lra.
Qed.
Lemma lsum_n (a A : nat -> R) l p : (p <= 1074)%Z -> (forall i, (i < M)%nat -> calc l p (a i) (A i)) -> calc (l + M) p (lsum b64 (map a (seq 0 M))) (sumn M A).
Proof.
  intros L H. replace M with (length (map a (seq 0 M))) at 1 by (rewrite map_length, seq_length; reflexivity). unfold sumn. apply lsum_calc; [lia|]. apply F2_map. intros i Hi. apply in_seq in Hi. apply H. lia.
Qed.
Lemma gterm ce i : (i < M)%nat -> calc k 401 (ce i) (E i) -> calc (k + 2) 601 (rmul b64 (rmul b64 (ce i) (fw i)) ow) (E i * fw i * ow).
Proof.
  intros Hi H. replace (k + 2)%nat with (S (S (k + 0) + 0)) by lia. apply (calc_mul _ 0 501 100 601); try lia; [|apply gow]. apply (calc_mul k 0 401 100 501); try lia; [exact H|now apply gfw].
Qed.
Lemma gdiv (n l : nat) p q r c X : (0 < n)%nat -> (Z.of_nat n <= 2 ^ q)%Z -> (0 <= q)%Z -> (p + q <= r)%Z -> (r <= 1022)%Z -> calc l p c X -> calc (l + 1) r (b64 (c / INR n)) (X / INR n).
Proof. intros. rewrite Nat.add_1_r. now apply (calc_div l p q r). Qed.
(** ** outcome-weighted *)
Hypothesis B0 : (Z.of_nat h0 <= 2 ^ 50)%Z.
Lemma gb : (Z.of_nat (2 * h0 + 5) <= 2 ^ 52)%Z. Proof. change (2 ^ 50)%Z with 1125899906842624%Z in B0. change (2 ^ 52)%Z with 4503599627370496%Z. lia. Qed.
Lemma g1_arr ce t1 : adds t1 M -> (forall i, (i < M)%nat -> calc k 401 (ce i) (E i)) ->
  calc (k + height t1 + h0 + 6) 728 (b64 (b64 (tsum b64 t1 (fun i => rmul b64 (rmul b64 (ce i) (fw i)) ow) / INR M) / wbar)) E1.
Proof.
  intros A1 H. pose proof gPM. pose proof gS. rewrite gE1. replace (sumn M (fun i => E i * fw i * ow) / S0) with (sumn M (fun i => E i * fw i * ow) / INR M / (S0 / INR M)) by (field; lra).
  replace (k + height t1 + h0 + 6)%nat with ((k + 2 + height t1 + 1) + (h0 + 1) + 2)%nat by lia. pose proof gb.
  apply (calc_quot2 _ (h0 + 1) 627 126 101); [lia|lia|lia| |apply gbar|apply gbarp|apply (calc_le_bp (h0 + 1) 126 _ (S0 / INR M) 100); [lia|apply gbar|apply gbar_le]].
  apply (gdiv M _ 601 26); try lia. apply (tsum_n t1 M (k + 2) 601); [lia|exact A1|]. intros i Hi. apply gterm; auto.
Qed.
Lemma g2_arr cd t2 : adds t2 (M * M) -> (forall n, (n < M * M)%nat -> calc k 401 (cd n) (Dd (n / M)%nat (n mod M)%nat)) ->
  calc (k + height t2 + 2 * h0 + 10) 955 (b64 (1 / 2 * b64 (b64 (tsum b64 t2 (fun n => rmul b64 (cd n) (rmul b64 (rmul b64 (fw (n / M)%nat) (fw (n mod M)%nat)) ow)) / INR (M * M)) / b64 (wbar * wbar)))) E2.
Proof.
  intros A2 H. pose proof gPM as PM. pose proof gS as PS. pose proof gbarp as PB. pose proof gb. rewrite gE2.
  replace (sumn M (fun i => sumn M (fun j => Dd i j * (fw i * fw j * ow))) / (S0 * S0)) with (sumn M (fun i => sumn M (fun j => Dd i j * (fw i * fw j * ow))) / INR (M * M) / (S0 / INR M * (S0 / INR M))) by (rewrite mult_INR; field; lra).
  replace (k + height t2 + 2 * h0 + 10)%nat with (S ((S (k + 2) + height t2 + 1) + (2 * h0 + 3) + 2)) by lia. replace (1 / 2) with (/ 2) by field. apply (calc_scal _ 954 1 955); [simpl; lra|lia|lia|].
  apply (calc_quot2 _ (2 * h0 + 3) 753 252 201); [lia|lia|lia| |apply gsq|nra|apply (calc_le_bp (2 * h0 + 3) 252 _ (S0 / INR M * (S0 / INR M)) 200); [lia|apply gsq|apply gsq_le]].
  apply (gdiv (M * M) _ 701 52); [nia|apply gMM|lia|lia|lia|]. rewrite <- (sumn_grid M M (fun i j => Dd i j * (fw i * fw j * ow))) by exact HM. apply (tsum_n t2 (M * M) (S (k + 2)) 701); [lia|exact A2|]. intros n Hn.
  assert (n / M < M)%nat by (apply Nat.div_lt_upper_bound; lia). assert (n mod M < M)%nat by (apply Nat.mod_upper_bound; lia).
  apply (calc_mul k 2 401 300 701); try lia; [now apply H|]. apply (calc_mul 1 0 200 100 300); try lia; [|apply gow]. apply (calc_mul 0 0 100 100 200); try lia; now apply gfw.
Qed.
Lemma g1_k ce : (forall i, (i < M)%nat -> calc k 401 (ce i) (E i)) ->
  calc (k + M + h0 + 6) 728 (b64 (lsum b64 (map (fun i => rmul b64 (rmul b64 (ce i) (fw i)) ow) (seq 0 M)) / mw)) E1.
Proof.
  intros H. pose proof gS. pose proof gb. rewrite gE1. replace (k + M + h0 + 6)%nat with ((k + 2 + M) + (h0 + 2) + 2)%nat by lia.
  apply (calc_quot2 _ (h0 + 2) 601 126 127); [lia|lia|lia| |apply gmw|assumption|apply (calc_le_bp (h0 + 2) 126 _ S0 126); [lia|apply gmw|apply (oSle M 0 (fun _ => 0) fw); auto using dummy]].
  apply lsum_n; [lia|]. intros i Hi. apply gterm; auto.
Qed.
Lemma g2_k cd : (forall i j, (i < M)%nat -> (j < M)%nat -> calc k 401 (cd i j) (Dd i j)) ->
  calc (k + M * (M - 1) / 2 + 2 * h0 + 10) 955
    (b64 (b64 (1 / 2 * lsum b64 (flat_map (fun i => map (fun j => rmul b64 2 (rmul b64 (rmul b64 (rmul b64 (cd i j) (fw i)) (fw j)) ow)) (seq (i + 1) (M - (i + 1)))) (seq 0 M))) / b64 (INR (M * M) * b64 (wbar * wbar)))) E2.
Proof.
  intros H. pose proof gPM as PM. pose proof gS as PS. pose proof gb. rewrite gE2.
  replace (/ 2 * (sumn M (fun i => sumn M (fun j => Dd i j * (fw i * fw j * ow))) / (S0 * S0))) with (/ 2 * (/ 2 * sumn M (fun i => sumn M (fun j => 2 * (Dd i j * fw i * fw j * ow)))) / (S0 * S0)).
  2:{ rewrite (sumn_ext M (fun i => sumn M (fun j => 2 * (Dd i j * fw i * fw j * ow))) (fun i => 2 * sumn M (fun j => Dd i j * (fw i * fw j * ow)))) by (intros; rewrite <- sumn_scal; apply sumn_ext; intros; ring). rewrite sumn_scal. field. lra. }
  assert (calc (2 * h0 + 4) 252 (b64 (INR (M * M) * b64 (wbar * wbar))) (S0 * S0)) as C.
  { replace (2 * h0 + 4)%nat with (S (2 * h0 + 3)) by lia. replace (S0 * S0) with (INR (M * M) * (S0 / INR M * (S0 / INR M))) by (rewrite mult_INR; field; lra). apply (calc_scal _ 252 0 252); try lia; [|apply gsq]. pose proof (le_INR 1 (M * M) ltac:(nia)) as Q. simpl (INR 1) in Q. simpl. lra. }
  replace (k + M * (M - 1) / 2 + 2 * h0 + 10)%nat with (S (M * (M - 1) / 2 + (k + 3)) + (2 * h0 + 4) + 2)%nat by lia.
  apply (calc_quot2 _ (2 * h0 + 4) 702 252 253); [lia|lia|lia| |exact C|nra|apply (calc_le_bp (2 * h0 + 4) 252 _ (S0 * S0) 252); [lia|exact C|apply (oSS M 0 (fun _ => 0) fw); auto using dummy]].
  replace (1 / 2) with (/ 2) by field. apply (calc_scal _ 701 1 702); [simpl; lra|lia|lia|]. apply (tri_calc M (k + 3) 701); [lia|intros i j; rewrite (Ds i j); ring|intros; rewrite Dz; ring|].
  intros i j Hi Hj. apply calc_double. replace (k + 3)%nat with (S (S (S (k + 0) + 0) + 0)) by lia. apply (calc_mul _ 0 601 100 701); try lia; [|apply gow]. apply (calc_mul _ 0 501 100 601); try lia; [|now apply gfw]. apply (calc_mul k 0 401 100 501); try lia; [now apply H|now apply gfw].
Qed.
(** ** vertically re-scaled *)
Local Notation V1 := (ow * sumn M (fun i => u i * E i)).
Local Notation V2 := (/ 2 * sumn M (fun i => sumn M (fun j => u i * u j * Dd i j))).
Lemma gV1 : V1 = sumn M (fun i => E i * fw i * ow) / INR M.
Proof. pose proof gPM. rewrite (sumn_ext M (fun i => E i * fw i * ow) (fun i => ow * INR M * (fw i / INR M * E i))) by (intros; field; lra). rewrite sumn_scal. field. lra. Qed.
Lemma gV2 : V2 = / 2 * (sumn M (fun i => sumn M (fun j => Dd i j * (fw j * fw i))) / INR (M * M)).
Proof.
  pose proof gPM. rewrite (sumn_ext M (fun i => sumn M (fun j => Dd i j * (fw j * fw i))) (fun i => INR (M * M) * sumn M (fun j => fw i / INR M * (fw j / INR M) * Dd i j))).
  - rewrite sumn_scal. rewrite mult_INR. field. lra.
  - intros i Hi. rewrite <- sumn_scal. apply sumn_ext. intros. rewrite mult_INR. field. lra.
Qed.
Lemma v1_arr ce t1 : adds t1 M -> (forall i, (i < M)%nat -> calc k 401 (ce i) (E i)) -> calc (k + height t1 + 3) 627 (b64 (tsum b64 t1 (fun i => rmul b64 (ce i) (rmul b64 (fw i) ow)) / INR M)) V1.
Proof.
  intros A1 H. rewrite gV1. replace (k + height t1 + 3)%nat with (S (k + 1) + height t1 + 1)%nat by lia. apply (gdiv M _ 601 26); try lia. rewrite (sumn_ext M (fun i => E i * fw i * ow) (fun i => E i * (fw i * ow))) by (intros; ring).
  apply (tsum_n t1 M (S (k + 1)) 601); [lia|exact A1|]. intros i Hi. apply (calc_mul k 1 401 200 601); try lia; [now apply H|]. apply (calc_mul 0 0 100 100 200); try lia; [now apply gfw|apply gow].
Qed.
Lemma v2_arr cd t2 : adds t2 (M * M) -> (forall n, (n < M * M)%nat -> calc k 401 (cd n) (Dd (n / M)%nat (n mod M)%nat)) ->
  calc (k + height t2 + 4) 654 (b64 (1 / 2 * b64 (tsum b64 t2 (fun n => rmul b64 (cd n) (rmul b64 (fw (n mod M)%nat) (fw (n / M)%nat))) / INR (M * M)))) V2.
Proof.
  intros A2 H. rewrite gV2. replace (k + height t2 + 4)%nat with (S (S (k + 1) + height t2 + 1))%nat by lia. replace (1 / 2) with (/ 2) by field. apply (calc_scal _ 653 1 654); [simpl; lra|lia|lia|].
  apply (gdiv (M * M) _ 601 52); [nia|apply gMM|lia|lia|lia|]. rewrite <- (sumn_grid M M (fun i j => Dd i j * (fw j * fw i))) by exact HM. apply (tsum_n t2 (M * M) (S (k + 1)) 601); [lia|exact A2|]. intros n Hn.
  assert (n / M < M)%nat by (apply Nat.div_lt_upper_bound; lia). assert (n mod M < M)%nat by (apply Nat.mod_upper_bound; lia).
  apply (calc_mul k 1 401 200 601); try lia; [now apply H|]. apply (calc_mul 0 0 100 100 200); try lia; now apply gfw.
Qed.
Lemma v1_k ce : (forall i, (i < M)%nat -> calc k 401 (ce i) (E i)) -> calc (k + M + 3) 627 (b64 (lsum b64 (map (fun i => rmul b64 (rmul b64 (ce i) (fw i)) ow) (seq 0 M)) / INR M)) V1.
Proof. intros H. rewrite gV1. replace (k + M + 3)%nat with (k + 2 + M + 1)%nat by lia. apply (gdiv M _ 601 26); try lia. apply lsum_n; [lia|]. intros i Hi. apply gterm; auto. Qed.
Lemma v2_k cd : (forall i j, (i < M)%nat -> (j < M)%nat -> calc k 401 (cd i j) (Dd i j)) ->
  calc (k + M * (M - 1) / 2 + 4) 654 (b64 (b64 (1 / 2 * lsum b64 (flat_map (fun i => map (fun j => rmul b64 2 (rmul b64 (rmul b64 (cd i j) (fw i)) (fw j))) (seq (i + 1) (M - (i + 1)))) (seq 0 M))) / INR (M * M))) V2.
Proof.
  intros H. pose proof gPM. rewrite gV2. replace (/ 2 * (sumn M (fun i => sumn M (fun j => Dd i j * (fw j * fw i))) / INR (M * M))) with (/ 2 * (/ 2 * sumn M (fun i => sumn M (fun j => 2 * (Dd i j * fw i * fw j)))) / INR (M * M)).
  2:{ rewrite (sumn_ext M (fun i => sumn M (fun j => 2 * (Dd i j * fw i * fw j))) (fun i => 2 * sumn M (fun j => Dd i j * (fw j * fw i)))) by (intros; rewrite <- sumn_scal; apply sumn_ext; intros; ring). rewrite sumn_scal, mult_INR. field. lra. }
  replace (k + M * (M - 1) / 2 + 4)%nat with (S (M * (M - 1) / 2 + (k + 2)) + 1)%nat by lia. apply (gdiv (M * M) _ 602 52); [nia|apply gMM|lia|lia|lia|].
  replace (1 / 2) with (/ 2) by field. apply (calc_scal _ 601 1 602); [simpl; lra|lia|lia|]. apply (tri_calc M (k + 2) 601); [lia|intros i j; rewrite (Ds i j); ring|intros; rewrite Dz; ring|].
  intros i j Hi Hj. apply calc_double. replace (k + 2)%nat with (S (S (k + 0) + 0)) by lia. apply (calc_mul _ 0 501 100 601); try lia; [|now apply gfw]. apply (calc_mul k 0 401 100 501); try lia; [now apply H|now apply gfw].
Qed.
Lemma v3_g kx ky wx wy X Y : calc kx 527 wx X -> calc ky 501 wy Y -> (ky <= kx)%nat ->
  appr (kx + h0 + 4) 0 (b64 (b64 (wx - wy) * b64 (wbar - ow))) ((X - Y) * (S0 / INR M - ow)) ((X + Y) * (S0 / INR M + ow)).
Proof.
  intros Cx Cy L. pose proof gbar as Cb. pose proof gow as Co. replace (kx + h0 + 4)%nat with (S (S kx + S (h0 + 1)))%nat by lia. apply (appr_mul _ _ 757); [lia| | |].
  - apply (appr_le (S kx) (S kx) (0 + 0) 0); [lia|lra|]. apply appr_sub; [apply (appr_of_calc _ 527), Cx|]. apply (appr_le ky _ 0); [lia|lra|apply (appr_of_calc _ 501), Cy].
  - apply (appr_le (S (h0 + 1)) (S (h0 + 1)) (0 + 0) 0); [lia|lra|]. apply appr_sub; [apply (appr_of_calc _ 126), Cb|]. apply (appr_le 0 _ 0); [lia|lra|apply (appr_of_calc _ 100), Co].
  - destruct Cx as (Fx & _ & _ & Bx). destruct Cy as (Fy & _ & _ & By). destruct Cb as (Fb & _ & _ & Bb). destruct Co as (Fo & _ & _ & Bo).
    apply (big_mul 579 178); [lia|lia| |]; apply big_b64; try lia; [apply (big_diff 527)|apply (big_diff 126)]; auto; [apply (big_le 501)|apply (big_le 100)]; auto; lia.
Qed.
Lemma v_fin k1 k2 kx ky K c1 c2 p1 p2 wx wy X Y : calc k1 p1 c1 V1 -> calc k2 p2 c2 V2 -> calc kx 527 wx X -> calc ky 501 wy Y -> (ky <= kx)%nat -> (S (S (Nat.max k1 k2)) <= K)%nat -> (kx + h0 + 5 <= K)%nat ->
  Rabs (b64 (b64 (c1 - c2) + b64 (b64 (wx - wy) * b64 (wbar - ow))) - (V1 - V2 + (X - Y) * (S0 / INR M - ow))) <= ((1 + u64) ^ K - 1) * (V1 + V2 + (X + Y) * (S0 / INR M + ow)).
Proof.
  intros C1 C2 Cx Cy Lx L L'. destruct K as [|K]; [lia|]. apply appr_of_calc, (appr_le k1 (Nat.max k1 k2) 0 0) in C1; [|lia|lra]. apply appr_of_calc, (appr_le k2 (Nat.max k1 k2) 0 0) in C2; [|lia|lra].
  pose proof (appr_sub _ _ _ _ _ _ _ _ _ C1 C2) as D. apply (appr_le _ K _ 0) in D; [|lia|lra]. pose proof (v3_g kx ky wx wy X Y Cx Cy Lx) as T. apply (appr_le _ K _ 0) in T; [|lia|lra].
  destruct (appr_add0 _ _ _ _ _ _ _ D T) as (_ & _ & _ & Q). rewrite Rmult_0_l, Rplus_0_r in Q. lra.
Qed.
End G.
Lemma nrm_calc0 n D nrm v : norm64 n D nrm -> (Z.of_nat n <= 2 ^ 52)%Z -> (forall k, (k < D)%nat -> is64 (v k) /\ apart 400 (v k) 0) -> calc n 401 (nrm v) (enorm D v).
Proof.
  intros HN Hn H. destruct (HN v H) as [F W]. split; [now apply is64_fmt|]. split; [apply sqrt_pos|]. split; [exact W|].
  destruct (vnorm_big D v ltac:(intros; now apply H)) as [E|B].
  - left. destruct W as [W1 W2]. rewrite E, !Rmult_0_l in *. lra.
  - right. destruct W as [W1 _]. eapply Rle_trans; [|exact W1].
    assert (/ 2 <= (1 - u64) ^ n) as Q.
    { eapply Rle_trans; [|apply bern]. assert (INR n * u64 <= / 2); [|lra]. rewrite u64_bp, INR_IZR.
      apply Rle_trans with (bp 52 * bp (-53)); [|rewrite <- bpow_plus; right; reflexivity]. apply Rmult_le_compat_r; [apply bpow_ge_0|].
      rewrite <- (IZR_Zpower radix2) by lia. apply IZR_le. exact Hn. }
    replace (bp (- (401))) with (bp (- (400)) * / 2); [apply Rmult_le_compat; [apply bpow_ge_0|lra|exact B|exact Q]|].
    change (/ 2) with (bp (-1)). rewrite <- bpow_plus. reflexivity.
Qed.
