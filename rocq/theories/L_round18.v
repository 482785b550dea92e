(** Rounding errors of the vertically re-scaled ensemble CRPS. *)
From Coq Require Import Reals List ZArith Permutation Lia Lra Psatz.
From Flocq Require Import Core.
From Verif Require Import Num L_crps_row L_crps_real L_crps_omit L_crps_math.
From Verif Require Export L_round16 L_round17 M_round12 S_round7 S_round5 S_round.
Import ListNotations.
Open Scope R_scope.

Local Notation fmt := (generic_format radix2 (FLT_exp (-1074) 53)).
Local Notation bp := (bpow radix2).

(** numbers of the format that are not small are multiples of a power of two, hence not close to each other *)
Lemma big_multiple p x : fmt x -> big p x -> exists m, x = IZR m * bp (- p - 52).
Proof.
  intros F [->|H]; [exists 0%Z; ring|]. assert (x <> 0) as N by (pose proof (bpow_gt_0 radix2 (- p)); lra).
  assert (- p - 52 <= cexp radix2 (FLT_exp (-1074) 53) x)%Z as L.
  { unfold cexp, FLT_exp. assert (- p < mag radix2 x)%Z; [|lia]. apply mag_gt_bpow. rewrite Rabs_pos_eq; [exact H|]. pose proof (bpow_ge_0 radix2 (- p)). lra. }
  exists (Ztrunc (scaled_mantissa radix2 (FLT_exp (-1074) 53) x) * 2 ^ (cexp radix2 (FLT_exp (-1074) 53) x - (- p - 52)))%Z.
  rewrite F at 1. unfold F2R. cbn [Fnum Fexp]. rewrite mult_IZR. change (2 ^ ?e)%Z with (radix2 ^ e)%Z. rewrite IZR_Zpower by lia. rewrite Rmult_assoc, <- bpow_plus. do 2 f_equal. ring.
Qed.
Lemma big_diff p x y : fmt x -> fmt y -> big p x -> big p y -> big (p + 52) (Rabs (x - y)).
Proof.
  intros Fx Fy Hx Hy. destruct (big_multiple p x Fx Hx) as [m ->]. destruct (big_multiple p y Fy Hy) as [n ->]. rewrite <- Rmult_minus_distr_r, <- minus_IZR, Rabs_mult, <- abs_IZR, (Rabs_pos_eq (bp _)) by apply bpow_ge_0.
  destruct (Z.eq_dec m n) as [->|N]; [left; rewrite Z.sub_diag; simpl; ring|right]. replace (- (p + 52))%Z with (- p - 52)%Z by lia. pose proof (bpow_gt_0 radix2 (- p - 52)).
  assert (1 <= IZR (Z.abs (m - n))) by (apply (IZR_le 1); lia). nra.
Qed.

Section Vr.
Variables (M : nat) (y ow : R) (x fw : nat -> R) (t0 ta : stree).
Hypothesis HV : vens64 M y x.
Hypothesis HW : wts64 M fw.
Hypothesis Ho : wt64 ow.
Hypothesis A0 : adds t0 M.
Hypothesis Aa : adds ta M.
Local Notation h0 := (height t0).
Local Notation ha := (height ta).
Lemma vHE : wens64 M y x. Proof. apply HV. Qed.
Lemma vM0 : (0 < M)%nat. Proof. apply vHE. Qed.
Lemma vPM : 0 < INR M. Proof. apply lt_0_INR, vM0. Qed.
Lemma vMM : (Z.of_nat (M * M) <= 2 ^ 52)%Z.
Proof. assert (Z.of_nat M <= 2 ^ 26)%Z as H by apply vHE. rewrite Nat2Z.inj_mul. change (2 ^ 52)%Z with (2 ^ 26 * 2 ^ 26)%Z. apply Z.mul_le_mono_nonneg; lia. Qed.
Lemma vow : calc 0 100 ow ow. Proof. now apply oow. Qed.
Lemma vfw i : (i < M)%nat -> calc 0 100 (fw i) (fw i). Proof. now apply (ofw M fw HW). Qed.
Lemma vabs v : is64 v -> apart 400 v 0 -> calc 0 400 (Rabs v) (Rabs v).
Proof. intros F A. apply calc_exact; [apply generic_format_abs, is64_fmt, F|]. apply (apart_bigp 400) in A. rewrite Rminus_0_r in A. exact A. Qed.
(** the third part *)
Local Notation wx := (b64 (tsum b64 ta (fun i => rmul b64 (Rabs (x i)) (fw i)) / INR M)).
Local Notation wy := (b64 (Rabs y * ow)).
Local Notation wb := (b64 (tsum b64 t0 fw / INR M)).
Local Notation E3 := ((vr_x M x fw - ow * Rabs y) * (sumn M fw / INR M - ow)).
Local Notation A3 := ((vr_x M x fw + ow * Rabs y) * (sumn M fw / INR M + ow)).
Lemma vwx : calc (ha + 2) 526 wx (vr_x M x fw).
Proof.
  replace (ha + 2)%nat with (S (1 + ha)) by lia. apply (calc_div (1 + ha) 500 26 526); try lia; [apply vM0|apply vHE|]. rewrite (sumn_ext M (fun i => fw i * Rabs (x i)) (fun i => Rabs (x i) * fw i)) by (intros; ring).
  apply (tsum_n ta M 1 500); [lia|exact Aa|]. intros i Hi. apply (calc_mul 0 0 400 100 500); try lia; [apply vabs; [now apply vHE|now apply HV]|now apply vfw].
Qed.
Lemma vwy : calc 1 500 wy (ow * Rabs y).
Proof. rewrite (Rmult_comm ow). apply (calc_mul 0 0 400 100 500); try lia; [apply vabs; [apply vHE|apply HV]|apply vow]. Qed.
Lemma vwb : calc (h0 + 1) 126 wb (sumn M fw / INR M).
Proof. now apply (owbar M y x fw t0 vHE HW). Qed.
Lemma v3 : appr (ha + h0 + 6) 0 (b64 (b64 (wx - wy) * b64 (wb - ow))) E3 A3.
Proof.
  pose proof vwx as Cx. pose proof vwy as Cy. pose proof vwb as Cb. pose proof vow as Co.
  replace (ha + h0 + 6)%nat with (S (S (ha + 2) + S (h0 + 1)))%nat by lia. apply (appr_mul _ _ 756); [lia| | |].
  - apply (appr_le (S (ha + 2)) (S (ha + 2)) (0 + 0) 0); [lia|lra|]. apply appr_sub; [apply (appr_of_calc _ 526), Cx|]. apply (appr_le 1 _ 0); [lia|lra|apply (appr_of_calc _ 500), Cy].
  - apply (appr_le (S (h0 + 1)) (S (h0 + 1)) (0 + 0) 0); [lia|lra|]. apply appr_sub; [apply (appr_of_calc _ 126), Cb|]. apply (appr_le 0 _ 0); [lia|lra|apply (appr_of_calc _ 100), Co].
  - destruct Cx as (Fx & _ & _ & Bx). destruct Cy as (Fy & _ & _ & By). destruct Cb as (Fb & _ & _ & Bb). destruct Co as (Fo & _ & _ & Bo).
    apply (big_mul 578 178); [lia|lia| |]; apply big_b64; try lia; [apply (big_diff 526)|apply (big_diff 126)]; auto; [apply (big_le 500)|apply (big_le 100)]; auto; lia.
Qed.
Lemma v_final k1 k2 K c1 c2 p1 p2 : calc k1 p1 c1 (vr_1 M ow y x fw) -> calc k2 p2 c2 (vr_2 M x fw) -> (S (S (Nat.max k1 k2)) <= K)%nat -> (ha + h0 + 7 <= K)%nat ->
  Rabs (b64 (b64 (c1 - c2) + b64 (b64 (wx - wy) * b64 (wb - ow))) - vr_exact M ow y x fw) <= ((1 + u64) ^ K - 1) * vr_size M ow y x fw.
Proof.
  intros C1 C2 L L'. destruct K as [|K]; [lia|]. apply appr_of_calc, (appr_le k1 (Nat.max k1 k2) 0 0) in C1; [|lia|lra]. apply appr_of_calc, (appr_le k2 (Nat.max k1 k2) 0 0) in C2; [|lia|lra].
  pose proof (appr_sub _ _ _ _ _ _ _ _ _ C1 C2) as D. apply (appr_le _ K _ 0) in D; [|lia|lra]. pose proof v3 as T. apply (appr_le _ K _ 0) in T; [|lia|lra].
  destruct (appr_add0 _ _ _ _ _ _ _ D T) as (_ & _ & _ & Q). unfold vr_exact, vr_size. rewrite Rmult_0_l, Rplus_0_r in Q. lra.
Qed.
Lemma vr_arr t1 t2 : adds t1 M -> adds t2 (M * M) ->
  Rabs (vr_ensemble_arr_r b64 t0 ta t1 t2 M y x ow fw - vr_exact M ow y x fw) <= ((1 + u64) ^ (height t1 + height t2 + ha + h0 + 7) - 1) * vr_size M ow y x fw.
Proof.
  intros A1 A2. pose proof vM0 as HM. pose proof vPM as PM. unfold vr_ensemble_arr_r, radd, rdiv. unfold rsub at 1. unfold rsub at 3 4. apply (v_final (height t1 + 4) (height t2 + 5) _ _ _ 626 653); try lia.
  - replace (height t1 + 4)%nat with (S (S (2 + height t1 + 0))) by lia. apply (calc_div _ 600 26 626); try lia; [apply vHE|]. rewrite (Rmult_comm ow). apply (calc_mul (2 + height t1) 0 500 100 600); try lia; [|apply vow].
    rewrite (sumn_ext M (fun i => fw i * Rabs (x i - y)) (fun i => Rabs (x i - y) * fw i)) by (intros; ring). apply (tsum_n t1 M 2 500); [lia|exact A1|]. intros i Hi. apply (calc_mul 1 0 400 100 500); try lia; [|now apply vfw].
    unfold rsub. replace (y - x i) with (- (x i - y)) by ring. rewrite b64_opp, Rabs_Ropp. now apply (odist M y x t0 vHE).
  - unfold vr_2. replace (sumn M (fun i => sumn M (fun j => fw i * fw j * Rabs (x i - x j))) / INR M ^ 2 / 2) with (/ 2 * (sumn M (fun i => sumn M (fun j => fw i * fw j * Rabs (x i - x j))) / INR (M * M))) by (rewrite mult_INR; field; lra).
    replace (height t2 + 5)%nat with (S (S (3 + height t2))) by lia. unfold rmul at 1. replace (1 / 2) with (/ 2) by field. apply (calc_scal _ 652 1 653); try lia; [simpl; lra|]. apply (calc_div _ 600 52 652); [nia|apply vMM|lia|lia|lia|].
    rewrite <- (sumn_grid M M (fun i j => fw i * fw j * Rabs (x i - x j))) by exact HM. apply (tsum_n t2 (M * M) 3 600); [lia|exact A2|]. intros n Hn.
    assert (n / M < M)%nat by (apply Nat.div_lt_upper_bound; lia). assert (n mod M < M)%nat by (apply Nat.mod_upper_bound; lia). rewrite (Rmult_comm (_ * _)).
    apply (calc_mul 1 1 400 200 600); try lia; [now apply (odist2 M y x t0 vHE)|]. apply (calc_mul 0 0 100 100 200); try lia; now apply vfw.
Qed.
Lemma vr_k :
  Rabs (vrcrps_nrg_k_r b64 t0 ta M y x ow fw - vr_exact M ow y x fw) <= ((1 + u64) ^ (M + M * (M - 1) / 2 + ha + h0 + 7) - 1) * vr_size M ow y x fw.
Proof.
  pose proof vM0 as HM. pose proof vPM as PM. unfold vrcrps_nrg_k_r, radd, rdiv. unfold rsub at 1. unfold rsub at 3 4. apply (v_final (M + 4) (M * (M - 1) / 2 + 5) _ _ _ 626 653); try lia.
  - replace (M + 4)%nat with (S (3 + M)) by lia. apply (calc_div _ 600 26 626); try lia; [apply vHE|]. rewrite <- sumn_scal.
    replace M with (length (map (fun i => rmul b64 (rmul b64 (Rabs (rsub b64 (x i) y)) (fw i)) ow) (seq 0 M))) at 1 by (rewrite map_length, seq_length; reflexivity).
    unfold sumn. apply lsum_calc; [lia|]. apply F2_map. intros i Hi. apply in_seq in Hi. replace (ow * (fw i * Rabs (x i - y))) with (Rabs (x i - y) * fw i * ow) by ring. apply (calc_mul 2 0 500 100 600); try lia; [|apply vow]. apply (calc_mul 1 0 400 100 500); try lia; [apply (odist M y x t0 vHE); lia|apply vfw; lia].
  - unfold vr_2. replace (sumn M (fun i => sumn M (fun j => fw i * fw j * Rabs (x i - x j))) / INR M ^ 2 / 2) with (/ 2 * (/ 2 * sumn M (fun i => sumn M (fun j => 2 * Rabs (x i - x j) * fw i * fw j))) / INR (M * M)).
    2:{ rewrite mult_INR. rewrite (sumn_ext M (fun i => sumn M (fun j => 2 * Rabs (x i - x j) * fw i * fw j)) (fun i => 2 * sumn M (fun j => fw i * fw j * Rabs (x i - x j)))) by (intros; rewrite <- sumn_scal; apply sumn_ext; intros; ring). rewrite sumn_scal. field. lra. }
    replace (M * (M - 1) / 2 + 5)%nat with (S (S (M * (M - 1) / 2 + 3))) by lia. apply (calc_div _ 601 52 653); [nia|apply vMM|lia|lia|lia|]. unfold rmul at 1. replace (1 / 2) with (/ 2) by field. apply (calc_scal _ 600 1 601); try lia; [simpl; lra|].
    apply (tri_calc M 3 600); [lia|intros; rewrite Rabs_minus_sym; ring|intros; rewrite Rminus_eq_0, Rabs_R0; ring|]. intros i j Hi Hj. apply (calc_mul 2 0 500 100 600); try lia; [|now apply vfw]. apply (calc_mul 1 0 400 100 500); try lia; [|now apply vfw]. apply calc_double. now apply (odist2 M y x t0 vHE).
Qed.
End Vr.
