(** Rounding errors of the outcome-weighted ensemble CRPS. *)
From Coq Require Import Reals List ZArith Permutation Lia Lra Psatz.
From Flocq Require Import Core.
From Verif Require Import Num L_crps_row L_crps_real L_crps_omit L_crps_math.
From Verif Require Export L_round9 L_round14 M_round11 S_round5 S_round.
Import ListNotations.
Open Scope R_scope.

Local Notation fmt := (generic_format radix2 (FLT_exp (-1074) 53)).
Local Notation bp := (bpow radix2).

Lemma calc_quot2 k h p q r t w W0 s S0 : (Z.of_nat h <= 2 ^ 52)%Z -> (p + r <= t)%Z -> (t <= 1022)%Z -> calc k p w W0 -> calc h q s S0 -> 0 < S0 -> s <= bp r ->
  calc (k + h + 2) t (b64 (w / s)) (W0 / S0).
Proof.
  intros Hh L L' (Fw & Pw & Ww & Bw) Cs P Hs. destruct (calc_quot h p q r t w s S0 Hh L L' Fw Bw Cs P Hs) as (F & _ & Wq & B). pose proof (Rinv_0_lt_compat _ P).
  split; [exact F|]. split; [apply Rmult_le_pos; lra|]. split; [|exact B]. replace (k + h + 2)%nat with ((h + 2) + k)%nat by lia. apply (within_trans _ _ _ (w / S0)); [exact Wq|].
  unfold Rdiv. rewrite (Rmult_comm w), (Rmult_comm W0). apply within_scal; [lra|exact Ww].
Qed.
Lemma calc_le_bp h q s S0 r : (Z.of_nat h <= 2 ^ 52)%Z -> calc h q s S0 -> S0 <= bp r -> s <= bp (r + 1).
Proof.
  intros Hh (_ & P & [_ W] & _) L. eapply Rle_trans; [exact W|]. rewrite bpow_plus. pose proof (pow_hi h). apply Rmult_le_compat; [exact P|lra|exact L|]. now apply pow_hi2.
Qed.
Lemma calc_diff k l p q x X y Y : calc k p x X -> calc l q y Y -> Y <= X -> Rabs (b64 (x - y) - (X - Y)) <= ((1 + u64) ^ S (Nat.max k l) - 1) * (2 * X).
Proof.
  intros H H' L. apply appr_of_calc, (appr_le k (Nat.max k l) 0 0) in H; [|lia|lra]. apply appr_of_calc, (appr_le l (Nat.max k l) 0 0) in H'; [|lia|lra].
  destruct (appr_sub _ _ _ _ _ _ _ _ _ H H') as (_ & _ & _ & E). rewrite Rplus_0_r, Rmult_0_l, Rplus_0_r in E. pose proof (pow_hi (S (Nat.max k l))). pose proof (appr_A _ _ _ _ _ H). nra.
Qed.
Lemma tri_calc M k p (a F : nat -> nat -> R) : (p <= 1074)%Z -> (forall i j, F i j = F j i) -> (forall i, F i i = 0) ->
  (forall i j, (i < M)%nat -> (j < M)%nat -> calc k p (a i j) (F i j)) ->
  calc (M * (M - 1) / 2 + k) p (lsum b64 (flat_map (fun i => map (a i) (seq (i + 1) (M - (i + 1)))) (seq 0 M))) (/ 2 * sumn M (fun i => sumn M (F i))).
Proof.
  intros L Fs F0 H. assert (M * (M - 1) / 2 = length (flat_map (fun i => map (a i) (seq (i + 1) (M - (i + 1)))) (seq 0 M)))%nat as ->.
  { symmetry. apply Nat.div_unique with (r := O); [lia|]. rewrite (tri_len M a M) by lia. nia. }
  rewrite Nat.add_comm. change (fun i => sumn M (F i)) with (fun i => sumn M (fun j => F i j)). rewrite (sumn_triangle M F) by (intros; auto).
  match goal with |- context [/ 2 * (2 * ?s)] => replace (/ 2 * (2 * s)) with s by field end.
  replace (sumn M (fun i => Rsum (map (fun j => F i j) (seq (i + 1) (M - (i + 1)))))) with (Rsum (flat_map (fun i => map (F i) (seq (i + 1) (M - (i + 1)))) (seq 0 M))) by (rewrite Rsum_flat_map; reflexivity).
  apply lsum_calc; [lia|]. apply F2_flat. intros i Hi. apply in_seq in Hi. apply F2_map. intros j Hj. apply in_seq in Hj. apply H; lia.
Qed.

Section Ow.
Variables (M : nat) (y ow : R) (x fw : nat -> R) (t0 : stree).
Hypothesis HE : wens64 M y x.
Hypothesis HW : wts64 M fw.
Hypothesis Ho : is64 ow /\ (ow = 0 \/ / 2 ^ 100 <= ow <= 2 ^ 100).
Hypothesis A0 : adds t0 M.
Hypothesis B0 : (Z.of_nat (height t0) <= 2 ^ 50)%Z.
Local Notation h0 := (height t0).
Local Notation S0 := (sumn M fw).
Local Notation wbar := (b64 (tsum b64 t0 fw / INR M)).
Local Notation mw := (b64 (INR M * wbar)).
Lemma oM : (0 < M)%nat. Proof. apply HE. Qed.
Lemma oPM : 0 < INR M. Proof. apply lt_0_INR, oM. Qed.
Lemma oS : 0 < S0. Proof. apply (wts_pos M fw HW). Qed.
Lemma ofw i : (i < M)%nat -> calc 0 100 (fw i) (fw i).
Proof. intros Hi. destruct HW as [H _]. destruct (H i Hi) as [F Q]. apply calc_exact; [now apply is64_fmt|]. destruct Q as [Q|Q]; [now left|right]. rewrite bp_inv in Q. apply Q. Qed.
Lemma oow : calc 0 100 ow ow.
Proof. destruct Ho as [F Q]. apply calc_exact; [now apply is64_fmt|]. destruct Q as [Q|Q]; [now left|right]. rewrite bp_inv in Q. apply Q. Qed.
Lemma oSle : S0 <= bp 126.
Proof.
  apply Rle_trans with (INR M * bp 100).
  - apply sumn_bound. intros j Hj. destruct HW as [H _]. destruct (H j Hj) as [_ [->|Q]]; [apply bpow_ge_0|]. replace (bp 100) with (2 ^ 100); [apply Q|]. rewrite (bp_pow 100). exact (pow_powerRZ 2 100).
  - change 126%Z with (26 + 100)%Z. rewrite bpow_plus. apply Rmult_le_compat_r; [apply bpow_ge_0|]. rewrite INR_IZR, <- (IZR_Zpower radix2) by lia. apply IZR_le. apply HE.
Qed.
Lemma owbar : calc (h0 + 1) 126 wbar (S0 / INR M).
Proof. rewrite Nat.add_1_r. apply (calc_div h0 100 26 126); try lia; [apply oM|apply HE|]. apply (tsum_n t0 M 0 100); [lia|exact A0|]. intros. now apply ofw. Qed.
Lemma one_le_M : bp (- 0) <= INR M. Proof. pose proof (le_INR 1 M oM) as H. simpl in *. lra. Qed.
Lemma omw : calc (h0 + 2) 126 mw S0.
Proof.
  replace (h0 + 2)%nat with (S (h0 + 1)) by lia. replace S0 with (INR M * (S0 / INR M)) by (field; pose proof oPM; lra). apply (calc_scal _ 126 0 126); try lia; [apply one_le_M|apply owbar].
Qed.
Lemma bnd1 : (Z.of_nat (h0 + 2) <= 2 ^ 52)%Z. Proof. change (2 ^ 50)%Z with 1125899906842624%Z in B0. change (2 ^ 52)%Z with 4503599627370496%Z. lia. Qed.
Lemma bnd2 : (Z.of_nat (2 * h0 + 5) <= 2 ^ 52)%Z. Proof. change (2 ^ 50)%Z with 1125899906842624%Z in B0. change (2 ^ 52)%Z with 4503599627370496%Z. lia. Qed.
Lemma oSS : S0 * S0 <= bp 252.
Proof. change 252%Z with (126 + 126)%Z. rewrite bpow_plus. pose proof oS. pose proof oSle. apply Rmult_le_compat; lra. Qed.
Lemma odist i : (i < M)%nat -> calc 1 400 (Rabs (b64 (x i - y))) (Rabs (x i - y)).
Proof. intros Hi. apply (calc_sub 400); [lia|apply is64_fmt; now apply HE|apply is64_fmt; apply HE|now apply HE]. Qed.
Lemma odist2 i j : (i < M)%nat -> (j < M)%nat -> calc 1 400 (Rabs (b64 (x i - x j))) (Rabs (x i - x j)).
Proof. intros Hi Hj. apply (calc_sub 400); [lia|apply is64_fmt; now apply HE|apply is64_fmt; now apply HE|now apply HE]. Qed.
(** exact values *)
Local Notation E1 := (ow * wmae M (nw M fw) y x).
Local Notation E2 := (ow * (/ 2 * wpairsum M (nw M fw) x)).
Lemma E1_eq : sumn M (fun i => Rabs (x i - y) * fw i) * ow / S0 = E1.
Proof. pose proof oS. unfold wmae, nw. rewrite (sumn_ext M (fun i => fw i / S0 * Rabs (x i - y)) (fun i => / S0 * (Rabs (x i - y) * fw i))) by (intros; field; lra). rewrite sumn_scal. field. lra. Qed.
Lemma E2_eq : / 2 * (sumn M (fun i => sumn M (fun j => Rabs (x i - x j) * fw i * fw j)) * (ow / (S0 * S0))) = E2.
Proof.
  pose proof oS. unfold wpairsum, nw. rewrite (sumn_ext M (fun i => sumn M (fun j => fw i / S0 * (fw j / S0) * Rabs (x i - x j))) (fun i => / (S0 * S0) * sumn M (fun j => Rabs (x i - x j) * fw i * fw j))).
  - rewrite sumn_scal. field. lra.
  - intros i Hi. rewrite <- sumn_scal. apply sumn_ext. intros. field. lra.
Qed.
Lemma E_le : E2 <= E1.
Proof.
  pose proof (wexact_nonneg M (nw M fw) y x ltac:(intros i Hi; apply (nw_pos M fw HW i Hi)) (nw_one M fw HW)) as H. unfold wexact_crps in H.
  assert (0 <= ow) by apply oow. assert (0 <= ow * (wmae M (nw M fw) y x - / 2 * wpairsum M (nw M fw) x)) by (apply Rmult_le_pos; lra). lra.
Qed.
Lemma ow_exact : E1 - E2 = ow * wexact_crps M (nw M fw) y x. Proof. unfold wexact_crps. ring. Qed.
Lemma ow_arr t1 t2 : adds t1 M -> adds t2 (M * M) ->
  Rabs (ow_ensemble_arr_r b64 t0 t1 t2 M y x ow fw - ow * wexact_crps M (nw M fw) y x) <= ((1 + u64) ^ (height t1 + height t2 + 2 * h0 + 12) - 1) * (2 * (ow * wmae M (nw M fw) y x)).
Proof.
  intros A1 A2. pose proof oM as HM. pose proof oPM as PM. pose proof oS as PS. rewrite <- ow_exact.
  assert (calc (height t1 + h0 + 7) 727 (b64 (b64 (tsum b64 t1 (fun i => rmul b64 (Rabs (rsub b64 y (x i))) (fw i)) * ow) / mw)) E1) as C1.
  { rewrite <- E1_eq. replace (height t1 + h0 + 7)%nat with (S (2 + height t1 + 0) + (h0 + 2) + 2)%nat by lia. apply (calc_quot2 _ (h0 + 2) 600 126 127); try lia; [|apply omw|exact PS|apply (calc_le_bp (h0 + 2) 126 mw S0 126); [apply bnd1|apply omw|apply oSle]].
    apply (calc_mul (2 + height t1) 0 500 100 600); try lia; [|apply oow]. apply (tsum_n t1 M 2 500); [lia|exact A1|]. intros i Hi. apply (calc_mul 1 0 400 100 500); try lia; [|now apply ofw].
    unfold rsub. replace (y - x i) with (- (x i - y)) by ring. rewrite b64_opp, Rabs_Ropp. now apply odist. }
  assert (calc (height t2 + 2 * h0 + 11) 954 (b64 (1 / 2 * b64 (tsum b64 t2 (fun n => rmul b64 (rmul b64 (Rabs (rsub b64 (x (n / M)%nat) (x (n mod M)%nat))) (fw (n / M)%nat)) (fw (n mod M)%nat))
     * b64 (ow / b64 (INR (M * M) * b64 (wbar * wbar)))))) E2) as C2.
  { rewrite <- E2_eq. replace (height t2 + 2 * h0 + 11)%nat with (S (S ((3 + height t2) + (0 + (2 * h0 + 4) + 2))))%nat by lia. replace (1 / 2) with (/ 2) by field.
    apply (calc_scal _ 953 1 954); try lia; [simpl; lra|]. apply (calc_mul _ _ 600 353 953); try lia.
    - rewrite <- (sumn_grid M M (fun i j => Rabs (x i - x j) * fw i * fw j)) by exact HM. apply (tsum_n t2 (M * M) 3 600); [lia|exact A2|]. intros n Hn.
      assert (n / M < M)%nat by (apply Nat.div_lt_upper_bound; lia). assert (n mod M < M)%nat by (apply Nat.mod_upper_bound; lia).
      apply (calc_mul 2 0 500 100 600); try lia; [|now apply ofw]. apply (calc_mul 1 0 400 100 500); try lia; [now apply odist2|now apply ofw].
    - assert (calc (2 * h0 + 4) 252 (b64 (INR (M * M) * b64 (wbar * wbar))) (S0 * S0)) as C.
      { replace (2 * h0 + 4)%nat with (S (S (h0 + 1 + (h0 + 1))))%nat by lia. replace (S0 * S0) with (INR (M * M) * (S0 / INR M * (S0 / INR M))) by (rewrite mult_INR; field; lra).
        apply (calc_scal _ 252 0 252); try lia; [|apply (calc_mul (h0 + 1) (h0 + 1) 126 126 252); try lia; apply owbar]. pose proof (le_INR 1 (M * M) ltac:(nia)) as Q. simpl (INR 1) in Q. simpl. lra. }
      apply (calc_quot2 0 _ 100 252 253); try lia; [apply oow|exact C|nra|apply (calc_le_bp (2 * h0 + 4) 252 _ (S0 * S0) 252); [pose proof bnd2; lia|exact C|apply oSS]]. }
  pose proof (calc_diff _ _ _ _ _ _ _ _ C1 C2 E_le) as D. unfold ow_ensemble_arr_r, rdiv, rmul at 1 2 4 5 6 7, rsub at 1.
  eapply Rle_trans; [exact D|]. apply Rmult_le_compat_r.
  - destruct C1 as (_ & P & _). lra.
  - apply Rplus_le_compat_r. apply Rle_pow; [pose proof u64_pos; lra|lia].
Qed.
Lemma ow_k :
  Rabs (owcrps_nrg_k_r b64 t0 M y x ow fw - ow * wexact_crps M (nw M fw) y x) <= ((1 + u64) ^ (M + M * (M - 1) / 2 + 2 * h0 + 13) - 1) * (2 * (ow * wmae M (nw M fw) y x)).
Proof.
  pose proof oM as HM. pose proof oPM as PM. pose proof oS as PS. rewrite <- ow_exact. pose proof omw as Cm. pose proof (calc_le_bp (h0 + 2) 126 mw S0 126 bnd1 omw oSle) as Bm.
  assert (calc (M + h0 + 7) 727 (b64 (lsum b64 (map (fun i => rmul b64 (rmul b64 (Rabs (rsub b64 (x i) y)) (fw i)) ow) (seq 0 M)) / mw)) E1) as C1.
  { rewrite <- E1_eq. replace (M + h0 + 7)%nat with ((3 + M) + (h0 + 2) + 2)%nat by lia. apply (calc_quot2 _ (h0 + 2) 600 126 127); try lia; auto.
    rewrite (Rmult_comm (sumn _ _)), <- sumn_scal. replace M with (length (map (fun i => rmul b64 (rmul b64 (Rabs (rsub b64 (x i) y)) (fw i)) ow) (seq 0 M))) at 1 by (rewrite map_length, seq_length; reflexivity).
    unfold sumn. apply lsum_calc; [lia|]. apply F2_map. intros i Hi. apply in_seq in Hi. rewrite (Rmult_comm ow). apply (calc_mul 2 0 500 100 600); try lia; [|apply oow]. apply (calc_mul 1 0 400 100 500); try lia; [apply odist; lia|apply ofw; lia]. }
  assert (calc (M * (M - 1) / 2 + 2 * h0 + 12) 954 (b64 (b64 (1 / 2 * lsum b64 (flat_map (fun i => map (fun j => rmul b64 (rmul b64 (rmul b64 (rmul b64 2 (Rabs (rsub b64 (x i) (x j)))) (fw i)) (fw j)) ow) (seq (i + 1) (M - (i + 1)))) (seq 0 M))) / b64 (mw * mw))) E2) as C2.
  { pose proof (calc_mul _ _ 126 126 252 _ _ _ _ ltac:(lia) ltac:(lia) Cm Cm) as Cs.
    replace (M * (M - 1) / 2 + 2 * h0 + 12)%nat with (S (M * (M - 1) / 2 + 4) + S (h0 + 2 + (h0 + 2)) + 2)%nat by lia.
    replace E2 with (/ 2 * (/ 2 * sumn M (fun i => sumn M (fun j => 2 * Rabs (x i - x j) * fw i * fw j * ow))) / (S0 * S0)).
    2:{ rewrite <- E2_eq. rewrite (sumn_ext M (fun i => sumn M (fun j => 2 * Rabs (x i - x j) * fw i * fw j * ow)) (fun i => 2 * ow * sumn M (fun j => Rabs (x i - x j) * fw i * fw j))) by (intros; rewrite <- sumn_scal; apply sumn_ext; intros; ring). rewrite sumn_scal. field. lra. }
    apply (calc_quot2 _ _ 701 252 253); try lia; [|exact Cs|nra|apply (calc_le_bp (S (h0 + 2 + (h0 + 2))) 252 _ (S0 * S0) 252); [pose proof bnd2; lia|exact Cs|apply oSS]].
    replace (1 / 2) with (/ 2) by field. apply (calc_scal _ 700 1 701); try lia; [simpl; lra|]. apply (tri_calc M 4 700); [lia|intros; rewrite Rabs_minus_sym; ring|intros; rewrite Rminus_eq_0, Rabs_R0; ring|].
    intros i j Hi Hj. apply (calc_mul 3 0 600 100 700); try lia; [|apply oow]. apply (calc_mul 2 0 500 100 600); try lia; [|now apply ofw]. apply (calc_mul 1 0 400 100 500); try lia; [|now apply ofw]. apply calc_double. now apply odist2. }
  pose proof (calc_diff _ _ _ _ _ _ _ _ C1 C2 E_le) as D. unfold owcrps_nrg_k_r, rdiv. unfold rsub at 1.
  eapply Rle_trans; [exact D|]. apply Rmult_le_compat_r.
  - destruct C1 as (_ & P & _). lra.
  - apply Rplus_le_compat_r. apply Rle_pow; [pose proof u64_pos; lra|lia].
Qed.
End Ow.
