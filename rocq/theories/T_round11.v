(** Proofs of the rounding properties of the outcome-weighted CRPS (statements in P_round11.v). *)
From Coq Require Import Reals List ZArith Permutation Lia Lra Psatz Bool.
From Flocq Require Import Core.
From Verif Require Import Num M_crps L_crps_real L_crps_math L_crps_row L_ow L_round6.
From Verif Require Export T_round6 T_round8 L_round17 S_round5 S_round.
Open Scope R_scope.

Local Notation bp := (bpow radix2).
(** instance: members 0 and 1, observation 0, weights 2^27 + 1 and 2^-60 *)
Definition ex_ow (i : nat) : R := if (i =? 0)%nat then 134217729 else / 2 ^ 60.
Lemma ex_oens : wens64 2 0 ex_u.
Proof.
  assert (forall n, (Z.of_nat n < 2 ^ 53)%Z -> is64 (INR n)) as F by (intros n Hn; rewrite INR_IZR_INZ; exists (Z.of_nat n), 0%Z; simpl; split; [ring|split; lia]).
  assert (forall i j, apart 400 (INR i) (INR j)) as A.
  { intros i j. destruct (Nat.eq_dec i j) as [->|N]; [now left|right]. apply Rle_trans with 1.
    - rewrite <- Rinv_1. apply Rinv_le_contravar; [lra|]. apply pow_R1_Rle. lra.
    - rewrite !INR_IZR_INZ, <- minus_IZR, <- abs_IZR. apply (IZR_le 1). lia. }
  split; [lia|]. split; [lia|]. split; [apply (F 0%nat); lia|]. split; [|intros; apply A]. intros i Hi. split; [apply F; lia|apply (A i 0%nat)].
Qed.
Lemma ex_owts : wts64 2 ex_ow.
Proof.
  split; [|exists 0%nat; split; [lia|unfold ex_ow; simpl; lra]]. intros i Hi. unfold ex_ow. destruct (i =? 0)%nat.
  - split; [exists 134217729%Z, 0%Z; split; [simpl; ring|split; lia]|right]. assert (134217729 <= 2 ^ 100). { apply Rle_trans with (2 ^ 28); [simpl; lra|]. apply Rle_pow; [lra|lia]. } assert (/ 2 ^ 100 <= 1) by (rewrite <- Rinv_1; apply Rinv_le_contravar; lra). lra.
  - split; [exists 1%Z, (-60)%Z; split; [change (/ 2 ^ 60 = 1 * powerRZ 2 (-60)); rewrite Rmult_1_l; reflexivity|split; lia]|right]. split; [apply Rinv_le_contravar; [apply pow_lt; lra|apply Rle_pow; [lra|lia]]|]. apply Rle_trans with 1; [|apply pow_R1_Rle; lra]. rewrite <- Rinv_1. apply Rinv_le_contravar; [lra|]. apply pow_R1_Rle. lra.
Qed.
Lemma ex_oone : is64 1 /\ (1 = 0 \/ / 2 ^ 100 <= 1 <= 2 ^ 100).
Proof. split; [exists 1%Z, 0%Z; split; [simpl; ring|split; lia]|right]. pose proof (pow_R1_Rle 2 100 ltac:(lra)). split; [|assumption]. rewrite <- Rinv_1. apply Rinv_le_contravar; lra. Qed.
Lemma fmt_mb m e : (Z.abs m < 2 ^ 53)%Z -> (-1074 <= e)%Z -> generic_format radix2 (FLT_exp (-1074) 53) (IZR m * bp e).
Proof. intros Hm He. apply generic_format_FLT. exists (Float radix2 m e); [reflexivity|exact Hm|exact He]. Qed.
Lemma ex_osum : b64 (134217729 + bp (-60)) = 134217729.
Proof.
  replace 134217729 with (4503599660924928 * bp (-25)) at 2 by (simpl; lra). apply (b64_pt _ (4503599660924928 + bp (-35))); [lia|rewrite Rmult_plus_distr_r, <- bpow_plus; f_equal; simpl; lra|rewrite bp52, bp53; simpl; lra|]. apply Znearest_imp. apply Rabs_lt. simpl. lra.
Qed.
Lemma ex_obar : b64 (tsum b64 (comb 1) ex_ow / INR 2) = 134217729 * bp (-1).
Proof. change (tsum b64 (comb 1) ex_ow) with (b64 (134217729 + / 2 ^ 60)). rewrite <- bp_m60, ex_osum. replace (134217729 / INR 2) with (134217729 * bp (-1)) by (simpl INR; simpl (bp (-1)); lra). apply b64_id, fmt_mb; lia. Qed.
Lemma ex_omw : b64 (INR 2 * (134217729 * bp (-1))) = 134217729.
Proof. replace (INR 2 * (134217729 * bp (-1))) with (134217729 * bp 0) by (simpl INR; simpl (bp (-1)); simpl (bp 0); lra). rewrite b64_id by (apply fmt_mb; lia). simpl. ring. Qed.
Lemma ex_osq : b64 (134217729 * 134217729) = 18014398777917440.
Proof. replace 18014398777917440 with (4503599694479360 * bp 2) by (simpl; lra). apply (b64_pt _ (18014398777917441 / 4)); [lia|simpl; lra|rewrite bp52, bp53; lra|]. apply Znearest_imp. apply Rabs_lt. lra. Qed.
Lemma ex_osq2 : b64 (134217729 * bp (-1) * (134217729 * bp (-1))) = 4503599694479360.
Proof. replace 4503599694479360 with (4503599694479360 * bp 0) by (simpl; lra). apply (b64_pt _ (18014398777917441 / 4)); [lia|simpl; lra|rewrite bp52, bp53; lra|]. apply Znearest_imp. apply Rabs_lt. lra. Qed.
Lemma ex_osq3 : b64 (INR (2 * 2) * 4503599694479360) = 18014398777917440.
Proof. replace (INR (2 * 2) * 4503599694479360) with (4503599694479360 * bp 2) by (simpl; lra). rewrite b64_id by (apply fmt_mb; lia). simpl. lra. Qed.
(** the two terms of the score *)
Lemma ex_oe1 : b64 (bp (-60) / 134217729) = 9007199187632128 * bp (-140).
Proof.
  apply (b64_pt _ (1208925819614629174706176 / 134217729)); [lia| |rewrite bp52, bp53; lra|apply Znearest_imp; apply Rabs_lt; lra].
  change (-60)%Z with (80 + -140)%Z. rewrite bpow_plus. change (bp 80) with 1208925819614629174706176. field.
Qed.
Lemma ex_oe2 : b64 (134217729 * bp (-60) / 18014398777917440) = 9007199187632129 * bp (-140).
Proof.
  apply (b64_pt _ (1208925819614629174706176 * 134217729 / 18014398777917440)); [lia| |rewrite bp52, bp53; lra|apply Znearest_imp; apply Rabs_lt; lra].
  change (-60)%Z with (80 + -140)%Z. rewrite bpow_plus. change (bp 80) with 1208925819614629174706176. field.
Qed.
Lemma ex_oinv : b64 (1 / 18014398777917440) = 9007199120523266 * bp (-107).
Proof.
  apply (b64_pt _ (162259276829213363391578010288128 / 18014398777917440)); [lia| |rewrite bp52, bp53; lra|apply Znearest_imp; apply Rabs_lt; lra].
  replace 1 with (bp 107 * bp (-107)) by (rewrite <- bpow_plus; reflexivity). change (bp 107) with 162259276829213363391578010288128. field.
Qed.
Lemma ex_oe3 : b64 (134217729 * bp (-59) * (9007199120523266 * bp (-107))) = 9007199187632129 * bp (-139).
Proof.
  apply (b64_pt _ (134217729 * 9007199120523266 / 134217728)); [lia| |rewrite bp52, bp53; lra|apply Znearest_imp; apply Rabs_lt; lra].
  change (-139)%Z with (-59 + (27 + -107))%Z. rewrite !bpow_plus. change (bp 27) with 134217728. field.
Qed.
Lemma ex_osub : b64 (9007199187632128 * bp (-140) - 9007199187632129 * bp (-140)) = - bp (-140).
Proof. replace (9007199187632128 * bp (-140) - 9007199187632129 * bp (-140)) with (- bp (-140)) by ring. rewrite b64_opp, b64_id by (apply fmt_bp; lia). reflexivity. Qed.
Lemma ex_o1 : b64 1 = 1. Proof. apply b64_id, (fmt_int 1). lia. Qed.
Lemma ex_o2 : b64 2 = 2. Proof. apply b64_id, (fmt_int 2). lia. Qed.
Lemma ex_oa : b64 134217729 = 134217729. Proof. apply b64_id, (fmt_int 134217729). lia. Qed.
Lemma ex_oe : b64 (bp (-60)) = bp (-60). Proof. apply b64_id, fmt_bp. lia. Qed.
Lemma ex_oae : b64 (134217729 * bp (-60)) = 134217729 * bp (-60). Proof. apply b64_id, fmt_mb; lia. Qed.
Lemma ex_oae2 : b64 (134217729 * bp (-59)) = 134217729 * bp (-59). Proof. apply b64_id, fmt_mb; lia. Qed.
Lemma ex_oarr : ow_ensemble_arr_r b64 (comb 1) (comb 1) (comb 3) 2 0 ex_u 1 ex_ow = - bp (-140).
Proof.
  unfold ow_ensemble_arr_r, rdiv. rewrite ex_obar. unfold rmul. rewrite ex_omw, ex_osq2, ex_osq3, ex_oinv.
  change (tsum b64 (comb 3) ?a) with (b64 (b64 (b64 (a 0%nat + a 1%nat) + a 2%nat) + a 3%nat)). change (tsum b64 (comb 1) ?a) with (b64 (a 0%nat + a 1%nat)). cbv beta.
  change (0 / 2)%nat with 0%nat. change (1 / 2)%nat with 0%nat. change (2 / 2)%nat with 1%nat. change (3 / 2)%nat with 1%nat. change (0 mod 2)%nat with 0%nat. change (1 mod 2)%nat with 1%nat. change (2 mod 2)%nat with 0%nat. change (3 mod 2)%nat with 1%nat.
  change (ex_ow 0) with 134217729. change (ex_ow 1) with (/ 2 ^ 60). rewrite <- bp_m60. change (ex_u 0) with 0. change (ex_u 1) with 1. unfold rsub.
  replace (1 - 1) with 0 by ring. rewrite (Rminus_0_r 1), (Rminus_0_r 0). replace (0 - 1) with (- (1)) by ring. rewrite b64_opp, b64_0, ex_o1, Rabs_Ropp, Rabs_R0, Rabs_R1, !Rmult_1_l, !Rmult_0_l, b64_0, ex_oe, ex_oa, !Rmult_0_l, b64_0, (Rmult_comm (bp (-60))), ex_oae, !Rplus_0_l, Rplus_0_r, ex_oe, Rmult_1_r, ex_oe, ex_oe1, ex_oae.
  replace (134217729 * bp (-60) + 134217729 * bp (-60)) with (134217729 * bp (-59)) by (change (-59)%Z with (1 + -60)%Z; rewrite bpow_plus; change (bp 1) with 2; ring). rewrite !ex_oae2, ex_oe3.
  replace (1 / 2 * (9007199187632129 * bp (-139))) with (9007199187632129 * bp (-140)) by (change (-139)%Z with (1 + -140)%Z; rewrite bpow_plus; change (bp 1) with 2; field). rewrite (b64_id (9007199187632129 * bp (-140))) by (apply fmt_mb; lia). apply ex_osub.
Qed.
Lemma ex_ok : owcrps_nrg_k_r b64 (comb 1) 2 0 ex_u 1 ex_ow = - bp (-140).
Proof.
  unfold owcrps_nrg_k_r, rdiv. rewrite ex_obar. unfold rmul. rewrite ex_omw, ex_osq. cbn [seq map flat_map Nat.add Nat.sub app lsum fold_left].
  change (ex_ow 0) with 134217729. change (ex_ow 1) with (/ 2 ^ 60). rewrite <- bp_m60. change (ex_u 0) with 0. change (ex_u 1) with 1. unfold lsum. cbn [fold_left]. unfold rsub, radd.
  rewrite (Rminus_0_r 1), (Rminus_0_r 0). replace (0 - 1) with (- (1)) by ring. rewrite b64_opp, b64_0, ex_o1, Rabs_Ropp, Rabs_R0, Rabs_R1, !Rmult_1_l, !Rmult_0_l, b64_0, !Rmult_1_r, ex_oe, b64_0, !Rplus_0_l, ?b64_0, ?Rplus_0_l, ?ex_oe, ex_o2.
  replace (2 * 134217729) with (134217729 * bp 1) by (change (bp 1) with 2; ring). rewrite (b64_id (134217729 * bp 1)) by (apply fmt_mb; lia). replace (134217729 * bp 1 * bp (-60)) with (134217729 * bp (-59)) by (change (-59)%Z with (1 + -60)%Z; rewrite bpow_plus; ring).
  rewrite !ex_oae2. replace (1 / 2 * (134217729 * bp (-59))) with (134217729 * bp (-60)) by (change (-59)%Z with (1 + -60)%Z; rewrite bpow_plus; change (bp 1) with 2; field). rewrite !ex_oae, ex_oe1, ex_oe2. apply ex_osub.
Qed.
Lemma ex_oexact : 0 < 1 * wexact_crps 2 (nw 2 ex_ow) 0 ex_u.
Proof.
  pose proof (nw_one 2 ex_ow ex_owts) as S1. assert (0 < nw 2 ex_ow 1) as P. { unfold nw. apply Rdiv_lt_0_compat; [apply Rinv_0_lt_compat, pow_lt; lra|apply (wts_pos 2 ex_ow ex_owts)]. }
  unfold wexact_crps, wmae, wpairsum. rewrite !sumn_S, !sumn_0 in *. change (ex_u 0) with 0. change (ex_u 1) with 1. set (a := nw 2 ex_ow 0) in *. set (b := nw 2 ex_ow 1) in *.
  replace (Rabs (0 - 0)) with 0 by (rewrite Rminus_eq_0; symmetry; apply Rabs_R0). replace (Rabs (1 - 0)) with 1 by (rewrite Rminus_0_r; symmetry; apply Rabs_R1). replace (Rabs (0 - 1)) with 1 by (rewrite Rabs_minus_sym, Rminus_0_r; symmetry; apply Rabs_R1).
  replace (Rabs (1 - 1)) with 0 by (rewrite Rminus_eq_0; symmetry; apply Rabs_R0). replace a with (1 - b) by lra. nra.
Qed.
Lemma C98_ow_l :
forall M y x ow fw t0 t1 t2, wens64 M y x -> wts64 M fw -> is64 ow /\ (ow = 0 \/ / 2 ^ 100 <= ow <= 2 ^ 100) -> adds t0 M -> (Z.of_nat (height t0) <= 2 ^ 50)%Z -> adds t1 M -> adds t2 (M * M) ->
  let e := ow * wexact_crps M (nw M fw) y x in let a := 2 * (ow * wmae M (nw M fw) y x) in
  Rabs (ow_ensemble_arr_r b64 t0 t1 t2 M y x ow fw - e) <= ((1 + u64) ^ (height t1 + height t2 + 2 * height t0 + 12) - 1) * a /\
  Rabs (owcrps_nrg_k_r b64 t0 M y x ow fw - e) <= ((1 + u64) ^ (M + M * (M - 1) / 2 + 2 * height t0 + 13) - 1) * a.
Proof.
intros M y x ow fw t0 t1 t2 HE HW Ho A0 B0 A1 A2 e a. split; [now apply ow_arr|now apply ow_k].
Qed.
Lemma C98_agree_l :
forall M y x ow fw t0 t1 t2, wens64 M y x -> wts64 M fw -> is64 ow /\ (ow = 0 \/ / 2 ^ 100 <= ow <= 2 ^ 100) -> adds t0 M -> (Z.of_nat (height t0) <= 2 ^ 50)%Z -> adds t1 M -> adds t2 (M * M) ->
  Rabs (ow_ensemble_arr_r b64 t0 t1 t2 M y x ow fw - owcrps_nrg_k_r b64 t0 M y x ow fw) <=
  ((1 + u64) ^ (height t1 + height t2 + 2 * height t0 + 12) + (1 + u64) ^ (M + M * (M - 1) / 2 + 2 * height t0 + 13) - 2) * (2 * (ow * wmae M (nw M fw) y x)).
Proof.
intros M y x ow fw t0 t1 t2 HE HW Ho A0 B0 A1 A2. destruct (C98_ow_l M y x ow fw t0 t1 t2 HE HW Ho A0 B0 A1 A2) as [H1 H2].
set (e := ow * wexact_crps _ _ _ _) in *. replace (ow_ensemble_arr_r b64 t0 t1 t2 M y x ow fw - owcrps_nrg_k_r b64 t0 M y x ow fw) with ((ow_ensemble_arr_r b64 t0 t1 t2 M y x ow fw - e) + - (owcrps_nrg_k_r b64 t0 M y x ow fw - e)) by ring.
eapply Rle_trans; [apply Rabs_triang|]. rewrite Rabs_Ropp. lra.
Qed.
Lemma C98_perfect_l :
forall M y x ow fw t0 t1 t2, (0 < M)%nat -> wts64 M fw -> adds t1 M -> adds t2 (M * M) -> (forall i, (i < M)%nat -> x i = y) ->
  ow_ensemble_arr_r b64 t0 t1 t2 M y x ow fw = 0 /\ owcrps_nrg_k_r b64 t0 M y x ow fw = 0.
Proof.
intros M y x ow fw t0 t1 t2 HM HW A1 A2 Hx. assert (forall l, (forall v, In v l -> v = 0) -> lsum b64 l = 0) as Z.
{ intros l. unfold lsum. assert (forall l acc, acc = 0 -> (forall v, In v l -> v = 0) -> fold_left (radd b64) l acc = 0) as Q; [|intros H; now apply Q].
  induction l0 as [|v l0 IH]; intros acc Ha H; simpl; [exact Ha|]. apply IH; [|intros; apply H; now right]. unfold radd. rewrite Ha, (H v) by (now left). rewrite Rplus_0_r. apply b64_0. }
split.
- unfold ow_ensemble_arr_r. rewrite (tsum_zl t1), (tsum_zl t2).
  + unfold rsub, rdiv, rmul, Rdiv. now rewrite !Rmult_0_l, !b64_0, !Rmult_0_l, !Rmult_0_r, !b64_0, Rminus_0_r, b64_0.
  + intros n Hn. apply (Permutation_in n A2), in_seq in Hn. rewrite !Hx by (try (apply Nat.div_lt_upper_bound; lia); apply Nat.mod_upper_bound; lia). unfold rmul, rsub. now rewrite Rminus_eq_0, b64_0, Rabs_R0, !Rmult_0_l, !b64_0, !Rmult_0_l, b64_0.
  + intros i Hi. apply (Permutation_in i A1), in_seq in Hi. rewrite Hx by lia. unfold rmul, rsub. now rewrite Rminus_eq_0, b64_0, Rabs_R0, Rmult_0_l, b64_0.
- unfold owcrps_nrg_k_r. rewrite !Z.
  + unfold rsub, rdiv, rmul, Rdiv. now rewrite !Rmult_0_r, b64_0, !Rmult_0_l, !b64_0, Rminus_0_r, b64_0.
  + intros v Hv. apply in_flat_map in Hv. destruct Hv as (i & Hi & Hv). apply in_map_iff in Hv. destruct Hv as (j & <- & Hj). apply in_seq in Hi, Hj. rewrite !Hx by lia. unfold rmul, rsub. now rewrite Rminus_eq_0, b64_0, Rabs_R0, Rmult_0_r, b64_0, !Rmult_0_l, !b64_0, !Rmult_0_l, !b64_0, !Rmult_0_l, b64_0.
  + intros v Hv. apply in_map_iff in Hv. destruct Hv as (i & <- & Hi). apply in_seq in Hi. rewrite Hx by lia. unfold rmul, rsub. now rewrite Rminus_eq_0, b64_0, Rabs_R0, !Rmult_0_l, !b64_0, !Rmult_0_l, b64_0.
Qed.
Lemma C98_nonnegative_refuted_l :
exists M y x ow fw t0 t1 t2, wens64 M y x /\ wts64 M fw /\ (is64 ow /\ (ow = 0 \/ / 2 ^ 100 <= ow <= 2 ^ 100)) /\ adds t0 M /\ (Z.of_nat (height t0) <= 2 ^ 50)%Z /\ adds t1 M /\ adds t2 (M * M) /\
  0 < ow * wexact_crps M (nw M fw) y x /\ ow_ensemble_arr_r b64 t0 t1 t2 M y x ow fw < 0 /\ owcrps_nrg_k_r b64 t0 M y x ow fw < 0.
Proof.
exists 2%nat, 0, ex_u, 1, ex_ow, (comb 1), (comb 1), (comb 3). destruct (comb_adds 1) as [A L]. rewrite L, ex_oarr, ex_ok. pose proof (bpow_gt_0 radix2 (-140)). repeat (split; [first [apply ex_oens|apply ex_owts|apply ex_oone|exact A|lia|apply comb_adds|apply ex_oexact|lra]|]). lra.
Qed.
Lemma C98_unrounded_l :
forall M y x ow fw t0 t1 t2, (0 < M)%nat -> adds t0 M -> adds t1 M -> adds t2 (M * M) -> sumn M fw <> 0 ->
  let id := fun r : R => r in let v f := map (fun k => Fin (f k)) (seq 0 M) in let e := ow * wexact_crps M (nw M fw) y x in
  ow_ensemble_arr_r id t0 t1 t2 M y x ow fw = e /\ owcrps_nrg_k_r id t0 M y x ow fw = e /\ owcrps_nrg_k (Fin y) (v x) (Fin ow) (v fw) = Fin (owcrps_nrg_k_r id t0 M y x ow fw).
Proof.
intros M y x ow fw t0 t1 t2 HM A0 A1 A2 HS id v e. change id with idr. clear id. assert (INR M <> 0) as NM by (apply not_0_INR; lia).
assert (wmae M (nw M fw) y x = sumn M (fun i => Rabs (x i - y) * fw i) / sumn M fw) as E1.
{ unfold wmae, nw. rewrite (sumn_ext M (fun i => fw i / sumn M fw * Rabs (x i - y)) (fun i => / sumn M fw * (Rabs (x i - y) * fw i))) by (intros; field; exact HS). rewrite sumn_scal. field. exact HS. }
assert (wpairsum M (nw M fw) x = sumn M (fun i => sumn M (fun j => Rabs (x i - x j) * fw i * fw j)) / (sumn M fw * sumn M fw)) as E2.
{ unfold wpairsum, nw. rewrite (sumn_ext M (fun i => sumn M (fun j => fw i / sumn M fw * (fw j / sumn M fw) * Rabs (x i - x j))) (fun i => / (sumn M fw * sumn M fw) * sumn M (fun j => Rabs (x i - x j) * fw i * fw j))).
  - rewrite sumn_scal. field. exact HS.
  - intros i Hi. rewrite <- sumn_scal. apply sumn_ext. intros. field. exact HS. }
assert (tsum idr t0 fw = sumn M fw) as T0 by (apply (tsum_idr_ext t0 M fw fw A0); auto).
assert (owcrps_nrg_k_r idr t0 M y x ow fw = e) as K.
{ unfold owcrps_nrg_k_r, e, wexact_crps. rewrite E1, E2, T0, !lsum_id, Rsum_flat_map.
  rewrite (Rsum_map_ext (fun i => rmul idr (rmul idr (Rabs (rsub idr (x i) y)) (fw i)) ow) (fun i => ow * (Rabs (x i - y) * fw i))) by (intros; unfold rmul, rsub, idr; ring). rewrite Rsum_map_scal. change (Rsum (map (fun i => Rabs (x i - y) * fw i) (seq 0 M))) with (sumn M (fun i => Rabs (x i - y) * fw i)).
  rewrite (sumn_triangle M (fun i j => Rabs (x i - x j) * fw i * fw j)) by (intros; first [rewrite Rabs_minus_sym; ring|rewrite Rminus_eq_0, Rabs_R0; ring]).
  rewrite (Rsum_map_ext (fun i => Rsum (map (fun j => rmul idr (rmul idr (rmul idr (rmul idr 2 (Rabs (rsub idr (x i) (x j)))) (fw i)) (fw j)) ow) (seq (i + 1) (M - (i + 1))))) (fun i => 2 * ow * Rsum (map (fun j => Rabs (x i - x j) * fw i * fw j) (seq (i + 1) (M - (i + 1)))))).
  2:{ intros i _. rewrite <- Rsum_map_scal. apply Rsum_map_ext. intros. unfold rmul, rsub, idr. ring. }
  rewrite Rsum_map_scal. unfold sumn. unfold rsub, rdiv, rmul, idr. fold (sumn M fw). field. split; [exact HS|exact NM]. }
split; [|split; [exact K|]].
- unfold ow_ensemble_arr_r, e, wexact_crps. rewrite E1, E2, T0.
  rewrite (tsum_idr_ext t1 M _ (fun i => Rabs (x i - y) * fw i) A1) by (intros; unfold rmul, rsub, idr; rewrite Rabs_minus_sym; ring).
  rewrite (tsum_idr_ext t2 (M * M) _ (fun n => (fun i j => Rabs (x i - x j) * fw i * fw j) (n / M)%nat (n mod M)%nat) A2) by (intros; unfold rmul, rsub, idr; ring).
  rewrite (sumn_grid M M (fun i j => Rabs (x i - x j) * fw i * fw j)) by exact HM. unfold rsub, rdiv, rmul, idr. rewrite mult_INR. field. split; [exact HS|exact NM].
- rewrite K. unfold v, e. apply (ow_k_real M (Fin y) (Fin ow) (fun k => Fin (x k)) (fun k => Fin (fw k))); auto.
Qed.
