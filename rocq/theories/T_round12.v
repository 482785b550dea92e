(** Proofs of the rounding properties of the vertically re-scaled CRPS (statements in P_round12.v). *)
From Coq Require Import Reals List ZArith Permutation Lia Lra Psatz Bool.
From Flocq Require Import Core.
From Verif Require Import Num M_crps L_crps_real L_crps_math L_crps_row L_ow L_round6.
From Verif Require Export S_ow T_round11 L_round18 S_round7 S_round5 S_round.
Open Scope R_scope.

Local Notation bp := (bpow radix2).
Lemma vrv_exact M a y x w : (0 < M)%nat -> vrv M (fun _ => / INR M) w a y x = vr_exact M a y x w.
Proof.
  intros HM. assert (INR M <> 0) as NM by (apply not_0_INR; lia). unfold vrv, vr_exact, vr_1, vr_2, vr_x, wpairsum.
  rewrite (sumn_ext M (fun i => / INR M * w i * Rabs (x i - y)) (fun i => / INR M * (w i * Rabs (x i - y)))) by (intros; ring). rewrite (sumn_ext M (fun i => / INR M * w i * Rabs (x i)) (fun i => / INR M * (w i * Rabs (x i)))) by (intros; ring).
  rewrite (sumn_ext M (fun i => sumn M (fun j => / INR M * w i * (/ INR M * w j) * Rabs (x i - x j))) (fun i => / INR M ^ 2 * sumn M (fun j => w i * w j * Rabs (x i - x j)))).
  - rewrite !sumn_scal. field. exact NM.
  - intros i Hi. rewrite <- sumn_scal. apply sumn_ext. intros. field. exact NM.
Qed.
Lemma ex_vens : vens64 3 1 ex_u.
Proof.
  assert (forall i j, apart 400 (INR i) (INR j)) as A.
  { intros i j. destruct (Nat.eq_dec i j) as [->|N]; [now left|right]. apply Rle_trans with 1.
    - rewrite <- Rinv_1. apply Rinv_le_contravar; [lra|]. apply pow_R1_Rle. lra.
    - rewrite !INR_IZR_INZ, <- minus_IZR, <- abs_IZR. apply (IZR_le 1). lia. }
  split; [apply ex_uni|]. split; [apply (A 1%nat 0%nat)|]. intros i _. apply (A i 0%nat).
Qed.
(** instance: three members equal to the observation 7, all weights 7319843605468574 *)
Local Notation vw := 7319843605468574.
Lemma ex_vsev : vens64 3 7 (fun _ => 7).
Proof.
  assert (is64 7) as F by (exists 7%Z, 0%Z; split; [simpl; ring|split; lia]). assert (apart 400 7 0) as A.
  { right. rewrite Rminus_0_r, Rabs_pos_eq by lra. apply Rle_trans with 1; [|lra]. rewrite <- Rinv_1. apply Rinv_le_contravar; [lra|]. apply pow_R1_Rle. lra. }
  split; [|split; auto]. split; [lia|]. split; [lia|]. split; [exact F|]. split; [intros; split; [exact F|now left]|intros; now left].
Qed.
Lemma ex_vwt : wt64 vw.
Proof.
  split; [exists 7319843605468574%Z, 0%Z; split; [simpl; ring|split; lia]|right]. assert (vw <= 2 ^ 100). { apply Rle_trans with (2 ^ 53); [simpl; lra|]. apply Rle_pow; [lra|lia]. } assert (/ 2 ^ 100 <= 1) by (rewrite <- Rinv_1; apply Rinv_le_contravar; lra). lra.
Qed.
Lemma ex_vwts : wts64 3 (fun _ => vw).
Proof. split; [intros; apply ex_vwt|]. exists 0%nat. split; [lia|lra]. Qed.
Lemma ex_vv : b64 (7 * vw) = 51238905238280016.
Proof. replace 51238905238280016 with (6404863154785002 * bp 3) by (simpl; lra). apply (b64_pt _ (25619452619140009 / 4)); [lia|simpl; lra|rewrite bp52, bp53; lra|]. apply Znearest_imp. apply Rabs_lt. lra. Qed.
Lemma ex_v2 : b64 (51238905238280016 + 51238905238280016) = 102477810476560032.
Proof. replace (51238905238280016 + 51238905238280016) with (6404863154785002 * bp 4) by (simpl; lra). rewrite b64_id by (apply fmt_mb; lia). simpl. lra. Qed.
Lemma ex_v3 : b64 (102477810476560032 + 51238905238280016) = 153716715714840064.
Proof. replace 153716715714840064 with (4803647366088752 * bp 5) by (simpl; lra). apply (b64_pt _ (IZR (2 * 2401823683044375 + 1) + / 2)); [lia|simpl; lra|rewrite bp52, bp53; simpl; lra|]. apply near_half_odd. Qed.
Lemma ex_v4 : b64 (153716715714840064 / INR 3) = 51238905238280024.
Proof. replace 51238905238280024 with (6404863154785003 * bp 3) by (simpl; lra). apply (b64_pt _ (19214589464355008 / 3)); [lia|simpl; lra|rewrite bp52, bp53; lra|]. apply Znearest_imp. apply Rabs_lt. lra. Qed.
Lemma ex_w2 : b64 (vw + vw) = 14639687210937148.
Proof. replace (vw + vw) with (vw * bp 1) by (simpl; lra). rewrite b64_id by (apply fmt_mb; lia). simpl. lra. Qed.
Lemma ex_w3 : b64 (14639687210937148 + vw) = 21959530816405720.
Proof. replace 21959530816405720 with (5489882704101430 * bp 2) by (simpl; lra). apply (b64_pt _ (IZR (2 * 2744941352050715) + / 2)); [lia|simpl; lra|rewrite bp52, bp53; simpl; lra|]. apply near_half_even. Qed.
Lemma ex_w4 : b64 (21959530816405720 / INR 3) = 7319843605468573.
Proof. replace 7319843605468573 with (7319843605468573 * bp 0) by (simpl; lra). apply (b64_pt _ (21959530816405720 / 3)); [lia|simpl; lra|rewrite bp52, bp53; lra|]. apply Znearest_imp. apply Rabs_lt. lra. Qed.
Lemma ex_v3rd : b64 (b64 (b64 (tsum b64 (comb 2) (fun _ => b64 (Rabs 7 * vw)) / INR 3) - b64 (Rabs 7 * vw)) * b64 (b64 (tsum b64 (comb 2) (fun _ => vw) / INR 3) - vw)) = - (8).
Proof.
  rewrite (Rabs_pos_eq 7) by lra. change (tsum b64 (comb 2) ?a) with (b64 (b64 (a 0%nat + a 1%nat) + a 2%nat)). cbv beta. rewrite ex_vv, ex_v2, ex_v3, ex_v4, ex_w2, ex_w3, ex_w4.
  replace (51238905238280024 - 51238905238280016) with 8 by lra. replace (7319843605468573 - vw) with (-1) by lra. rewrite (b64_id 8) by (apply (fmt_int 8); lia). rewrite (b64_id (-1)) by (apply (fmt_int (-1)); lia). replace (8 * -1) with (-8) by lra. rewrite b64_id by (apply (fmt_int (-8)); lia). lra.
Qed.
(** with members equal to the observation only the third part is left *)
Lemma vr_third M y x ow fw t0 ta t1 t2 : adds t1 M -> adds t2 (M * M) -> (forall i, (i < M)%nat -> x i = y) ->
  let e := b64 (b64 (b64 (tsum b64 ta (fun i => b64 (Rabs (x i) * fw i)) / INR M) - b64 (Rabs y * ow)) * b64 (b64 (tsum b64 t0 fw / INR M) - ow)) in
  vr_ensemble_arr_r b64 t0 ta t1 t2 M y x ow fw = e /\ vrcrps_nrg_k_r b64 t0 ta M y x ow fw = e.
Proof.
  intros A1 A2 Hx e. assert (b64 e = e) as Ee by (unfold e; apply b64_id, b64_fmt). assert (forall l, (forall v, In v l -> v = 0) -> lsum b64 l = 0) as Z.
  { intros l. unfold lsum. assert (forall l acc, acc = 0 -> (forall v, In v l -> v = 0) -> fold_left (radd b64) l acc = 0) as Q; [|intros H; now apply Q].
    induction l0 as [|v l0 IH]; intros acc Ha H; simpl; [exact Ha|]. apply IH; [|intros; apply H; now right]. unfold radd. rewrite Ha, (H v) by (now left). rewrite Rplus_0_r. apply b64_0. }
  split.
  - unfold vr_ensemble_arr_r. rewrite (tsum_zl t1), (tsum_zl t2).
    + unfold radd, rsub, rdiv, rmul. fold e. unfold Rdiv. now rewrite !Rmult_0_l, !b64_0, !Rmult_0_l, !b64_0, !Rmult_0_r, !b64_0, Rminus_0_r, b64_0, Rplus_0_l.
    + intros n Hn. apply (Permutation_in n A2), in_seq in Hn. rewrite !Hx by (try (apply Nat.div_lt_upper_bound; lia); apply Nat.mod_upper_bound; lia). unfold rmul, rsub. now rewrite Rminus_eq_0, b64_0, Rabs_R0, Rmult_0_l, b64_0.
    + intros i Hi. apply (Permutation_in i A1), in_seq in Hi. rewrite Hx by lia. unfold rmul, rsub. now rewrite Rminus_eq_0, b64_0, Rabs_R0, Rmult_0_l, b64_0.
  - unfold vrcrps_nrg_k_r. rewrite !Z.
    + unfold radd, rsub, rdiv, rmul. fold e. unfold Rdiv. now rewrite !Rmult_0_r, b64_0, !Rmult_0_l, !b64_0, Rminus_0_r, b64_0, Rplus_0_l.
    + intros v Hv. apply in_flat_map in Hv. destruct Hv as (i & Hi & Hv). apply in_map_iff in Hv. destruct Hv as (j & <- & Hj). apply in_seq in Hi, Hj. rewrite !Hx by lia. unfold rmul, rsub. now rewrite Rminus_eq_0, b64_0, Rabs_R0, Rmult_0_r, b64_0, !Rmult_0_l, !b64_0, !Rmult_0_l, b64_0.
    + intros v Hv. apply in_map_iff in Hv. destruct Hv as (i & <- & Hi). apply in_seq in Hi. rewrite Hx by lia. unfold rmul, rsub. now rewrite Rminus_eq_0, b64_0, Rabs_R0, !Rmult_0_l, !b64_0, !Rmult_0_l, b64_0.
Qed.
Lemma vr_exact0 M a y : (0 < M)%nat -> vr_exact M a y (fun _ => y) (fun _ => a) = 0.
Proof.
  intros HM. assert (INR M <> 0) as NM by (apply not_0_INR; lia). unfold vr_exact, vr_1, vr_2, vr_x. rewrite !Rminus_eq_0, Rabs_R0, !sumn_const. field. exact NM.
Qed.
Lemma C99_vr_l :
forall M y x ow fw t0 ta t1 t2, vens64 M y x -> wts64 M fw -> wt64 ow -> adds t0 M -> adds ta M -> adds t1 M -> adds t2 (M * M) ->
  Rabs (vr_ensemble_arr_r b64 t0 ta t1 t2 M y x ow fw - vr_exact M ow y x fw) <= ((1 + u64) ^ (height t1 + height t2 + height ta + height t0 + 7) - 1) * vr_size M ow y x fw /\
  Rabs (vrcrps_nrg_k_r b64 t0 ta M y x ow fw - vr_exact M ow y x fw) <= ((1 + u64) ^ (M + M * (M - 1) / 2 + height ta + height t0 + 7) - 1) * vr_size M ow y x fw.
Proof.
intros M y x ow fw t0 ta t1 t2 HV HW Ho A0 Aa A1 A2. split; [now apply vr_arr|now apply vr_k].
Qed.
Lemma C99_agree_l :
forall M y x ow fw t0 ta t1 t2, vens64 M y x -> wts64 M fw -> wt64 ow -> adds t0 M -> adds ta M -> adds t1 M -> adds t2 (M * M) ->
  Rabs (vr_ensemble_arr_r b64 t0 ta t1 t2 M y x ow fw - vrcrps_nrg_k_r b64 t0 ta M y x ow fw) <=
  ((1 + u64) ^ (height t1 + height t2 + height ta + height t0 + 7) + (1 + u64) ^ (M + M * (M - 1) / 2 + height ta + height t0 + 7) - 2) * vr_size M ow y x fw.
Proof.
intros M y x ow fw t0 ta t1 t2 HV HW Ho A0 Aa A1 A2. destruct (C99_vr_l M y x ow fw t0 ta t1 t2 HV HW Ho A0 Aa A1 A2) as [H1 H2].
set (e := vr_exact _ _ _ _ _) in *. replace (vr_ensemble_arr_r b64 t0 ta t1 t2 M y x ow fw - vrcrps_nrg_k_r b64 t0 ta M y x ow fw) with ((vr_ensemble_arr_r b64 t0 ta t1 t2 M y x ow fw - e) + - (vrcrps_nrg_k_r b64 t0 ta M y x ow fw - e)) by ring.
eapply Rle_trans; [apply Rabs_triang|]. rewrite Rabs_Ropp. lra.
Qed.
Lemma C99_perfect_l :
forall M y x ow fw t0 ta t1 t2, (0 < M)%nat -> adds t1 M -> adds t2 (M * M) -> (forall i, (i < M)%nat -> x i = y) ->
  vr_ensemble_arr_r b64 t0 ta t1 t2 M y x ow fw = vrcrps_nrg_k_r b64 t0 ta M y x ow fw /\
  (b64 (tsum b64 t0 fw / INR M) = ow -> vrcrps_nrg_k_r b64 t0 ta M y x ow fw = 0).
Proof.
intros M y x ow fw t0 ta t1 t2 HM A1 A2 Hx. destruct (vr_third M y x ow fw t0 ta t1 t2 A1 A2 Hx) as [-> ->]. split; [reflexivity|]. intros ->. now rewrite (Rminus_eq_0 ow), b64_0, Rmult_0_r, b64_0.
Qed.
Lemma C99_nonnegative_refuted_l :
exists M y x ow fw t0 ta t1 t2, vens64 M y x /\ wts64 M fw /\ wt64 ow /\ adds t0 M /\ adds ta M /\ adds t1 M /\ adds t2 (M * M) /\
  (forall i, x i = y) /\ (forall i, fw i = ow) /\ vr_exact M ow y x fw = 0 /\ vr_ensemble_arr_r b64 t0 ta t1 t2 M y x ow fw < 0 /\ vrcrps_nrg_k_r b64 t0 ta M y x ow fw < 0.
Proof.
exists 3%nat, 7, (fun _ => 7), 7319843605468574, (fun _ => 7319843605468574), (comb 2), (comb 2), (comb 2), (comb 8).
destruct (vr_third 3 7 (fun _ => 7) 7319843605468574 (fun _ => 7319843605468574) (comb 2) (comb 2) (comb 2) (comb 8)) as [-> ->]; [apply comb_adds|apply comb_adds|auto|]. rewrite ex_v3rd.
repeat (split; [first [apply ex_vsev|apply ex_vwts|apply ex_vwt|apply comb_adds|reflexivity|apply vr_exact0; lia|lra]|]). lra.
Qed.
Lemma C99_unrounded_l :
forall M y x ow fw t0 ta t1 t2, (0 < M)%nat -> adds t0 M -> adds ta M -> adds t1 M -> adds t2 (M * M) ->
  let id := fun r : R => r in let v f := map (fun k => Fin (f k)) (seq 0 M) in
  vr_ensemble_arr_r id t0 ta t1 t2 M y x ow fw = vr_exact M ow y x fw /\ vrcrps_nrg_k_r id t0 ta M y x ow fw = vr_exact M ow y x fw /\
  vrcrps_nrg_k (Fin y) (v x) (Fin ow) (v fw) = Fin (vrcrps_nrg_k_r id t0 ta M y x ow fw) /\ is_vrcrps M (fun _ => / INR M) fw ow y x (vr_exact M ow y x fw).
Proof.
intros M y x ow fw t0 ta t1 t2 HM A0 Aa A1 A2 id v. change id with idr. clear id. assert (INR M <> 0) as NM by (apply not_0_INR; lia).
assert (tsum idr t0 fw = sumn M fw) as T0 by (apply (tsum_idr_ext t0 M fw fw A0); auto).
assert (tsum idr ta (fun i => rmul idr (Rabs (x i)) (fw i)) = sumn M (fun i => fw i * Rabs (x i))) as Ta by (apply (tsum_idr_ext ta M _ _ Aa); intros; unfold rmul, idr; ring).
assert (vrcrps_nrg_k_r idr t0 ta M y x ow fw = vr_exact M ow y x fw) as K.
{ unfold vrcrps_nrg_k_r, vr_exact, vr_1, vr_2, vr_x. rewrite T0, Ta, !lsum_id, Rsum_flat_map.
  rewrite (Rsum_map_ext (fun i => rmul idr (rmul idr (Rabs (rsub idr (x i) y)) (fw i)) ow) (fun i => ow * (fw i * Rabs (x i - y)))) by (intros; unfold rmul, rsub, idr; ring). rewrite Rsum_map_scal. change (Rsum (map (fun i => fw i * Rabs (x i - y)) (seq 0 M))) with (sumn M (fun i => fw i * Rabs (x i - y))).
  rewrite (sumn_triangle M (fun i j => fw i * fw j * Rabs (x i - x j))) by (intros; first [rewrite Rabs_minus_sym; ring|rewrite Rminus_eq_0, Rabs_R0; ring]).
  rewrite (Rsum_map_ext (fun i => Rsum (map (fun j => rmul idr (rmul idr (rmul idr 2 (Rabs (rsub idr (x i) (x j)))) (fw i)) (fw j)) (seq (i + 1) (M - (i + 1))))) (fun i => 2 * Rsum (map (fun j => fw i * fw j * Rabs (x i - x j)) (seq (i + 1) (M - (i + 1)))))).
  2:{ intros i _. rewrite <- Rsum_map_scal. apply Rsum_map_ext. intros. unfold rmul, rsub, idr. ring. }
  rewrite Rsum_map_scal. change (Rsum (map (fun i => Rsum (map (fun j => fw i * fw j * Rabs (x i - x j)) (seq (i + 1) (M - (i + 1))))) (seq 0 M))) with (sumn M (fun i => Rsum (map (fun j => fw i * fw j * Rabs (x i - x j)) (seq (i + 1) (M - (i + 1)))))). unfold radd, rsub, rdiv, rmul, idr. rewrite mult_INR. field. exact NM. }
split; [|split; [exact K|split]].
- unfold vr_ensemble_arr_r, vr_exact, vr_1, vr_2, vr_x. rewrite T0, Ta.
  rewrite (tsum_idr_ext t1 M _ (fun i => fw i * Rabs (x i - y)) A1) by (intros; unfold rmul, rsub, idr; rewrite Rabs_minus_sym; ring).
  rewrite (tsum_idr_ext t2 (M * M) _ (fun n => (fun i j => fw i * fw j * Rabs (x i - x j)) (n / M)%nat (n mod M)%nat) A2) by (intros; unfold rmul, rsub, idr; ring).
  rewrite (sumn_grid M M (fun i j => fw i * fw j * Rabs (x i - x j))) by exact HM. unfold radd, rsub, rdiv, rmul, idr. rewrite mult_INR. field. exact NM.
- rewrite K, <- vrv_exact by exact HM. unfold v. apply (vr_k_real M (Fin y) (Fin ow) (fun k => Fin (x k)) (fun k => Fin (fw k))); auto.
- rewrite <- vrv_exact by exact HM. apply is_vr.
Qed.
