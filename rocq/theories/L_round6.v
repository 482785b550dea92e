(** pwm of a constant ensemble, and the rounded definitions of M_round2.v without rounding. *)
From Coq Require Import Reals List ZArith Permutation Lia Lra Psatz.
From Flocq Require Import Core Relative.
From Verif Require Import L_crps_real L_crps_row L_crps_omit M_crps.
From Verif Require Export L_round5.
Open Scope R_scope.

Local Notation fmt := (generic_format radix2 (FLT_exp (-1074) 53)).
Local Notation bp := (bpow radix2).

(** rounding of a number between 2^(52+e) and 2^(53+e) *)
Lemma b64_grid r e : (-1074 <= e)%Z -> bp 52 <= r < bp 53 -> b64 (r * bp e) = IZR (ZnearestE r) * bp e.
Proof.
  intros He [H1 H2]. pose proof (bpow_gt_0 radix2 52) as P. pose proof (bpow_gt_0 radix2 e) as Q.
  unfold b64, round, scaled_mantissa, cexp, FLT_exp, F2R. simpl Fnum. simpl Fexp.
  assert (mag radix2 (r * bp e) = (53 + e)%Z :> Z) as E.
  { apply mag_unique. rewrite Rabs_pos_eq by nra. replace (53 + e - 1)%Z with (52 + e)%Z by lia. rewrite !bpow_plus. split; [apply Rmult_le_compat_r; lra|apply Rmult_lt_compat_r; lra]. }
  rewrite E. rewrite Z.max_l by lia. replace (53 + e - 53)%Z with e by lia. replace (r * bp e * bp (- e)) with r; [reflexivity|].
  rewrite Rmult_assoc, <- bpow_plus, Z.add_opp_diag_r. simpl. ring.
Qed.
Lemma floor_half z : Zfloor (IZR z + / 2) = z. Proof. apply Zfloor_imp. rewrite plus_IZR. lra. Qed.
Lemma near_half_even k : ZnearestE (IZR (2 * k) + / 2) = (2 * k)%Z.
Proof.
  unfold Znearest. pose proof (floor_half (2 * k)) as E. rewrite E.
  rewrite Rcompare_Eq by lra. rewrite Z.even_mul. reflexivity.
Qed.
Lemma near_half_odd k : ZnearestE (IZR (2 * k + 1) + / 2) = (2 * k + 2)%Z.
Proof.
  unfold Znearest. pose proof (floor_half (2 * k + 1)) as E. rewrite E.
  rewrite Rcompare_Eq by lra. replace (Z.even (2 * k + 1)) with false by (rewrite Z.add_comm, Z.even_add_mul_2; reflexivity). cbn [negb]. rewrite Zceil_floor_neq by (rewrite E; lra). rewrite E. lia.
Qed.
Lemma bp52 : bp 52 = 4503599627370496. Proof. rewrite <- (IZR_Zpower radix2) by lia. reflexivity. Qed.
Lemma bp53 : bp 53 = 9007199254740992. Proof. rewrite <- (IZR_Zpower radix2) by lia. reflexivity. Qed.
(** 2^53 - 6 *)
Definition xc : R := 9007199254740986.
Lemma fmt_xc : fmt xc. Proof. apply (fmt_int 9007199254740986). lia. Qed.
(** N = 2^53: 3 N - 18 -> 3 N - 16, 4 N - 22 -> 4 N - 24, 6 N - 32 *)
Lemma r3 : b64 (2 * xc + xc) = 27021597764222960 /\ b64 (xc * 3) = 27021597764222960.
Proof.
  assert (b64 (27021597764222958) = 27021597764222960) as E; [|split; [rewrite <- E; f_equal; unfold xc; ring|rewrite <- E; f_equal; unfold xc; ring]].
  replace 27021597764222958 with ((IZR (2 * 3377699720527869 + 1) + / 2) * bp 2) by (simpl; lra). rewrite b64_grid; [|lia|rewrite bp52, bp53; simpl; lra].
  rewrite near_half_odd. simpl. lra.
Qed.
Lemma r4 : b64 (27021597764222960 + xc) = 4 * xc.
Proof.
  replace (27021597764222960 + xc) with ((IZR (2 * 4503599627370493) + / 2) * bp 2) by (unfold xc; simpl; lra). rewrite b64_grid; [|lia|rewrite bp52, bp53; simpl; lra].
  rewrite near_half_even. unfold xc. simpl. lra.
Qed.
Lemma r6 : b64 (27021597764222960 + 27021597764222960) = 54043195528445920.
Proof. replace (27021597764222960 + 27021597764222960) with (2 * b64 (2 * xc + xc)) by (rewrite (proj1 r3); lra). rewrite b64_id by apply fmt_double, b64_fmt. rewrite (proj1 r3). lra. Qed.
Lemma r12 : b64 (54043195528445920 / 12) = 9007199254740987 / 2 /\ b64 (108086391056891840 / 12) = 9007199254740987.
Proof.
  assert (ZnearestE (27021597764222960 / 3) = 9007199254740987%Z) as E by (apply Znearest_imp; rewrite Rabs_left; lra). split.
  - replace (54043195528445920 / 12) with (27021597764222960 / 3 * bp (-1)) by (simpl; lra). rewrite b64_grid; [|lia|rewrite bp52, bp53; lra]. rewrite E. simpl. lra.
  - replace (108086391056891840 / 12) with (27021597764222960 / 3 * bp 0) by (simpl; lra). rewrite b64_grid; [|lia|rewrite bp52, bp53; lra]. rewrite E. simpl. lra.
Qed.
Lemma dbl r : fmt r -> b64 (r + r) = 2 * r. Proof. intros H. replace (r + r) with (2 * r) by ring. apply b64_id, fmt_double, H. Qed.
Lemma const_pwm_k : crps_pwm_k_r b64 4 xc (fun _ => xc) = -1.
Proof.
  unfold crps_pwm_k_r. cbn [seq fold_left]. unfold radd, rsub, rmul, rdiv. rewrite Rminus_eq_0, b64_0, Rabs_R0, !Rplus_0_r, !b64_0.
  replace (INR 0) with 0 by reflexivity. replace (INR 1) with 1 by reflexivity. replace (INR 2) with 2 by (simpl; lra). replace (INR 3) with 3 by (simpl; lra). replace (INR 4) with 4 by (simpl; lra).
  replace (INR (4 * (4 - 1))) with 12 by (simpl; lra). rewrite Rmult_0_r, Rmult_1_r, !Rplus_0_l, !b64_0, Rplus_0_l, (b64_id xc fmt_xc), (b64_id xc fmt_xc).
  rewrite (dbl xc fmt_xc), (proj1 r3), r4. replace (4 * xc / 4) with xc by field. rewrite (b64_id xc fmt_xc).
  replace (xc * 2) with (2 * xc) by ring; rewrite (b64_id (2 * xc) (fmt_double _ fmt_xc)).
  rewrite (proj2 r3). replace (xc + 2 * xc) with (2 * xc + xc) by ring. rewrite (proj1 r3), r6. rewrite (b64_id (2 * 54043195528445920)) by (rewrite <- r6; apply fmt_double, b64_fmt).
  replace (2 * 54043195528445920) with 108086391056891840 by ring. rewrite (proj2 r12). replace (0 / 4) with 0 by lra. rewrite b64_0, Rplus_0_l, (b64_id xc fmt_xc).
  replace (xc - 9007199254740987) with (-1) by (unfold xc; lra). apply b64_id, (fmt_int (-1)). lia.
Qed.
Lemma const_pwm_arr : crps_pwm_arr_r b64 (comb 3) (comb 3) (comb 3) 4 xc (fun _ => xc) = -1.
Proof.
  unfold crps_pwm_arr_r. cbn [comb tsum]. unfold radd, rsub, rmul, rdiv. rewrite Rminus_eq_0, b64_0, Rabs_R0, !Rplus_0_r, !b64_0, ?Rplus_0_r, ?b64_0.
  replace (INR 0) with 0 by reflexivity. replace (INR 1) with 1 by reflexivity. replace (INR 2) with 2 by (simpl; lra). replace (INR 3) with 3 by (simpl; lra). replace (INR 4) with 4 by (simpl; lra).
  replace (INR (4 * (4 - 1))) with 12 by (simpl; lra). rewrite Rmult_0_r, Rmult_1_r, !b64_0, (b64_id xc fmt_xc), Rplus_0_l, (b64_id xc fmt_xc).
  rewrite (dbl xc fmt_xc), (proj1 r3), r4. replace (4 * xc / 4) with xc by field. rewrite (b64_id xc fmt_xc).
  replace (xc * 2) with (2 * xc) by ring; rewrite (b64_id (2 * xc) (fmt_double _ fmt_xc)).
  rewrite (proj2 r3). replace (xc + 2 * xc) with (2 * xc + xc) by ring. rewrite (proj1 r3), r6, (proj1 r12).
  replace (2 * (9007199254740987 / 2)) with 9007199254740987 by lra. rewrite (b64_id 9007199254740987) by (apply (fmt_int 9007199254740987); lia).
  replace (0 / 4) with 0 by lra. rewrite b64_0, Rplus_0_l, (b64_id xc fmt_xc).
  replace (xc - 9007199254740987) with (-1) by (unfold xc; lra). apply b64_id, (fmt_int (-1)). lia.
Qed.
(** ** no rounding *)
Lemma pwm_k_id M y x : (1 < M)%nat -> ascending M x -> crps_pwm_k_r idr M y x = fair_crps M y x.
Proof.
  intros H2 Ha. rewrite <- (pwm_value M y x ltac:(lia) H2 Ha). unfold crps_pwm_k_r.
  rewrite (fold_triple (fun u i => radd idr u (Rabs (rsub idr (x i) y))) (fun v i => radd idr v (x i)) (fun w i => radd idr w (rmul idr (x i) (INR i)))), !fold_lsum, !lsum_id.
  unfold rsub, radd, rmul, rdiv, idr, mae, sumn. unfold Rdiv. ring.
Qed.
Lemma pwm_arr_id M y x t1 t2 t3 : (1 < M)%nat -> ascending M x -> adds t1 M -> adds t2 M -> adds t3 M -> crps_pwm_arr_r idr t1 t2 t3 M y x = fair_crps M y x.
Proof.
  intros H2 Ha A1 A2 A3. rewrite <- (pwm_value M y x ltac:(lia) H2 Ha). unfold crps_pwm_arr_r. rewrite (tsum_id t1 M), (tsum_id t2 M), (tsum_id t3 M) by auto.
  unfold rsub, radd, rmul, rdiv, idr, mae. rewrite (sumn_ext M (fun i => Rabs (y - x i)) (fun i => Rabs (x i - y))) by (intros; apply Rabs_minus_sym). reflexivity.
Qed.
Lemma lag_arr_id s t1 t2 M y x : adds t1 M -> adds t2 M -> crps_lag_arr_r idr s t1 t2 M y x = lag_crps M (fun k => (k + M - s) mod M)%nat y x.
Proof.
  intros H1 H2. unfold crps_lag_arr_r. rewrite (tsum_id t1 M), (tsum_id t2 M) by auto. unfold rsub, rmul, rdiv, idr, lag_crps, mae.
  rewrite (sumn_ext M (fun i => Rabs (y - x i)) (fun i => Rabs (x i - y))) by (intros; apply Rabs_minus_sym). unfold Rdiv. ring.
Qed.
Lemma lag_k_id g M y x : crps_lag_k_r idr g M y x = lag_crps M g y x.
Proof.
  unfold crps_lag_k_r. rewrite (fold_pair (fun u i => radd idr u (Rabs (rsub idr (x i) y))) (fun v i => radd idr v (Rabs (rsub idr (x i) (x (g i)))))), !fold_lsum, !lsum_id.
  unfold rsub, rmul, rdiv, idr, lag_crps, mae, sumn. unfold Rdiv. ring.
Qed.
