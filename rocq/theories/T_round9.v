(** Proofs of the rounding properties of the weighted probability weighted moments (statements in P_round9.v). *)
From Coq Require Import Reals List ZArith Permutation Lia Lra Psatz.
From Flocq Require Import Core.
From Verif Require Import Num L_crps_real L_crps_math L_crps_row L_crps_roww L_crps_gu L_crps_ens.
From Verif Require Export T_round7 T_round8 L_round15 S_round2 S_round5 S_round.
Open Scope R_scope.

Local Notation fmt := (generic_format radix2 (FLT_exp (-1074) 53)).
Lemma double_r k n z Z A : appr k n z Z A -> appr k (2 * n) (b64 (2 * z)) (2 * Z) (2 * A).
Proof. apply appr_double. Qed.
Section P.
Variables (M : nat) (y : R) (x w : nat -> R) (tw t4 : stree).
Hypothesis HE : wens64 M y x.
Hypothesis HW : wts64 M w.
Hypothesis AW : adds tw M.
Hypothesis BW : (Z.of_nat (height tw) <= 2 ^ 52)%Z.
Hypothesis A4 : adds t4 M.
Local Notation wc := (weights_r b64 tw w).
Local Notation W := (nw M w).
Local Notation kw := (height tw + 2)%nat.
Local Notation cx := (1 - sumn M (fun i => W i * W i)).
Local Notation g := ((1 + u64) ^ (height t4 + 2 * height tw + 6) - 1).
Local Notation S0 := (sumn M (fun i => W i * Rabs (x i))).
Hypothesis Hg : g < cx.
Lemma pwm_arr tc t1 t2 t3 h : cumorders M h tc -> adds t1 M -> adds t2 M -> adds t3 M ->
  exists s, crps_pwm_w_arr_r b64 tc t1 t2 t3 t4 y x wc = Fin s /\ Rabs (s - wpwm_crps M W y x) <=
  err64 (height t1 + height t2 + height t3 + h + 2 * height tw + 9) (INR M + 6 * INR M / (cx - g) + 2) (wmae M W y x + S0 + 4 * S0 / (cx - g)) + 4 * S0 * g / (cx * (cx - g)).
Proof.
  intros Ht A1 A2 A3. destruct (pcr M y x w tw t4 HE HW AW BW A4 Hg) as (_ & P & _). unfold crps_pwm_w_arr_r. cbv zeta. rewrite ndiv_r by lra. cbn [nmul nrnd]. rewrite nsub_r. eexists. split; [reflexivity|].
  replace (height t1 + height t2 + height t3 + h + 2 * height tw + 9)%nat with ((height t1 + height t2 + height t3 + h + 2 * height tw + 7) + 2)%nat by lia.
  apply (pfin M y x w tw t4 HE HW AW BW A4 Hg); [apply HE| | |].
  - apply (appr_le (height t1 + 1 + kw + 1) _ 0 0); [lia|lra|]. apply (appr_of_calc _ 628). exact (u1_arr M y x w tw HE HW AW BW t1 A1).
  - eapply appr_le; [| |apply (tsum_an t2 M (S kw) 1); [exact A2|]]; [lia|lra|]. intros i Hi. now apply (pb0 M y x w tw HE HW AW BW).
  - replace (2 * (INR M * 3) / fair_c_r b64 t4 wc + 2) with (2 * (INR M * 3 / fair_c_r b64 t4 wc + 1)) by (field; lra). apply double_r. rewrite <- sumn_scal.
    apply appr_quot; [exact P|]. eapply appr_le; [| |apply (tsum_an t3 M (kw + (kw + h) + 3) 3); [exact A3|]]; [lia|lra|]. intros i Hi. destruct (Ht i Hi) as [Ai Li]. apply (pb1 M y x w tw HE HW AW BW); [exact Hi| |lia].
    apply (calc_le (kw + height (tc i)) (kw + h) 227 227); [lia|lia|]. apply tsum_n; [lia|exact Ai|]. intros j Hj. apply (qwts M y x w tw HE HW AW BW). lia.
Qed.
Lemma pwm_k : exists s, crps_pwm_w_k_r b64 t4 M y x wc = Fin s /\ Rabs (s - wpwm_crps M W y x) <=
  err64 (2 * M + 2 * height tw + 9) (INR M + 6 * INR M / (cx - g) + 2) (wmae M W y x + S0 + 4 * S0 / (cx - g)) + 4 * S0 * g / (cx * (cx - g)).
Proof.
  destruct (pcr M y x w tw t4 HE HW AW BW A4 Hg) as (_ & P & _). assert (0 < M)%nat as HM by apply HE. unfold crps_pwm_w_k_r. cbv zeta. cbn [nmul nrnd]. rewrite ndiv_r by lra. rewrite nsub_r. eexists. split; [reflexivity|].
  replace (2 * M + 2 * height tw + 9)%nat with ((2 * M + 2 * height tw + 7) + 2)%nat by lia. assert (0 <= INR M) as PM by apply pos_INR. assert (0 < / fair_c_r b64 t4 wc) by now apply Rinv_0_lt_compat.
  apply (pfin M y x w tw t4 HE HW AW BW A4 Hg); [exact HM| | |].
  - apply (appr_le (M + 1 + kw + 1) _ 0 0); [lia|lra|]. apply (appr_of_calc _ 628). exact (u1_k M y x w tw HE HW AW BW).
  - eapply appr_le; [| |apply (lsum_an M (S kw) 1); [lra|]]; [lia|lra|]. intros i Hi. now apply (pb0 M y x w tw HE HW AW BW).
  - replace (2 * (sumn M (fun i => x i * W i * (sumn (S i) W - W i)) / fair_c_r b64 t4 wc)) with (2 * sumn M (fun i => x i * W i * (sumn (S i) W - W i)) / fair_c_r b64 t4 wc) by (field; lra).
    replace (2 * (2 * S0 / fair_c_r b64 t4 wc)) with (2 * (2 * S0) / fair_c_r b64 t4 wc) by (field; lra).
    eapply appr_le; [apply le_n| |apply (appr_quot _ (2 * (INR M * 3))); [exact P|apply double_r; rewrite <- sumn_scal; eapply appr_le; [| |apply (lsum_an M (kw + (kw + M) + 3) 3); [lra|]]]]; [lra|lia|lra|].
    intros i Hi. destruct (comb_adds i) as [Ai Li]. unfold rmul, rsub. rewrite lsum_comb by (apply (qwts M y x w tw HE HW AW BW 0); lia). apply (pb1 M y x w tw HE HW AW BW); [exact Hi| |lia].
    apply (calc_le (kw + height (comb i)) (kw + M) 227 227); [lia|lia|]. apply tsum_n; [lia|exact Ai|]. intros j Hj. apply (qwts M y x w tw HE HW AW BW). lia.
Qed.
End P.
Lemma lost_sub a v : nrnd b64 (nsub (Fin a) v) = match v with Fin b => Fin (b64 (a - b)) | NaN => NaN | PInf => NInf | NInf => PInf end.
Proof. destruct v; reflexivity. Qed.
Lemma ex_wdw : weights_r b64 (comb 1) ex_wd 0 = 1 /\ weights_r b64 (comb 1) ex_wd 1 = / 2 ^ 60.
Proof.
  assert (/ 2 ^ 60 = bpow radix2 (-60)) as Ee by (apply (bp_inv 60)).
  assert (tsum b64 (comb 1) ex_wd = 1) as T. { change (tsum b64 (comb 1) ex_wd) with (b64 (1 + / 2 ^ 60)). apply b64_1p. rewrite Ee. split; [apply bpow_ge_0|apply bpow_le; lia]. }
  unfold weights_r, rdiv. rewrite T. unfold ex_wd. simpl Nat.eqb. cbn iota. split.
  - replace (1 / 1) with 1 by field. apply b64_id, (fmt_int 1). lia.
  - rewrite Ee. replace (bpow radix2 (-60) / 1) with (bpow radix2 (-60)) by field. apply b64_id, fmt_bp. lia.
Qed.
Lemma C96_pwm_l :
forall M y x w tw tc t1 t2 t3 t4 h, wens64 M y x -> wts64 M w -> adds tw M -> cumorders M h tc -> adds t1 M -> adds t2 M -> adds t3 M -> adds t4 M -> (Z.of_nat (height tw) <= 2 ^ 52)%Z ->
  let W := nw M w in let wc := weights_r b64 tw w in
  let c := 1 - sumn M (fun i => W i * W i) in let g := (1 + u64) ^ (height t4 + 2 * height tw + 6) - 1 in let size := sumn M (fun i => W i * Rabs (x i)) in
  let bound k := err64 k (INR M + 6 * INR M / (c - g) + 2) (wmae M W y x + size + 4 * size / (c - g)) + 4 * size * g / (c * (c - g)) in
  g < c ->
  (exists s, crps_pwm_w_arr_r b64 tc t1 t2 t3 t4 y x wc = Fin s /\ Rabs (s - wpwm_crps M W y x) <= bound (height t1 + height t2 + height t3 + h + 2 * height tw + 9)%nat) /\
  (exists s, crps_pwm_w_k_r b64 t4 M y x wc = Fin s /\ Rabs (s - wpwm_crps M W y x) <= bound (2 * M + 2 * height tw + 9)%nat).
Proof.
intros M y x w tw tc t1 t2 t3 t4 h HE HW AW Ht A1 A2 A3 A4 BW W wc c g size bound Hg. split; [now apply pwm_arr|now apply pwm_k].
Qed.
Lemma C96_lost_l :
forall M y x w tc t1 t2 t3 t4, fair_c_r b64 t4 w = 0 ->
  let n := tsum b64 t3 (fun i => rmul b64 (rmul b64 (x i) (w i)) (rsub b64 (tsum b64 (tc i) w) (w i))) in
  let m := lsum b64 (map (fun i => rmul b64 (rmul b64 (x i) (w i)) (rsub b64 (lsum b64 (map w (seq 0 (S i)))) (w i))) (seq 0 M)) in
  let s := crps_pwm_w_arr_r b64 tc t1 t2 t3 t4 y x w in let k := crps_pwm_w_k_r b64 t4 M y x w in
  (0 < n -> s = NInf) /\ (n < 0 -> s = PInf) /\ (n = 0 -> s = NaN) /\ (0 < m -> k = NInf) /\ (m < 0 -> k = PInf) /\ (m = 0 -> k = NaN).
Proof.
intros M y x w tc t1 t2 t3 t4 Hc n m s k.
assert (s = nrnd b64 (nsub (Fin (radd b64 (tsum b64 t1 (fun i => rmul b64 (Rabs (rsub b64 y (x i))) (w i))) (tsum b64 t2 (fun i => rmul b64 (x i) (w i))))) (nrnd b64 (nmul (Fin 2) (nrnd b64 (ndiv (Fin n) (Fin 0))))))) as -> by (unfold s, crps_pwm_w_arr_r; cbv zeta; now rewrite Hc).
assert (k = nrnd b64 (nsub (Fin (radd b64 (lsum b64 (map (fun i => rmul b64 (Rabs (rsub b64 (x i) y)) (w i)) (seq 0 M))) (lsum b64 (map (fun i => rmul b64 (x i) (w i)) (seq 0 M))))) (nrnd b64 (ndiv (Fin (b64 (2 * m))) (Fin 0))))) as -> by (unfold k, crps_pwm_w_k_r; cbv zeta; rewrite Hc; reflexivity).
assert (fmt m) as Fm by (unfold m, lsum; destruct M as [|M']; [apply fmt_0|]; rewrite seq_S, map_app, fold_left_app; apply b64_fmt). rewrite (b64_id (2 * m)) by now apply fmt_double.
assert (infsgn 2 = PInf) as I2 by (unfold infsgn; destruct (Rlt_dec 0 2); [reflexivity|lra]).
rewrite !lost_sub. cbn [ndiv]. destruct (Req_EM_T 0 0) as [_|N]; [|lra].
repeat split; intros H; unfold infsgn at 1.
- destruct (Rlt_dec 0 n); [|lra]. cbn [nrnd nmul]. rewrite I2. reflexivity.
- destruct (Rlt_dec 0 n); [lra|]. destruct (Rlt_dec n 0); [|lra]. cbn [nrnd nmul]. rewrite I2. reflexivity.
- destruct (Rlt_dec 0 n); [lra|]. destruct (Rlt_dec n 0); [lra|]. reflexivity.
- destruct (Rlt_dec 0 (2 * m)); [|lra]. reflexivity.
- destruct (Rlt_dec 0 (2 * m)); [lra|]. destruct (Rlt_dec (2 * m) 0); [|lra]. reflexivity.
- destruct (Rlt_dec 0 (2 * m)); [lra|]. destruct (Rlt_dec (2 * m) 0); [lra|]. reflexivity.
Qed.
Lemma C96_finite_refuted_l :
exists M y x w tw tc t1 t2 t3 t4, (1 < M)%nat /\ wens64 M y x /\ wts64 M w /\ adds tw M /\ cumorders M M tc /\ adds t1 M /\ adds t2 M /\ adds t3 M /\ adds t4 M /\ (forall i, (i < M)%nat -> 0 < w i) /\
  Rabs (wpwm_crps M (nw M w) y x + 1) <= / 2 ^ 59 /\
  crps_pwm_w_arr_r b64 tc t1 t2 t3 t4 y x (weights_r b64 tw w) = NInf /\ crps_pwm_w_k_r b64 t4 M y x (weights_r b64 tw w) = NInf.
Proof.
exists 2%nat, 0, ex_u, ex_wd, (comb 1), comb, (comb 1), (comb 1), (comb 1), (comb 1). destruct (comb_adds 1) as [A _]. destruct ex_wdw as [W0 W1].
assert (0 < / 2 ^ 60 <= / 16) as P60 by (split; [apply Rinv_0_lt_compat, pow_lt; lra|]; simpl; lra). 
assert (cumorders 2 2 comb) as O by (intros k Hk; destruct (comb_adds k) as [B L]; split; [exact B|lia]).
repeat (split; [first [lia|exact ex_uni2|exact ex_wdts|exact A|exact O]|]). split; [intros i Hi; unfold ex_wd; destruct (i =? 0)%nat; [lra|apply P60]|]. split.
- unfold wpwm_crps, wmae, nw. unfold sumn, Rsum. cbn [seq map fold_right]. unfold ex_wd, ex_u. cbn [Nat.eqb INR]. set (e := / 2 ^ 60) in *. rewrite Rminus_eq_0, Rabs_R0, Rminus_0_r, Rabs_R1.
  match goal with |- Rabs ?a <= _ => replace a with (2 * e / (1 + e)) by (field; repeat split; nra) end.
  assert (/ 2 ^ 59 = 2 * e) as -> by (unfold e; simpl; lra). rewrite Rabs_pos_eq; [|apply Rmult_le_pos; [lra|apply Rlt_le, Rinv_0_lt_compat; lra]].
  unfold Rdiv. rewrite <- (Rmult_1_r (2 * e)) at 2. apply Rmult_le_compat_l; [lra|]. rewrite <- Rinv_1. apply Rinv_le_contravar; lra.
- assert (b64 (1 + / 2 ^ 60) = 1) as E1 by (apply b64_1p; split; [lra|simpl; lra]).
  assert (0 < b64 (b64 (0 + b64 (b64 (0 * 1) * b64 (1 - 1))) + b64 (b64 (1 * / 2 ^ 60) * b64 (1 - / 2 ^ 60)))) as Pn.
  { rewrite Rmult_0_l, b64_0, Rmult_0_l, b64_0, Rplus_0_r, b64_0, Rplus_0_l, Rmult_1_l. rewrite (b64_id (b64 _)) by apply b64_fmt. assert (/ 2 ^ 60 = bpow radix2 (-60)) as -> by (apply (bp_inv 60)). rewrite (b64_id (bpow radix2 (-60))) by (apply fmt_bp; lia).
    assert (bpow radix2 (-1) <= b64 (1 - bpow radix2 (-60))) as L1 by (apply b64_ge_fmt; [apply fmt_bp; lia|simpl; lra]).
    apply Rlt_le_trans with (bpow radix2 (-61)); [apply bpow_gt_0|]. apply b64_ge_fmt; [apply fmt_bp; lia|]. change (-61)%Z with (-60 + -1)%Z. rewrite bpow_plus. apply Rmult_le_compat_l; [apply bpow_ge_0|exact L1]. }
  destruct (C96_lost_l 2 0 ex_u (weights_r b64 (comb 1) ex_wd) comb (comb 1) (comb 1) (comb 1) (comb 1) ex_wd_c) as (H & _ & _ & H' & _). split; [apply H|apply H'].
  + set (q := weights_r b64 (comb 1) ex_wd) in *. clearbody q. cbn [tsum comb]. unfold rmul, rsub, radd. rewrite W0, W1. unfold ex_u. cbn [INR]. rewrite E1. rewrite Rplus_0_l, (b64_id (b64 (b64 (0 * 1) * _))) in Pn by apply b64_fmt. exact Pn.
  + cbn [seq map]. unfold lsum. cbn [fold_left]. unfold rmul, rsub, radd. rewrite W0, W1. unfold ex_u. cbn [INR]. rewrite !(Rplus_0_l 1), !(b64_id 1) by (apply (fmt_int 1); lia). rewrite E1. exact Pn.
Qed.
Lemma C96_unrounded_l :
forall M y x w tc t1 t2 t3 t4 h, cumorders M h tc -> adds t1 M -> adds t2 M -> adds t3 M -> adds t4 M -> sumn M (fun i => w i * w i) <> 1 ->
  let id := fun r : R => r in let v f := map (fun k => Fin (f k)) (seq 0 M) in
  crps_pwm_w_arr_r id tc t1 t2 t3 t4 y x w = Fin (wpwm_crps M w y x) /\ crps_pwm_w_k (Fin y) (v x) (v w) = crps_pwm_w_k_r id t4 M y x w.
Proof.
intros M y x w tc t1 t2 t3 t4 h Ht A1 A2 A3 A4 HC id v. change id with idr. clear id.
assert (fair_c_r idr t4 w = 1 - sumn M (fun i => w i * w i)) as FC. { unfold fair_c_r. rewrite (tsum_idr_ext t4 M _ (fun i => w i * w i) A4) by (intros; reflexivity). reflexivity. }
set (c := 1 - sumn M (fun i => w i * w i)) in *. assert (c <> 0) as C0 by (unfold c; lra).
assert (forall a b, b <> 0 -> nrnd idr (ndiv (Fin a) (Fin b)) = Fin (a / b)) as ND. { intros a b Hb. cbn [ndiv]. destruct (Req_EM_T b 0); [contradiction|reflexivity]. }
assert (forall f g : nat -> R, (forall i, (i < M)%nat -> f i = g i) -> lsum idr (map f (seq 0 M)) = sumn M g) as L1 by (intros f g Hf; rewrite lsum_id; now apply (sumn_ext M f g)).
split.
- unfold crps_pwm_w_arr_r. cbv zeta. rewrite FC, ND by exact C0. rewrite (tsum_idr_ext t1 M _ (fun i => w i * Rabs (x i - y)) A1) by (intros; unfold rmul, rsub, idr; rewrite Rabs_minus_sym; ring).
  rewrite (tsum_idr_ext t2 M _ (fun i => x i * w i) A2) by (intros; reflexivity). rewrite (tsum_idr_ext t3 M _ (fun k => x k * w k * (sumn (S k) w - w k)) A3).
  + reflexivity.
  + intros i Hi. rewrite (tsum_idr_ext (tc i) (S i) w w) by (try apply Ht; auto). reflexivity.
- rewrite (pwm_w_k_real M (Fin y) (fun k => Fin (x k)) (fun k => Fin (w k)) y x w eq_refl ltac:(auto) ltac:(auto) C0 : crps_pwm_w_k (Fin y) (v x) (v w) = _).
  unfold crps_pwm_w_k_r. cbv zeta. rewrite FC. cbn [nmul nrnd]. rewrite ND by exact C0.
  rewrite (L1 _ (fun i => w i * Rabs (x i - y))) by (intros; unfold rmul, rsub, idr; ring). rewrite (L1 _ (fun i => x i * w i)) by (intros; reflexivity).
  rewrite (L1 _ (fun k => x k * w k * (sumn (S k) w - w k))) by (intros; rewrite lsum_id; reflexivity).
  unfold nsub, nrnd. cbn [nopp nadd]. f_equal. unfold idr, radd, wpwm_crps, wmae. fold c. field. exact C0.
Qed.
