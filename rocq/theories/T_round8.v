(** Proofs of the rounding properties of the weighted quantile decomposition (statements in P_round8.v). *)
From Coq Require Import Reals List ZArith Permutation Lia Lra Psatz.
From Flocq Require Import Core.
From Verif Require Import Num L_crps_real L_crps_math L_crps_row L_crps_roww L_crps_gu L_crps_ens L_round6.
From Verif Require Export T_round7 L_round14 S_round5 S_round.
Open Scope R_scope.

Local Notation fmt := (generic_format radix2 (FLT_exp (-1074) 53)).
Local Notation bp := (bpow radix2).
Lemma b64_pt v r m e : (-1074 <= e)%Z -> v = r * bp e -> bp 52 <= r < bp 53 -> ZnearestE r = m -> b64 v = IZR m * bp e.
Proof. intros He -> Hr <-. now apply b64_grid. Qed.
Lemma tsum_zl t a : (forall i, In i (leaves t) -> a i = 0) -> tsum b64 t a = 0.
Proof. induction t as [i|t1 IH1 t2 IH2]; intros H; simpl; [apply H; now left|]. unfold radd. rewrite IH1, IH2 by (intros; apply H; simpl; apply in_or_app; auto). rewrite Rplus_0_r. apply b64_0. Qed.
(** weights 1, 6, 3, 3 and 2^-60: the computed normalised weights add up to 1 + 2^-52 *)
Definition ex_qw (i : nat) : R := match i with O => 1 | S O => 6 | S (S O) => 3 | S (S (S O)) => 3 | _ => / 2 ^ 60 end.
Definition ex_qx (i : nat) : R := if (i =? 4)%nat then 1 else 0.
Lemma bp_m60 : bp (-60) = / 2 ^ 60. Proof. change (2 ^ 60) with (2 ^ 60)%R. symmetry. apply (bp_inv 60). Qed.
Lemma ex_qsum : tsum b64 (comb 4) ex_qw = 13.
Proof.
  change (tsum b64 (comb 4) ex_qw) with (b64 (b64 (b64 (b64 (1 + 6) + 3) + 3) + / 2 ^ 60)).
  replace (1 + 6) with 7 by ring. rewrite (b64_id 7) by (apply (fmt_int 7); lia). replace (7 + 3) with 10 by ring. rewrite (b64_id 10) by (apply (fmt_int 10); lia).
  replace (10 + 3) with 13 by ring. rewrite (b64_id 13) by (apply (fmt_int 13); lia).
  rewrite (b64_pt _ (7318349394477056 + / 2 ^ 11) 7318349394477056 (-49)); [simpl; lra|lia|simpl; lra|rewrite bp52, bp53; simpl; lra|].
  apply Znearest_imp. apply Rabs_lt. simpl. lra.
Qed.
Local Notation wq := (weights_r b64 (comb 4) ex_qw).
Lemma ex_q0 : wq 0%nat = 5542891849071380 * bp (-56).
Proof. unfold weights_r, rdiv. rewrite ex_qsum. apply (b64_pt _ (72057594037927936 / 13)); [lia|simpl; lra|rewrite bp52, bp53; lra|]. apply Znearest_imp. apply Rabs_lt. lra. Qed.
Lemma ex_q1 : wq 1%nat = 8314337773607070 * bp (-54).
Proof. unfold weights_r, rdiv. rewrite ex_qsum. apply (b64_pt _ (108086391056891904 / 13)); [lia|simpl; lra|rewrite bp52, bp53; lra|]. apply Znearest_imp. apply Rabs_lt. lra. Qed.
Lemma ex_q2 : wq 2%nat = 8314337773607070 * bp (-55) /\ wq 3%nat = 8314337773607070 * bp (-55).
Proof. assert (wq 2%nat = wq 3%nat) as <- by reflexivity. split; unfold weights_r, rdiv; rewrite ex_qsum; (apply (b64_pt _ (108086391056891904 / 13)); [lia|simpl; lra|rewrite bp52, bp53; lra|]; apply Znearest_imp; apply Rabs_lt; lra). Qed.
Lemma ex_q4 : bp (-64) <= wq 4%nat <= bp (-63).
Proof.
  unfold weights_r, rdiv. rewrite ex_qsum. change (ex_qw 4) with (/ 2 ^ 60). rewrite <- bp_m60.
  split; [apply b64_ge_fmt|apply b64_le_fmt]; try (apply fmt_bp; lia); [change (-64)%Z with (-60 + -4)%Z|change (-63)%Z with (-60 + -3)%Z]; rewrite bpow_plus; pose proof (bpow_gt_0 radix2 (-60)); simpl (bp (-4)); simpl (bp (-3)); lra.
Qed.
Lemma ex_qcum3 : tsum b64 (comb 3) wq = 4503599627370497 * bp (-52).
Proof.
  change (tsum b64 (comb 3) wq) with (b64 (b64 (b64 (wq 0%nat + wq 1%nat) + wq 2%nat) + wq 3%nat)). destruct ex_q2 as [E2 E3]. rewrite ex_q0, ex_q1, E2, E3.
  rewrite (b64_pt (_ + 8314337773607070 * bp (-54)) (IZR (2 * 2425015183968728 + 1) + / 2) 4850030367937458 (-53)); [|lia|simpl; lra|rewrite bp52, bp53; simpl; lra|apply near_half_odd].
  rewrite (b64_pt (4850030367937458 * bp (-53) + 8314337773607070 * bp (-55)) (IZR (2 * 3464307405669612 + 1) + / 2) 6928614811339226 (-53)); [|lia|simpl; lra|rewrite bp52, bp53; simpl; lra|apply near_half_odd].
  apply (b64_pt _ (18014398509481987 / 4)); [lia|simpl; lra|rewrite bp52, bp53; lra|]. apply Znearest_imp. apply Rabs_lt. lra.
Qed.
Lemma near_q d : Rabs d <= bp (-62) -> b64 (4503599627370497 * bp (-52) + d) = 4503599627370497 * bp (-52).
Proof.
  intros H. apply Rabs_le_inv in H. assert (bp 52 * bp (-62) = bp (-10)) as Q by (rewrite <- bpow_plus; reflexivity). assert (bp 52 * bp (-52) = 1) as Q1 by (rewrite <- bpow_plus; reflexivity). simpl (bp (-10)) in Q. pose proof (bpow_gt_0 radix2 52) as P.
  assert (- / 1024 <= bp 52 * d <= / 1024) by nra.
  apply (b64_pt _ (4503599627370497 + bp 52 * d)); [lia| |rewrite bp52 at 1; rewrite bp53; lra|].
  - rewrite Rmult_plus_distr_r. f_equal. rewrite (Rmult_comm (bp 52)), Rmult_assoc, Q1. ring.
  - apply Znearest_imp. apply Rabs_lt. lra.
Qed.
Lemma ex_qcum4 : tsum b64 (comb 4) wq = 4503599627370497 * bp (-52).
Proof.
  change (tsum b64 (comb 4) wq) with (b64 (tsum b64 (comb 3) wq + wq 4%nat)). rewrite ex_qcum3. apply near_q. pose proof ex_q4 as [L U]. pose proof (bpow_gt_0 radix2 (-64)).
  assert (bp (-63) <= bp (-62)) by (apply bpow_le; lia). apply Rabs_le. lra.
Qed.
Lemma ex_qens : wens64 5 0 ex_qx.
Proof.
  assert (is64 0) as Z0 by (exists 0%Z, 0%Z; simpl; split; [ring|lia]). assert (is64 1) as Z1 by (exists 1%Z, 0%Z; simpl; split; [ring|lia]).
  assert (apart 400 1 0) as A10. { right. rewrite Rminus_0_r, Rabs_R1, <- Rinv_1. apply Rinv_le_contravar; [lra|]. apply pow_R1_Rle. lra. }
  assert (apart 400 0 1) as A01 by (apply apart_sym, A10). unfold ex_qx.
  repeat split; try lia; auto; intros; repeat destruct (_ =? 4)%nat; auto; now left.
Qed.
Lemma ex_qwts : wts64 5 ex_qw.
Proof.
  split; [|exists 0%nat; split; [lia|unfold ex_qw; lra]]. intros i Hi.
  assert (forall z, (1 <= z <= 6)%Z -> is64 (IZR z) /\ (IZR z = 0 \/ / 2 ^ 100 <= IZR z <= 2 ^ 100)) as I.
  { intros z Hz. split; [exists z, 0%Z; simpl; split; [ring|lia]|right]. assert (1 <= IZR z <= 6) by (split; apply IZR_le; lia). simpl. lra. }
  do 4 (destruct i as [|i]; [cbn [ex_qw]; apply I; lia|]). cbn [ex_qw]. split; [exists 1%Z, (-60)%Z; split; [simpl; lra|lia]|right; simpl; lra].
Qed.
Lemma ex_qasc : ascending 5 ex_qx.
Proof. intros i j L. unfold ex_qx. destruct (i =? 4)%nat eqn:E, (j =? 4)%nat eqn:E'; try lra. apply Nat.eqb_eq in E. apply Nat.eqb_neq in E'. lia. Qed.
Lemma ex_qh : b64 (1 / 2 * wq 4%nat) = wq 4%nat / 2 /\ b64 (wq 4%nat / 2) = wq 4%nat / 2.
Proof. destruct (comb_adds 4) as [A L]. destruct (qhalf 5 0 ex_qx ex_qw (comb 4) ex_qens ex_qwts A ltac:(rewrite L; lia) 4 ltac:(lia)) as (H1 & H2 & _). auto. Qed.
Lemma ex_qcum : cumorders 5 4 comb. Proof. intros k Hk. destruct (comb_adds k) as [A L]. split; [exact A|lia]. Qed.
Lemma ex_qneg : b64 (2 * b64 (0 + b64 (b64 (wq 4%nat * - bp (-52)) * 1))) < 0.
Proof.
  rewrite Rplus_0_l, Rmult_1_r, !(b64_id (b64 (_ * - _))) by apply b64_fmt. apply Rle_lt_trans with (- bp (-115)); [|pose proof (bpow_gt_0 radix2 (-115)); lra].
  apply b64_le_fmt; [apply fmt_opp, fmt_bp; lia|]. assert (b64 (wq 4%nat * - bp (-52)) <= - bp (-116)) as Q.
  { apply b64_le_fmt; [apply fmt_opp, fmt_bp; lia|]. change (-116)%Z with (-64 + -52)%Z. rewrite bpow_plus. pose proof ex_q4. pose proof (bpow_gt_0 radix2 (-52)). nra. }
  change (-115)%Z with (-116 + 1)%Z. rewrite bpow_plus. simpl (bp 1). lra.
Qed.
Lemma C95_qd_l :
forall M y x w tw tc t h, wens64 M y x -> wts64 M w -> adds tw M -> cumorders M h tc -> adds t M -> (Z.of_nat (height tw) <= 2 ^ 52)%Z -> ascending M x ->
  let wc := weights_r b64 tw w in let e := 5 * wmae M (nw M w) y x in
  Rabs (crps_qd_w_arr_r b64 tc t y x wc - wexact_crps M (nw M w) y x) <= ((1 + u64) ^ (height t + h + 2 * height tw + 9) - 1) * e /\
  Rabs (crps_qd_w_k_r b64 M y x wc - wexact_crps M (nw M w) y x) <= ((1 + u64) ^ (2 * M + 2 * height tw + 9) - 1) * e.
Proof.
intros M y x w tw tc t h HE HW AW Ht A B As wc e. split; [now apply qd_arr|now apply qd_k].
Qed.
Lemma C95_agree_l :
forall M y x w tw tc t h, wens64 M y x -> wts64 M w -> adds tw M -> cumorders M h tc -> adds t M -> (Z.of_nat (height tw) <= 2 ^ 52)%Z -> ascending M x ->
  let wc := weights_r b64 tw w in
  Rabs (crps_qd_w_arr_r b64 tc t y x wc - crps_qd_w_k_r b64 M y x wc) <=
  ((1 + u64) ^ (height t + h + 2 * height tw + 9) + (1 + u64) ^ (2 * M + 2 * height tw + 9) - 2) * (5 * wmae M (nw M w) y x).
Proof.
intros M y x w tw tc t h HE HW AW Ht A B As wc. destruct (C95_qd_l M y x w tw tc t h HE HW AW Ht A B As) as [H1 H2]. fold wc in H1, H2.
set (e := wexact_crps _ _ _ _) in *. replace (crps_qd_w_arr_r b64 tc t y x wc - crps_qd_w_k_r b64 M y x wc) with ((crps_qd_w_arr_r b64 tc t y x wc - e) + - (crps_qd_w_k_r b64 M y x wc - e)) by ring.
eapply Rle_trans; [apply Rabs_triang|]. rewrite Rabs_Ropp. lra.
Qed.
Lemma C95_perfect_l :
forall M y x w tc t, adds t M -> (forall i, (i < M)%nat -> x i = y) -> crps_qd_w_arr_r b64 tc t y x w = 0 /\ crps_qd_w_k_r b64 M y x w = 0.
Proof.
intros M y x w tc t A Hx.
assert (forall a i, (i < M)%nat -> rmul b64 a (rsub b64 (x i) y) = 0) as Z by (intros a i Hi; rewrite (Hx i Hi); unfold rmul, rsub; rewrite Rminus_eq_0, b64_0, Rmult_0_r; apply b64_0).
split.
- unfold crps_qd_w_arr_r. rewrite tsum_zl; [unfold rmul; rewrite Rmult_0_r; apply b64_0|]. intros i Hi. apply (Permutation_in i A), in_seq in Hi. apply Z. lia.
- unfold crps_qd_w_k_r. cbv zeta. match goal with |- context [fold_left ?f _ _] => set (g := f) end. enough (forall n s, (n <= M)%nat -> snd (fold_left g (seq 0 n) (s, 0)) = 0) as Q by (rewrite Q by lia; unfold rmul; rewrite Rmult_0_r; apply b64_0).
  induction n as [|n IH]; intros s Hn; [reflexivity|]. rewrite seq_S, fold_left_app. cbn [fold_left Nat.add]. unfold g at 1. cbn [snd]. rewrite IH by lia. rewrite Z by lia. unfold radd. rewrite Rplus_0_l. apply b64_0.
Qed.
Lemma C95_nonnegative_refuted_l :
exists M y x w tw tc t h, wens64 M y x /\ wts64 M w /\ adds tw M /\ cumorders M h tc /\ adds t M /\ (Z.of_nat (height tw) <= 2 ^ 52)%Z /\ ascending M x /\
  0 <= wexact_crps M (nw M w) y x /\ crps_qd_w_arr_r b64 tc t y x (weights_r b64 tw w) < 0 /\ crps_qd_w_k_r b64 M y x (weights_r b64 tw w) < 0.
Proof.
exists 5%nat, 0, ex_qx, ex_qw, (comb 4), comb, (comb 4), 4%nat. destruct (comb_adds 4) as [A L]. rewrite L.
assert (forall i, (i < 5)%nat -> 0 <= nw 5 ex_qw i) as P by (intros i Hi; apply (qw0 5 0 ex_qx ex_qw (comb 4) ex_qens ex_qwts A ltac:(rewrite L; lia) i Hi)).
assert (sumn 5 (nw 5 ex_qw) = 1) as S1 by (apply (qsum1 5 ex_qw ex_qwts)).
assert (forall i, (i < 4)%nat -> ex_qx i = 0) as X0 by (intros i Hi; unfold ex_qx; destruct (i =? 4)%nat eqn:E; [apply Nat.eqb_eq in E; lia|reflexivity]).
assert (forall a, b64 (a * b64 (0 - 0)) = 0) as Z by (intros; rewrite Rminus_eq_0, b64_0, Rmult_0_r; apply b64_0).
assert (b64 (0 + 0) = 0) as ZZ by (rewrite Rplus_0_r; apply b64_0).
assert (b64 (1 - 0) = 1) as E1 by (rewrite Rminus_0_r; apply b64_id, (fmt_int 1); lia).
assert (b64 (1 - 4503599627370497 * bp (-52)) = - bp (-52)) as E2.
{ replace (1 - 4503599627370497 * bp (-52)) with (- bp (-52)) by (simpl; lra). rewrite b64_opp. f_equal. apply b64_id, fmt_bp. lia. }
assert (b64 (4503599627370497 * bp (-52) - wq 4%nat / 2) = 4503599627370497 * bp (-52)) as E3.
{ apply (near_q (- (wq 4%nat / 2))). pose proof ex_q4 as [L4 U4]. pose proof (bpow_gt_0 radix2 (-64)). assert (bp (-63) <= bp (-62)) by (apply bpow_le; lia). apply Rabs_le. lra. }
split; [apply ex_qens|]. split; [apply ex_qwts|]. split; [exact A|]. split; [apply ex_qcum|]. split; [exact A|]. split; [lia|]. split; [apply ex_qasc|]. split; [now apply wexact_nonneg|]. split.
- unfold crps_qd_w_arr_r. change (tsum b64 (comb 4) ?a) with (b64 (b64 (b64 (b64 (a 0%nat + a 1%nat) + a 2%nat) + a 3%nat) + a 4%nat)). cbv beta. unfold rmul, rsub. rewrite !X0 by lia. rewrite !Z, !ZZ. change (ex_qx 4) with 1. rewrite E1.
  destruct (Rlt_dec 0 1) as [_|N]; [|lra]. rewrite (proj1 ex_qh). rewrite ex_qcum4, E3, E2. exact ex_qneg.
- rewrite (qd_loop 5 0 ex_qx ex_qw (comb 4) ex_qens ex_qwts A ltac:(rewrite L; lia) ex_qasc). unfold lsum. cbn [seq map fold_left]. unfold qt. rewrite !X0 by lia. rewrite !Z. unfold radd. rewrite !ZZ. change (ex_qx 4) with 1. rewrite E1, ex_qcum4, E3.
  unfold ind_lt. destruct (Rlt_dec 0 1) as [_|N]; [|lra]. rewrite E2. exact ex_qneg.
Qed.
Lemma C95_unrounded_l :
forall M y x w tc t h, (0 < M)%nat -> cumorders M h tc -> adds t M -> ascending M x -> sumn M w = 1 ->
  let id := fun r : R => r in let v f := map (fun k => Fin (f k)) (seq 0 M) in
  crps_qd_w_arr_r id tc t y x w = wexact_crps M w y x /\ crps_qd_w_k (Fin y) (v x) (v w) = Fin (crps_qd_w_k_r id M y x w).
Proof.
intros M y x w tc t h HM Ht A As S1 id v. change id with idr. clear id. split.
- unfold crps_qd_w_arr_r, wexact_crps. unfold rmul at 1. unfold idr at 1. rewrite <- (qd_kernel M w x y As S1). f_equal. apply (tsum_idr_ext t M _ _ A). intros i Hi. rewrite (tsum_idr_ext (tc i) (S i) w w) by (try apply Ht; auto). unfold rmul, rsub, idr, ind_lt.
  destruct (Rlt_dec 0 (x i - y)), (Rlt_dec y (x i)); try lra; lra.
- rewrite (qd_w_k_real M (Fin y) (fun k => Fin (x k)) (fun k => Fin (w k)) y x w eq_refl ltac:(auto) ltac:(auto) As S1 : crps_qd_w_k (Fin y) (v x) (v w) = _). f_equal. unfold crps_qd_w_k_r, wexact_crps. unfold rmul at 1. unfold idr at 1. rewrite <- (qd_kernel M w x y As S1). f_equal.
  enough (forall n, (n <= M)%nat -> fold_left (fun st i => let obs_cdf := if Rlt_dec y (x i) then 1 else fst st in
    (obs_cdf, radd idr (snd st) (rmul idr (rmul idr (w i) (rsub idr obs_cdf (rsub idr (lsum idr (map w (seq 0 (S i)))) (rdiv idr (w i) 2)))) (rsub idr (x i) y)))) (seq 0 n) (0, 0)
    = (match n with O => 0 | S m => ind_lt y (x m) end, sumn n (fun k => w k * (ind_lt y (x k) - (sumn (S k) w - / 2 * w k)) * (x k - y)))) as Q by exact (eq_sym (f_equal snd (Q M (le_n M)))).
  induction n as [|n IH]; intros Hn; [reflexivity|]. rewrite seq_S, fold_left_app, IH by lia. cbn [fold_left fst snd Nat.add].
  assert ((if Rlt_dec y (x n) then 1 else match n with O => 0 | S m => ind_lt y (x m) end) = ind_lt y (x n)) as ->.
  { unfold ind_lt. destruct (Rlt_dec y (x n)) as [|N]; [reflexivity|]. destruct n as [|m]; [reflexivity|]. destruct (Rlt_dec y (x m)) as [G|]; [|reflexivity]. destruct N. now apply (ind_up M x y As m (S m) ltac:(lia)). }
  f_equal. rewrite sumn_S. rewrite lsum_id. unfold radd, rmul, rsub, rdiv, idr. fold (sumn (S n) w). f_equal. field.
Qed.
