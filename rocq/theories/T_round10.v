(** Proofs of the rounding properties of the weighted estimator int (statements in P_round10.v). *)
From Coq Require Import Reals List ZArith Permutation Lia Lra Psatz Bool.
From Flocq Require Import Core.
From Verif Require Import Num M_crps L_crps_real L_crps_math L_crps_row L_crps_roww L_crps_gu L_crps_ens L_round6.
From Verif Require Export T_round8 L_round16 S_round5 S_round.
Open Scope R_scope.

Local Notation bp := (bpow radix2).
Local Notation wq := (weights_r b64 (comb 4) ex_qw).
Lemma ex_x0 i : (i < 4)%nat -> ex_qx i = 0.
Proof. intros Hi. unfold ex_qx. destruct (i =? 4)%nat eqn:E; [apply Nat.eqb_eq in E; lia|reflexivity]. Qed.
(** the exact score is the square of the last weight *)
Lemma ex_iexact : wexact_crps 5 (nw 5 ex_qw) 0 ex_qx = (/ 2 ^ 60 / (13 + / 2 ^ 60)) * (/ 2 ^ 60 / (13 + / 2 ^ 60)).
Proof.
  pose proof (qsum1 5 ex_qw ex_qwts) as S1. assert (nw 5 ex_qw 4 = / 2 ^ 60 / (13 + / 2 ^ 60)) as E4 by (unfold nw; f_equal; rewrite !sumn_S, sumn_0; cbn [ex_qw]; lra). rewrite <- E4. clear E4.
  unfold wexact_crps, wmae, wpairsum. rewrite !sumn_S, !sumn_0 in *. rewrite !(ex_x0 0), !(ex_x0 1), !(ex_x0 2), !(ex_x0 3) by lia. change (ex_qx 4) with 1.
  replace (Rabs (0 - 0)) with 0 by (rewrite Rminus_eq_0; symmetry; apply Rabs_R0). replace (Rabs (1 - 0)) with 1 by (rewrite Rminus_0_r; symmetry; apply Rabs_R1). replace (Rabs (0 - 1)) with 1 by (rewrite Rabs_minus_sym, Rminus_0_r; symmetry; apply Rabs_R1).
  replace (Rabs (1 - 1)) with 0 by (rewrite Rminus_eq_0; symmetry; apply Rabs_R0). set (a := nw 5 ex_qw 0) in *. set (b := nw 5 ex_qw 1) in *. set (c := nw 5 ex_qw 2) in *. set (d := nw 5 ex_qw 3) in *. set (e := nw 5 ex_qw 4) in *.
  replace a with (1 - b - c - d - e) by lra. field.
Qed.
Lemma ex_isq : b64 (b64 (4503599627370497 * bp (-52) - 1) * b64 (4503599627370497 * bp (-52) - 1)) = bp (-104).
Proof.
  replace (4503599627370497 * bp (-52) - 1) with (bp (-52)) by (simpl; lra). rewrite (b64_id (bp (-52))) by (apply fmt_bp; lia). rewrite <- bpow_plus. apply b64_id, fmt_bp. lia.
Qed.
Lemma ex_i10 : b64 (1 - 0) = 1. Proof. rewrite Rminus_0_r. apply b64_id, (fmt_int 1). lia. Qed.
Lemma ex_i00 : b64 (0 - 0) = 0. Proof. rewrite Rminus_eq_0. apply b64_0. Qed.
Lemma ex_istep n fc : (n < 4)%nat -> crps_int_w_step_r b64 0 ex_qx wq (false, fc, 0, 0) n = (false, b64 (fc + wq n), 0, 0).
Proof.
  intros Hn. cbn [crps_int_w_step_r]. rewrite ex_x0 by exact Hn. unfold rlt. destruct (Rlt_dec 0 0) as [L|_]; [lra|]. cbn [negb andb]. unfold radd, rmul, rsub. rewrite ex_i00, Rmult_0_r, b64_0, Rplus_0_r, b64_0. reflexivity.
Qed.
Lemma ex_ik : crps_int_w_k_r b64 5 0 ex_qx wq = bp (-104).
Proof.
  assert (b64 (0 + wq 0%nat) = wq 0%nat) as E0 by (rewrite Rplus_0_l; unfold weights_r, rdiv; apply b64_id, b64_fmt).
  unfold crps_int_w_k_r. cbn [seq fold_left]. rewrite !ex_istep by lia. rewrite E0. change (b64 (b64 (b64 (wq 0%nat + wq 1%nat) + wq 2%nat) + wq 3%nat)) with (tsum b64 (comb 3) wq). rewrite ex_qcum3.
  cbn [crps_int_w_step_r]. change (ex_qx 4) with 1. unfold rlt. destruct (Rlt_dec 0 1) as [_|L]; [|lra]. cbn [negb andb]. unfold radd, rmul, rsub. rewrite ex_i00, ex_isq, Rmult_0_l, b64_0, Rplus_0_r, b64_0, ex_i10, Rmult_1_l, Rplus_0_l.
  rewrite !b64_id; [reflexivity| |]; try (apply fmt_bp; lia). rewrite b64_id; apply fmt_bp; lia.
Qed.
Lemma ex_ia : crps_int_w_arr_r b64 comb (comb 4) (comb 4) 5 0 ex_qx wq = bp (-104).
Proof.
  assert (tsum b64 (comb 4) (fun i => rmul b64 (rbool (rle (ex_qx i) 0)) (wq i)) = 4503599627370497 * bp (-52)) as Ey.
  { change (tsum b64 (comb 4) ?a) with (b64 (b64 (b64 (b64 (a 0%nat + a 1%nat) + a 2%nat) + a 3%nat) + a 4%nat)). cbv beta. rewrite !ex_x0 by lia. change (ex_qx 4) with 1. unfold rle. destruct (Rle_dec 0 0) as [_|L]; [|lra]. destruct (Rle_dec 1 0) as [L|_]; [lra|].
    unfold rmul, rbool. rewrite !Rmult_1_l, Rmult_0_l, b64_0, Rplus_0_r. rewrite !(b64_id (wq _)) by (unfold weights_r, rdiv; apply b64_fmt).
    change (b64 (b64 (b64 (wq 0%nat + wq 1%nat) + wq 2%nat) + wq 3%nat)) with (tsum b64 (comb 3) wq). rewrite ex_qcum3. rewrite <- ex_qcum3. apply b64_id. change (tsum b64 (comb 3) wq) with (b64 (tsum b64 (comb 2) wq + wq 3%nat)). apply b64_fmt. }
  assert (forall i, (i < 5)%nat -> 0 <= wq i) as P by (intros i Hi; destruct (comb_adds 4) as [A L]; destruct (qwts 5 0 ex_qx ex_qw (comb 4) ex_qens ex_qwts A ltac:(rewrite L; lia) i Hi) as (_ & _ & _ & B); now apply big_ge0 in B).
  assert (forall i, (i < 4)%nat -> tsum b64 (comb i) wq <= tsum b64 (comb (S i)) wq) as St.
  { intros i Hi. change (tsum b64 (comb (S i)) wq) with (b64 (tsum b64 (comb i) wq + wq (S i))). apply b64_ge_fmt; [destruct i; [apply b64_fmt|apply b64_fmt]|]. specialize (P (S i) ltac:(lia)). lra. }
  assert (ascending 5 (fun i => tsum b64 (comb i) wq)) as As.
  { intros i j L. pose proof (St 0%nat ltac:(lia)). pose proof (St 1%nat ltac:(lia)). pose proof (St 2%nat ltac:(lia)). pose proof (St 3%nat ltac:(lia)).
    cbv beta. do 5 (destruct j as [|j]; [do 5 (destruct i as [|i]; [first [exfalso; lia|lra]|]); exfalso; lia|]). exfalso; lia. }
  unfold crps_int_w_arr_r. rewrite Ey.
  assert (nth 4 (rsort (map (fun i => tsum b64 (comb i) wq) (seq 0 5) ++ (4503599627370497 * bp (-52) :: nil))) 0 = 4503599627370497 * bp (-52)) as E4.
  { rewrite (rsort_ins 5 _ _ 5); auto; try lia; [exact ex_qcum4|]. intros k Hk. rewrite <- ex_qcum4. apply (As k 4%nat). lia. }
  assert (forall k, (k < 6)%nat -> nth k (rsort (map ex_qx (seq 0 5) ++ (0 :: nil))) 0 = ins 4 ex_qx 0 k) as Ex.
  { intros k Hk. apply rsort_ins; try lia; [apply ex_qasc|intros j Hj; rewrite ex_x0 by lia; lra|]. intros j Hj. replace j with 4%nat by lia. change (ex_qx 4) with 1. lra. }
  change (tsum b64 (comb 4) ?a) with (b64 (b64 (b64 (b64 (a 0%nat + a 1%nat) + a 2%nat) + a 3%nat) + a 4%nat)). cbv beta. cbn [Nat.add]. rewrite E4, !Ex by lia. unfold ins. cbn [Nat.ltb Nat.leb Nat.eqb Nat.sub]. rewrite !ex_x0 by lia. change (ex_qx 4) with 1.
  unfold rle. destruct (Rle_dec 0 0) as [_|L]; [|lra]. cbn [rbool]. unfold rmul, rsub. rewrite ex_i00, ex_i10, Rmult_1_r, (b64_id 1) by (apply (fmt_int 1); lia). rewrite ex_isq, !Rmult_0_l, b64_0, !Rplus_0_l, b64_0, !Rplus_0_l, b64_0, Rplus_0_l, b64_0, Rplus_0_l, Rmult_1_l.
  rewrite !b64_id; [reflexivity| |]; try (apply fmt_bp; lia). rewrite b64_id; apply fmt_bp; lia.
Qed.
Lemma C97_int_l :
forall M y x w tw tc t1 t2 h, wens64 M y x -> wts64 M w -> adds tw M -> cumorders M h tc -> adds t1 M -> adds t2 M -> (Z.of_nat (height tw) <= 2 ^ 52)%Z -> ascending M x ->
  let wc := weights_r b64 tw w in let r := 4 * (Rmax y (x (M - 1)%nat) - Rmin y (x 0%nat)) in
  Rabs (crps_int_w_arr_r b64 tc t1 t2 M y x wc - wexact_crps M (nw M w) y x) <= ((1 + u64) ^ (height t2 + 2 * Nat.max h (height t1) + 2 * height tw + 9) - 1) * r /\
  Rabs (crps_int_w_k_r b64 M y x wc - wexact_crps M (nw M w) y x) <= ((1 + u64) ^ (3 * M + 2 * height tw + 10) - 1) * r.
Proof.
intros M y x w tw tc t1 t2 h HE HW AW Ht A1 A2 B As wc r. split; [now apply int_w_arr|]. rewrite <- int_w_k_idr; [now apply int_w_k_appr|apply HE|exact As|now apply qsum1].
Qed.
Lemma C97_agree_l :
forall M y x w tw tc t1 t2 h, wens64 M y x -> wts64 M w -> adds tw M -> cumorders M h tc -> adds t1 M -> adds t2 M -> (Z.of_nat (height tw) <= 2 ^ 52)%Z -> ascending M x ->
  let wc := weights_r b64 tw w in
  Rabs (crps_int_w_arr_r b64 tc t1 t2 M y x wc - crps_int_w_k_r b64 M y x wc) <=
  ((1 + u64) ^ (height t2 + 2 * Nat.max h (height t1) + 2 * height tw + 9) + (1 + u64) ^ (3 * M + 2 * height tw + 10) - 2) * (4 * (Rmax y (x (M - 1)%nat) - Rmin y (x 0%nat))).
Proof.
intros M y x w tw tc t1 t2 h HE HW AW Ht A1 A2 B As wc. destruct (C97_int_l M y x w tw tc t1 t2 h HE HW AW Ht A1 A2 B As) as [H1 H2]. fold wc in H1, H2.
set (e := wexact_crps _ _ _ _) in *. replace (crps_int_w_arr_r b64 tc t1 t2 M y x wc - crps_int_w_k_r b64 M y x wc) with ((crps_int_w_arr_r b64 tc t1 t2 M y x wc - e) + - (crps_int_w_k_r b64 M y x wc - e)) by ring.
eapply Rle_trans; [apply Rabs_triang|]. rewrite Rabs_Ropp. lra.
Qed.
Lemma C97_nonnegative_l :
forall M y x w tc t1 t2, adds t2 M -> 0 <= crps_int_w_arr_r b64 tc t1 t2 M y x w /\ ((0 < M)%nat -> ascending M x -> 0 <= crps_int_w_k_r b64 M y x w).
Proof.
intros M y x w tc t1 t2 A2. split; [now apply int_w_arr_ge0|]. intros. now apply int_w_k_ge0.
Qed.
Lemma C97_perfect_l :
forall M y x w tc t1 t2, (0 < M)%nat -> adds t2 M -> (forall i, (i < M)%nat -> x i = y) -> crps_int_w_arr_r b64 tc t1 t2 M y x w = 0 /\ crps_int_w_k_r b64 M y x w = 0.
Proof.
intros M y x w tc t1 t2 HM A2 Hx. split; [now apply int_w_arr_perfect|]. apply int_w_k_perfect; auto. apply b64_0.
Qed.
Lemma C97_relative_refuted_l :
exists M y x w tw tc t1 t2 h, wens64 M y x /\ wts64 M w /\ adds tw M /\ cumorders M h tc /\ adds t1 M /\ adds t2 M /\ (Z.of_nat (height tw) <= 2 ^ 52)%Z /\ ascending M x /\
  0 < wexact_crps M (nw M w) y x /\ 1000000 * wexact_crps M (nw M w) y x < crps_int_w_arr_r b64 tc t1 t2 M y x (weights_r b64 tw w) /\
  1000000 * wexact_crps M (nw M w) y x < crps_int_w_k_r b64 M y x (weights_r b64 tw w).
Proof.
exists 5%nat, 0, ex_qx, ex_qw, (comb 4), comb, (comb 4), (comb 4), 4%nat. destruct (comb_adds 4) as [A L]. rewrite L. rewrite ex_iexact, ex_ia, ex_ik.
split; [apply ex_qens|]. split; [apply ex_qwts|]. split; [exact A|]. split; [apply ex_qcum|]. split; [exact A|]. split; [exact A|]. split; [lia|]. split; [apply ex_qasc|].
assert (0 < / 2 ^ 60) as P by (apply Rinv_0_lt_compat, pow_lt; lra). assert (0 < / 2 ^ 60 / (13 + / 2 ^ 60)) as P' by (apply Rdiv_lt_0_compat; lra). split; [nra|].
assert (/ 2 ^ 60 / (13 + / 2 ^ 60) <= bp (-63)) as U. { apply Rmult_le_reg_r with (13 + / 2 ^ 60); [lra|]. unfold Rdiv. rewrite Rmult_assoc, Rinv_l, Rmult_1_r by lra. change (-63)%Z with (-60 + -3)%Z. rewrite bpow_plus, bp_m60. simpl (bp (-3)). nra. }
assert (bp (-63) * bp (-63) = bp (-22) * bp (-104)) as Q by (rewrite <- !bpow_plus; reflexivity). simpl (bp (-22)) in Q. pose proof (bpow_gt_0 radix2 (-104)) as P1. set (e := / 2 ^ 60 / (13 + / 2 ^ 60)) in *. assert (e * e <= bp (-63) * bp (-63)) by (apply Rmult_le_compat; lra). split; lra.
Qed.
Lemma C97_unrounded_l :
forall M y x w tc t1 t2 h, (0 < M)%nat -> cumorders M h tc -> adds t1 M -> adds t2 M -> ascending M x -> (forall i, (i < M)%nat -> 0 <= w i) -> sumn M w = 1 ->
  let id := fun r : R => r in let v f := map (fun k => Fin (f k)) (seq 0 M) in
  crps_int_w_arr_r id tc t1 t2 M y x w = wexact_crps M w y x /\ crps_int_w_k (Fin y) (v x) (v w) = Fin (crps_int_w_k_r id M y x w).
Proof.
intros M y x w tc t1 t2 h HM Ht A1 A2 As P S1 id v. change id with idr. clear id. split.
- destruct (split_at M x y As) as (p & Hp & H1 & H2). rewrite <- (int_sum M w x y p As Hp H1 H2 S1). unfold crps_int_w_arr_r. apply (tsum_idr_ext t2 M _ _ A2). intros i Hi.
  rewrite (tsum_idr_ext t1 M _ (fun k => ind_le (x k) y * w k) A1) by (intros k Hk; unfold rmul, idr, rbool, rle, ind_le; destruct (Rle_dec (x k) y); ring).
  rewrite (sumn_cut p M (fun k => ind_le (x k) y)); [|exact Hp|intros; apply ind_le_1; auto|intros; apply ind_le_0; auto].
  rewrite (map_ext_in (fun i => tsum idr (tc i) w) (fun k => sumn (S k) w)) by (intros k Hk; apply in_seq in Hk; apply tsum_idr_ext; [apply Ht; lia|auto]).
  rewrite !(rsort_ins M x y p) by (auto; try lia; intros k Hk; left; auto).
  rewrite (rsort_ins M (fun k => sumn (S k) w) (sumn p w) p); [|intros a b L|exact Hp|intros k Hk|intros k Hk|lia]; try (apply sumn_mono; [lia|intros; apply P; lia]).
  rewrite (Nat.add_comm 1 i). unfold rmul, rsub, idr, rbool, rle, ind_le. destruct (Rle_dec y (ins p x y i)); ring.
- rewrite (int_w_k_real M (Fin y) (fun k => Fin (x k)) (fun k => Fin (w k)) y x w eq_refl ltac:(auto) ltac:(auto) HM As S1 : crps_int_w_k (Fin y) (v x) (v w) = _). f_equal. symmetry. now apply int_w_k_idr.
Qed.
