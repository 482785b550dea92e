(** Rounding errors of the quantile decomposition for weighted ensembles. *)
From Coq Require Import Reals List ZArith Permutation Lia Lra Psatz.
From Flocq Require Import Core Mult_error.
From Verif Require Import Num L_crps_row L_crps_real L_crps_omit.
From Verif Require Export L_round4 L_round10 L_round11 L_round12 L_round13 M_round8 S_round5 S_round.
Open Scope R_scope.

Local Notation fmt := (generic_format radix2 (FLT_exp (-1074) 53)).
Local Notation bp := (bpow radix2).

(** ** products that do not underflow *)
Lemma appr_of_calc k p x X : calc k p x X -> appr k 0 x X X.
Proof.
  intros (F & P & Wt & _). split; [exact F|]. rewrite (Rabs_pos_eq X P). split; [lra|]. split; [lra|]. pose proof (within_abs _ _ _ P Wt). lra.
Qed.
Lemma appr_up k x X A B : appr k 0 x X A -> A <= B -> appr k 0 x X B.
Proof. intros (F & HA & N & E) L. split; [exact F|]. split; [lra|]. split; [exact N|]. pose proof (pow_hi k). rewrite Rmult_0_l, Rplus_0_r in *. nra. Qed.
Lemma big_mul p q r x y : (p + q <= r)%Z -> (r <= 1022)%Z -> big p (Rabs x) -> big q (Rabs y) -> big r (Rabs (x * y)).
Proof.
  intros L L' [H|H] [H'|H']; rewrite Rabs_mult; try (rewrite H); try (rewrite H'); try (left; ring).
  right. apply Rle_trans with (bp (- p) * bp (- q)); [rewrite <- bpow_plus; apply bpow_le; lia|]. apply Rmult_le_compat; auto; apply bpow_ge_0.
Qed.
Lemma big_b64 r x : (r <= 1022)%Z -> big r (Rabs x) -> big r (Rabs (b64 x)).
Proof. intros L H. rewrite <- b64_abs. destruct H as [H|H]; [left; now rewrite H, b64_0|right]. rewrite <- (b64_id (bp (- r))) by (apply fmt_bp; lia). now apply b64_le. Qed.
Lemma b64_big r x : (r <= 1022)%Z -> big r (Rabs x) -> Rabs (b64 x - x) <= u64 * Rabs x.
Proof.
  intros L [H|H].
  - assert (x = 0) as -> by (destruct (Req_dec x 0) as [|N]; [assumption|apply Rabs_no_R0 in N; lra]). rewrite b64_0, Rminus_eq_0, Rabs_R0. lra.
  - apply b64_norm. eapply Rle_trans; [|exact H]. apply bpow_le. lia.
Qed.
Lemma appr_mul k l r x X A y Y B : (r <= 1022)%Z -> appr k 0 x X A -> appr l 0 y Y B -> big r (Rabs (x * y)) -> appr (S (k + l)) 0 (b64 (x * y)) (X * Y) (A * B).
Proof.
  intros L H H' Bg. pose proof (appr_A _ _ _ _ _ H) as PA. pose proof (appr_A _ _ _ _ _ H') as PB. destruct H as (F & HA & _ & E), H' as (F' & HB & _ & E').
  split; [apply b64_fmt|]. split; [rewrite Rabs_mult; apply Rmult_le_compat; auto using Rabs_pos|]. split; [lra|]. rewrite Rmult_0_l, Rplus_0_r in *.
  pose proof (b64_big r _ L Bg) as P. pose proof u64_pos as U. pose proof (pow_hi k) as K1. pose proof (pow_hi l) as K2. cbn [pow]. rewrite pow_add. set (f := (1 + u64) ^ k) in *. set (g := (1 + u64) ^ l) in *.
  assert (Rabs x <= f * A) as Bx by (replace x with (X + (x - X)) by ring; eapply Rle_trans; [apply Rabs_triang|]; lra).
  assert (Rabs y <= g * B) as By by (replace y with (Y + (y - Y)) by ring; eapply Rle_trans; [apply Rabs_triang|]; lra).
  assert (Rabs (x * y) <= f * A * (g * B)) as Bxy by (rewrite Rabs_mult; apply Rmult_le_compat; auto using Rabs_pos).
  assert (Rabs (x * y - X * Y) <= (f * A - A) * (g * B) + A * (g * B - B)) as D.
  { replace (x * y - X * Y) with ((x - X) * y + X * (y - Y)) by ring. eapply Rle_trans; [apply Rabs_triang|]. rewrite !Rabs_mult.
    apply Rplus_le_compat; apply Rmult_le_compat; auto using Rabs_pos. }
  replace (b64 (x * y) - X * Y) with ((b64 (x * y) - x * y) + (x * y - X * Y)) by ring. eapply Rle_trans; [apply Rabs_triang|].
  assert (u64 * Rabs (x * y) <= u64 * (f * A * (g * B))) by (apply Rmult_le_compat_l; lra). lra.
Qed.
(** a sum of numbers that are not negative is at least each of them *)
Lemma tsum_leaf t a i : (forall j, In j (leaves t) -> fmt (a j) /\ 0 <= a j) -> In i (leaves t) -> a i <= tsum b64 t a.
Proof.
  induction t as [j|t1 IH1 t2 IH2]; intros H Hi; simpl in *.
  - destruct Hi as [->|[]]. lra.
  - assert (0 <= tsum b64 t1 a) by (apply tsum_ge0; intros; apply H, in_or_app; now left). assert (0 <= tsum b64 t2 a) by (apply tsum_ge0; intros; apply H, in_or_app; now right).
    unfold radd. apply in_app_or in Hi as [Hi|Hi].
    + assert (a i <= tsum b64 t1 a) by (apply IH1; auto; intros; apply H, in_or_app; now left). rewrite <- (b64_id (a i)) by (apply H, in_or_app; now left). apply b64_le. lra.
    + assert (a i <= tsum b64 t2 a) by (apply IH2; auto; intros; apply H, in_or_app; now right). rewrite <- (b64_id (a i)) by (apply H, in_or_app; now right). apply b64_le. lra.
Qed.
Lemma lsum_comb (a : nat -> R) n : fmt (a 0%nat) -> lsum b64 (map a (seq 0 (S n))) = tsum b64 (comb n) a.
Proof.
  intros F. induction n as [|n IH]; [unfold lsum; simpl; unfold radd; rewrite Rplus_0_l; now apply b64_id|].
  rewrite seq_S, map_app. unfold lsum in *. rewrite fold_left_app, IH. reflexivity.
Qed.
Lemma ind_up M x y : ascending M x -> forall i j, (i <= j < M)%nat -> y < x i -> y < x j.
Proof. intros A i j L H. apply Rlt_le_trans with (x i); [exact H|]. apply A; lia. Qed.

Section Qd.
Variables (M : nat) (y : R) (x w : nat -> R) (tw : stree).
Hypothesis HE : wens64 M y x.
Hypothesis HW : wts64 M w.
Hypothesis AW : adds tw M.
Hypothesis BW : (Z.of_nat (height tw) <= 2 ^ 52)%Z.
Local Notation wc := (weights_r b64 tw w).
Local Notation W := (nw M w).
Local Notation kw := (height tw + 2)%nat.
Lemma qwts i : (i < M)%nat -> calc kw 227 (wc i) (W i).
Proof. intros. apply wts_calc; auto. apply HE. Qed.
Lemma qw0 i : (i < M)%nat -> 0 <= W i. Proof. intros H. now apply qwts in H as (_ & P & _). Qed.
Lemma qsum1 : sumn M W = 1. Proof. apply nw_sum. destruct (wts_pos M w HW). lra. Qed.
Lemma qcum i : (i < M)%nat -> 0 <= sumn (S i) W <= 1.
Proof.
  intros Hi. split; [apply sumn_nonneg; intros; apply qw0; lia|]. rewrite <- qsum1. apply sumn_mono; [lia|]. intros. now apply qw0.
Qed.
Lemma qw1 i : (i < M)%nat -> W i <= sumn (S i) W.
Proof. intros Hi. rewrite sumn_S. assert (0 <= sumn i W) by (apply sumn_nonneg; intros; apply qw0; lia). lra. Qed.
Lemma qhalf i : (i < M)%nat -> b64 (1 / 2 * wc i) = wc i / 2 /\ b64 (wc i / 2) = wc i / 2 /\ fmt (wc i / 2).
Proof.
  intros Hi. destruct (qwts i Hi) as (F & _ & _ & B). replace (1 / 2 * wc i) with (wc i / 2) by field. enough (fmt (wc i / 2)) as H by (rewrite (b64_id _ H); auto).
  destruct B as [->|B]; [replace (0 / 2) with 0 by field; apply fmt_0|]. replace (wc i / 2) with (wc i * bp (-1)) by (simpl; lra). apply mult_bpow_exact_FLT; [exact F|].
  assert (- (227) < mag radix2 (wc i))%Z; [|lia]. apply mag_gt_bpow. rewrite Rabs_pos_eq; [exact B|]. eapply Rle_trans; [apply bpow_ge_0|exact B].
Qed.
(** the computed level [a], with [cc] the computed cumulative weight *)
Lemma qlevel kc i cc : (i < M)%nat -> calc kc 227 cc (sumn (S i) W) -> wc i <= cc -> (kw <= kc)%nat ->
  appr (S kc) 0 (b64 (cc - wc i / 2)) (sumn (S i) W - / 2 * W i) (3 / 2) /\ big 228 (Rabs (b64 (cc - wc i / 2))).
Proof.
  intros Hi C L K. destruct (qhalf i Hi) as (_ & _ & Fh). pose proof (qwts i Hi) as Cw. pose proof (qcum i Hi) as Q. pose proof (qw1 i Hi) as Q1. pose proof (qw0 i Hi) as Q0. split.
  - apply (appr_up _ _ _ (sumn (S i) W + / 2 * W i)); [|lra]. replace 0 with (0 + 0) by ring. apply appr_sub; [now apply (appr_of_calc kc 227)|].
    apply appr_of_calc, (appr_le kw kc 0 0) in Cw; [|lia|lra]. destruct Cw as (F & HA & N & E). split; [exact Fh|]. rewrite Rabs_mult, (Rabs_pos_eq (/ 2)) by lra. split; [lra|]. split; [lra|].
    replace (wc i / 2 - / 2 * W i) with (/ 2 * (wc i - W i)) by field. rewrite Rabs_mult, (Rabs_pos_eq (/ 2)) by lra. lra.
  - apply big_b64; [lia|]. destruct C as (_ & _ & _ & Bc), Cw as (_ & _ & _ & Bw). pose proof (big_ge0 _ _ Bw). rewrite Rabs_pos_eq by lra.
    destruct Bw as [E|Bw].
    + rewrite E in *. replace (cc - 0 / 2) with cc by field. apply (big_le 227); [lia|exact Bc].
    + right. change (- (228))%Z with (- (227) + -1)%Z. rewrite bpow_plus. simpl (bp (-1)). lra.
Qed.
Lemma qdif i : (i < M)%nat -> appr 1 0 (b64 (x i - y)) (x i - y) (Rabs (x i - y)) /\ big 400 (Rabs (b64 (x i - y))) /\ (0 < b64 (x i - y) <-> y < x i).
Proof.
  intros Hi. destruct HE as (_ & _ & Fy & Hx & _). destruct (Hx i Hi) as [Fx Ap]. apply is64_fmt in Fx, Fy.
  assert (big 400 (Rabs (x i - y))) as B by (destruct Ap as [->|Ap]; [left; rewrite Rminus_eq_0; apply Rabs_R0|right; rewrite bp_inv in Ap; exact Ap]).
  split; [|split].
  - split; [apply b64_fmt|]. split; [lra|]. split; [lra|]. pose proof (b64_minus _ _ Fx Fy). rewrite Rmult_0_l, Rplus_0_r. cbn [pow]. lra.
  - apply big_b64; [lia|exact B].
  - split; intros H.
    + destruct (Rlt_dec y (x i)) as [|N]; [assumption|]. pose proof (b64_le0 (x i - y) ltac:(lra)). lra.
    + rewrite Rabs_pos_eq in B by lra. destruct B as [B|B]; [lra|]. apply Rlt_le_trans with (bp (- (400))); [apply bpow_gt_0|]. rewrite <- (b64_id (bp _)) by (apply fmt_bp; lia). now apply b64_le.
Qed.
(** one term *)
Lemma qterm kc i cc c : (i < M)%nat -> calc kc 227 cc (sumn (S i) W) -> wc i <= cc -> (kw <= kc)%nat ->
  (y < x i -> c = b64 (1 - b64 (cc - wc i / 2))) -> (~ y < x i -> c = - b64 (cc - wc i / 2)) ->
  appr (kw + kc + 5) 0 (b64 (b64 (wc i * c) * b64 (x i - y))) (W i * (ind_lt y (x i) - (sumn (S i) W - / 2 * W i)) * (x i - y)) (5 / 2 * (W i * Rabs (x i - y))).
Proof.
  intros Hi C L K H1 H0. destruct (qlevel kc i cc Hi C L K) as [A B]. destruct (qdif i Hi) as (D & BD & _). pose proof (qwts i Hi) as Cw. pose proof (qw0 i Hi).
  assert (appr (S (S kc)) 0 c (ind_lt y (x i) - (sumn (S i) W - / 2 * W i)) (5 / 2) /\ big 228 (Rabs c)) as [Ac Bc].
  { unfold ind_lt. destruct (Rlt_dec y (x i)) as [G|G].
    - rewrite (H1 G). split.
      + replace (5 / 2) with (1 + 3 / 2) by field. replace 0 with (0 + 0) by ring. apply appr_sub; [|exact A]. apply (appr_le 0 (S kc) 0 0); [lia|lra|]. pose proof (appr_exact 1 (fmt_int 1 ltac:(lia))) as Q. now rewrite Rabs_R1 in Q.
      + apply big_b64; [lia|]. apply (big_le 53); [lia|]. destruct (near_one (b64 (cc - wc i / 2)) (b64_fmt _)) as [E|E]; [left; rewrite E, Rminus_eq_0; apply Rabs_R0|right]. rewrite bp_inv in E. now rewrite Rabs_minus_sym.
    - rewrite (H0 G). split; [|now rewrite Rabs_Ropp]. rewrite Rminus_0_l. apply appr_opp. apply (appr_up _ _ _ (3 / 2)); [|lra]. apply (appr_le (S kc) _ 0 0); [lia|lra|exact A]. }
  destruct Cw as (Fw & Pw & Ww & Bw). pose proof (big_ge0 _ _ Bw).
  assert (big 455 (Rabs (wc i * c))) as B1 by (apply (big_mul 227 228); [lia|lia|now rewrite Rabs_pos_eq|exact Bc]).
  pose proof (appr_mul kw (S (S kc)) 455 _ _ _ _ _ _ ltac:(lia) (appr_of_calc _ 227 _ _ (conj Fw (conj Pw (conj Ww Bw)))) Ac B1) as A1.
  replace (5 / 2 * (W i * Rabs (x i - y))) with (W i * (5 / 2) * Rabs (x i - y)) by ring. replace (kw + kc + 5)%nat with (S (S (kw + S (S kc)) + 1))%nat by lia.
  apply (appr_mul _ _ 855); [lia|exact A1|exact D|]. apply (big_mul 455 400); [lia|lia| |exact BD]. apply big_b64; [lia|exact B1].
Qed.
Lemma qfin k s : ascending M x -> appr k 0 s (sumn M (fun i => W i * (ind_lt y (x i) - (sumn (S i) W - / 2 * W i)) * (x i - y))) (sumn M (fun i => 5 / 2 * (W i * Rabs (x i - y)))) ->
  Rabs (b64 (2 * s) - wexact_crps M W y x) <= ((1 + u64) ^ k - 1) * (5 * wmae M W y x).
Proof.
  intros As H. apply appr_double in H. rewrite (qd_kernel M W x y As qsum1), sumn_scal in H. destruct H as (_ & _ & _ & E). unfold wexact_crps. eapply Rle_trans; [exact E|]. unfold wmae. lra.
Qed.
Lemma qd_arr tc t h : ascending M x -> cumorders M h tc -> adds t M ->
  Rabs (crps_qd_w_arr_r b64 tc t y x wc - wexact_crps M W y x) <= ((1 + u64) ^ (height t + h + 2 * height tw + 9) - 1) * (5 * wmae M W y x).
Proof.
  intros As Ht A. unfold crps_qd_w_arr_r. apply qfin; [exact As|]. replace (height t + h + 2 * height tw + 9)%nat with ((kw + (kw + h) + 5) + height t)%nat by lia.
  eapply (appr_le _ _ (INR M * 0) 0); [apply le_n|lra|]. apply tsum_an; [exact A|]. intros i Hi. destruct (Ht i Hi) as [Ai Li]. destruct (qdif i Hi) as (_ & _ & G). unfold rmul, rsub. rewrite (proj1 (qhalf i Hi)).
  apply (qterm (kw + h) i (tsum b64 (tc i) wc)); auto; try lia.
  - apply (calc_le (kw + height (tc i)) (kw + h) 227 227); [lia|lia|]. apply tsum_n; [lia|exact Ai|]. intros j Hj. apply qwts. lia.
  - apply tsum_leaf; [|apply (Permutation_in i (Permutation_sym Ai)), in_seq; lia]. intros j Hj. apply (Permutation_in j Ai), in_seq in Hj. destruct (qwts j ltac:(lia)) as (F & _ & _ & B). split; [exact F|now apply big_ge0 in B].
  - intros g. destruct (Rlt_dec 0 (b64 (x i - y))) as [|N]; [reflexivity|]. tauto.
  - intros g. destruct (Rlt_dec 0 (b64 (x i - y))) as [N|N]; [tauto|reflexivity].
Qed.
Definition qt (i : nat) : R := b64 (b64 (wc i * b64 (ind_lt y (x i) - b64 (tsum b64 (comb i) wc - wc i / 2))) * b64 (x i - y)).
Lemma qd_loop : ascending M x -> crps_qd_w_k_r b64 M y x wc = b64 (2 * lsum b64 (map qt (seq 0 M))).
Proof.
  intros As. unfold crps_qd_w_k_r, rmul. do 2 f_equal. unfold lsum.
  enough (forall n, (n <= M)%nat -> fold_left (fun st i => let obs_cdf := if Rlt_dec y (x i) then 1 else fst st in
    (obs_cdf, radd b64 (snd st) (b64 (b64 (wc i * rsub b64 obs_cdf (rsub b64 (fold_left (radd b64) (map wc (seq 0 (S i))) 0) (rdiv b64 (wc i) 2))) * rsub b64 (x i) y)))) (seq 0 n) (0, 0)
    = (match n with O => 0 | S m => ind_lt y (x m) end, fold_left (radd b64) (map qt (seq 0 n)) 0)) as Q by exact (f_equal snd (Q M (le_n M))).
  induction n as [|n IH]; intros Hn; [reflexivity|]. rewrite seq_S, map_app, !fold_left_app, IH by lia. cbn [fold_left map fst snd Nat.add].
  assert ((if Rlt_dec y (x n) then 1 else match n with O => 0 | S m => ind_lt y (x m) end) = ind_lt y (x n)) as ->.
  { unfold ind_lt. destruct (Rlt_dec y (x n)) as [|N]; [reflexivity|]. destruct n as [|m]; [reflexivity|]. destruct (Rlt_dec y (x m)) as [G|]; [|reflexivity]. destruct N. now apply (ind_up M x y As m (S m) ltac:(lia)). }
  f_equal. unfold qt. fold (lsum b64 (map wc (seq 0 (S n)))). rewrite lsum_comb by (apply (qwts 0); lia). unfold rsub, rdiv. rewrite (proj1 (proj2 (qhalf n ltac:(lia)))). reflexivity.
Qed.
Lemma qd_k : ascending M x -> Rabs (crps_qd_w_k_r b64 M y x wc - wexact_crps M W y x) <= ((1 + u64) ^ (2 * M + 2 * height tw + 9) - 1) * (5 * wmae M W y x).
Proof.
  intros As. rewrite (qd_loop As). apply qfin; [exact As|]. replace (2 * M + 2 * height tw + 9)%nat with ((kw + (kw + M) + 5) + M)%nat by lia. eapply (appr_le _ _ (INR M * 0) 0); [apply le_n|lra|]. apply lsum_an; [lra|]. intros i Hi.
  destruct (comb_adds i) as [Ai Li]. unfold qt. apply (qterm (kw + M) i (tsum b64 (comb i) wc)); auto; try lia.
  - apply (calc_le (kw + height (comb i)) (kw + M) 227 227); [lia|lia|]. apply tsum_n; [lia|exact Ai|]. intros j Hj. apply qwts. lia.
  - apply tsum_leaf; [|apply (Permutation_in i (Permutation_sym Ai)), in_seq; lia]. intros j Hj. apply (Permutation_in j Ai), in_seq in Hj. destruct (qwts j ltac:(lia)) as (F & _ & _ & B). split; [exact F|now apply big_ge0 in B].
  - intros g. unfold ind_lt. destruct (Rlt_dec y (x i)); [reflexivity|tauto].
  - intros g. unfold ind_lt. destruct (Rlt_dec y (x i)); [tauto|]. rewrite Rminus_0_l. rewrite b64_opp, (b64_id (b64 _)) by apply b64_fmt. reflexivity.
Qed.
End Qd.
