(** Rounding errors without exclusion of underflow. *)
From Coq Require Import Reals List ZArith Permutation Lia Lra Psatz.
From Flocq Require Import Core Relative.
From Verif Require Import L_crps_row L_crps_omit.
From Verif Require Export S_round2 L_round3.
Open Scope R_scope.

Local Notation fmt := (generic_format radix2 (FLT_exp (-1074) 53)).
Local Notation bp := (bpow radix2).
Definition eta : R := / 2 ^ 1075.
Lemma eta_pos : 0 < eta. Proof. apply Rinv_0_lt_compat, pow_lt. lra. Qed.
Lemma b64_any x : Rabs (b64 x - x) <= u64 * Rabs x + eta.
Proof.
  destruct (error_N_FLT radix2 (-1074) 53 eq_refl (fun z => negb (Z.even z)) x) as (e & h & H1 & H2 & _ & E). unfold b64. rewrite E.
  replace (/ 2 * bp (- (53) + 1)) with u64 in H1 by (rewrite u64_bp; change (-53)%Z with (- (53) + 1 + -1)%Z; rewrite bpow_plus; simpl; lra).
  replace (/ 2 * bp (-1074)) with eta in H2 by (unfold eta; rewrite bp_inv; change (Z.opp (Z.of_nat 1075)) with (-1074 + -1)%Z; rewrite bpow_plus; simpl bpow at 2; lra).
  replace (x * (1 + e) + h - x) with (e * x + h) by ring. eapply Rle_trans; [apply Rabs_triang|]. rewrite Rabs_mult.
  apply Rplus_le_compat; [|exact H2]. apply Rmult_le_compat_r; [apply Rabs_pos|exact H1].
Qed.
Definition appr (k : nat) (n x X A : R) : Prop := fmt x /\ Rabs X <= A /\ 0 <= n /\ Rabs (x - X) <= (1 + u64) ^ k * (A + n * eta) - A.
Lemma appr_A k n x X A : appr k n x X A -> 0 <= A.
Proof. intros (_ & H & _). pose proof (Rabs_pos X). lra. Qed.
Lemma appr_le k l n m x X A : (k <= l)%nat -> n <= m -> appr k n x X A -> appr l m x X A.
Proof.
  intros L Ln H. pose proof (appr_A _ _ _ _ _ H) as A0. destruct H as (F & HA & N & E). split; [exact F|]. split; [exact HA|]. split; [lra|]. eapply Rle_trans; [exact E|].
  pose proof eta_pos as P. pose proof u64_pos as U.
  assert ((1 + u64) ^ k <= (1 + u64) ^ l) by (apply Rle_pow; [lra|exact L]). pose proof (pow_hi k).
  assert (A + n * eta <= A + m * eta) by nra. assert (0 <= A + n * eta) by nra.
  apply Rplus_le_compat_r. apply Rmult_le_compat; lra.
Qed.
Lemma appr_exact x : fmt x -> appr 0 0 x x (Rabs x).
Proof. intros F. split; [exact F|]. split; [lra|]. split; [lra|]. rewrite Rminus_eq_0, Rabs_R0. simpl. lra. Qed.
Lemma appr_0 k : appr k 0 0 0 0.
Proof. apply (appr_le 0 k 0 0); [lia|lra|]. pose proof (appr_exact 0 fmt_0) as H. rewrite Rabs_R0 in H. exact H. Qed.
Lemma appr_add k n m x X A y Y B : appr k n x X A -> appr k m y Y B -> appr (S k) (n + m) (b64 (x + y)) (X + Y) (A + B).
Proof.
  intros (F & HA & N & E) (F' & HB & N' & E'). split; [apply b64_fmt|]. split; [eapply Rle_trans; [apply Rabs_triang|]; lra|]. split; [lra|].
  pose proof (b64_plus x y F F') as P. pose proof u64_pos as U.
  assert (Rabs (x + y) <= A + B + (Rabs (x - X) + Rabs (y - Y))) as Q.
  { replace (x + y) with ((X + Y) + ((x - X) + (y - Y))) by ring. eapply Rle_trans; [apply Rabs_triang|]. apply Rplus_le_compat; [eapply Rle_trans; [apply Rabs_triang|]; lra|apply Rabs_triang]. }
  replace (b64 (x + y) - (X + Y)) with ((b64 (x + y) - (x + y)) + ((x - X) + (y - Y))) by ring.
  eapply Rle_trans; [apply Rabs_triang|]. pose proof (Rabs_triang (x - X) (y - Y)). set (d := Rabs (x - X) + Rabs (y - Y)) in *.
  apply Rle_trans with (u64 * (A + B + d) + d); [nra|]. simpl pow. set (w := (1 + u64) ^ k) in *.
  assert (d <= w * (A + B + (n + m) * eta) - (A + B)) by (unfold d; lra). nra.
Qed.
Lemma appr_opp k n x X A : appr k n x X A -> appr k n (- x) (- X) A.
Proof. intros (F & HA & N & E). split; [now apply fmt_opp|]. rewrite Rabs_Ropp. split; [exact HA|]. split; [exact N|]. replace (- x - - X) with (- (x - X)) by ring. now rewrite Rabs_Ropp. Qed.
Lemma appr_sub k n m x X A y Y B : appr k n x X A -> appr k m y Y B -> appr (S k) (n + m) (b64 (x - y)) (X - Y) (A + B).
Proof. intros H H'. apply (appr_add k n m x X A); [exact H|now apply appr_opp]. Qed.
Lemma appr_diff a b : fmt a -> fmt b -> appr 1 0 (Rabs (b64 (a - b))) (Rabs (a - b)) (Rabs (a - b)).
Proof.
  intros F F'. split; [apply fmt_abs, b64_fmt|]. rewrite Rabs_Rabsolu. split; [lra|]. split; [lra|].
  eapply Rle_trans; [apply Rabs_triang_inv2|]. eapply Rle_trans; [apply b64_minus; assumption|]. simpl. lra.
Qed.
(** a factor c that carries a relative error of at most one rounding *)
Lemma appr_scal1 k n c c' x X A : 0 <= c -> Rabs (c' - c) <= u64 * c -> appr k n x X A -> appr (k + 2) (c * n + 1) (b64 (c' * x)) (c * X) (c * A).
Proof.
  intros Hc Hc' H. pose proof (appr_A _ _ _ _ _ H) as A0. destruct H as (F & HA & N & E). split; [apply b64_fmt|]. rewrite Rabs_mult, (Rabs_pos_eq c Hc).
  split; [now apply Rmult_le_compat_l|]. split; [nra|]. pose proof (b64_any (c' * x)) as P. pose proof u64_pos as U. pose proof eta_pos as T.
  set (d := Rabs (x - X)) in *. assert (0 <= d) by apply Rabs_pos.
  assert (Rabs c' <= c * (1 + u64)) as C by (replace c' with (c + (c' - c)) by ring; eapply Rle_trans; [apply Rabs_triang|]; rewrite (Rabs_pos_eq c Hc); lra).
  assert (Rabs x <= A + d) as X1 by (replace x with (X + (x - X)) by ring; eapply Rle_trans; [apply Rabs_triang|]; unfold d; lra).
  replace (b64 (c' * x) - c * X) with ((b64 (c' * x) - c' * x) + (c' * (x - X) + (c' - c) * X)) by ring.
  assert (Rabs (c' * (x - X) + (c' - c) * X) <= c * (1 + u64) * d + u64 * c * A) as Q.
  { eapply Rle_trans; [apply Rabs_triang|]. rewrite !Rabs_mult. fold d. apply Rplus_le_compat; [apply Rmult_le_compat_r; lra|]. apply Rmult_le_compat; try apply Rabs_pos; assumption. }
  assert (Rabs (c' * x) <= c * (1 + u64) * (A + d)) as Z by (rewrite Rabs_mult; apply Rmult_le_compat; try apply Rabs_pos; assumption).
  eapply Rle_trans; [apply Rabs_triang|].
  apply Rle_trans with (u64 * (c * (1 + u64) * (A + d)) + eta + (c * (1 + u64) * d + u64 * c * A)).
  { apply Rplus_le_compat; [|exact Q]. eapply Rle_trans; [exact P|]. apply Rplus_le_compat_r, Rmult_le_compat_l; [lra|exact Z]. }
  rewrite pow_add. simpl (_ ^ 2). pose proof (pow_hi k) as W. set (w := (1 + u64) ^ k) in *.
  replace (u64 * (c * (1 + u64) * (A + d)) + eta + (c * (1 + u64) * d + u64 * c * A)) with (c * ((1 + u64) * (1 + u64)) * d + c * A * ((1 + u64) * (1 + u64) - 1) + eta) by ring.
  assert (c * ((1 + u64) * (1 + u64)) * d <= c * ((1 + u64) * (1 + u64)) * (w * (A + n * eta) - A)) by (apply Rmult_le_compat_l; [|exact E]; apply Rmult_le_pos; nra).
  assert (1 <= w * ((1 + u64) * (1 + u64))) by nra. assert (eta <= w * ((1 + u64) * (1 + u64)) * eta) by nra.
  replace (w * ((1 + u64) * ((1 + u64) * 1)) * (c * A + (c * n + 1) * eta) - c * A) with (c * ((1 + u64) * (1 + u64)) * (w * (A + n * eta) - A) + c * A * ((1 + u64) * (1 + u64) - 1) + w * ((1 + u64) * (1 + u64)) * eta) by ring.
  lra.
Qed.
Lemma appr_scal k n c x X A : 0 <= c -> appr k n x X A -> appr (S k) (c * n + 1) (b64 (c * x)) (c * X) (c * A).
Proof.
  intros Hc H. pose proof (appr_A _ _ _ _ _ H) as A0. destruct H as (F & HA & N & E). split; [apply b64_fmt|]. rewrite Rabs_mult, (Rabs_pos_eq c Hc).
  split; [now apply Rmult_le_compat_l|]. split; [nra|]. pose proof (b64_any (c * x)) as P. pose proof u64_pos as U. pose proof eta_pos as T.
  set (d := Rabs (x - X)) in *. assert (0 <= d) by apply Rabs_pos.
  assert (Rabs x <= A + d) as X1 by (replace x with (X + (x - X)) by ring; eapply Rle_trans; [apply Rabs_triang|]; unfold d; lra).
  replace (b64 (c * x) - c * X) with ((b64 (c * x) - c * x) + c * (x - X)) by ring.
  eapply Rle_trans; [apply Rabs_triang|]. rewrite (Rabs_mult c (x - X)), (Rabs_pos_eq c Hc). fold d. rewrite Rabs_mult, (Rabs_pos_eq c Hc) in P.
  apply Rle_trans with (u64 * (c * (A + d)) + eta + c * d).
  { apply Rplus_le_compat_r. eapply Rle_trans; [exact P|]. apply Rplus_le_compat_r, Rmult_le_compat_l; [lra|]. now apply Rmult_le_compat_l. }
  simpl pow. pose proof (pow_hi k) as W. set (w := (1 + u64) ^ k) in *.
  assert (c * (1 + u64) * d <= c * (1 + u64) * (w * (A + n * eta) - A)) by (apply Rmult_le_compat_l; [nra|exact E]).
  assert (1 <= (1 + u64) * w) by nra. assert (eta <= (1 + u64) * w * eta) by nra.
  replace ((1 + u64) * w * (c * A + (c * n + 1) * eta) - c * A) with (c * (1 + u64) * (w * (A + n * eta) - A) + c * A * u64 + (1 + u64) * w * eta) by ring. nra.
Qed.
Lemma appr_div k n (m : nat) x X A : (0 < m)%nat -> appr k n x X A -> appr (S k) (n / INR m + 1) (b64 (x / INR m)) (X / INR m) (A / INR m).
Proof.
  intros Hm H. apply lt_0_INR in Hm. assert (0 <= / INR m) as I by (apply Rlt_le, Rinv_0_lt_compat; exact Hm). unfold Rdiv. rewrite !(Rmult_comm _ (/ INR m)). now apply appr_scal.
Qed.
Lemma appr_double k n x X A : appr k n x X A -> appr k (2 * n) (b64 (2 * x)) (2 * X) (2 * A).
Proof.
  intros (F & HA & N & E). rewrite b64_id by now apply fmt_double. split; [now apply fmt_double|]. rewrite Rabs_mult, (Rabs_pos_eq 2) by lra. split; [lra|]. split; [lra|].
  replace (2 * x - 2 * X) with (2 * (x - X)) by ring. rewrite Rabs_mult, (Rabs_pos_eq 2) by lra. lra.
Qed.
Lemma tsum_appr t k n a X A : (forall i, In i (leaves t) -> appr k n (a i) (X i) (A i)) ->
  appr (k + height t) (INR (length (leaves t)) * n) (tsum b64 t a) (Rsum (map X (leaves t))) (Rsum (map A (leaves t))).
Proof.
  induction t as [i|t1 IH1 t2 IH2]; intros H; simpl.
  - unfold Rsum; simpl. rewrite !Rplus_0_r, Rmult_1_l, Nat.add_0_r. apply H. now left.
  - rewrite !map_app, !Rsum_app, app_length, plus_INR, Rmult_plus_distr_r. rewrite Nat.add_succ_r. apply appr_add.
    + eapply appr_le; [| |apply IH1]; [lia|lra|]. intros; apply H. simpl. apply in_or_app. now left.
    + eapply appr_le; [| |apply IH2]; [lia|lra|]. intros; apply H. simpl. apply in_or_app. now right.
Qed.
Lemma tsum_an t N k n a X A : adds t N -> (forall i, (i < N)%nat -> appr k n (a i) (X i) (A i)) ->
  appr (k + height t) (INR N * n) (tsum b64 t a) (sumn N X) (sumn N A).
Proof.
  intros Ht H. unfold sumn. rewrite <- !(Rsum_perm _ _ (Permutation_map _ Ht)). replace N with (length (leaves t)) at 1 by (rewrite (Permutation_length Ht), seq_length; reflexivity).
  apply tsum_appr. intros i Hi. apply H. apply (Permutation_in i Ht) in Hi. apply in_seq in Hi. lia.
Qed.
Lemma lsum_appr (I : Type) (l : list I) k n a X A : 0 <= n -> (forall i, In i l -> appr k n (a i) (X i) (A i)) ->
  appr (k + length l) (INR (length l) * n) (lsum b64 (map a l)) (Rsum (map X l)) (Rsum (map A l)).
Proof.
  intros Hn H. unfold lsum.
  assert (forall l acc C D j m, (k <= j)%nat -> (forall i, In i l -> appr k n (a i) (X i) (A i)) -> appr j m acc C D ->
    appr (j + length l) (m + INR (length l) * n) (fold_left (radd b64) (map a l) acc) (C + Rsum (map X l)) (D + Rsum (map A l))) as G.
  { clear l H. intros l. induction l as [|i l IH]; intros acc C D j m Hj Hi HA.
    - unfold Rsum. simpl. now rewrite !Rplus_0_r, Rmult_0_l, Rplus_0_r, Nat.add_0_r.
    - cbn [map fold_left length]. rewrite S_INR. rewrite Nat.add_succ_r, <- Nat.add_succ_l.
      replace (m + (INR (length l) + 1) * n) with ((m + n) + INR (length l) * n) by ring.
      change (Rsum (X i :: map X l)) with (X i + Rsum (map X l)). change (Rsum (A i :: map A l)) with (A i + Rsum (map A l)). rewrite <- !Rplus_assoc.
      apply IH; [lia|intros; apply Hi; now right|]. apply appr_add; [exact HA|]. apply (appr_le k j n n); [exact Hj|lra|]. apply Hi. now left. }
  pose proof (G l 0 0 0 k 0 (le_n k) H (appr_0 k)) as Q. rewrite !Rplus_0_l in Q. exact Q.
Qed.
Lemma lsum_an N k n a X A : 0 <= n -> (forall i, (i < N)%nat -> appr k n (a i) (X i) (A i)) ->
  appr (k + N) (INR N * n) (lsum b64 (map a (seq 0 N))) (sumn N X) (sumn N A).
Proof. intros Hn H. pose proof (lsum_appr nat (seq 0 N) k n a X A Hn) as Q. rewrite seq_length in Q. apply Q. intros i Hi. apply in_seq in Hi. apply H. lia. Qed.
