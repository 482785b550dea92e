(** Rounding errors of the probability weighted moments for weighted ensembles. *)
From Coq Require Import Reals List ZArith Permutation Lia Lra Psatz.
From Flocq Require Import Core.
From Verif Require Import Num L_crps_row L_crps_real L_crps_omit.
From Verif Require Export T_round7 L_round5 L_round14 M_round9 S_round2 S_round5 S_round.
Open Scope R_scope.

Local Notation fmt := (generic_format radix2 (FLT_exp (-1074) 53)).
Local Notation bp := (bpow radix2).

Lemma appr_quot k n c x X A : 0 < c -> appr k n x X A -> appr (S k) (n / c + 1) (b64 (x / c)) (X / c) (A / c).
Proof. intros Hc H. assert (0 <= / c) as I by (apply Rlt_le, Rinv_0_lt_compat; exact Hc). unfold Rdiv. rewrite !(Rmult_comm _ (/ c)). now apply appr_scal. Qed.
(** a product that may underflow *)
Lemma appr_mulu k l n b x X A y Y B : appr k n x X A -> appr l 0 y Y B -> B <= b -> appr (S (k + l)) (n * b + 1) (b64 (x * y)) (X * Y) (A * B).
Proof.
  intros H H' Bb. pose proof (appr_A _ _ _ _ _ H) as PA. pose proof (appr_A _ _ _ _ _ H') as PB. destruct H as (F & HA & N & E), H' as (F' & HB & _ & E').
  split; [apply b64_fmt|]. split; [rewrite Rabs_mult; apply Rmult_le_compat; auto using Rabs_pos|]. split; [nra|]. rewrite Rmult_0_l, Rplus_0_r in E'.
  pose proof (b64_any (x * y)) as P. pose proof u64_pos as U. pose proof eta_pos as T. pose proof (pow_hi k) as K1. pose proof (pow_hi l) as K2. cbn [pow]. rewrite pow_add. set (f := (1 + u64) ^ k) in *. set (g := (1 + u64) ^ l) in *.
  set (A1 := A + n * eta) in *. assert (0 <= n * eta) by nra.
  assert (Rabs x <= f * A1) as Bx by (replace x with (X + (x - X)) by ring; eapply Rle_trans; [apply Rabs_triang|]; lra).
  assert (Rabs y <= g * B) as By by (replace y with (Y + (y - Y)) by ring; eapply Rle_trans; [apply Rabs_triang|]; lra).
  assert (Rabs (x * y) <= f * A1 * (g * B)) as Bxy by (rewrite Rabs_mult; apply Rmult_le_compat; auto using Rabs_pos).
  assert (Rabs (x * y - X * Y) <= (f * A1 - A) * (g * B) + A * (g * B - B)) as D.
  { replace (x * y - X * Y) with ((x - X) * y + X * (y - Y)) by ring. eapply Rle_trans; [apply Rabs_triang|]. rewrite !Rabs_mult.
    apply Rplus_le_compat; apply Rmult_le_compat; auto using Rabs_pos. }
  replace (b64 (x * y) - X * Y) with ((b64 (x * y) - x * y) + (x * y - X * Y)) by ring. eapply Rle_trans; [apply Rabs_triang|].
  assert (u64 * Rabs (x * y) <= u64 * (f * A1 * (g * B))) by (apply Rmult_le_compat_l; lra).
  apply Rle_trans with ((1 + u64) * (f * g) * (A1 * B) + eta - A * B); [lra|]. unfold A1.
  assert (1 <= f * g) by nra. assert (1 <= (1 + u64) * (f * g)) by nra. assert (A * B + n * eta * B + eta <= A * B + (n * b + 1) * eta) by nra.
  assert (eta <= (1 + u64) * (f * g) * eta) by nra. set (z := (1 + u64) * (f * g)) in *. nra.
Qed.
Section Pwm.
Variables (M : nat) (y : R) (x w : nat -> R) (tw t4 : stree).
Hypothesis HE : wens64 M y x.
Hypothesis HW : wts64 M w.
Hypothesis AW : adds tw M.
Hypothesis BW : (Z.of_nat (height tw) <= 2 ^ 52)%Z.
Hypothesis A4 : adds t4 M.
Local Notation wc := (weights_r b64 tw w).
Local Notation W := (nw M w).
Local Notation kw := (height tw + 2)%nat.
Local Notation cx := (1 - sumn M (fun i => W i * W i)).
Local Notation g := ((1 + u64) ^ (height t4 + 2 * height tw + 6) - 1).
Local Notation cr := (fair_c_r b64 t4 wc).
Local Notation S0 := (sumn M (fun i => W i * Rabs (x i))).
Local Notation Nx := (sumn M (fun i => x i * W i * (sumn (S i) W - W i))).
Hypothesis Hg : g < cx.
Lemma pcr : cx - g <= cr /\ 0 < cr /\ 0 <= g.
Proof.
  destruct (fair_c_err M w tw t4 ltac:(apply HE) HW AW BW A4) as [E _]. apply Rabs_le_inv in E. pose proof (pow_hi (height t4 + 2 * height tw + 6)). lra.
Qed.
Lemma pw i : (i < M)%nat -> appr kw 0 (wc i) (W i) (W i) /\ 0 <= W i <= 1.
Proof.
  intros Hi. pose proof (qwts M y x w tw HE HW AW BW i Hi) as C. split; [now apply (appr_of_calc kw 227)|]. split; [apply C|]. apply (nw_le1 M w HW i Hi).
Qed.
Lemma pb0 i : (i < M)%nat -> appr (S kw) 1 (b64 (x i * wc i)) (x i * W i) (W i * Rabs (x i)).
Proof.
  intros Hi. destruct (pw i Hi) as [C [_ L]]. destruct HE as (_ & _ & _ & Hx & _). destruct (Hx i Hi) as [F _]. apply is64_fmt in F.
  rewrite (Rmult_comm (W i)). eapply appr_le; [| |apply (appr_mulu 0 kw 0 1); [now apply appr_exact|exact C|exact L]]; [lia|lra].
Qed.
Lemma pb1 kc i cc : (i < M)%nat -> calc kc 227 cc (sumn (S i) W) -> (kw <= kc)%nat ->
  appr (kw + kc + 3) 3 (b64 (b64 (x i * wc i) * b64 (cc - wc i))) (x i * W i * (sumn (S i) W - W i)) (2 * (W i * Rabs (x i))).
Proof.
  intros Hi C K. destruct (pw i Hi) as [Cw [P L]]. pose proof (qcum M y x w tw HE HW AW BW i Hi) as Q. pose proof (qw1 M y x w tw HE HW AW BW i Hi) as Q1.
  assert (appr (S kc) 0 (b64 (cc - wc i)) (sumn (S i) W - W i) 2) as D.
  { apply (appr_up _ _ _ (sumn (S i) W + W i)); [|lra]. replace 0 with (0 + 0) by ring. apply appr_sub; [now apply (appr_of_calc kc 227)|]. apply (appr_le kw kc 0 0); [lia|lra|exact Cw]. }
  rewrite (Rmult_comm 2). eapply appr_le; [| |apply (appr_mulu (S kw) (S kc) 1 2); [now apply pb0|exact D|lra]]; [lia|lra].
Qed.
(** the combination of the three terms *)
Lemma pfin k e b q2 : (0 < M)%nat -> appr k 0 e (wmae M W y x) (wmae M W y x) -> appr k (INR M) b (sumn M (fun i => x i * W i)) S0 ->
  appr (S k) (2 * (INR M * 3) / cr + 2) q2 (2 * (Nx / cr)) (2 * (2 * S0 / cr)) ->
  Rabs (b64 (b64 (e + b) - q2) - wpwm_crps M W y x) <=
  err64 (k + 2) (INR M + 6 * INR M / (cx - g) + 2) (wmae M W y x + S0 + 4 * S0 / (cx - g)) + 4 * S0 * g / (cx * (cx - g)).
Proof.
  intros HM He Hb Hq. destruct pcr as (L & P & G). pose proof (appr_sub _ _ _ _ _ _ _ _ _ (appr_add _ _ _ _ _ _ _ _ _ He Hb) Hq) as H. apply appr_err in H.
  set (s := b64 (_ - q2)) in *. set (d := cx - g) in *. assert (0 < d) by (unfold d; lra).
  assert (0 <= S0) as PS by (apply sumn_nonneg; intros i Hi; destruct (pw i Hi) as [_ [Pi _]]; apply Rmult_le_pos; [lra|apply Rabs_pos]).
  assert (0 <= INR M) as PM by apply pos_INR.
  assert (/ cr <= / d) as I by (apply Rinv_le_contravar; lra). assert (0 < / cr) as I0 by now apply Rinv_0_lt_compat.
  assert (0 < cx) as Pc by lra. assert (0 < / cx) as Ic by now apply Rinv_0_lt_compat.
  assert (Rabs Nx <= 2 * S0) as BN.
  { rewrite <- sumn_scal. apply sumn_absle. intros i Hi. destruct (pw i Hi) as [_ [Pi Li]]. pose proof (qcum M y x w tw HE HW AW BW i Hi) as Q. pose proof (qw1 M y x w tw HE HW AW BW i Hi) as Q1.
    rewrite !Rabs_mult, (Rabs_pos_eq (W i)) by lra. rewrite (Rabs_pos_eq (sumn (S i) W - W i)) by lra. pose proof (Rabs_pos (x i)). assert (0 <= W i * Rabs (x i)) by nra. nra. }
  assert (Rabs (2 * (Nx / cr) - 2 * (Nx / cx)) <= 4 * S0 * g / (cx * d)) as T.
  { replace (2 * (Nx / cr) - 2 * (Nx / cx)) with (2 * Nx * (cx - cr) * (/ cx * / cr)) by (field; lra).
    rewrite !Rabs_mult, (Rabs_pos_eq 2), (Rabs_pos_eq (/ cx)), (Rabs_pos_eq (/ cr)) by lra.
    replace (4 * S0 * g / (cx * d)) with (2 * (2 * S0) * g * (/ cx * / d)) by (field; lra).
    destruct (fair_c_err M w tw t4 ltac:(apply HE) HW AW BW A4) as [E _]. rewrite Rabs_minus_sym in E.
    apply Rmult_le_compat; [apply Rmult_le_pos; [|apply Rabs_pos]; pose proof (Rabs_pos Nx); lra|nra| |apply Rmult_le_compat_l; lra].
    apply Rmult_le_compat; [pose proof (Rabs_pos Nx); lra|apply Rabs_pos|lra|exact E]. }
  replace (s - wpwm_crps M W y x) with ((s - (wmae M W y x + sumn M (fun i => x i * W i) - 2 * (Nx / cr))) + - (2 * (Nx / cr) - 2 * (Nx / cx))) by (unfold wpwm_crps; ring).
  eapply Rle_trans; [apply Rabs_triang|]. rewrite Rabs_Ropp. apply Rplus_le_compat; [|exact T]. eapply Rle_trans; [exact H|]. unfold err64. replace (k + 2)%nat with (S (S k)) by lia.
  pose proof (pow_hi (S (S k))) as K. set (f := (1 + u64) ^ S (S k)) in *. pose proof eta_pos as Te. unfold eta in Te. set (et := / 2 ^ 1075) in *.
  assert (2 * (2 * S0 / cr) <= 4 * S0 / d) as L1 by (unfold Rdiv; nra). assert (2 * (INR M * 3) / cr <= 6 * INR M / d) as L2 by (unfold Rdiv; nra).
  set (a1 := 2 * (2 * S0 / cr)) in *. set (a2 := 4 * S0 / d) in *. set (b1 := 2 * (INR M * 3) / cr) in *. set (b2 := 6 * INR M / d) in *.
  replace (0 + INR M + (b1 + 2)) with (INR M + b1 + 2) by ring.
  assert ((f - 1) * a1 <= (f - 1) * a2) by (apply Rmult_le_compat_l; lra). assert (f * et * b1 <= f * et * b2) by (apply Rmult_le_compat_l; [nra|exact L2]). nra.
Qed.
End Pwm.
