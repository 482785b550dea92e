(** The CRPS integral of a distribution on the natural numbers. *)
From Verif Require Export L_rint L_disc S_count.
From Coq Require Import Psatz Lia.
From Coquelicot Require Import Coquelicot.
Open Scope R_scope.

Ltac rring := match goal with |- ?a = ?b => change (@eq R a b); ring end.
Definition fl (t : R) : nat := Z.to_nat (Int_part t).
Lemma fl_spec t : 0 <= t -> INR (fl t) <= t < INR (fl t) + 1.
Proof.
  intros H. unfold fl. pose proof (base_Int_part t) as [B1 B2]. assert (0 <= Int_part t)%Z. { assert (-1 < IZR (Int_part t)) by lra. apply lt_IZR in H0. lia. }
  rewrite INR_IZR_INZ, Z2Nat.id by auto. lra.
Qed.
Lemma fl_unique n t : INR n <= t < INR n + 1 -> fl t = n.
Proof.
  intros H. pose proof (pos_INR n). pose proof (fl_spec t ltac:(lra)) as B. apply INR_eq.
  assert (fl t < S n)%nat by (apply INR_lt; rewrite S_INR; lra). assert (n < S (fl t))%nat by (apply INR_lt; rewrite S_INR; lra). f_equal. lia.
Qed.
Lemma fl_INR n : fl (INR n) = n. Proof. apply fl_unique. lra. Qed.
Definition step (g : nat -> R) (t : R) : R := if Rlt_dec t 0 then 0 else g (fl t).
Definition stepP (g : nat -> R) (t : R) : R := if Rlt_dec t 0 then 0 else sumn (fl t) g + (t - INR (fl t)) * g (fl t).
Lemma step_0n g n : is_RInt (step g) 0 (INR n) (sumn n g).
Proof.
  induction n as [|n IH]; [rewrite sumn_0; apply (is_RInt_point (V := R_NormedModule))|].
  rewrite sumn_S. apply (seg_seg _ 0 (INR n) (INR (S n))); auto. pose proof (pos_INR n) as P. rewrite S_INR.
  replace (g n) with (g n * (INR n + 1 - INR n)) by ring. apply seg_const; [lra|]. intros t Ht. unfold step. destruct (Rlt_dec t 0); [lra|]. f_equal. apply fl_unique. lra.
Qed.
Lemma step_0 g t : is_RInt (step g) 0 t (stepP g t).
Proof.
  unfold stepP. destruct (Rlt_dec t 0) as [L|L].
  - replace 0 with (opp 0) at 2 by apply Ropp_0. apply (is_RInt_swap (V := R_NormedModule)). replace 0 with (0 * (0 - t)) at 2 by ring. apply seg_const; [lra|].
    intros x Hx. unfold step. destruct (Rlt_dec x 0); [auto|lra].
  - pose proof (fl_spec t ltac:(lra)) as B. pose proof (pos_INR (fl t)). apply (seg_seg _ 0 (INR (fl t)) t); [apply step_0n|]. rewrite (Rmult_comm (_ - _)). apply seg_const; [lra|].
    intros x Hx. unfold step. destruct (Rlt_dec x 0); [lra|]. f_equal. apply fl_unique. lra.
Qed.
Lemma step_RInt g a b : is_RInt (step g) a b (stepP g b - stepP g a).
Proof.
  replace (stepP g b - stepP g a) with (opp (stepP g a) + stepP g b) by (unfold opp; simpl; ring). apply (seg_seg _ a 0 b); [|apply step_0]. apply (is_RInt_swap (V := R_NormedModule)), step_0.
Qed.
Lemma step_1 g a b : is_RInt (fun t => 1 - step g t) a b ((b - stepP g b) - (a - stepP g a)).
Proof.
  replace ((b - stepP g b) - (a - stepP g a)) with ((b - a) - (stepP g b - stepP g a)) by ring. apply (is_RInt_minus (V := R_NormedModule)); [|apply step_RInt].
  pose proof (is_RInt_const (V := R_NormedModule) a b 1) as K. unfold scal in K; simpl in K; unfold mult in K; simpl in K. now rewrite Rmult_1_r in K.
Qed.
Lemma stepP_plus f g t : stepP f t + stepP g t = stepP (fun n => f n + g n) t.
Proof. unfold stepP. destruct (Rlt_dec t 0); [ring|]. rewrite sumn_plus. ring. Qed.
Lemma stepP_ext f g t : (forall n, f n = g n) -> stepP f t = stepP g t.
Proof. intros H. unfold stepP. destruct (Rlt_dec t 0); auto. now rewrite H, (sumn_ext (fl t) f g) by auto. Qed.
Lemma step_lim g (T : R) : is_series (fun k => 1 - g k) T -> is_lim (fun t => t - stepP g t) p_infty T.
Proof.
  intros H. pose proof (ex_series_lim_0 _ (ex_intro _ T H)) as H0.
  apply is_lim_spec. intros eps. apply is_lim_seq_spec in H0. destruct (H0 (pos_div_2 eps)) as [N1 HN1].
  pose proof (proj1 (filterlim_locally (F := eventually) (sum_n (fun k => 1 - g k)) T) H (pos_div_2 eps)) as [N2 HN2].
  exists (INR (S (Nat.max N1 N2))). intros t Ht. pose proof (pos_INR (S (Nat.max N1 N2))). pose proof (fl_spec t ltac:(lra)) as B.
  assert (Nat.max N1 N2 < fl t)%nat as L by (rewrite S_INR in Ht; apply INR_lt; lra).
  unfold stepP. destruct (Rlt_dec t 0); [lra|]. clear n; set (n := fl t) in *. specialize (HN1 n ltac:(lia)). specialize (HN2 (n - 1)%nat ltac:(lia)).
  rewrite sum_n_sumn in HN2. replace (S (n - 1)) with n in HN2 by lia. unfold ball in HN2; simpl in HN2; unfold AbsRing_ball, minus, plus, opp in HN2; simpl in HN2. unfold abs in HN2; simpl in HN2.
  assert (sumn n (fun k => 1 - g k) = INR n - sumn n g) as E. { clear. induction n as [|n IH]; [rewrite !sumn_0; simpl; ring|]. rewrite !sumn_S, IH, S_INR. ring. }
  rewrite E in HN2. replace (t - (sumn n g + (t - INR n) * g n) - T) with ((INR n - sumn n g - T) + (t - INR n) * (1 - g n)) by ring.
  eapply Rle_lt_trans; [apply Rabs_triang|]. rewrite Rabs_mult, (Rabs_right (t - INR n)) by lra. simpl in *. rewrite Rminus_0_r in HN1.
  assert ((t - INR n) * Rabs (1 - g n) <= 1 * Rabs (1 - g n)) by (apply Rmult_le_compat_r; [apply Rabs_pos|lra]). unfold Rminus in *. lra.
Qed.
Lemma count_cdf_step p t : count_cdf p t = step (fun n => sumn (S n) p) t. Proof. reflexivity. Qed.
(** the CRPS from the sum of the squared survival function *)
Lemma count_crps p T y : is_series (fun k => (1 - sumn (S k) p) ^ 2) T -> is_crps (count_cdf p) y (2 * stepP (fun n => sumn (S n) p) y - y + T).
Proof.
  intros HT. set (F := fun n => sumn (S n) p) in *. set (F2 := fun n => F n ^ 2). set (G := fun n => 2 * F n - F n ^ 2).
  replace (2 * stepP F y - y + T) with ((stepP F2 y - 0) + (T - (y - stepP G y))).
  2: { assert (stepP F2 y + stepP G y = 2 * stepP F y) as E; [|lra]. rewrite stepP_plus. replace (2 * stepP F y) with (stepP F y + stepP F y) by ring. rewrite stepP_plus. apply stepP_ext. intros n. unfold F2, G. ring. }
  apply crps_split.
  - apply (ltail_prim _ (stepP F2)).
    + intros a _. eapply (is_RInt_ext (V := R_NormedModule)); [|apply step_RInt]. intros x _. rewrite count_cdf_step. unfold step, F2, F. destruct (Rlt_dec x 0); rring.
    + apply (is_lim_ext_loc (fun _ => 0)); [exists 0; intros t Ht; unfold stepP; destruct (Rlt_dec t 0); [auto|lra]|apply is_lim_const].
  - apply (rtail_prim _ (fun t => t - stepP G t) y T).
    + intros b _. eapply (is_RInt_ext (V := R_NormedModule)); [|apply step_1]. intros x _. rewrite count_cdf_step. unfold step, G, F. destruct (Rlt_dec x 0); rring.
    + apply step_lim. eapply is_series_ext; [|exact HT]. intros k. unfold G, F. rring.
Qed.
(** partial means *)
Lemma stepP_mean p y : 0 <= y -> stepP (fun n => sumn (S n) p) y = y * count_cdf p y - sumn (S (fl y)) (fun k => INR k * p k).
Proof.
  intros H. unfold stepP, count_cdf. destruct (Rlt_dec y 0) as [L|_]; [lra|]. fold (fl y). set (n := fl y). clearbody n.
  assert (sumn n (fun n0 => sumn (S n0) p) = INR n * sumn (S n) p - sumn (S n) (fun k => INR k * p k)) as E; [|rewrite E; ring].
  induction n as [|n IH]; [rewrite !sumn_S, !sumn_0; simpl; ring|]. rewrite sumn_S, IH, !(sumn_S (S n)), S_INR. ring.
Qed.
(** * size-biased families *)
Lemma sumn_lim (a : nat -> R) (l : R) : is_series a l <-> is_lim_seq (fun n => sumn n a) l.
Proof.
  split; intros H.
  - apply (is_lim_seq_incr_1 (fun n => sumn n a)). apply (is_lim_seq_ext (sum_n a) _ (Finite l)); [intros n; apply sum_n_sumn|exact H].
  - apply (is_lim_seq_incr_1 (fun n => sumn n a)) in H. apply (is_lim_seq_ext (fun n => sumn (S n) a) (sum_n a) (Finite l)); [intros n; symmetry; apply sum_n_sumn|exact H].
Qed.
Section biased.
Variables (p q : nat -> R) (mu be W V : R).
Notation F := (fun n => sumn (S n) p).
Notation G := (fun n => sumn (S n) q).
Hypothesis Hp : pmf p.
Hypothesis Hq : pmf q.
Hypothesis Hpq : forall k, INR (S k) * p (S k) = mu * q k.
Hypothesis HFG : forall m, F m + F (S m) = 2 * G m + (be - 1) * q m + be * q (S m).
Hypothesis HW : is_series (fun k => q k * q k) W.
Hypothesis HV : is_series (fun k => q k * q (S k)) V.
Lemma mean_sum n : sumn (S n) (fun k => INR k * p k) = mu * sumn n q.
Proof. induction n as [|n IH]; [rewrite sumn_S, !sumn_0; simpl; ring|]. rewrite sumn_S, IH, Hpq, sumn_S. ring. Qed.
Lemma mean_series : is_series (fun k => INR k * p k) mu.
Proof.
  apply sumn_lim. apply (is_lim_seq_incr_1 (fun n => sumn n _)). apply (is_lim_seq_ext (fun n => mu * sumn n q)); [intros n; now rewrite mean_sum|].
  replace (Finite mu) with (Rbar_mult mu 1) by (simpl; f_equal; ring). apply is_lim_seq_scal_l. apply sumn_lim. apply Hq.
Qed.
Lemma F_le n : 0 <= sumn n p <= 1.
Proof.
  destruct Hp as [P0 P1]. assert (forall n m, sumn n p <= sumn (m + n) p) as Mon. { intros k m. induction m as [|m IH]; [simpl; lra|]. change (S m + k)%nat with (S (m + k)). rewrite sumn_S. specialize (P0 (m + k)%nat). lra. }
  split; [specialize (Mon 0%nat n); now rewrite Nat.add_0_r, sumn_0 in Mon|].
  apply sumn_lim in P1. apply (is_lim_seq_le (fun _ => sumn n p) (fun m => sumn (m + n) p) (sumn n p) 1); [apply Mon|apply is_lim_seq_const|]. now apply (is_lim_seq_incr_n (fun n => sumn n p)).
Qed.
Lemma tail_bound n : INR n * (1 - F n) <= mu - sumn (S n) (fun k => INR k * p k).
Proof.
  destruct Hp as [P0 P1]. apply sumn_lim in P1. pose proof (proj1 (sumn_lim _ _) mean_series) as M1.
  apply (is_lim_seq_le (fun m => INR n * (sumn (m + S n) p - F n)) (fun m => sumn (m + S n) (fun k => INR k * p k) - sumn (S n) (fun k => INR k * p k)) (INR n * (1 - F n)) (mu - sumn (S n) (fun k => INR k * p k))).
  - intros m. cbv beta. induction m as [|m IH]; [rewrite !Nat.add_0_l; lra|]. change (S m + S n)%nat with (S (m + S n)). rewrite !(sumn_S (m + S n)). specialize (P0 (m + S n)%nat).
    assert (INR n <= INR (m + S n)) by (apply le_INR; lia). nra.
  - replace (Finite (INR n * (1 - F n))) with (Rbar_mult (INR n) (1 - F n)) by reflexivity. apply is_lim_seq_scal_l. apply (is_lim_seq_minus' _ (fun _ => F n)); [|apply is_lim_seq_const]. now apply (is_lim_seq_incr_n (fun n => sumn n p)).
  - apply (is_lim_seq_minus' _ (fun _ => sumn (S n) (fun k => INR k * p k))); [|apply is_lim_seq_const]. now apply (is_lim_seq_incr_n (fun n => sumn n _)).
Qed.
Lemma tail_lim : is_lim_seq (fun n => INR n * (1 - F n) ^ 2) 0.
Proof.
  pose proof (proj1 (sumn_lim _ _) mean_series) as M1. apply (is_lim_seq_incr_1 (fun n => sumn n (fun k => INR k * p k))) in M1.
  apply (is_lim_seq_le_le (fun _ => 0) _ (fun n => mu - sumn (S n) (fun k => INR k * p k))).
  - intros n. pose proof (tail_bound n) as B. pose proof (F_le (S n)) as L. pose proof (pos_INR n). split; [apply Rmult_le_pos; auto; apply pow2_ge_0|].
    eapply Rle_trans; [|exact B]. apply Rmult_le_compat_l; auto. simpl. nra.
  - apply is_lim_seq_const.
  - replace (Finite 0) with (Finite (mu - mu)) by (f_equal; ring). apply is_lim_seq_minus'; [apply is_lim_seq_const|exact M1].
Qed.
Lemma abel n : sumn n (fun k => (1 - F k) ^ 2) = INR n * (1 - F n) ^ 2 + sumn (S n) (fun k => INR k * p k * (2 - F k - sumn k p)).
Proof.
  induction n as [|n IH]; [rewrite !sumn_S, !sumn_0; simpl; ring|]. rewrite sumn_S, IH, !(sumn_S (S n)), S_INR. ring.
Qed.
Lemma size_sum n : sumn (S n) (fun k => INR k * p k * (2 - F k - sumn k p)) = mu * (2 * sumn n q - (sumn n q) ^ 2 - be * sumn n (fun k => q k * q k) - be * sumn n (fun k => q k * q (S k))).
Proof.
  induction n as [|n IH]; [rewrite sumn_S, !sumn_0; simpl; ring|]. rewrite sumn_S, IH, Hpq, (sumn_S n q), (sumn_S n (fun k => q k * q k)), (sumn_S n (fun k => q k * q (S k))). pose proof (HFG n) as E. cbv beta in E. rewrite (sumn_S n q) in E.
  replace (2 - sumn (S (S n)) p - sumn (S n) p) with (2 - (sumn (S n) p + sumn (S (S n)) p)) by ring. rewrite E. ring.
Qed.
Lemma biased_T : is_series (fun k => (1 - F k) ^ 2) (mu - mu * be * (W + V)).
Proof.
  apply sumn_lim. eapply is_lim_seq_ext; [intros n; symmetry; apply abel|]. replace (mu - mu * be * (W + V)) with (0 + mu * (2 * 1 - 1 ^ 2 - be * W - be * V)) by ring.
  apply is_lim_seq_plus'; [apply tail_lim|]. eapply is_lim_seq_ext; [intros n; symmetry; apply size_sum|].
  destruct Hq as [_ Q1]. apply sumn_lim in Q1. apply sumn_lim in HW, HV.
  assert (forall c u (l : R), is_lim_seq u l -> is_lim_seq (fun n => c * u n) (c * l)) as Sc by (intros c u l H; exact (is_lim_seq_scal_l u c l H)).
  apply (Sc mu (fun n => _)). apply is_lim_seq_minus'; [apply is_lim_seq_minus'; [apply is_lim_seq_minus'|]|]; [now apply (Sc 2 (fun n => _))| |now apply (Sc be (fun n => _))|now apply (Sc be (fun n => _))].
  simpl. apply (is_lim_seq_mult' (fun n => sumn n q) (fun n => sumn n q * 1)); auto. apply (is_lim_seq_mult' (fun n => sumn n q) (fun _ => 1)); auto. apply is_lim_seq_const.
Qed.
Lemma biased_crps y : is_crps (count_cdf p) y (y * (2 * count_cdf p y - 1) - 2 * mu * count_cdf q (y - 1) + mu - mu * be * (W + V)).
Proof.
  pose proof (count_crps p _ y biased_T) as K. eapply crps_eq; [reflexivity| |exact K]. destruct (Rlt_dec y 0) as [L|L].
  - unfold stepP, count_cdf. destruct (Rlt_dec y 0); [|lra]. destruct (Rlt_dec (y - 1) 0); [ring|lra].
  - rewrite stepP_mean by lra. rewrite mean_sum. assert (count_cdf q (y - 1) = sumn (fl y) q) as ->; [|ring].
    pose proof (fl_spec y ltac:(lra)) as B. unfold count_cdf. destruct (Rlt_dec (y - 1) 0) as [L1|L1].
    + rewrite (fl_unique 0 y); [now rewrite sumn_0|]. simpl. lra.
    + fold (fl (y - 1)). assert (fl y <> 0)%nat as N0 by (intros E; rewrite E in B; simpl in B; lra). rewrite (fl_unique (fl y - 1) (y - 1)).
      * f_equal. lia.
      * rewrite minus_INR by lia. simpl. lra.
Qed.
End biased.
