(** The CRPS of the log-normal distribution and of mixtures of normal distributions. *)
From Verif Require Export L_gaussint L_crpslog.
From Coq Require Import Psatz.
From Coquelicot Require Import Coquelicot.
Open Scope R_scope.

Lemma NF_n m c t : normal_cdf m c t = NF ((t - m) / c). Proof. apply Phi_NF. Qed.
(** * log-normal *)
Section logn.
Variables m c : R.
Hypothesis Hc : 0 < c.
Let E := exp (m + c * c / 2).
Definition lnN x := E * NF ((x - m) / c - c).
Lemma NFw_der k x : is_derive (fun x => NF ((x - m) / c - k)) x (phi ((x - m) / c - k) / c).
Proof.
  evar_last; [apply (is_derive_comp NF (fun x => (x - m) / c - k) x (phi ((x - m) / c - k)) (/ c)); [apply NF_der|auto_derive; [auto|unfold Rdiv; ring]]|].
  unfold scal; simpl; unfold mult; simpl. unfold Rdiv. ring.
Qed.
Lemma exp_phi x : exp x * phi ((x - m) / c) = E * phi ((x - m) / c - c).
Proof.
  rewrite !phi_alt. assert (forall u v k, exp u * (exp v / k) = exp (u + v) / k) as P by (intros; rewrite exp_plus; unfold Rdiv; ring).
  unfold E. rewrite !P. do 2 f_equal. field. lra.
Qed.
Lemma lnN_der x : is_derive lnN x (exp x * normal_pdf m c x).
Proof. evar_last; [apply (is_derive_scal (fun x => NF ((x - m) / c - c))), NFw_der|]. unfold normal_pdf. replace (exp x * (phi ((x - m) / c) / c)) with (exp x * phi ((x - m) / c) / c) by (field; lra). rewrite exp_phi. field. lra. Qed.
Lemma w_lims : is_lim (fun x => (x - m) / c - c) m_infty m_infty /\ is_lim (fun x => (x - m) / c - c) p_infty p_infty.
Proof.
  assert (0 < / c) by now apply Rinv_0_lt_compat. split.
  - apply lim_opp_m. apply (is_lim_ext (fun x => - / c * x + (- (m / c) - c))); [intros; field; lra|]. apply lim_lin_m. lra.
  - apply (is_lim_ext (fun x => / c * x + (- (m / c) - c))); [intros; field; lra|]. now apply lim_lin_p.
Qed.
Lemma lognormal_crps y : is_crps (exp_cdf (normal_cdf m c)) y
  (if Rle_dec y 0 then 2 * E * NF (- c / sqrt 2) - y else y * (2 * NF ((ln y - m) / c) - 1) - 2 * lnN (ln y) + 2 * E * NF (- c / sqrt 2)).
Proof.
  destruct (conv_full 1 (- c)) as [G HG]. replace (1 + 1 * 1) with 2 in HG by ring. pose proof (Rinv_0_lt_compat c Hc) as Hi.
  destruct (full_aff _ _ _ (/ c) (- m / c) Hi HG) as (D & L0 & L1). destruct w_lims as [W0 W1].
  eapply crps_eq; [reflexivity| |apply (exp_crps (normal_cdf m c) (normal_pdf m c) lnN (fun x => 2 * E * G (/ c * x + - m / c)) E (2 * E * NF (- c / sqrt 2)) y (normal_dist m c Hc) lnN_der)].
  - destruct (Rle_dec y 0); auto. now rewrite NF_n.
  - intros x. evar_last; [apply (is_derive_scal (fun x => G (/ c * x + - m / c))); apply D|]. unfold normal_pdf, lnN.
    replace (1 * (/ c * x + - m / c) + - c) with ((x - m) / c - c) by (field; lra). replace (/ c * x + - m / c) with ((x - m) / c) by (field; lra). field. lra.
  - replace (Finite 0) with (Finite (E * 0)) by (f_equal; ring). apply lim_scal. apply (is_lim_comp NF _ m_infty 0 m_infty NF_lim_m W0). exists 0; discriminate.
  - replace (Finite E) with (Finite (E * 1)) by (f_equal; ring). apply lim_scal. apply (is_lim_comp NF _ p_infty 1 p_infty NF_lim_p W1). exists 0; discriminate.
  - replace (Finite 0) with (Finite (2 * E * 0)) by (f_equal; ring). now apply lim_scal.
  - now apply lim_scal.
Qed.
End logn.

(** * mixtures of normal distributions *)
Lemma full_sum M (g : nat -> R -> R) (Z : nat -> R) : (forall k, (k < M)%nat -> exists G, full (g k) G (Z k)) -> exists G, full (fun x => sumn M (fun k => g k x)) G (sumn M Z).
Proof.
  induction M as [|M IH]; intros H.
  - exists (fun _ => 0). split; [|split].
    + intros x. rewrite sumn_0. exact (is_derive_const (K := R_AbsRing) (V := R_NormedModule) 0 x).
    + apply is_lim_const.
    + rewrite sumn_0. apply is_lim_const.
  - destruct IH as [G HG]; [auto|]. destruct (H M ltac:(lia)) as [G' HG']. exists (fun x => 1 * G x + 1 * G' x).
    eapply full_ext; [| | |exact (full_lin _ _ _ _ _ _ 1 1 HG HG')]; intros; cbv beta; rewrite ?sumn_S; ring.
Qed.
Definition mx (s t : R) := sqrt (s * s + t * t).
Lemma mx_pos s t : 0 < s -> 0 < mx s t. Proof. intros. apply sqrt_lt_R0. nra. Qed.
Lemma mx_sq s t : mx s t * mx s t = s * s + t * t. Proof. apply sqrt_sqrt. nra. Qed.
(** integrals of f_i F_j and f_i f_j *)
Lemma pair_root s t : 0 < s -> 0 < t -> sqrt (1 + s / t * (s / t)) = mx s t / t.
Proof.
  intros Hs Ht. unfold mx. replace (1 + s / t * (s / t)) with ((s * s + t * t) / (t * t)) by (field; lra). rewrite sqrt_div_alt by nra. now rewrite (sqrt_square t) by lra.
Qed.
Lemma pair_cdf m s n t : 0 < s -> 0 < t -> exists G, full (fun x => normal_pdf m s x * NF ((x - n) / t)) G (NF ((m - n) / mx s t)).
Proof.
  intros Hs Ht. destruct (conv_full (s / t) ((m - n) / t)) as [G HG]. rewrite pair_root in HG by auto. pose proof (Rinv_0_lt_compat s Hs) as Hi. pose proof (mx_pos s t Hs).
  eexists. eapply full_ext; [|reflexivity| |exact (full_aff _ _ _ (/ s) (- m / s) Hi HG)].
  - intros x. cbv beta. unfold normal_pdf. replace (/ s * x + - m / s) with ((x - m) / s) by (field; lra). replace (s / t * ((x - m) / s) + (m - n) / t) with ((x - n) / t) by (field; lra). unfold Rdiv. ring.
  - f_equal. field. lra.
Qed.
Lemma pair_pdf m s n t : 0 < s -> 0 < t -> exists G, full (fun x => normal_pdf m s x * phi ((x - n) / t)) G (phi ((m - n) / mx s t) * t / mx s t).
Proof.
  intros Hs Ht. destruct (conv_phi (s / t) ((m - n) / t)) as [G HG]. rewrite pair_root in HG by auto. pose proof (Rinv_0_lt_compat s Hs) as Hi. pose proof (mx_pos s t Hs).
  eexists. eapply full_ext; [|reflexivity| |exact (full_aff _ _ _ (/ s) (- m / s) Hi HG)].
  - intros x. cbv beta. unfold normal_pdf. replace (/ s * x + - m / s) with ((x - m) / s) by (field; lra). replace (s / t * ((x - m) / s) + (m - n) / t) with ((x - n) / t) by (field; lra). unfold Rdiv. ring.
  - replace ((m - n) / t / (mx s t / t)) with ((m - n) / mx s t) by (field; lra). field. lra.
Qed.
Definition nM (m s x : R) := m * NF ((x - m) / s) - s * phi ((x - m) / s).
Lemma nM_der m s x : 0 < s -> is_derive (nM m s) x (x * normal_pdf m s x).
Proof.
  intros Hs. assert (is_derive (fun x => (x - m) / s) x (/ s)) as D by (auto_derive; [auto|unfold Rdiv; ring]).
  evar_last.
  - apply (is_derive_minus (fun x => m * NF ((x - m) / s)) (fun x => s * phi ((x - m) / s)) x (m * (/ s * phi ((x - m) / s))) (s * (/ s * (- ((x - m) / s) * phi ((x - m) / s))))).
    + apply (is_derive_scal (fun x => NF ((x - m) / s))). apply (is_derive_comp NF (fun x => (x - m) / s)); [apply NF_der|exact D].
    + apply (is_derive_scal (fun x => phi ((x - m) / s))). apply (is_derive_comp phi (fun x => (x - m) / s)); [apply phi_der|exact D].
  - unfold minus, plus, opp; simpl. unfold normal_pdf. field. lra.
Qed.
Lemma phi_lim_p : is_lim phi p_infty 0.
Proof. apply lim_opp_p. apply (is_lim_ext phi); [intros; symmetry; apply phi_even|exact phi_lim]. Qed.
Lemma nM_lims m s : 0 < s -> is_lim (nM m s) m_infty 0 /\ is_lim (nM m s) p_infty m.
Proof.
  intros Hs. assert (0 < / s) by now apply Rinv_0_lt_compat.
  assert (is_lim (fun x => (x - m) / s) m_infty m_infty) as W0 by (apply lim_opp_m; apply (is_lim_ext (fun x => - / s * x + (- (m / s)))); [intros; field; lra|]; apply lim_lin_m; lra).
  assert (is_lim (fun x => (x - m) / s) p_infty p_infty) as W1 by (apply (is_lim_ext (fun x => / s * x + (- (m / s)))); [intros; field; lra|]; now apply lim_lin_p).
  split.
  - replace (Finite 0) with (Finite (m * 0 - s * 0)) by (f_equal; ring). apply is_lim_minus'; apply lim_scal.
    + apply (is_lim_comp NF _ m_infty 0 m_infty NF_lim_m W0). exists 0; discriminate.
    + apply (is_lim_comp phi _ m_infty 0 m_infty phi_lim W0). exists 0; discriminate.
  - replace (Finite m) with (Finite (m * 1 - s * 0)) by (f_equal; ring). apply is_lim_minus'; apply lim_scal.
    + apply (is_lim_comp NF _ p_infty 1 p_infty NF_lim_p W1). exists 0; discriminate.
    + apply (is_lim_comp phi _ p_infty 0 p_infty phi_lim_p W1). exists 0; discriminate.
Qed.
Definition mA (d s : R) := d * (2 * NF (d / s) - 1) + 2 * s * phi (d / s).
Section mix.
Variables (M : nat) (w mu sg : nat -> R).
Hypothesis Hs : forall k, (k < M)%nat -> 0 < sg k.
Hypothesis Hw : forall k, (k < M)%nat -> 0 <= w k.
Hypothesis Sw : sumn M w = 1.
Let F := mixture M w (fun k => normal_cdf (mu k) (sg k)).
Let f := mixture M w (fun k => normal_pdf (mu k) (sg k)).
Let MM := mixture M w (fun k => nM (mu k) (sg k)).
Let z i j := 2 * (w i * w j) * (mu j * NF ((mu i - mu j) / mx (sg i) (sg j)) - sg j * (phi ((mu i - mu j) / mx (sg i) (sg j)) * sg j / mx (sg i) (sg j))).
Let q := sumn M (fun i => sumn M (z i)).
Lemma mix_Q : exists Q, full (fun x => 2 * f x * MM x) Q q.
Proof.
  destruct (full_sum M (fun i x => sumn M (fun j => 2 * (w i * w j) * (normal_pdf (mu i) (sg i) x * nM (mu j) (sg j) x))) (fun i => sumn M (z i))) as [G HG].
  - intros i Hi. apply (full_sum M (fun j x => 2 * (w i * w j) * (normal_pdf (mu i) (sg i) x * nM (mu j) (sg j) x)) (z i)). intros j Hj.
    destruct (pair_cdf (mu i) (sg i) (mu j) (sg j) (Hs i Hi) (Hs j Hj)) as [G1 H1]. destruct (pair_pdf (mu i) (sg i) (mu j) (sg j) (Hs i Hi) (Hs j Hj)) as [G2 H2].
    eexists. eapply full_ext; [|reflexivity| |exact (full_scal _ _ _ (2 * (w i * w j)) (full_lin _ _ _ _ _ _ (mu j) (- sg j) H1 H2))].
    + intros x. cbv beta. unfold nM. ring.
    + unfold z. ring.
  - exists G. eapply full_ext; [|reflexivity|reflexivity|exact HG]. intros x. cbv beta. unfold f, MM, mixture.
    rewrite Rmult_assoc, sumn_mul, <- sumn_scal. apply sumn_ext. intros i Hi. rewrite <- sumn_scal. apply sumn_ext. intros j Hj. ring.
Qed.
Lemma mix_pair i j : (i < M)%nat -> (j < M)%nat -> z i j + z j i = w i * w j * (mu i + mu j) - w i * w j * mA (mu i - mu j) (mx (sg i) (sg j)).
Proof.
  intros Hi Hj. pose proof (mx_pos (sg i) (sg j) (Hs i Hi)) as P. unfold z, mA. replace (mx (sg j) (sg i)) with (mx (sg i) (sg j)) by (unfold mx; f_equal; ring).
  pose proof (mx_sq (sg i) (sg j)) as E. set (S := mx _ _) in *. replace ((mu j - mu i) / S) with (- ((mu i - mu j) / S)) by (field; lra). rewrite NF_opp, phi_even.
  set (N := NF _). set (p := phi _). replace (2 * S * p) with (2 * (S * S) * p / S) by (field; lra). rewrite E. field. lra.
Qed.
Lemma mix_q : q = sumn M (fun k => w k * mu k) - 1 / 2 * sumn M (fun i => sumn M (fun j => w i * w j * mA (mu i - mu j) (mx (sg i) (sg j)))).
Proof.
  assert (q + q = 2 * sumn M (fun k => w k * mu k) - sumn M (fun i => sumn M (fun j => w i * w j * mA (mu i - mu j) (mx (sg i) (sg j))))) as E; [|lra].
  replace (q + q) with (sumn M (fun i => sumn M (z i) + sumn M (fun j => z j i))) by (rewrite sumn_plus; unfold q; f_equal; apply (sumn_swap M M (fun i j => z j i))).
  rewrite (sumn_ext M _ (fun i => (w i * mu i * sumn M w + w i * sumn M (fun j => w j * mu j)) - sumn M (fun j => w i * w j * mA (mu i - mu j) (mx (sg i) (sg j))))).
  - rewrite sumn_minus, sumn_plus, sumn_scal_r, sumn_scal_r, Sw. ring.
  - intros i Hi. rewrite <- sumn_plus, <- !sumn_scal, <- sumn_plus, <- sumn_minus. apply sumn_ext. intros j Hj. rewrite mix_pair by auto. ring.
Qed.
Lemma mix_crps y : is_crps F y (sumn M (fun k => w k * mA (y - mu k) (sg k)) - 1 / 2 * sumn M (fun i => sumn M (fun j => w i * w j * mA (mu i - mu j) (mx (sg i) (sg j))))).
Proof.
  destruct mix_Q as (Q & DQ & Q0 & Q1).
  assert (is_lim MM m_infty 0) as L0.
  { unfold MM, mixture. assert (filterlim (fun t => sumn M (fun k => w k * nM (mu k) (sg k) t)) (Rbar_locally m_infty) (locally (sumn M (fun k => w k * 0)))) as K.
    { apply (sumn_lim M (fun k t => w k * nM (mu k) (sg k) t) (fun k => w k * 0) _ (HF := _)). intros k Hk. exact (lim_scal (w k) _ _ _ (proj1 (nM_lims (mu k) (sg k) (Hs k Hk)))). }
    rewrite (sumn_ext M _ (fun _ => 0)) in K by (intros; ring). rewrite sumn_zero in K. exact K. }
  assert (is_lim MM p_infty (sumn M (fun k => w k * mu k))) as L1.
  { apply (sumn_lim M (fun k t => w k * nM (mu k) (sg k) t) (fun k => w k * mu k) _ (HF := _)). intros k Hk. exact (lim_scal (w k) _ _ _ (proj2 (nM_lims (mu k) (sg k) (Hs k Hk)))). }
  eapply crps_eq; [reflexivity| |apply (line_crps F f MM Q (sumn M (fun k => w k * mu k)) q)]; auto.
  - rewrite mix_q. unfold F, MM, mixture. rewrite (sumn_ext M (fun k => w k * mA (y - mu k) (sg k)) (fun k => 2 * y * (w k * normal_cdf (mu k) (sg k) y) + - 2 * (w k * nM (mu k) (sg k) y) + (- y * w k + w k * mu k))).
    + rewrite !sumn_plus, !sumn_scal, Sw. ring.
    + intros k Hk. rewrite NF_n. unfold mA, nM. ring.
  - apply dist0_mix; auto. intros k Hk. now apply normal_dist, Hs.
  - intros t. evar_last; [apply (sumn_der M (fun k t => w k * nM (mu k) (sg k) t) (fun k t => w k * (t * normal_pdf (mu k) (sg k) t))); intros k Hk; apply (is_derive_scal (nM (mu k) (sg k))); now apply nM_der, Hs|].
    unfold f, mixture. rewrite <- sumn_scal. apply sumn_ext. intros k Hk. ring.
Qed.
End mix.
