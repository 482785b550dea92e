(** The CRPS of the beta distribution. *)
From Verif Require Export L_crpsgen L_tt L_tc.
From Coq Require Import Psatz.
From Coquelicot Require Import Coquelicot.
Open Scope R_scope.

(** primitives on an open interval with the same limit at its lower end are equal *)
Lemma fb_proper l u : Rbar_lt l u -> Rbar_lt l p_infty. Proof. destruct l, u; simpl; auto; tauto. Qed.
Lemma from_below_proper (l u : Rbar) : Rbar_lt l u -> ProperFilter (from_below l).
Proof. destruct l as [l| |]; intros H; [apply at_right_proper_filter|destruct u; contradiction|apply (Rbar_locally_filter m_infty)]. Qed.
Lemma from_above_proper (l u : Rbar) : Rbar_lt l u -> ProperFilter (from_above u).
Proof. destruct u as [u| |]; intros H; [apply at_left_proper_filter|apply (Rbar_locally_filter p_infty)|destruct l; contradiction]. Qed.
Lemma below_inn (l u : Rbar) : Rbar_lt l u -> from_below l (fun t => inn l u t).
Proof.
  intros H. destruct l as [l| |]; simpl in H; [| contradiction|].
  - destruct u as [u| |]; [|exists (mkposreal 1 Rlt_0_1)|contradiction].
    + assert (0 < u - l) as P by lra. exists (mkposreal _ P). intros t Ht Hl. split; simpl; auto. apply Rabs_def2 in Ht. unfold minus, plus, opp in Ht; simpl in Ht. lra.
    + intros t _ Hl. split; simpl; auto.
  - destruct u as [u| |]; [exists u|exists 0|contradiction]; intros t Ht; split; simpl; auto.
Qed.
Lemma above_inn (l u : Rbar) : Rbar_lt l u -> from_above u (fun t => inn l u t).
Proof.
  intros H. destruct u as [u| |]; simpl in H.
  - destruct l as [l| |]; [|contradiction|exists (mkposreal 1 Rlt_0_1)].
    + simpl in H. assert (0 < u - l) as P by lra. exists (mkposreal _ P). intros t Ht Hl. split; simpl; auto. apply Rabs_def2 in Ht. unfold minus, plus, opp in Ht; simpl in Ht. lra.
    + intros t _ Hl. split; simpl; auto.
  - destruct l as [l| |]; [exists l|contradiction|exists 0]; intros t Ht; split; simpl; auto.
  - destruct l; contradiction.
Qed.
Lemma prim_const (l u : Rbar) (G g H : R -> R) x y : (forall t, inn l u t -> is_derive G t (g t)) -> (forall t, inn l u t -> is_derive H t (g t)) ->
  inn l u x -> inn l u y -> G x - H x = G y - H y.
Proof.
  intros DG DH Hx Hy. assert (forall a b, a <= b -> inn l u a -> inn l u b -> G a - H a = G b - H b) as K.
  { intros a b Hab Ia Ib. destruct (MVT_gen (fun t => G t - H t) a b (fun _ => 0)) as (c & Hc & E).
    - intros t Ht. rewrite Rmin_left, Rmax_right in Ht by lra. assert (inn l u t) as It by (apply (inn_between l u a t b); auto; lra).
      evar_last; [apply (is_derive_minus G H t (g t) (g t)); auto|]. unfold minus, plus, opp; simpl. ring.
    - intros t Ht. rewrite Rmin_left, Rmax_right in Ht by lra. assert (inn l u t) as It by (apply (inn_between l u a t b); auto; lra).
      apply continuity_pt_filterlim. apply (ex_derive_continuous (fun t => G t - H t)). exists (minus (g t) (g t)). apply (is_derive_minus G H t (g t) (g t)); auto.
    - lra. }
  destruct (Rle_dec x y); [now apply K|]. symmetry. apply K; auto. lra.
Qed.
Lemma prim_eq (l u : Rbar) (G g H : R -> R) v x : Rbar_lt l u -> (forall t, inn l u t -> is_derive G t (g t)) -> (forall t, inn l u t -> is_derive H t (g t)) ->
  filterlim G (from_below l) (locally v) -> filterlim H (from_below l) (locally v) -> inn l u x -> G x = H x.
Proof.
  intros Hlu DG DH LG LH Hx. pose proof (from_below_proper l u Hlu) as PF.
  assert (filterlim (fun t => G t - H t) (from_below l) (locally (v - v))) as L.
  { apply (filterlim_comp_2 (H := locally (opp v)) G (fun t => opp (H t)) plus LG); [|apply (filterlim_plus v (opp v))]. eapply filterlim_comp; [exact LH|apply (filterlim_opp v)]. }
  assert (filterlim (fun _ => G x - H x) (from_below l) (locally (v - v))) as L2.
  { eapply filterlim_ext_loc; [|exact L]. eapply filter_imp; [|exact (below_inn l u Hlu)]. intros t It. cbv beta. now apply (prim_const l u G g H). }
  pose proof (filterlim_locally_unique (fun _ : R => G x - H x) _ _ (filterlim_const (G x - H x)) L2). lra.
Qed.
(** value at the upper end *)
Lemma prim_end (l u : Rbar) (G g H : R -> R) v w w' : Rbar_lt l u -> (forall t, inn l u t -> is_derive G t (g t)) -> (forall t, inn l u t -> is_derive H t (g t)) ->
  filterlim G (from_below l) (locally v) -> filterlim H (from_below l) (locally v) -> filterlim G (from_above u) (locally w) -> filterlim H (from_above u) (locally w') -> w = w'.
Proof.
  intros Hlu DG DH LG LH UG UH. pose proof (from_above_proper l u Hlu) as PF.
  apply (filterlim_locally_unique G w w' UG). eapply filterlim_ext_loc; [|exact UH]. eapply filter_imp; [|exact (above_inn l u Hlu)].
  intros t It. symmetry. now apply (prim_eq l u G g H v).
Qed.

Lemma Rpower_lim0 a : 0 < a -> filterlim (fun t => Rpower t a) (at_right 0) (locally 0).
Proof.
  intros Ha. unfold Rpower. apply (filterlim_comp _ _ _ (fun t => a * ln t) exp (at_right 0) (Rbar_locally m_infty) (locally 0)); [|exact is_lim_exp_m].
  apply (filterlim_comp _ _ _ ln (fun x => a * x) (at_right 0) (Rbar_locally m_infty) (Rbar_locally m_infty)); [exact is_lim_ln_0|].
  intros P [M HM]. exists (M / a). intros x Hx. apply HM. apply (Rmult_lt_compat_l a) in Hx; auto. replace (a * (M / a)) with M in Hx by (field; lra). exact Hx.
Qed.
Lemma Rpower1_lim0 b : filterlim (fun t => Rpower (1 - t) b) (at_right 0) (locally 1).
Proof.
  intros P HP. assert (continuous (fun t => Rpower (1 - t) b) 0) as C by (apply (ex_derive_continuous (fun t => Rpower (1 - t) b)); unfold Rpower; auto_derive; lra).
  apply (filter_le_within (F := locally 0) (fun t => 0 < t)). apply (C P). replace (Rpower (1 - 0) b) with 1; [exact HP|]. rewrite Rminus_0_r. unfold Rpower. now rewrite ln_1, Rmult_0_r, exp_0.
Qed.
Lemma bf_lim0 a b : 0 < a -> filterlim (fun t => Rpower t a * Rpower (1 - t) b) (at_right 0) (locally 0).
Proof.
  intros Ha. replace (locally 0) with (locally (mult 0 1)) by (f_equal; apply Rmult_0_l).
  apply (filterlim_comp_2 (G := locally 0) (H := locally 1) (fun t => Rpower t a) (fun t => Rpower (1 - t) b) mult); [now apply Rpower_lim0|apply Rpower1_lim0|apply (filterlim_mult (K := R_AbsRing) 0 1)].
Qed.
Lemma bf_lim1 a b : 0 < b -> filterlim (fun t => Rpower t a * Rpower (1 - t) b) (at_left 1) (locally 0).
Proof.
  intros Hb. eapply filterlim_ext; [|exact (lim_at_left_flip (fun t => Rpower t b * Rpower (1 - t) a) 0 (bf_lim0 b a Hb))].
  intros t. cbv beta. replace (1 - (1 - t)) with t by ring. apply Rmult_comm.
Qed.
Lemma bf_der a b t : 0 < t < 1 -> is_derive (fun t => Rpower t a * Rpower (1 - t) b) t (a * beta_f a b t - (a + b) * beta_f (a + 1) b t).
Proof.
  intros Ht. unfold beta_f. replace (a + 1 - 1) with (a - 1 + 1) by ring. rewrite Rpower_plus, (Rpower_1 t) by lra. evar_last.
  - apply (is_derive_mult (fun t => Rpower t a) (fun t => Rpower (1 - t) b) t (a * Rpower t (a - 1)) (- (b * Rpower (1 - t) (b - 1)))); [apply Rpower_der; lra| |intros; apply Rmult_comm].
    evar_last; [apply (is_derive_comp (fun x => Rpower x b) (fun t => 1 - t) t (b * Rpower (1 - t) (b - 1)) (- 1)); [apply Rpower_der; lra|auto_derive; auto; ring]|].
    unfold scal; simpl; unfold mult; simpl. ring.
  - unfold plus, mult; simpl. replace (Rpower t a) with (Rpower t (a - 1) * t) by (rewrite <- (Rpower_1 t) at 2 by lra; rewrite <- Rpower_plus; f_equal; ring).
    replace (Rpower (1 - t) b) with (Rpower (1 - t) (b - 1) * (1 - t)) by (rewrite <- (Rpower_1 (1 - t)) at 2 by lra; rewrite <- Rpower_plus; f_equal; ring). ring.
Qed.
Lemma Ibeta_der a b t : 0 < a -> 0 < b -> 0 < t < 1 -> is_derive (Rbetainc a b) t (beta_f a b t / Rbeta a b).
Proof.
  intros Ha Hb Ht. destruct (bet_dist0 a b Ha Hb) as (_ & _ & _ & _ & D & _). destruct (D t) as [K _]; [simpl; lra..|].
  unfold beta_pdf in K. destruct (Rle_dec t 0); [lra|]. destruct (Rle_dec 1 t); [lra|]. exact K.
Qed.
Lemma Ibeta_lims a b : 0 < a -> 0 < b -> filterlim (Rbetainc a b) (at_right 0) (locally 0) /\ filterlim (Rbetainc a b) (at_left 1) (locally 1).
Proof. intros Ha Hb. apply (bet_dist0 a b Ha Hb). Qed.
Lemma lim_lin2 (F : (R -> Prop) -> Prop) {FF : Filter F} (f g : R -> R) p q v w : filterlim f F (locally v) -> filterlim g F (locally w) -> filterlim (fun t => p * f t + q * g t) F (locally (p * v + q * w)).
Proof.
  intros Hf Hg. apply (filterlim_comp_2 (G := locally (scal p v)) (H := locally (scal q w)) (fun t => scal p (f t)) (fun t => scal q (g t)) plus); [| |apply (filterlim_plus (scal p v) (scal q w))].
  - eapply filterlim_comp; [exact Hf|apply (filterlim_scal_r p v)].
  - eapply filterlim_comp; [exact Hg|apply (filterlim_scal_r q w)].
Qed.
Lemma inn01 t : inn 0 1 t -> 0 < t < 1. Proof. intros [A B]. simpl in *. lra. Qed.
Section rec.
Variables a b : R.
Hypothesis (Ha : 0 < a) (Hb : 0 < b).
Let G := fun t => a * Rbeta a b * Rbetainc a b t + - ((a + b) * Rbeta (a + 1) b) * Rbetainc (a + 1) b t.
Lemma rec_der t : inn 0 1 t -> is_derive G t (a * beta_f a b t - (a + b) * beta_f (a + 1) b t).
Proof.
  intros It. apply inn01 in It. pose proof (Rbeta_pos a b Ha Hb). pose proof (Rbeta_pos (a + 1) b ltac:(lra) Hb).
  evar_last; [apply (is_derive_plus (fun t => a * Rbeta a b * Rbetainc a b t) (fun t => - ((a + b) * Rbeta (a + 1) b) * Rbetainc (a + 1) b t) t (a * Rbeta a b * (beta_f a b t / Rbeta a b)) (- ((a + b) * Rbeta (a + 1) b) * (beta_f (a + 1) b t / Rbeta (a + 1) b)))|].
  - apply (is_derive_scal (Rbetainc a b)). apply Ibeta_der; lra.
  - apply (is_derive_scal (Rbetainc (a + 1) b)). apply Ibeta_der; lra.
  - unfold plus; simpl. field. lra.
Qed.
Lemma rec_lim0 : filterlim G (at_right 0) (locally 0).
Proof.
  replace (locally 0) with (locally (a * Rbeta a b * 0 + - ((a + b) * Rbeta (a + 1) b) * 0)) by (f_equal; ring).
  apply lim_lin2; [apply within_filter, locally_filter|apply (Ibeta_lims a b Ha Hb)|apply (Ibeta_lims (a + 1) b); lra].
Qed.
Lemma rec_lim1 : filterlim G (at_left 1) (locally (a * Rbeta a b * 1 + - ((a + b) * Rbeta (a + 1) b) * 1)).
Proof. apply lim_lin2; [apply within_filter, locally_filter|apply (Ibeta_lims a b Ha Hb)|apply (Ibeta_lims (a + 1) b); lra]. Qed.
Lemma beta_rec : (a + b) * Rbeta (a + 1) b = a * Rbeta a b.
Proof.
  enough (a * Rbeta a b * 1 + - ((a + b) * Rbeta (a + 1) b) * 1 = 0) by lra.
  apply (prim_end 0 1 G (fun t => a * beta_f a b t - (a + b) * beta_f (a + 1) b t) (fun t => Rpower t a * Rpower (1 - t) b) 0).
  - simpl; lra.
  - exact rec_der.
  - intros t It. apply bf_der. now apply inn01.
  - exact rec_lim0.
  - exact (bf_lim0 a b Ha).
  - exact rec_lim1.
  - exact (bf_lim1 a b Hb).
Qed.
Lemma betainc_rec t : 0 < t < 1 -> Rbetainc (a + 1) b t = Rbetainc a b t - Rpower t a * Rpower (1 - t) b / (a * Rbeta a b).
Proof.
  intros Ht. pose proof (Rbeta_pos a b Ha Hb) as HB.
  assert (G t = Rpower t a * Rpower (1 - t) b) as E.
  { apply (prim_eq 0 1 G (fun t => a * beta_f a b t - (a + b) * beta_f (a + 1) b t) (fun t => Rpower t a * Rpower (1 - t) b) 0 t).
    - simpl; lra.
    - exact rec_der.
    - intros x It. apply bf_der. now apply inn01.
    - exact rec_lim0.
    - exact (bf_lim0 a b Ha).
    - split; simpl; lra. }
  rewrite <- E. unfold G. rewrite beta_rec. field. lra.
Qed.
End rec.
Definition bM (a b t : R) := a / (a + b) * Rbetainc (a + 1) b t.
Definition bK (a b : R) := 2 * Rbeta (2 * a) (2 * b) / (a * (Rbeta a b * Rbeta a b)).
Definition bQ (a b t : R) := a / (a + b) * (Rbetainc a b t * Rbetainc a b t) + - (a / (a + b) * bK a b) * Rbetainc (2 * a) (2 * b) t.
Lemma bM_der a b t : 0 < a -> 0 < b -> 0 < t < 1 -> is_derive (bM a b) t (t * beta_pdf a b t).
Proof.
  intros Ha Hb Ht. pose proof (Rbeta_pos a b Ha Hb) as HB. pose proof (Rbeta_pos (a + 1) b ltac:(lra) Hb) as HB1. pose proof (beta_rec a b Ha Hb) as E.
  evar_last; [apply (is_derive_scal (Rbetainc (a + 1) b) t (a / (a + b)) (beta_f (a + 1) b t / Rbeta (a + 1) b)); apply Ibeta_der; lra|].
  unfold beta_pdf. destruct (Rle_dec t 0); [lra|]. destruct (Rle_dec 1 t); [lra|]. change (Euler_beta a b) with (Rbeta a b).
  unfold beta_f. replace (a + 1 - 1) with (a - 1 + 1) by ring. rewrite Rpower_plus, (Rpower_1 t) by lra.
  assert (Rbeta (a + 1) b = a * Rbeta a b / (a + b)) as -> by (rewrite <- E; field; lra). field. repeat split; lra.
Qed.
Lemma bQ_der a b t : 0 < a -> 0 < b -> 0 < t < 1 -> is_derive (bQ a b) t (2 * beta_pdf a b t * bM a b t).
Proof.
  intros Ha Hb Ht. pose proof (Rbeta_pos a b Ha Hb) as HB. pose proof (Rbeta_pos (2 * a) (2 * b) ltac:(lra) ltac:(lra)) as HB2.
  pose proof (Ibeta_der a b t Ha Hb Ht) as D1. pose proof (Ibeta_der (2 * a) (2 * b) t ltac:(lra) ltac:(lra) Ht) as D2.
  evar_last.
  - apply (is_derive_plus (fun t => a / (a + b) * (Rbetainc a b t * Rbetainc a b t)) (fun t => - (a / (a + b) * bK a b) * Rbetainc (2 * a) (2 * b) t) t
      (a / (a + b) * (beta_f a b t / Rbeta a b * Rbetainc a b t + Rbetainc a b t * (beta_f a b t / Rbeta a b))) (- (a / (a + b) * bK a b) * (beta_f (2 * a) (2 * b) t / Rbeta (2 * a) (2 * b)))).
    + apply (is_derive_scal (fun t => Rbetainc a b t * Rbetainc a b t)). apply (is_derive_mult (Rbetainc a b) (Rbetainc a b) t _ _ D1 D1). intros; apply Rmult_comm.
    + apply (is_derive_scal (Rbetainc (2 * a) (2 * b))). exact D2.
  - unfold plus; simpl. unfold bM. rewrite (betainc_rec a b Ha Hb t Ht). unfold beta_pdf. destruct (Rle_dec t 0); [lra|]. destruct (Rle_dec 1 t); [lra|]. change (Euler_beta a b) with (Rbeta a b).
    unfold beta_f, bK. replace (2 * a - 1) with (a - 1 + a) by ring. replace (2 * b - 1) with (b - 1 + b) by ring. rewrite !Rpower_plus. field. repeat split; lra.
Qed.
Lemma beta_crps_gen a b y : 0 < a -> 0 < b ->
  is_crps (beta_cdf a b) y (y * (2 * beta_cdf a b y - 1) - 2 * xtd 0 1 (bM a b) 0 (a / (a + b)) y + (a / (a + b) - a / (a + b) * bK a b)).
Proof.
  intros Ha Hb. destruct (Ibeta_lims a b Ha Hb) as [L0 L1]. destruct (Ibeta_lims (a + 1) b ltac:(lra) Hb) as [M0 M1]. destruct (Ibeta_lims (2 * a) (2 * b) ltac:(lra) ltac:(lra)) as [N0 N1].
  apply (dist_crps (beta_cdf a b) (beta_pdf a b) (bM a b) (bQ a b) 0 1 (a / (a + b)) (a / (a + b) - a / (a + b) * bK a b) y (beta_dist0 a b Ha Hb)).
  - intros r Hr. injection Hr as <-. unfold beta_cdf. destruct (Rle_dec 0 0); lra.
  - intros r Hr. injection Hr as <-. unfold beta_cdf. destruct (Rle_dec 1 0); [lra|]. destruct (Rle_dec 1 1); lra.
  - intros t H1 H2. simpl in *. apply bM_der; auto.
  - intros t H1 H2. simpl in *. apply bQ_der; auto.
  - apply (lim_eq _ _ (a / (a + b) * 0 + 0 * 0)); [ring|]. apply (filterlim_ext (fun t => a / (a + b) * Rbetainc (a + 1) b t + 0 * Rbetainc (a + 1) b t)); [intros t; unfold bM; ring|]. apply (lim_lin2 (at_right 0) _ _ (a / (a + b)) 0 0 0 M0 M0).
  - apply (lim_eq _ _ (a / (a + b) * 1 + 0 * 1)); [ring|]. apply (filterlim_ext (fun t => a / (a + b) * Rbetainc (a + 1) b t + 0 * Rbetainc (a + 1) b t)); [intros t; unfold bM; ring|]. apply (lim_lin2 (at_left 1) _ _ (a / (a + b)) 0 1 1 M1 M1).
  - apply (lim_eq _ _ (a / (a + b) * (0 * 0) + - (a / (a + b) * bK a b) * 0)); [ring|]. apply (lim_lin2 (at_right 0)); [|exact N0].
    apply (filterlim_comp_2 (G := locally 0) (H := locally 0) (Rbetainc a b) (Rbetainc a b) mult L0 L0). apply (filterlim_mult (K := R_AbsRing) 0 0).
  - apply (lim_eq _ _ (a / (a + b) * (1 * 1) + - (a / (a + b) * bK a b) * 1)); [ring|]. apply (lim_lin2 (at_left 1)); [|exact N1].
    apply (filterlim_comp_2 (G := locally 1) (H := locally 1) (Rbetainc a b) (Rbetainc a b) mult L1 L1). apply (filterlim_mult (K := R_AbsRing) 1 1).
Qed.
Lemma beta_crps_ex a b y : 0 < a -> 0 < b -> exists v, is_crps (beta_cdf a b) y v.
Proof. intros Ha Hb. eexists. now apply beta_crps_gen. Qed.
Lemma beta_crps a b y : 0 < a -> 0 < b -> 0 <= y <= 1 ->
  is_crps (beta_cdf a b) y (y * (2 * Rbetainc a b y - 1) + a / (a + b) * (1 - 2 * Rbetainc (a + 1) b y - bK a b)).
Proof.
  intros Ha Hb Hy.
  assert (beta_cdf a b y = Rbetainc a b y) as E.
  { unfold beta_cdf. destruct (Rle_dec y 0); [unfold Rbetainc; destruct (Rle_dec y 0); lra|]. destruct (Rle_dec 1 y); [unfold Rbetainc; destruct (Rle_dec y 0); [lra|]; destruct (Rle_dec 1 y); lra|].
    apply (dist0_cdf _ _ 0 1 y (bet_dist0 a b Ha Hb)); simpl; lra. }
  eapply crps_eq; [reflexivity| |exact (beta_crps_gen a b y Ha Hb)].
  rewrite E. assert (xtd 0 1 (bM a b) 0 (a / (a + b)) y = bM a b y) as ->; [|unfold bM; ring].
    destruct (Req_EM_T y 0) as [->|]; [rewrite xtd_lo by (simpl; lra); unfold bM, Rbetainc; destruct (Rle_dec 0 0); lra|].
    destruct (Req_EM_T y 1) as [->|]; [rewrite xtd_hi by (simpl; lra); unfold bM, Rbetainc; destruct (Rle_dec 1 0); [lra|]; destruct (Rle_dec 1 1); lra|].
    apply xtd_in; simpl; lra.
Qed.
