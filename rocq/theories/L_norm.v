(** The normal distribution function and the CRPS integrals built from it. *)
From Verif Require Export L_cdf M_special.
From Coq Require Import Psatz.
From Coquelicot Require Import Coquelicot.
Open Scope R_scope.

Lemma sqrt2_pos : 0 < sqrt 2. Proof. apply sqrt_lt_R0; lra. Qed.
Lemma sqrt2_sq : sqrt 2 * sqrt 2 = 2. Proof. apply sqrt_sqrt; lra. Qed.
Lemma sqrtPI_pos : 0 < sqrt PI. Proof. apply sqrt_lt_R0, PI_RGT_0. Qed.
Lemma sqrtPI_sq : sqrt PI * sqrt PI = PI. Proof. apply sqrt_sqrt. pose proof PI_RGT_0; lra. Qed.
Lemma sqrt2PI : sqrt (2 * PI) = sqrt 2 * sqrt PI. Proof. apply sqrt_mult; [lra|pose proof PI_RGT_0; lra]. Qed.
Lemma Rerf_GI x : Rerf x = 2 / sqrt PI * GI x. Proof. reflexivity. Qed.
Definition NF (t : R) : R := (1 + Rerf (t / sqrt 2)) / 2.
Lemma GI_odd x : GI (- x) = - GI x.
Proof.
  assert (forall t, is_derive (fun x => GI (- x) + GI x) t 0) as D.
  { intros t. evar_last.
    - apply @is_derive_plus; [|apply GI_der]. apply (is_derive_comp GI Ropp); [apply GI_der|]. auto_derive; auto.
    - unfold plus, scal; simpl; unfold mult; simpl. unfold g2. replace (- t * - t) with (t * t) by ring. ring. }
  destruct (MVT_gen (fun x => GI (- x) + GI x) 0 x (fun _ => 0)) as (c & _ & E).
  - intros; apply D.
  - intros t _. apply continuity_pt_filterlim. apply (ex_derive_continuous (fun x => GI (- x) + GI x)). eexists; apply D.
  - assert (GI 0 = 0) as Z by (unfold GI; rewrite RInt_point; reflexivity). rewrite Ropp_0, Z in E. lra.
Qed.
Lemma phi_alt t : phi t = exp (- (t * t / 2)) / (sqrt 2 * sqrt PI).
Proof. unfold phi. rewrite sqrt2PI. replace (t ^ 2) with (t * t) by ring. reflexivity. Qed.
Lemma NF_der t : is_derive NF t (phi t).
Proof.
  pose proof sqrt2_pos; pose proof sqrtPI_pos; pose proof sqrt2_sq. unfold NF.
  apply (is_derive_ext (fun t => / 2 + / sqrt PI * GI (t / sqrt 2))).
  { intros x. rewrite Rerf_GI. simpl. field. lra. }
  evar_last.
  - apply @is_derive_plus; [apply (is_derive_const (K := R_AbsRing) (V := R_NormedModule))|].
    apply (is_derive_scal (fun t => GI (t / sqrt 2)) t (/ sqrt PI)). apply (is_derive_comp GI (fun t => t / sqrt 2)); [apply GI_der|].
    auto_derive; auto.
  - unfold plus, scal, zero; simpl; unfold mult; simpl. rewrite phi_alt. unfold g2.
    replace (- (t / sqrt 2 * (t / sqrt 2))) with (- (t * t / 2)); [field; lra|]. rewrite <- sqrt2_sq at 1. field. lra.
Qed.
Lemma phi_pos t : 0 < phi t.
Proof. rewrite phi_alt. pose proof sqrt2_pos; pose proof sqrtPI_pos. apply Rdiv_lt_0_compat; [apply exp_pos|nra]. Qed.
Lemma phi_der t : is_derive phi t (- t * phi t).
Proof.
  apply (is_derive_ext (fun t => exp (- (t * t / 2)) / (sqrt 2 * sqrt PI))); [intros; now rewrite phi_alt|]. rewrite phi_alt.
  pose proof sqrt2_pos; pose proof sqrtPI_pos. auto_derive; auto. unfold Rdiv. field. lra.
Qed.
Lemma phi_cont t : continuous phi t.
Proof. apply (ex_derive_continuous phi). eexists. apply phi_der. Qed.
Lemma NF_cont t : continuous NF t.
Proof. apply (ex_derive_continuous NF). eexists. apply NF_der. Qed.
Lemma NF_opp t : NF (- t) = 1 - NF t.
Proof.
  unfold NF. rewrite !Rerf_GI. replace (- t / sqrt 2) with (- (t / sqrt 2)) by (unfold Rdiv; ring). rewrite GI_odd. field. pose proof sqrtPI_pos; lra.
Qed.
Lemma NF_lim_p : is_lim NF p_infty 1.
Proof.
  pose proof sqrt2_pos; pose proof sqrtPI_pos. apply (is_lim_ext (fun t => / 2 + / sqrt PI * GI (/ sqrt 2 * t + 0))).
  { intros x. unfold NF. rewrite Rerf_GI. replace (/ sqrt 2 * x + 0) with (x / sqrt 2) by (unfold Rdiv; ring). field. lra. }
  replace 1 with (/ 2 + / sqrt PI * (sqrt PI / 2)) by (field; lra).
  apply (is_lim_plus' (fun _ => / 2)); [apply is_lim_const|]. apply lim_scal.
  apply (is_lim_comp GI (fun t => / sqrt 2 * t + 0) p_infty (sqrt PI / 2) p_infty); [apply GI_lim|apply lim_lin_p, Rinv_0_lt_compat; auto|].
  exists 0. discriminate.
Qed.
Lemma NF_lim_m : is_lim NF m_infty 0.
Proof.
  apply lim_opp_m. apply (is_lim_ext (fun t => 1 - NF t)); [intros; now rewrite NF_opp|].
  replace 0 with (1 - 1) by ring. apply (is_lim_minus' (fun _ => 1)); [apply is_lim_const|apply NF_lim_p].
Qed.
Lemma phi_ltail t : ltail phi t (NF t).
Proof.
  rewrite <- (Rminus_0_r (NF t)). apply (ltail_der phi phi NF); auto.
  - intros; apply NF_der.
  - intros; apply phi_cont.
  - apply NF_lim_m.
Qed.
Lemma phi_int : is_RInt_gen phi (Rbar_locally m_infty) (Rbar_locally p_infty) 1.
Proof.
  replace 1 with (NF 0 + (1 - NF 0)) by ring. apply (tails_join phi 0); [apply phi_ltail|].
  apply (rtail_der phi phi NF); auto.
  - intros; apply NF_der.
  - intros; apply phi_cont.
  - apply NF_lim_p.
Qed.
Lemma Phi_NF t : Phi t = NF t.
Proof. unfold Phi. apply is_RInt_gen_unique. apply phi_ltail. Qed.
Lemma phi_even t : phi (- t) = phi t.
Proof. rewrite !phi_alt. replace (- t * - t) with (t * t) by ring. reflexivity. Qed.
(** bounds in the lower tail *)
Lemma t_phi_lim : is_lim (fun t => t * phi t) m_infty 0.
Proof.
  apply lim_opp_m. pose proof sqrt2_pos; pose proof sqrtPI_pos. assert (0 < sqrt 2 * sqrt PI) as P by nra.
  apply (is_lim_le_le_loc (fun t => - (2 / (sqrt 2 * sqrt PI)) * / t) (fun _ => 0) _ p_infty 0).
  - exists 1. intros t Ht. rewrite phi_even, phi_alt. pose proof (exp_pos (- (t * t / 2))) as E0.
    assert (t * exp (- (t * t / 2)) <= 2 * / t) as L.
    { rewrite exp_Ropp. pose proof (exp_ineq1_le (t * t / 2)) as E. apply (Rmult_le_reg_r (exp (t * t / 2) * t)); [pose proof (exp_pos (t * t / 2)); nra|].
      replace (t * / exp (t * t / 2) * (exp (t * t / 2) * t)) with (t * t) by (field; pose proof (exp_pos (t * t / 2)); lra).
      replace (2 * / t * (exp (t * t / 2) * t)) with (2 * exp (t * t / 2)) by (field; lra). lra. }
    assert (0 < / (sqrt 2 * sqrt PI)) as Q by now apply Rinv_0_lt_compat.
    set (K := / (sqrt 2 * sqrt PI)) in *. unfold Rdiv. fold K. set (X := exp (- (t * t * / 2))).
    change (exp (- (t * t / 2))) with X in *. split.
    + replace (- (2 * K) * / t) with (- (K * (2 * / t))) by ring. replace (- t * (X * K)) with (- (K * (t * X))) by ring.
      apply Ropp_le_contravar, Rmult_le_compat_l; lra.
    + replace (- t * (X * K)) with (- (K * (t * X))) by ring. assert (0 <= K * (t * X)); [|lra].
      repeat apply Rmult_le_pos; lra.
  - replace (Finite 0) with (Finite (- (2 / (sqrt 2 * sqrt PI)) * 0)) by (f_equal; ring). apply lim_scal.
    apply (is_lim_inv (fun t => t) p_infty p_infty); [apply is_lim_id|discriminate].
  - apply is_lim_const.
Qed.
Lemma phi_lim : is_lim phi m_infty 0.
Proof.
  apply (is_lim_le_le_loc (fun _ => 0) (fun t => - (t * phi t)) phi m_infty 0).
  - exists (-1). intros t Ht. pose proof (phi_pos t). nra.
  - apply is_lim_const.
  - replace (Finite 0) with (Rbar_opp 0) by (simpl; f_equal; ring). apply is_lim_opp, t_phi_lim.
Qed.
Lemma NF_incr a b : a < b -> NF a < NF b.
Proof.
  intros H. destruct (MVT_gen NF a b phi) as (c & _ & E).
  - intros; apply NF_der.
  - intros t _. apply continuity_pt_filterlim, NF_cont.
  - pose proof (phi_pos c). nra.
Qed.
Lemma NF_pos t : 0 < NF t.
Proof.
  destruct (Rlt_dec 0 (NF t)) as [|N]; auto. exfalso. pose proof (NF_incr (t - 1) t ltac:(lra)) as H.
  pose proof NF_lim_m as L. apply is_lim_spec in L. assert (0 < - NF (t - 1)) as P by lra. destruct (L (mkposreal _ P)) as [M HM].
  simpl in HM. specialize (HM (Rmin (M - 1) (t - 2))). assert (NF (Rmin (M - 1) (t - 2)) < NF (t - 1)) as K.
  { apply NF_incr. pose proof (Rmin_r (M - 1) (t - 2)). lra. }
  pose proof (Rmin_l (M - 1) (t - 2)). specialize (HM ltac:(lra)). rewrite Rminus_0_r in HM. apply Rabs_def2 in HM. lra.
Qed.
Lemma NF_le_phi t : t <= -1 -> NF t <= phi t.
Proof.
  intros Ht. destruct (Rle_dec (NF t) (phi t)) as [|N]; auto. exfalso.
  assert (is_lim (fun t => phi t - NF t) m_infty 0) as L.
  { replace 0 with (0 - 0) by ring. apply (is_lim_minus' phi NF); [apply phi_lim|apply NF_lim_m]. }
  apply is_lim_spec in L. assert (0 < NF t - phi t) as P by lra. destruct (L (mkposreal _ P)) as [M HM]. simpl in HM.
  set (u := Rmin (M - 1) (t - 1)). assert (u < M /\ u < t) as [H1 H2] by (unfold u; pose proof (Rmin_l (M - 1) (t - 1)); pose proof (Rmin_r (M - 1) (t - 1)); lra).
  specialize (HM u H1). rewrite Rminus_0_r in HM. apply Rabs_def2 in HM.
  destruct (MVT_gen (fun t => phi t - NF t) u t (fun t => (- t - 1) * phi t)) as (c & Hc & E).
  - intros x _. evar_last; [apply @is_derive_minus; [apply phi_der|apply NF_der]|]. unfold minus, plus, opp; simpl. ring.
  - intros x _. apply continuity_pt_filterlim. apply (continuous_minus phi NF); [apply phi_cont|apply NF_cont].
  - rewrite Rmin_left, Rmax_right in Hc by lra. pose proof (phi_pos c).
    assert (0 <= (- c - 1) * phi c * (t - u)) by (apply Rmult_le_pos; nra). lra.
Qed.
Lemma t_NF_lim : is_lim (fun t => t * NF t) m_infty 0.
Proof.
  apply (is_lim_le_le_loc (fun t => t * phi t) (fun _ => 0) _ m_infty 0).
  - exists (-1). intros t Ht. pose proof (NF_pos t). pose proof (NF_le_phi t ltac:(lra)). nra.
  - apply t_phi_lim.
  - apply is_lim_const.
Qed.
(** primitives of F and of F^2 *)
Definition nA (t : R) : R := t * NF t + phi t.
Definition nB (t : R) : R := t * NF t ^ 2 + 2 * phi t * NF t - NF (t * sqrt 2) / sqrt PI.
Lemma nA_der t : is_derive nA t (NF t).
Proof.
  unfold nA. evar_last.
  - apply @is_derive_plus; [|apply phi_der]. apply (is_derive_mult (fun t => t) NF t); [apply (is_derive_id (K := R_AbsRing))|apply NF_der|]. intros; apply Rmult_comm.
  - unfold plus, mult, one; simpl. ring.
Qed.
Lemma phi_sqrt2 t : phi (t * sqrt 2) * sqrt 2 / sqrt PI = 2 * phi t ^ 2.
Proof.
  pose proof sqrt2_pos; pose proof sqrtPI_pos; pose proof sqrt2_sq. rewrite !phi_alt.
  replace (exp (- (t * sqrt 2 * (t * sqrt 2) / 2))) with (exp (- (t * t / 2)) * exp (- (t * t / 2))).
  - field_simplify_eq; [|lra]. replace (sqrt 2 ^ 2) with 2 by (simpl; lra). ring.
  - rewrite <- exp_plus. f_equal. replace (t * sqrt 2 * (t * sqrt 2)) with (t * t * (sqrt 2 * sqrt 2)) by ring. rewrite H1. field.
Qed.
Lemma nB_der t : is_derive nB t (NF t ^ 2).
Proof.
  assert (is_derive (fun t => NF t ^ 2) t (2 * NF t * phi t)) as D2.
  { evar_last; [apply (is_derive_comp (fun x => x ^ 2) NF); [auto_derive; auto|apply NF_der]|]. unfold scal; simpl; unfold mult; simpl. ring. }
  assert (is_derive (fun t => t * NF t ^ 2) t (NF t ^ 2 + t * (2 * NF t * phi t))) as D1.
  { evar_last; [apply (is_derive_mult (fun t => t) (fun t => NF t ^ 2) t); [apply (is_derive_id (K := R_AbsRing))|exact D2|intros; apply Rmult_comm]|].
    unfold plus, mult, one; simpl. ring. }
  assert (is_derive (fun t => phi t * NF t) t (- t * phi t * NF t + phi t * phi t)) as D3.
  { evar_last; [apply (is_derive_mult phi NF t); [apply phi_der|apply NF_der|intros; apply Rmult_comm]|]. reflexivity. }
  assert (is_derive (fun t => NF (t * sqrt 2)) t (phi (t * sqrt 2) * sqrt 2)) as D4.
  { evar_last; [apply (is_derive_comp NF (fun t => t * sqrt 2)); [apply NF_der|auto_derive; auto]|]. unfold scal; simpl; unfold mult; simpl. ring. }
  unfold nB. apply (is_derive_ext (fun t => t * NF t ^ 2 + 2 * (phi t * NF t) + - / sqrt PI * NF (t * sqrt 2))).
  { intros x. simpl. unfold Rdiv. ring. }
  evar_last.
  - apply @is_derive_plus; [apply @is_derive_plus; [exact D1|apply (is_derive_scal (fun t => phi t * NF t)); exact D3]|apply (is_derive_scal (fun t => NF (t * sqrt 2))); exact D4].
  - unfold plus; simpl. pose proof (phi_sqrt2 t) as E. simpl in E. unfold Rdiv in E.
    replace (- / sqrt PI * (phi (t * sqrt 2) * sqrt 2)) with (- (phi (t * sqrt 2) * sqrt 2 * / sqrt PI)) by ring. rewrite E. ring.
Qed.
Lemma nA_lim : is_lim nA m_infty 0.
Proof. unfold nA. replace 0 with (0 + 0) by ring. apply (is_lim_plus' (fun t => t * NF t) phi); [apply t_NF_lim|apply phi_lim]. Qed.
Lemma nB_lim : is_lim nB m_infty 0.
Proof.
  unfold nB. apply (is_lim_ext (fun t => (t * NF t) * NF t + 2 * (phi t * NF t) - / sqrt PI * NF (t * sqrt 2))).
  { intros; unfold Rdiv; ring. }
  replace 0 with (0 * 0 + 2 * (0 * 0) - / sqrt PI * 0) by ring. apply is_lim_minus'; [apply is_lim_plus'|].
  - apply (lim_mult' (fun t => t * NF t) NF); [apply t_NF_lim|apply NF_lim_m].
  - apply lim_scal, (lim_mult' phi NF); [apply phi_lim|apply NF_lim_m].
  - apply lim_scal. apply lim_opp_m. apply (is_lim_ext (fun t => 1 - NF (sqrt 2 * t + 0))).
    { intros x. replace (- x * sqrt 2) with (- (sqrt 2 * x + 0)) by ring. now rewrite NF_opp. }
    replace (Finite 0) with (Finite (1 - 1)) by (f_equal; ring). apply (is_lim_minus' (fun _ => 1)); [apply is_lim_const|].
    apply (is_lim_comp NF (fun t => sqrt 2 * t + 0) p_infty 1 p_infty); [apply NF_lim_p|apply lim_lin_p, sqrt2_pos|exists 0; discriminate].
Qed.
Lemma NF_ltail2 y : ltail (fun t => NF t ^ 2) y (nB y).
Proof.
  rewrite <- (Rminus_0_r (nB y)). apply (ltail_der _ (fun t => NF t ^ 2) nB); auto.
  - intros; apply nB_der.
  - intros; apply cont_sq, NF_cont.
  - apply nB_lim.
Qed.
Lemma NF_rtail2 y : rtail (fun t => (1 - NF t) ^ 2) y (nB (- y)).
Proof.
  replace (nB (- y)) with (0 - (- nB (- y))) by ring.
  apply (rtail_der _ (fun t => NF (- t) ^ 2) (fun t => - nB (- t))).
  - intros; now rewrite NF_opp.
  - intros t _. evar_last.
    + apply @is_derive_opp. apply (is_derive_comp nB Ropp); [apply nB_der|]. auto_derive; auto.
    + unfold opp, scal; simpl; unfold mult; simpl. ring.
  - intros t _. apply (continuous_comp Ropp (fun t => NF t ^ 2)); [cont Ropp|apply cont_sq, NF_cont].
  - replace (Finite 0) with (Rbar_opp 0) by (simpl; f_equal; ring). apply is_lim_opp. apply lim_opp_p.
    apply (is_lim_ext nB); [intros; now rewrite Ropp_involutive|]. apply nB_lim.
Qed.
Lemma nB_opp y : nB (- y) = - y * (1 - NF y) ^ 2 + 2 * phi y * (1 - NF y) - (1 - NF (y * sqrt 2)) / sqrt PI.
Proof. unfold nB. replace (- y * sqrt 2) with (- (y * sqrt 2)) by ring. rewrite !NF_opp, phi_even. reflexivity. Qed.
Lemma normal_std y : is_crps Phi y (y * (2 * NF y - 1) + 2 * phi y - 1 / sqrt PI).
Proof.
  eapply crps_eq; [intros t; symmetry; apply Phi_NF| |apply (crps_split NF y); [apply NF_ltail2|apply NF_rtail2]].
  rewrite nB_opp. unfold nB. field. pose proof sqrtPI_pos; lra.
Qed.
Lemma normal_crps m s y : 0 < s ->
  let w := (y - m) / s in is_crps (normal_cdf m s) y (s * (w * (2 * NF w - 1) + 2 * phi w - 1 / sqrt PI)).
Proof. intros Hs w. exact (crps_scale _ m s y _ Hs (normal_std w)). Qed.
