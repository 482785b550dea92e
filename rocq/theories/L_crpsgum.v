(** The CRPS of the Gumbel distribution. *)
From Verif Require Export L_crpsgev L_euler.
From Coq Require Import Psatz.
From Coquelicot Require Import Coquelicot.
Open Scope R_scope.

Lemma FU_dist : dist0 FU (fun u => exp (- u) * FU u) m_infty p_infty.
Proof.
  pose proof (gev_dist 0) as D. unfold gev_lower, gev_upper in D. destruct (Rlt_dec 0 0); [lra|].
  eapply dist0_ext; [| |exact D]; intros t; unfold gev_cdf, gev_pdf, FU; destruct (Req_EM_T 0 0); auto; lra.
Qed.
Lemma E1_exp_der c (x : R) : 0 < c -> is_derive (fun x => E1 (c * exp (- x))) x (exp (- (c * exp (- x)))).
Proof.
  intros Hc. pose proof (exp_pos (- x)) as P. assert (0 < c * exp (- x)) as Q by (apply Rmult_lt_0_compat; auto). evar_last.
  - apply (is_derive_comp E1 (fun x => c * exp (- x)) x (- ei (c * exp (- x))) (c * (- (1) * exp (- x)))); [now apply E1_der|auto_derive; auto].
  - unfold scal; simpl; unfold mult; simpl. unfold ei. field. lra.
Qed.
Lemma FU2 x : exp (- (2 * exp (- x))) = FU x * FU x.
Proof. unfold FU. rewrite <- exp_plus. f_equal. ring. Qed.
Lemma FU1 x : exp (- (1 * exp (- x))) = FU x. Proof. unfold FU. now rewrite Rmult_1_l. Qed.
Definition uM x := x * FU x - E1 (1 * exp (- x)).
Definition uQ x := x * (FU x * FU x) - 2 * (FU x * E1 (1 * exp (- x))) + E1 (2 * exp (- x)).
Lemma uM_der (x : R) : is_derive uM x (x * (exp (- x) * FU x)).
Proof.
  evar_last.
  - apply (is_derive_minus (fun x => x * FU x) (fun x => E1 (1 * exp (- x))) x (1 * FU x + x * (exp (- x) * FU x)) (FU x)).
    + apply (is_derive_mult (fun x => x) FU x 1 (exp (- x) * FU x)); [apply is_derive_Reals, derivable_pt_lim_id|apply FU_der|intros; apply Rmult_comm].
    + rewrite <- FU1. apply E1_exp_der. lra.
  - unfold minus, plus, opp; simpl. ring.
Qed.
Lemma uQ_der (x : R) : is_derive uQ x (2 * (exp (- x) * FU x) * uM x).
Proof.
  set (f := exp (- x) * FU x). evar_last.
  - apply (is_derive_plus (fun x => x * (FU x * FU x) - 2 * (FU x * E1 (1 * exp (- x)))) (fun x => E1 (2 * exp (- x))) x
      ((1 * (FU x * FU x) + x * (f * FU x + FU x * f)) - 2 * (f * E1 (1 * exp (- x)) + FU x * FU x)) (FU x * FU x)).
    + apply (is_derive_minus (fun x => x * (FU x * FU x)) (fun x => 2 * (FU x * E1 (1 * exp (- x)))) x (1 * (FU x * FU x) + x * (f * FU x + FU x * f)) (2 * (f * E1 (1 * exp (- x)) + FU x * FU x))).
      * apply (is_derive_mult (fun x => x) (fun x => FU x * FU x) x 1 (f * FU x + FU x * f)); [apply is_derive_Reals, derivable_pt_lim_id| |intros; apply Rmult_comm].
        apply (is_derive_mult FU FU x f f); [apply FU_der|apply FU_der|intros; apply Rmult_comm].
      * apply (is_derive_scal (fun x => FU x * E1 (1 * exp (- x))) x 2). apply (is_derive_mult FU (fun x => E1 (1 * exp (- x))) x f (FU x)); [apply FU_der| |intros; apply Rmult_comm].
        rewrite <- FU1. apply E1_exp_der. lra.
    + rewrite <- FU2. apply E1_exp_der. lra.
  - unfold plus; simpl. unfold uM. ring.
Qed.
Lemma E1_exp_lim_m c : 0 < c -> is_lim (fun x => E1 (c * exp (- x))) m_infty 0.
Proof.
  intros Hc. apply (is_lim_comp E1 (fun x => c * exp (- x)) m_infty 0 p_infty); [apply E1_lim| |exists 0; discriminate].
  assert (is_lim (fun x => exp (- x)) m_infty p_infty) as L.
  { apply (is_lim_comp exp (fun x => - x) m_infty p_infty p_infty); [apply is_lim_exp_p| |exists 0; discriminate]. apply (is_lim_opp (fun x => x) m_infty m_infty). apply is_lim_id. }
  pose proof (is_lim_scal_l (fun x => exp (- x)) c m_infty p_infty L) as K. replace (Rbar_mult c p_infty) with p_infty in K; [exact K|].
  symmetry. apply is_Rbar_mult_unique. apply is_Rbar_mult_sym. apply is_Rbar_mult_p_infty_pos. exact Hc.
Qed.
Lemma xFU_lim_m : is_lim (fun x => x * FU x) m_infty 0.
Proof.
  apply (is_lim_le_le_loc (fun x => x * exp x) (fun _ => 0) _ m_infty 0); [|apply is_lim_mul_exp_m|apply is_lim_const].
  exists 0. intros x Hx. assert (0 < FU x) as P by apply exp_pos. assert (FU x <= exp x) as Q.
  { left. apply exp_increasing. pose proof (exp_ineq1 (- x) ltac:(lra)). lra. }
  split; nra.
Qed.
(** near +oo *)
Lemma xexp_lim : is_lim (fun x => x * exp (- x)) p_infty 0.
Proof. apply (is_lim_ext (fun x => - (- x * exp (- x)))); [intros; ring|]. rewrite <- Ropp_0. apply (is_lim_opp (fun x => - x * exp (- x)) p_infty 0). apply (lim_opp_mp (fun x => x * exp x) 0). apply is_lim_mul_exp_m. Qed.
Lemma one_FU x : 0 <= 1 - FU x <= exp (- x).
Proof. apply (one_exp (exp (- x))). left. apply exp_pos. Qed.
Lemma x1FU_lim : is_lim (fun x => x * (1 - FU x)) p_infty 0.
Proof.
  apply (is_lim_le_le_loc (fun _ => 0) (fun x => x * exp (- x)) _ p_infty 0); [|apply is_lim_const|apply xexp_lim].
  exists 0. intros x Hx. pose proof (one_FU x). split; nra.
Qed.
Section C.
Variable C : R.
Hypothesis HC : filterlim eB (at_right 0) (locally C).
Lemma eB_lim_p c : 0 < c -> is_lim (fun x => eB (c * exp (- x))) p_infty C.
Proof.
  intros Hc. assert (is_lim (fun x => c * exp (- x)) p_infty 0) as L by (replace (Finite 0) with (Finite (c * 0)) by (f_equal; ring); apply lim_scal, lim_exp_neg).
  intros P HP. destruct (HC P HP) as [e He]. destruct (L (ball 0 e)) as [M HM]; [exists e; auto|]. exists M. intros x Hx. apply He; [now apply HM|]. apply Rmult_lt_0_compat; [auto|apply exp_pos].
Qed.
Lemma E1_eB c x : 0 < c -> E1 (c * exp (- x)) = x - ln c - eB (c * exp (- x)).
Proof. intros Hc. unfold eB. rewrite ln_mult, ln_exp by (auto; apply exp_pos). ring. Qed.
Lemma uM_lim : is_lim uM p_infty C.
Proof.
  apply (is_lim_ext (fun x => eB (1 * exp (- x)) - x * (1 - FU x))); [intros x; unfold uM; rewrite E1_eB, ln_1 by lra; ring|].
  replace (Finite C) with (Finite (C - 0)) by (f_equal; ring). apply is_lim_minus'; [apply eB_lim_p; lra|apply x1FU_lim].
Qed.
Lemma uQ_lim : is_lim uQ p_infty (C - ln 2).
Proof.
  destruct FU_lims as [_ F1].
  apply (is_lim_ext (fun x => (x * (1 - FU x)) * (1 - FU x) + 2 * (FU x * eB (1 * exp (- x))) - eB (2 * exp (- x)) - ln 2)); [intros x; unfold uQ; rewrite !E1_eB, ln_1 by lra; ring|].
  replace (C - ln 2) with (0 * (1 - 1) + 2 * (1 * C) - C - ln 2) by ring.
  apply is_lim_minus'; [|apply is_lim_const]. apply is_lim_minus'; [|apply eB_lim_p; lra]. apply is_lim_plus'; [|apply lim_scal; apply lim_mult'; [exact F1|apply eB_lim_p; lra]].
  apply lim_mult'; [apply x1FU_lim|]. apply is_lim_minus'; [apply is_lim_const|exact F1].
Qed.
Lemma gumbel_crps y : is_crps (gev_cdf 0) y (- y + 2 * E1 (exp (- y)) + C - ln 2).
Proof.
  destruct FU_lims as [F0 _].
  eapply crps_eq; [| |apply (line_crps FU (fun u => exp (- u) * FU u) uM uQ C (C - ln 2) FU_dist uM_der uQ_der)].
  - intros t. unfold gev_cdf, FU. destruct (Req_EM_T 0 0); [auto|lra].
  - unfold uM. rewrite Rmult_1_l. ring.
  - unfold uM. replace (Finite 0) with (Finite (0 - 0)) by (f_equal; ring). apply is_lim_minus'; [apply xFU_lim_m|apply E1_exp_lim_m; lra].
  - apply uM_lim.
  - apply (is_lim_ext (fun x => FU x * (x * FU x) - 2 * (FU x * E1 (1 * exp (- x))) + E1 (2 * exp (- x)))); [intros; unfold uQ; ring|].
    replace (Finite 0) with (Finite (0 * 0 - 2 * (0 * 0) + 0)) by (f_equal; ring). apply is_lim_plus'; [|apply E1_exp_lim_m; lra].
    apply is_lim_minus'; [apply lim_mult'; [exact F0|apply xFU_lim_m]|]. apply lim_scal. apply lim_mult'; [exact F0|apply E1_exp_lim_m; lra].
  - apply uQ_lim.
Qed.
End C.
