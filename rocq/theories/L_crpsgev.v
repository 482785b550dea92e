(** The CRPS of the generalised extreme value distribution with shape k <> 0, k < 1, from the Gumbel variable u = ln (1 + k x) / k. *)
From Verif Require Export L_betagamma.
From Coq Require Import Psatz.
From Coquelicot Require Import Coquelicot.
Open Scope R_scope.

Definition FU (u : R) : R := exp (- exp (- u)).
Lemma FU_der (u : R) : is_derive FU u (exp (- u) * FU u).
Proof. unfold FU. auto_derive; auto. ring. Qed.
Lemma lim_opp_pm (f : R -> R) v : is_lim f p_infty (Finite v) -> is_lim (fun x => f (- x)) m_infty (Finite v).
Proof. intros H. apply (is_lim_comp f (fun x => - x) m_infty v p_infty); auto; [|exists 0; discriminate]. apply (is_lim_opp (fun x => x) m_infty m_infty). apply is_lim_id. Qed.
Lemma lim_opp_mp (f : R -> R) v : is_lim f m_infty (Finite v) -> is_lim (fun x => f (- x)) p_infty (Finite v).
Proof. intros H. apply (is_lim_comp f (fun x => - x) p_infty v m_infty); auto; [|exists 0; discriminate]. apply (is_lim_opp (fun x => x) p_infty p_infty). apply is_lim_id. Qed.
Section gev.
Variable k : R.
Hypothesis Hk : k < 1.
Hypothesis Nk : k <> 0.
Let G := Rgamma (1 - k).
Let L := LG (1 - k).
Definition gev_m := (Rgamma (1 - k) - 1) / k.
Definition gev_q := ((2 - Rpower 2 k) * Rgamma (1 - k) - 1) / k.
Definition MU u := (G - L (- u) - FU u) / k.
Definition QU u := (2 * FU u * (G - L (- u)) - Rpower 2 k * (G - L (- u + ln 2)) - FU u * FU u) / k.
Lemma L_full : full (lg (1 - k)) L G. Proof. apply full_lg. lra. Qed.
Lemma L_opp c (u : R) : is_derive (fun u => L (- u + c)) u (- lg (1 - k) (- u + c)).
Proof.
  destruct L_full as (D & _). evar_last.
  - apply (is_derive_comp L (fun u => - u + c) u (lg (1 - k) (- u + c)) (- (1))); [apply D|]. auto_derive; auto.
  - unfold scal; simpl; unfold mult; simpl. ring.
Qed.
Lemma L_opp0 (u : R) : is_derive (fun u => L (- u)) u (- lg (1 - k) (- u)).
Proof. apply (is_derive_ext (fun u => L (- u + 0))); [intros t; now rewrite Rplus_0_r|]. pose proof (L_opp 0 u) as K. now rewrite Rplus_0_r in K. Qed.
Lemma lg_u u : lg (1 - k) (- u) = exp (k * u) * (exp (- u) * FU u).
Proof. unfold lg, FU. rewrite <- !exp_plus. f_equal. ring. Qed.
Lemma lg_u2 u : Rpower 2 k * lg (1 - k) (- u + ln 2) = 2 * (exp (k * u) * exp (- u) * (FU u * FU u)).
Proof.
  unfold lg, FU, Rpower. replace (exp (- u + ln 2)) with (2 * exp (- u)) by (rewrite exp_plus, exp_ln by lra; ring).
  transitivity (exp (ln 2) * (exp (k * u) * exp (- u) * (exp (- exp (- u)) * exp (- exp (- u))))); [|now rewrite exp_ln by lra].
  rewrite <- !exp_plus. f_equal. ring.
Qed.
Lemma MU_der (u : R) : is_derive MU u ((exp (k * u) - 1) / k * (exp (- u) * FU u)).
Proof.
  unfold MU. apply (is_derive_ext (fun u => / k * (G - L (- u) - FU u))); [intros; apply Rmult_comm|]. evar_last.
  - apply (is_derive_scal (fun u => G - L (- u) - FU u) u (/ k) (0 - - lg (1 - k) (- u) - exp (- u) * FU u)).
    apply (is_derive_minus (fun u => G - L (- u)) FU u (0 - - lg (1 - k) (- u)) (exp (- u) * FU u)); [|apply FU_der].
    apply (is_derive_minus (fun _ => G) (fun u => L (- u)) u 0 (- lg (1 - k) (- u))); [exact (is_derive_const (K := R_AbsRing) (V := R_NormedModule) G u)|apply L_opp0].
  - rewrite lg_u. field. auto.
Qed.
Lemma QU_der (u : R) : is_derive QU u (2 * (exp (- u) * FU u) * MU u).
Proof.
  unfold QU. apply (is_derive_ext (fun u => / k * (2 * (FU u * (G - L (- u))) - Rpower 2 k * (G - L (- u + ln 2)) - FU u * FU u))); [intros t; rewrite (Rmult_comm (/ k)), (Rmult_assoc 2 (FU t)); reflexivity|]. evar_last.
  - apply (is_derive_scal (fun u => 2 * (FU u * (G - L (- u))) - Rpower 2 k * (G - L (- u + ln 2)) - FU u * FU u) u (/ k)
      (2 * (exp (- u) * FU u * (G - L (- u)) + FU u * (0 - - lg (1 - k) (- u))) - Rpower 2 k * (0 - - lg (1 - k) (- u + ln 2)) - (exp (- u) * FU u * FU u + FU u * (exp (- u) * FU u)))).
    apply (is_derive_minus (fun u => 2 * (FU u * (G - L (- u))) - Rpower 2 k * (G - L (- u + ln 2))) (fun u => FU u * FU u) u
      (2 * (exp (- u) * FU u * (G - L (- u)) + FU u * (0 - - lg (1 - k) (- u))) - Rpower 2 k * (0 - - lg (1 - k) (- u + ln 2))) (exp (- u) * FU u * FU u + FU u * (exp (- u) * FU u))).
    + apply (is_derive_minus (fun u => 2 * (FU u * (G - L (- u)))) (fun u => Rpower 2 k * (G - L (- u + ln 2))) u
        (2 * (exp (- u) * FU u * (G - L (- u)) + FU u * (0 - - lg (1 - k) (- u)))) (Rpower 2 k * (0 - - lg (1 - k) (- u + ln 2)))).
      * apply (is_derive_scal (fun u => FU u * (G - L (- u))) u 2). apply (is_derive_mult FU (fun u => G - L (- u)) u (exp (- u) * FU u) (0 - - lg (1 - k) (- u))); [apply FU_der| |intros; apply Rmult_comm].
        apply (is_derive_minus (fun _ => G) (fun u => L (- u)) u 0 (- lg (1 - k) (- u))); [exact (is_derive_const (K := R_AbsRing) (V := R_NormedModule) G u)|apply L_opp0].
      * apply (is_derive_scal (fun u => G - L (- u + ln 2)) u). apply (is_derive_minus (fun _ => G) (fun u => L (- u + ln 2)) u 0 (- lg (1 - k) (- u + ln 2))); [exact (is_derive_const (K := R_AbsRing) (V := R_NormedModule) G u)|apply L_opp].
    + apply (is_derive_mult FU FU u (exp (- u) * FU u) (exp (- u) * FU u)); [apply FU_der|apply FU_der|intros; apply Rmult_comm].
  - rewrite Rminus_0_l, Ropp_involutive, lg_u. replace (Rpower 2 k * (0 - - lg (1 - k) (- u + ln 2))) with (Rpower 2 k * lg (1 - k) (- u + ln 2)) by ring. rewrite lg_u2. unfold MU. field. auto.
Qed.
Lemma L_lims c : is_lim (fun u => L (- u + c)) m_infty G /\ is_lim (fun u => L (- u + c)) p_infty 0.
Proof.
  destruct (full_shift _ _ _ c L_full) as (_ & L0 & L1). split.
  - apply (lim_opp_pm (fun u => L (u + c)) G L1).
  - apply (lim_opp_mp (fun u => L (u + c)) 0 L0).
Qed.
Lemma FU_lims : is_lim FU m_infty 0 /\ is_lim FU p_infty 1.
Proof. split; [apply gumbel_lim_m|apply gumbel_lim_p]. Qed.
Lemma U_lims : is_lim MU m_infty 0 /\ is_lim MU p_infty gev_m /\ is_lim QU m_infty 0 /\ is_lim QU p_infty gev_q.
Proof.
  destruct FU_lims as [F0 F1]. destruct (L_lims 0) as [A0 A1]. destruct (L_lims (ln 2)) as [B0 B1].
  assert (forall x a, is_lim (fun u => L (- u + 0)) x (Finite a) -> is_lim (fun u => L (- u)) x (Finite a)) as E by (intros x a; apply is_lim_ext; intros; now rewrite Rplus_0_r).
  apply E in A0. apply E in A1.
  assert (forall x a f, is_lim (fun u => L (- u)) x (Finite a) -> is_lim FU x (Finite f) -> is_lim MU x (Finite ((G - a - f) / k))) as KM.
  { intros x a f HA HF. apply (is_lim_ext (fun u => / k * (G - L (- u) - FU u))); [intros; apply Rmult_comm|]. replace ((G - a - f) / k) with (/ k * (G - a - f)) by (field; auto).
    apply lim_scal. apply is_lim_minus'; auto. apply is_lim_minus'; auto. apply is_lim_const. }
  assert (forall x a b f, is_lim (fun u => L (- u)) x (Finite a) -> is_lim (fun u => L (- u + ln 2)) x (Finite b) -> is_lim FU x (Finite f) -> is_lim QU x (Finite ((2 * (f * (G - a)) - Rpower 2 k * (G - b) - f * f) / k))) as KQ.
  { intros x a b f HA HB HF. apply (is_lim_ext (fun u => / k * (2 * (FU u * (G - L (- u))) - Rpower 2 k * (G - L (- u + ln 2)) - FU u * FU u))); [intros; unfold QU; field; auto|].
    replace ((2 * (f * (G - a)) - Rpower 2 k * (G - b) - f * f) / k) with (/ k * (2 * (f * (G - a)) - Rpower 2 k * (G - b) - f * f)) by (field; auto).
    apply lim_scal. apply is_lim_minus'; [apply is_lim_minus'; apply lim_scal; [apply lim_mult'; auto|]|now apply lim_mult']; apply is_lim_minus'; auto; apply is_lim_const. }
  split; [|split; [|split]].
  - replace (Finite 0) with (Finite ((G - G - 0) / k)) by (f_equal; field; auto). now apply KM.
  - replace gev_m with ((G - 0 - 1) / k) by (unfold gev_m, G; field; auto). now apply KM.
  - replace (Finite 0) with (Finite ((2 * (0 * (G - G)) - Rpower 2 k * (G - G) - 0 * 0) / k)) by (f_equal; field; auto). now apply KQ.
  - replace gev_q with ((2 * (1 * (G - 0)) - Rpower 2 k * (G - 0) - 1 * 1) / k) by (unfold gev_q, G; field; auto). now apply KQ.
Qed.
Definition gu x := ln (1 + k * x) / k.
Lemma gu_der (x : R) : 0 < 1 + k * x -> is_derive gu x (/ (1 + k * x)).
Proof. intros H. unfold gu. auto_derive; auto. field. split; lra. Qed.
Lemma gu_F x : 0 < 1 + k * x -> FU (gu x) = exp (- Rpower (1 + k * x) (- (1 / k))).
Proof. intros H. unfold FU, gu, Rpower. do 3 f_equal. field. auto. Qed.
Lemma gu_pdf x : 0 < 1 + k * x -> gev_pdf k x = exp (- gu x) * FU (gu x) / (1 + k * x).
Proof.
  intros H. unfold gev_pdf. destruct (Req_EM_T k 0); [contradiction|]. destruct (Rlt_dec 0 (1 + k * x)); [|lra]. rewrite gu_F by auto.
  assert (Rpower (1 + k * x) (- (1 / k) - 1) = exp (- gu x) * / (1 + k * x)) as ->; [|field; lra].
  rewrite <- (exp_ln (1 + k * x)) at 2 by auto. rewrite <- exp_Ropp, <- exp_plus. unfold Rpower, gu. f_equal. field. auto.
Qed.
Lemma gu_x x : 0 < 1 + k * x -> (exp (k * gu x) - 1) / k = x.
Proof. intros H. unfold gu. replace (k * (ln (1 + k * x) / k)) with (ln (1 + k * x)) by (field; auto). rewrite exp_ln by auto. field. auto. Qed.
Lemma gev_crps y : is_crps (gev_cdf k) y (y * (2 * gev_cdf k y - 1) - 2 * xtd (gev_lower k) (gev_upper k) (fun x => MU (gu x)) 0 gev_m y + gev_q).
Proof.
  destruct U_lims as (M0 & M1 & Q0 & Q1). destruct (gev_tend k Nk) as [T0 T1].
  assert (forall (H : R -> R) (x d : R), 0 < 1 + k * x -> is_derive H (gu x) d -> is_derive (fun x => H (gu x)) x (d / (1 + k * x))) as C.
  { intros H x d P D. evar_last; [apply (is_derive_comp H gu x d (/ (1 + k * x))); [exact D|now apply gu_der]|]. unfold scal; simpl; unfold mult; simpl. field. lra. }
  apply (dist_crps (gev_cdf k) (gev_pdf k) (fun x => MU (gu x)) (fun x => QU (gu x)) (gev_lower k) (gev_upper k) gev_m gev_q y (gev_dist k)).
  - intros r. unfold gev_lower. destruct (Rlt_dec 0 k) as [P|P]; [|discriminate]. intros H. injection H as <-. unfold gev_cdf. destruct (Req_EM_T k 0); [contradiction|].
    destruct (Rlt_dec 0 (1 + k * - (1 / k))) as [K|K]; [|destruct (Rlt_dec 0 k); lra]. replace (1 + k * - (1 / k)) with 0 in K by (field; auto). lra.
  - intros r. unfold gev_upper. destruct (Rlt_dec k 0) as [P|P]; [|discriminate]. intros H. injection H as <-. unfold gev_cdf. destruct (Req_EM_T k 0); [contradiction|].
    destruct (Rlt_dec 0 (1 + k * - (1 / k))) as [K|K]; [|destruct (Rlt_dec 0 k); lra]. replace (1 + k * - (1 / k)) with 0 in K by (field; auto). lra.
  - intros t A B. assert (0 < 1 + k * t) as P by (apply gev_dom; auto). evar_last; [apply C; [exact P|apply MU_der]|]. rewrite gu_pdf, gu_x by auto. field. lra.
  - intros t A B. assert (0 < 1 + k * t) as P by (apply gev_dom; auto). evar_last; [apply C; [exact P|apply QU_der]|]. rewrite gu_pdf by auto. field. lra.
  - eapply filterlim_comp; [exact T0|exact M0].
  - eapply filterlim_comp; [exact T1|exact M1].
  - eapply filterlim_comp; [exact T0|exact Q0].
  - eapply filterlim_comp; [exact T1|exact Q1].
Qed.
End gev.
