(** Every call of the catalogue returns the CRPS integral. *)
From Verif Require Export S_catalog T_crpsint T_crpsnorm T_crpst T_crpsbeta T_crpslog T_crpsmix T_crpsgam T_crpsdisc L_score.
From Coquelicot Require Import Coquelicot.
Open Scope R_scope.

Theorem catalog T s F y : closed_crps T s F y -> exists f, returns T s (fins f) /\ forall i, inb s i -> is_crps (F i) (y i) (f i).
Proof.
  intros H. destruct H.
  - eapply C39_exponential_l; eassumption.
  - eapply C39_exponentialM_l; eassumption.
  - eapply C39_2pexponential_l; eassumption.
  - eapply C39_laplace_l; eassumption.
  - eapply C39_logistic_l; eassumption.
  - eapply C39_uniform_l; eassumption.
  - eapply C39_gpd_l; eassumption.
  - eapply C56_normal_l; eassumption.
  - eapply C56_gtcnormal_l; eassumption.
  - eapply C56_tnormal_l; eassumption.
  - eapply C56_cnormal_l; eassumption.
  - eapply C57_gtclogistic_l; eassumption.
  - eapply C57_tlogistic_l; eassumption.
  - eapply C57_clogistic_l; eassumption.
  - eapply C56_2pnormal_l; eassumption.
  - eapply C58_t_l; eassumption.
  - eapply C58_gtct_l; eassumption.
  - eapply C58_tt_l; eassumption.
  - eapply C58_ct_l; eassumption.
  - eapply C59_beta_l; eassumption.
  - eapply C60_loglaplace_l; eassumption.
  - eapply C60_loglogistic_l; eassumption.
  - eapply C60_lognormal_l; eassumption.
  - eapply C61_mixnorm_l; eassumption.
  - eapply C62_gamma_l; eassumption.
  - eapply C62_gamma_scale_l; eassumption.
  - eapply C62_csg0_l; eassumption.
  - eapply C62_csg0_scale_l; eassumption.
  - eapply C64_poisson_l; eassumption.
  - eapply C64_negbinom_l; eassumption.
  - eapply C64_negbinom_mean_l; eassumption.
  - eapply C64_hypergeometric_l; eassumption.
Qed.

(** consequences *)
Lemma same T T' s F F' y : closed_crps T s F y -> closed_crps T' s F' y -> (forall i, inb s i -> forall t, F i t = F' i t) ->
  exists f, returns T s (fins f) /\ returns T' s (fins f).
Proof.
  intros H H' E. destruct (catalog _ _ _ _ H) as (f & Rf & Cf). destruct (catalog _ _ _ _ H') as (g & Rg & Cg). exists f. split; auto.
  eapply returns_ext; [exact Rg|]. intros i Hi. unfold fins. f_equal. eapply is_crps_unique; [exact (Cg i Hi)|]. eapply is_crps_ext; [|exact (Cf i Hi)]. now apply E.
Qed.
Lemma lipschitz T T' s F y y' : closed_crps T s F y -> closed_crps T' s F y' -> (forall i, inb s i -> forall t, 0 <= F i t <= 1) ->
  exists f f', returns T s (fins f) /\ returns T' s (fins f') /\ forall i, inb s i -> Rabs (f i - f' i) <= Rabs (y i - y' i).
Proof.
  intros H H' E. destruct (catalog _ _ _ _ H) as (f & Rf & Cf). destruct (catalog _ _ _ _ H') as (g & Rg & Cg). exists f, g. split; auto. split; auto.
  intros i Hi. apply (crps_lipschitz (F i) (y i) (y' i)); auto.
Qed.
Lemma affine T T' s F F' y y' (a b : list nat -> R) : closed_crps T s F y -> closed_crps T' s F' y' ->
  (forall i, inb s i -> 0 < b i /\ y' i = a i + b i * y i /\ forall t, F' i (a i + b i * t) = F i t) ->
  exists f, returns T s (fins f) /\ returns T' s (fins (fun i => b i * f i)).
Proof.
  intros H H' E. destruct (catalog _ _ _ _ H) as (f & Rf & Cf). destruct (catalog _ _ _ _ H') as (g & Rg & Cg). exists f. split; auto.
  eapply returns_ext; [exact Rg|]. intros i Hi. unfold fins. f_equal. destruct (E i Hi) as (Hb & Hy & HF). eapply is_crps_unique; [exact (Cg i Hi)|]. rewrite Hy. eapply crps_affine; eauto.
Qed.
Lemma reflected T T' s F F' y y' (L : list nat -> list R) : closed_crps T s F y -> closed_crps T' s F' y' ->
  (forall i, inb s i -> y' i = - y i /\ forall t, ~ In t (L i) -> F' i (- t) = 1 - F i t) ->
  exists f, returns T s (fins f) /\ returns T' s (fins f).
Proof.
  intros H H' E. destruct (catalog _ _ _ _ H) as (f & Rf & Cf). destruct (catalog _ _ _ _ H') as (g & Rg & Cg). exists f. split; auto.
  eapply returns_ext; [exact Rg|]. intros i Hi. unfold fins. f_equal. destruct (E i Hi) as (Hy & HF). eapply is_crps_unique; [exact (Cg i Hi)|]. rewrite Hy. eapply crps_reflect; eauto.
Qed.
