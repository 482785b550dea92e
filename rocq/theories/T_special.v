(** Proofs of the properties of families that are special cases of each other (statements in P_special.v). *)
From Verif Require Export L_catalog L_special.
From Coquelicot Require Import Coquelicot.
From Coq Require Import Psatz Lia.
Open Scope R_scope.
Lemma chain T T' s f g : returns T s (fins f) -> returns T s (fins g) -> returns T' s (fins g) -> returns T' s (fins f).
Proof.
  intros H1 H2 H. eapply returns_ext; [exact H|]. intros i Hi. destruct H1 as (d & a & Ea & Da & Sa & Va). destruct H2 as (d' & b & Eb & Db & Sb & Vb). assert (a = b) as -> by congruence. rewrite <- Va, <- Vb; auto.
Qed.
Lemma normal_incr m c a b : 0 < c -> a < b -> normal_cdf m c a < normal_cdf m c b.
Proof. intros Hc H. unfold normal_cdf. rewrite !Phi_NF. apply NF_incr. apply Rmult_lt_compat_r; [now apply Rinv_0_lt_compat|lra]. Qed.
Lemma normal_in m c t : 0 < normal_cdf m c t < 1.
Proof. unfold normal_cdf. rewrite !Phi_NF. split; [apply NF_pos|]. pose proof (NF_pos (- ((t - m) / c))) as P. rewrite NF_opp in P. lra. Qed.
Lemma t_incr n m c a b : 0 < n -> 0 < c -> a < b -> ls_cdf (t_cdf n) m c a < ls_cdf (t_cdf n) m c b.
Proof. intros Hn Hc H. unfold ls_cdf. apply t_cdf_incr; auto. apply Rmult_lt_compat_r; [now apply Rinv_0_lt_compat|lra]. Qed.
Lemma logis_incr m c a b : 0 < c -> a < b -> logistic_cdf m c a < logistic_cdf m c b.
Proof.
  intros Hc H. unfold logistic_cdf. pose proof (exp_pos (- ((b - m) / c))). apply Rinv_lt_contravar; [pose proof (exp_pos (- ((a - m) / c))); nra|].
  apply Rplus_lt_compat_l, exp_increasing, Ropp_lt_contravar, Rmult_lt_compat_r; [now apply Rinv_0_lt_compat|lra].
Qed.
Lemma logis_in m c t : 0 < logistic_cdf m c t < 1.
Proof.
  unfold logistic_cdf. pose proof (exp_pos (- ((t - m) / c))). split; [apply Rinv_0_lt_compat; lra|].
  pose proof (Rinv_lt_contravar 1 (1 + exp (- ((t - m) / c))) ltac:(lra) ltac:(lra)) as Q. rewrite Rinv_1 in Q. exact Q.
Qed.
Lemma C70_2pnormal_l :
forall (obs scale1 scale2 location scale : arr) (s : list nat) (y m c : list nat -> R),
  params s [(obs, fins y); (scale1, fins c); (scale2, fins c); (location, fins m)]%list ->
  params s [(obs, fins y); (location, fins m); (scale, fins c)]%list ->
  (forall i, inb s i -> 0 < c i) ->
  exists f, returns (crps_2pnormal obs scale1 scale2 location) s (fins f) /\ returns (crps_normal obs location scale) s (fins f).
Proof.
intros obs scale1 scale2 location scale s y m c P Q Hc. eapply same; [eapply cc_2pnormal; eauto|eapply cc_normal; eauto|]; intros; apply two_piece_normal; auto.
Qed.
Lemma C70_2pexponential_l :
forall (obs scale1 scale2 location scale : arr) (s : list nat) (y m c : list nat -> R),
  params s [(obs, fins y); (scale1, fins c); (scale2, fins c); (location, fins m)]%list ->
  params s [(obs, fins y); (location, fins m); (scale, fins c)]%list ->
  (forall i, inb s i -> 0 < c i) ->
  exists f, returns (crps_2pexponential obs scale1 scale2 location) s (fins f) /\ returns (crps_laplace obs location scale) s (fins f).
Proof.
intros obs scale1 scale2 location scale s y m c P Q Hc. eapply same; [eapply cc_2pexponential; eauto|eapply cc_laplace; eauto|]; intros; apply two_piece_exponential; auto.
Qed.
Lemma C70_exponentialM_l :
forall (obs mass location scale rate : arr) (s : list nat) (y c l : list nat -> R),
  params s [(obs, fins y); (mass, (fun _ => Fin 0)); (location, (fun _ => Fin 0)); (scale, fins c)]%list ->
  dt obs = DFloat ->
  sh obs = s ->
  params s [(obs, fins y); (rate, fins l)]%list ->
  (forall i, inb s i -> 0 < c i /\ l i * c i = 1) ->
  exists f, returns (crps_exponentialM obs mass location scale) s (fins f) /\ returns (crps_exponential obs rate) s (fins f).
Proof.
intros obs mass location scale rate s y c l P D S Q H. eapply same; [eapply (cc_exponentialM obs mass location scale s y (fun _ => 0) (fun _ => 0) c); eauto|eapply cc_exponential; eauto|]; [intros i Hi; apply H; auto|intros i Hi; specialize (H i Hi); nra|intros; apply exponential_of_M; apply H; auto].
Qed.
Lemma C70_gpd_exponential_l :
forall (obs shape location scale mass : arr) (s : list nat) (y m c p : list nat -> R),
  params s [(obs, fins y); (shape, (fun _ => Fin 0)); (location, fins m); (scale, fins c); (mass, fins p)]%list ->
  dt obs = DFloat ->
  sh obs = s ->
  params s [(obs, fins y); (mass, fins p); (location, fins m); (scale, fins c)]%list ->
  (forall i, inb s i -> 0 < c i /\ 0 <= p i <= 1) ->
  exists f, returns (crps_gpd obs shape location scale mass) s (fins f) /\ returns (crps_exponentialM obs mass location scale) s (fins f).
Proof.
intros obs shape location scale mass s y m c p P D S Q H. eapply same; [eapply (cc_gpd obs shape location scale mass s y (fun _ => 0) m c p); eauto|eapply cc_exponentialM; eauto|]; [intros i Hi; specialize (H i Hi); lra|intros i Hi; apply H; auto|intros; apply gpd_zero].
Qed.
Lemma C70_gpd_uniform_l :
forall (obs shape location scale mass upper umass : arr) (s : list nat) (y m c p : list nat -> R),
  params s [(obs, fins y); (shape, (fun _ => Fin (-1))); (location, fins m); (scale, fins c); (mass, fins p)]%list ->
  params s [(obs, fins y); (location, fins m); (upper, (fun i => Fin (m i + c i))); (mass, fins p); (umass, (fun _ => Fin 0))]%list ->
  (forall i, inb s i -> 0 < c i /\ 0 <= p i <= 1) ->
  exists f, returns (crps_gpd obs shape location scale mass) s (fins f) /\ returns (crps_uniform obs location upper mass umass) s (fins f).
Proof.
intros obs shape location scale mass upper umass s y m c p P Q H. eapply same; [eapply (cc_gpd obs shape location scale mass s y (fun _ => -1) m c p); eauto|eapply (cc_uniform obs location upper mass umass s y m (fun i => m i + c i) p (fun _ => 0)); eauto|]; [intros i Hi; specialize (H i Hi); lra|intros i Hi; specialize (H i Hi); lra|intros; apply gpd_minus_one; apply H; auto].
Qed.
Lemma C70_unbounded_normal_l :
forall (obs location scale lower upper lmass umass : arr) (s : list nat) (y m c : list nat -> R),
  params s [(obs, fins y); (location, fins m); (scale, fins c); (lower, (fun _ => NInf)); (upper, (fun _ => PInf)); (lmass, (fun _ => Fin 0)); (umass, (fun _ => Fin 0))]%list ->
  params s [(obs, fins y); (location, fins m); (scale, fins c); (lower, (fun _ => NInf)); (upper, (fun _ => PInf))]%list ->
  params s [(obs, fins y); (location, fins m); (scale, fins c)]%list ->
  (forall i, inb s i -> 0 < c i) ->
  exists f, returns (crps_gtcnormal obs location scale lower upper lmass umass) s (fins f) /\ returns (crps_tnormal obs location scale lower upper) s (fins f) /\
    returns (crps_cnormal obs location scale lower upper) s (fins f) /\ returns (crps_normal obs location scale) s (fins f).
Proof.
intros obs location scale lower upper lmass umass s y m c P Q B Hc.
  assert (closed_crps (crps_normal obs location scale) s (fun i => normal_cdf (m i) (c i)) y) as K0 by (eapply cc_normal; eauto).
  destruct (same (crps_gtcnormal obs location scale lower upper lmass umass) _ _ _ _ _ (cc_gtcnormal _ _ _ _ _ _ _ s y m c (fun _ => 0) (fun _ => 0) (fun _ => m_infty) (fun _ => p_infty) P ltac:(intros i Hi; specialize (Hc i Hi); repeat split; auto; try lra; try discriminate)) K0) as (f & F1 & F0); [intros; apply unbounded_tc|].
  destruct (same (crps_tnormal obs location scale lower upper) _ _ _ _ _ (cc_tnormal _ _ _ _ _ s y m c (fun _ => m_infty) (fun _ => p_infty) Q ltac:(intros i Hi; specialize (Hc i Hi); repeat split; auto; try lra; try discriminate)) K0) as (g & G1 & G0); [intros; apply unbounded_tc|].
  destruct (same (crps_cnormal obs location scale lower upper) _ _ _ _ _ (cc_cnormal _ _ _ _ _ s y m c (fun _ => m_infty) (fun _ => p_infty) Q ltac:(intros i Hi; specialize (Hc i Hi); repeat split; auto; try lra; try discriminate)) K0) as (h & H1 & H0); [intros; apply unbounded_c|].
  exists f. split; auto. split; [eapply chain; [exact F0|exact G0|exact G1]|]. split; [eapply chain; [exact F0|exact H0|exact H1]|auto].
Qed.
Lemma C70_unbounded_logistic_l :
forall (obs location scale lower upper lmass umass : arr) (s : list nat) (y m c : list nat -> R),
  params s [(obs, fins y); (location, fins m); (scale, fins c); (lower, (fun _ => NInf)); (upper, (fun _ => PInf)); (lmass, (fun _ => Fin 0)); (umass, (fun _ => Fin 0))]%list ->
  params s [(obs, fins y); (location, fins m); (scale, fins c); (lower, (fun _ => NInf)); (upper, (fun _ => PInf))]%list ->
  params s [(obs, fins y); (location, fins m); (scale, fins c)]%list ->
  (forall i, inb s i -> 0 < c i) ->
  exists f, returns (crps_gtclogistic obs location scale lower upper lmass umass) s (fins f) /\ returns (crps_tlogistic obs location scale lower upper) s (fins f) /\
    returns (crps_clogistic obs location scale lower upper) s (fins f) /\ returns (crps_logistic obs location scale) s (fins f).
Proof.
intros obs location scale lower upper lmass umass s y m c P Q B Hc.
  assert (closed_crps (crps_logistic obs location scale) s (fun i => logistic_cdf (m i) (c i)) y) as K0 by (eapply cc_logistic; eauto).
  destruct (same (crps_gtclogistic obs location scale lower upper lmass umass) _ _ _ _ _ (cc_gtclogistic _ _ _ _ _ _ _ s y m c (fun _ => 0) (fun _ => 0) (fun _ => m_infty) (fun _ => p_infty) P ltac:(intros i Hi; specialize (Hc i Hi); repeat split; auto; try lra; try discriminate)) K0) as (f & F1 & F0); [intros; apply unbounded_tc|].
  destruct (same (crps_tlogistic obs location scale lower upper) _ _ _ _ _ (cc_tlogistic _ _ _ _ _ s y m c (fun _ => m_infty) (fun _ => p_infty) Q ltac:(intros i Hi; specialize (Hc i Hi); repeat split; auto; try lra; try discriminate)) K0) as (g & G1 & G0); [intros; apply unbounded_tc|].
  destruct (same (crps_clogistic obs location scale lower upper) _ _ _ _ _ (cc_clogistic _ _ _ _ _ s y m c (fun _ => m_infty) (fun _ => p_infty) Q ltac:(intros i Hi; specialize (Hc i Hi); repeat split; auto; try lra; try discriminate)) K0) as (h & H1 & H0); [intros; apply unbounded_c|].
  exists f. split; auto. split; [eapply chain; [exact F0|exact G0|exact G1]|]. split; [eapply chain; [exact F0|exact H0|exact H1]|auto].
Qed.
Lemma C70_unbounded_t_l :
forall (obs df location scale lower upper lmass umass : arr) (s : list nat) (y n m c : list nat -> R),
  params s [(obs, fins y); (df, fins n); (location, fins m); (scale, fins c); (lower, (fun _ => NInf)); (upper, (fun _ => PInf)); (lmass, (fun _ => Fin 0)); (umass, (fun _ => Fin 0))]%list ->
  params s [(obs, fins y); (df, fins n); (location, fins m); (scale, fins c); (lower, (fun _ => NInf)); (upper, (fun _ => PInf))]%list ->
  params s [(obs, fins y); (df, fins n); (location, fins m); (scale, fins c)]%list ->
  (forall i, inb s i -> 1 < n i /\ 0 < c i) ->
  exists f, returns (crps_gtct obs df location scale lower upper lmass umass) s (fins f) /\ returns (crps_tt obs df location scale lower upper) s (fins f) /\
    returns (crps_ct obs df location scale lower upper) s (fins f) /\ returns (crps_t obs df location scale) s (fins f).
Proof.
intros obs df location scale lower upper lmass umass s y n m c P Q B Hc.
  assert (closed_crps (crps_t obs df location scale) s (fun i => ls_cdf (t_cdf (n i)) (m i) (c i)) y) as K0 by (eapply cc_t; eauto).
  destruct (same (crps_gtct obs df location scale lower upper lmass umass) _ _ _ _ _ (cc_gtct _ _ _ _ _ _ _ _ s y n m c (fun _ => 0) (fun _ => 0) (fun _ => m_infty) (fun _ => p_infty) P ltac:(intros i Hi; specialize (Hc i Hi); repeat split; auto; try lra; try discriminate)) K0) as (f & F1 & F0); [intros; apply unbounded_tc|].
  destruct (same (crps_tt obs df location scale lower upper) _ _ _ _ _ (cc_tt _ _ _ _ _ _ s y n m c (fun _ => m_infty) (fun _ => p_infty) Q ltac:(intros i Hi; specialize (Hc i Hi); repeat split; auto; try lra; try discriminate)) K0) as (g & G1 & G0); [intros; apply unbounded_tc|].
  destruct (same (crps_ct obs df location scale lower upper) _ _ _ _ _ (cc_ct _ _ _ _ _ _ s y n m c (fun _ => m_infty) (fun _ => p_infty) Q ltac:(intros i Hi; specialize (Hc i Hi); repeat split; auto; try lra; try discriminate)) K0) as (h & H1 & H0); [intros; apply unbounded_c|].
  exists f. split; auto. split; [eapply chain; [exact F0|exact G0|exact G1]|]. split; [eapply chain; [exact F0|exact H0|exact H1]|auto].
Qed.
Lemma C70_censored_normal_l :
forall (obs location scale lower upper lmass umass : arr) (s : list nat) (y m c : list nat -> R) (l u : list nat -> Rbar),
  params s [(obs, fins y); (location, fins m); (scale, fins c); (lower, (fun i => rbn (l i))); (upper, (fun i => rbn (u i))); (lmass, (fun i => Fin (ext_cdf (normal_cdf (m i) (c i)) (l i)))); (umass, (fun i => Fin (1 - ext_cdf (normal_cdf (m i) (c i)) (u i))))]%list ->
  params s [(obs, fins y); (location, fins m); (scale, fins c); (lower, (fun i => rbn (l i))); (upper, (fun i => rbn (u i)))]%list ->
  (forall i, inb s i -> 0 < c i /\ Rbar_lt (l i) (u i)) ->
  exists f, returns (crps_gtcnormal obs location scale lower upper lmass umass) s (fins f) /\ returns (crps_cnormal obs location scale lower upper) s (fins f).
Proof.
intros obs location scale lower upper lmass umass s y m c l u P Q H.
  assert (forall i, inb s i -> tc_ok (l i) (u i) (ext_cdf (normal_cdf (m i) (c i)) (l i)) (1 - ext_cdf (normal_cdf (m i) (c i)) (u i)) /\ forall t, truncensx (normal_cdf (m i) (c i)) (l i) (u i) (ext_cdf (normal_cdf (m i) (c i)) (l i)) (1 - ext_cdf (normal_cdf (m i) (c i)) (u i)) t = censored (normal_cdf (m i) (c i)) (l i) (u i) t) as K.
  { intros i Hi. apply censored_tc; [apply H; auto|intros a b Hab; apply normal_incr; auto; specialize (H i Hi); lra|intros t; apply normal_in; specialize (H i Hi); lra]. }
  eapply same.
  - apply (cc_gtcnormal obs location scale lower upper lmass umass s y m c (fun i => ext_cdf (normal_cdf (m i) (c i)) (l i)) (fun i => 1 - ext_cdf (normal_cdf (m i) (c i)) (u i)) l u P). intros i Hi. specialize (H i Hi). specialize (K i Hi). tauto.
  - apply (cc_cnormal obs location scale lower upper s y m c l u Q). intros i Hi. specialize (H i Hi). tauto.
  - intros i Hi t. exact (proj2 (K i Hi) t).
Qed.
Lemma C70_censored_logistic_l :
forall (obs location scale lower upper lmass umass : arr) (s : list nat) (y m c : list nat -> R) (l u : list nat -> Rbar),
  params s [(obs, fins y); (location, fins m); (scale, fins c); (lower, (fun i => rbn (l i))); (upper, (fun i => rbn (u i))); (lmass, (fun i => Fin (ext_cdf (logistic_cdf (m i) (c i)) (l i)))); (umass, (fun i => Fin (1 - ext_cdf (logistic_cdf (m i) (c i)) (u i))))]%list ->
  params s [(obs, fins y); (location, fins m); (scale, fins c); (lower, (fun i => rbn (l i))); (upper, (fun i => rbn (u i)))]%list ->
  (forall i, inb s i -> 0 < c i /\ Rbar_lt (l i) (u i) /\ (l i = m_infty <-> u i = p_infty)) ->
  exists f, returns (crps_gtclogistic obs location scale lower upper lmass umass) s (fins f) /\ returns (crps_clogistic obs location scale lower upper) s (fins f).
Proof.
intros obs location scale lower upper lmass umass s y m c l u P Q H.
  assert (forall i, inb s i -> tc_ok (l i) (u i) (ext_cdf (logistic_cdf (m i) (c i)) (l i)) (1 - ext_cdf (logistic_cdf (m i) (c i)) (u i)) /\ forall t, truncensx (logistic_cdf (m i) (c i)) (l i) (u i) (ext_cdf (logistic_cdf (m i) (c i)) (l i)) (1 - ext_cdf (logistic_cdf (m i) (c i)) (u i)) t = censored (logistic_cdf (m i) (c i)) (l i) (u i) t) as K.
  { intros i Hi. apply censored_tc; [apply H; auto|intros a b Hab; apply logis_incr; auto; specialize (H i Hi); lra|intros t; apply logis_in; specialize (H i Hi); lra]. }
  eapply same.
  - apply (cc_gtclogistic obs location scale lower upper lmass umass s y m c (fun i => ext_cdf (logistic_cdf (m i) (c i)) (l i)) (fun i => 1 - ext_cdf (logistic_cdf (m i) (c i)) (u i)) l u P). intros i Hi. specialize (H i Hi). specialize (K i Hi). tauto.
  - apply (cc_clogistic obs location scale lower upper s y m c l u Q). intros i Hi. specialize (H i Hi). tauto.
  - intros i Hi t. exact (proj2 (K i Hi) t).
Qed.
Lemma C70_censored_t_l :
forall (obs df location scale lower upper lmass umass : arr) (s : list nat) (y n m c : list nat -> R) (l u : list nat -> Rbar),
  params s [(obs, fins y); (df, fins n); (location, fins m); (scale, fins c); (lower, (fun i => rbn (l i))); (upper, (fun i => rbn (u i))); (lmass, (fun i => Fin (ext_cdf (ls_cdf (t_cdf (n i)) (m i) (c i)) (l i)))); (umass, (fun i => Fin (1 - ext_cdf (ls_cdf (t_cdf (n i)) (m i) (c i)) (u i))))]%list ->
  params s [(obs, fins y); (df, fins n); (location, fins m); (scale, fins c); (lower, (fun i => rbn (l i))); (upper, (fun i => rbn (u i)))]%list ->
  (forall i, inb s i -> 1 < n i /\ 0 < c i /\ Rbar_lt (l i) (u i) /\ l i <> Finite (m i) /\ u i <> Finite (m i)) ->
  exists f, returns (crps_gtct obs df location scale lower upper lmass umass) s (fins f) /\ returns (crps_ct obs df location scale lower upper) s (fins f).
Proof.
intros obs df location scale lower upper lmass umass s y n m c l u P Q H.
  assert (forall i, inb s i -> tc_ok (l i) (u i) (ext_cdf (ls_cdf (t_cdf (n i)) (m i) (c i)) (l i)) (1 - ext_cdf (ls_cdf (t_cdf (n i)) (m i) (c i)) (u i)) /\ forall t, truncensx (ls_cdf (t_cdf (n i)) (m i) (c i)) (l i) (u i) (ext_cdf (ls_cdf (t_cdf (n i)) (m i) (c i)) (l i)) (1 - ext_cdf (ls_cdf (t_cdf (n i)) (m i) (c i)) (u i)) t = censored (ls_cdf (t_cdf (n i)) (m i) (c i)) (l i) (u i) t) as K.
  { intros i Hi. apply censored_tc; [apply H; auto|intros a b Hab; apply t_incr; auto; specialize (H i Hi); lra|intros t; apply t_cdf_in; specialize (H i Hi); lra]. }
  eapply same.
  - apply (cc_gtct obs df location scale lower upper lmass umass s y n m c (fun i => ext_cdf (ls_cdf (t_cdf (n i)) (m i) (c i)) (l i)) (fun i => 1 - ext_cdf (ls_cdf (t_cdf (n i)) (m i) (c i)) (u i)) l u P). intros i Hi. specialize (H i Hi). specialize (K i Hi). tauto.
  - apply (cc_ct obs df location scale lower upper s y n m c l u Q). intros i Hi. specialize (H i Hi). tauto.
  - intros i Hi t. exact (proj2 (K i Hi) t).
Qed.
Lemma C70_beta_l :
forall (obs a b lower upper lmass umass : arr) (s t : list nat) (y l u l' u' : list nat -> R),
  params s [(obs, fins y); (a, (fun _ => Fin 1)); (b, (fun _ => Fin 1))]%list ->
  params s [(obs, fins y); (a, (fun _ => Fin 1)); (b, (fun _ => Fin 1)); (lower, fins l); (upper, fins u)]%list ->
  params t [(lower, fins l'); (upper, fins u')]%list ->
  (forall i, inb t i -> l' i < u' i) ->
  params s [(obs, fins y); (lower, fins l); (upper, fins u); (lmass, (fun _ => Fin 0)); (umass, (fun _ => Fin 0))]%list ->
  (forall i, inb s i -> l i < u i /\ l i <= y i <= u i) ->
  exists f, returns (crps_beta obs a b lower upper) s (fins f) /\ returns (crps_uniform obs lower upper lmass umass) s (fins f).
Proof.
intros obs a b lower upper lmass umass s t y l u l' u' P P' Q Ht W H. eapply same; [eapply (cc_beta obs a b lower upper s t y (fun _ => 1) (fun _ => 1) l u l' u'); eauto|eapply (cc_uniform obs lower upper lmass umass s y l u (fun _ => 0) (fun _ => 0)); eauto|]; [intros i Hi; specialize (H i Hi); lra|intros i Hi; apply H; auto|intros; apply beta_one; apply H; auto].
Qed.
Lemma C70_gamma_l :
forall (obs shape rate : arr) (s : list nat) (y r : list nat -> R),
  params s [(obs, fins y); (shape, (fun _ => Fin 1)); (rate, fins r)]%list ->
  params s [(obs, fins y); (rate, fins r)]%list ->
  (forall i, inb s i -> 0 < r i) ->
  exists f, returns (crps_gamma obs shape (Some rate) None) s (fins f) /\ returns (crps_exponential obs rate) s (fins f).
Proof.
intros obs shape rate s y r P Q H. eapply same; [eapply (cc_gamma obs shape rate s y (fun _ => 1) r); eauto|eapply cc_exponential; eauto|]; [intros i Hi; specialize (H i Hi); lra|intros; apply gamma_one; auto].
Qed.
Lemma C70_csg0_l :
forall (obs shape rate shift : arr) (s : list nat) (y a r : list nat -> R),
  params s [(obs, fins y); (shape, fins a); (rate, fins r); (shift, (fun _ => Fin 0))]%list ->
  params s [(obs, fins y); (shape, fins a); (rate, fins r)]%list ->
  (forall i, inb s i -> 0 < a i /\ 0 < r i /\ 0 <= y i) ->
  exists f, returns (crps_csg0 obs shape (Some rate) None shift) s (fins f) /\ returns (crps_gamma obs shape (Some rate) None) s (fins f).
Proof.
intros obs shape rate shift s y a r P Q H. eapply same; [eapply (cc_csg0 obs shape rate shift s y a r (fun _ => 0)); eauto|eapply cc_gamma; eauto|]; [intros i Hi; specialize (H i Hi); lra|intros; apply csg0_no_shift].
Qed.
Lemma C70_gamma_rate_l :
forall (obs shape rate scale : arr) (s : list nat) (y a r c : list nat -> R),
  params s [(obs, fins y); (shape, fins a); (rate, fins r)]%list ->
  params s [(obs, fins y); (shape, fins a); (scale, fins c)]%list ->
  (forall i, inb s i -> 0 < a i /\ 0 < c i /\ r i = 1 / c i) ->
  exists f, returns (crps_gamma obs shape (Some rate) None) s (fins f) /\ returns (crps_gamma obs shape None (Some scale)) s (fins f).
Proof.
intros obs shape rate scale s y a r c P Q H. eapply same; [eapply cc_gamma; eauto|eapply cc_gamma_scale; eauto|]; [intros i Hi; destruct (H i Hi) as (H1 & H2 & H3); split; auto; rewrite H3; apply Rdiv_lt_0_compat; lra|intros i Hi; specialize (H i Hi); lra|intros i Hi t; destruct (H i Hi) as (H1 & H2 & H3); now rewrite H3].
Qed.
Lemma C70_negbinom_l :
forall (obs size prob mean : arr) (s : list nat) (y r p m : list nat -> R),
  params s [(obs, fins y); (size, fins r); (prob, fins p)]%list ->
  params s [(obs, fins y); (size, fins r); (mean, fins m)]%list ->
  (forall i, inb s i -> 0 < r i /\ 0 < p i <= 1 /\ m i = r i * (1 - p i) / p i) ->
  exists f, returns (crps_negbinom obs size (Some prob) None) s (fins f) /\ returns (crps_negbinom obs size None (Some mean)) s (fins f).
Proof.
intros obs size prob mean s y r p m P Q H. eapply same; [eapply cc_negbinom; eauto|eapply cc_negbinom_mean; eauto|]; [intros i Hi; specialize (H i Hi); lra|intros i Hi; destruct (H i Hi) as (H1 & H2 & H3); split; auto; rewrite H3; apply Rdiv_le_0_compat; [nra|lra]|intros i Hi t; destruct (H i Hi) as (H1 & H2 & H3); rewrite H3; do 2 f_equal; field; lra].
Qed.
Lemma C70_mixnorm_l :
forall (obs m sd : arr) (w : option arr) (ax : Z) (s : list nat) (p M : nat) (y mu sg ww : list nat -> R) (location scale : arr) (l c : list nat -> R),
  mix_args obs m sd w ax s p M y mu sg ww -> mix_ok s p M sg ww -> params s [(obs, fins y); (location, fins l); (scale, fins c)]%list ->
  (forall r k, inb s r -> (k < M)%nat -> member p mu r k = l r /\ member p sg r k = c r) -> (forall r, inb s r -> 0 < c r) ->
  exists f, returns (crps_mixnorm obs m sd w ax) s (fins f) /\ returns (crps_normal obs location scale) s (fins f).
Proof.
intros obs m sd w ax s p M y mu sg ww location scale l c A O P E Hc. eapply same; [eapply cc_mixnorm; eauto|eapply cc_normal; eauto|].
  intros r Hr t. cbv beta. unfold mixture. rewrite (sumn_ext M _ (fun k => normal_cdf (l r) (c r) t * member p ww r k)).
  - rewrite sumn_scal. destruct (O r Hr) as [_ ->]. ring.
  - intros k Hk. cbv beta. destruct (E r k Hr Hk) as [-> ->]. ring.
Qed.
