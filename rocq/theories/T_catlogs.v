(** Proofs of the properties of all closed-form logarithmic scores (statements in P_catlogs.v). *)
From Verif Require Export L_catlogs T_prob T_clogs.
From Coquelicot Require Import Coquelicot.
From Coq Require Import Psatz Lia.
Open Scope R_scope.
Lemma returns_at T s v w : returns T s v -> returns T s w -> forall i, inb s i -> v i = w i.
Proof. intros (d & a & Ea & Da & Sa & Va) (d' & b & Eb & Db & Sb & Vb) i Hi. assert (a = b) as -> by congruence. rewrite <- Va, <- Vb; auto. Qed.
Lemma C72_value_l :
forall T s f y, closed_logs T s f y -> returns T s (fun i => if Rlt_dec 0 (f i (y i)) then Fin (- ln (f i (y i))) else PInf).
Proof.
exact catlogs.
Qed.
Lemma C72_same_l :
forall T T' s f f' y y', closed_logs T s f y -> closed_logs T' s f' y' -> (forall i, inb s i -> f i (y i) = f' i (y' i)) ->
  exists v, returns T s v /\ returns T' s v.
Proof.
exact same_logs.
Qed.
Lemma C72_units_l :
forall T T' s f f' y y' (a b : list nat -> R), closed_logs T s f y -> closed_logs T' s f' y' ->
  (forall i, inb s i -> b i <> 0 /\ y' i = a i + b i * y i /\ forall t, f' i (a i + b i * t) = f i t / Rabs (b i)) ->
  exists v, returns T s v /\ returns T' s (fun i => nadd (v i) (Fin (ln (Rabs (b i))))).
Proof.
intros T T' s f f' y y' a b H H' E. apply (logs_change T T' s f f' y y' (fun i => Rabs (b i)) H H'). intros i Hi. destruct (E i Hi) as (B & Y & F).
  split; [now apply Rabs_pos_lt|]. rewrite Y. apply F.
Qed.
Lemma C72_lognormal_l :
forall (obs obs' location scale : arr) (s : list nat) (y m c : list nat -> R),
  params s [(obs, fins y); (location, fins m); (scale, fins c)]%list ->
  params s [(obs', (fun i => Fin (exp (y i)))); (location, fins m); (scale, fins c)]%list ->
  (forall i, inb s i -> 0 < c i) ->
  exists v, returns (logs_normal obs location scale true) s v /\ returns (logs_lognormal obs' location scale) s (fun i => nadd (v i) (Fin (y i))).
Proof.
intros obs obs' location scale s y m c P Q Hc.
  destruct (logs_change _ _ s _ _ y (fun i => exp (y i)) (fun i => exp (y i)) (cl_normal obs location scale s y m c P Hc) (cl_lognormal obs' location scale s (fun i => exp (y i)) m c Q Hc)) as (v & V1 & V2).
  - intros i Hi. split; [apply exp_pos|apply exp_pdf_exp].
  - exists v. split; auto. eapply returns_ext; [exact V2|]. intros i Hi. cbv beta. now rewrite ln_exp.
Qed.
Lemma C72_loglaplace_l :
forall (obs obs' location scale : arr) (s : list nat) (y m c : list nat -> R),
  params s [(obs, fins y); (location, fins m); (scale, fins c)]%list ->
  params s [(obs', (fun i => Fin (exp (y i)))); (location, fins m); (scale, fins c)]%list ->
  (forall i, inb s i -> 0 < c i) ->
  exists v, returns (logs_laplace obs location scale) s v /\ returns (logs_loglaplace obs' location scale) s (fun i => nadd (v i) (Fin (y i))).
Proof.
intros obs obs' location scale s y m c P Q Hc.
  destruct (logs_change _ _ s _ _ y (fun i => exp (y i)) (fun i => exp (y i)) (cl_laplace obs location scale s y m c P Hc) (cl_loglaplace obs' location scale s (fun i => exp (y i)) m c Q Hc)) as (v & V1 & V2).
  - intros i Hi. split; [apply exp_pos|apply exp_pdf_exp].
  - exists v. split; auto. eapply returns_ext; [exact V2|]. intros i Hi. cbv beta. now rewrite ln_exp.
Qed.
Lemma C72_loglogistic_l :
forall (obs obs' location scale : arr) (s : list nat) (y m c : list nat -> R),
  params s [(obs, fins y); (location, fins m); (scale, fins c)]%list ->
  params s [(obs', (fun i => Fin (exp (y i)))); (location, fins m); (scale, fins c)]%list ->
  (forall i, inb s i -> 0 < c i) ->
  exists v, returns (logs_logistic obs location scale) s v /\ returns (logs_loglogistic obs' location scale) s (fun i => nadd (v i) (Fin (y i))).
Proof.
intros obs obs' location scale s y m c P Q Hc.
  destruct (logs_change _ _ s _ _ y (fun i => exp (y i)) (fun i => exp (y i)) (cl_logistic obs location scale s y m c P Hc) (cl_loglogistic obs' location scale s (fun i => exp (y i)) m c Q Hc)) as (v & V1 & V2).
  - intros i Hi. split; [apply exp_pos|apply exp_pdf_exp].
  - exists v. split; auto. eapply returns_ext; [exact V2|]. intros i Hi. cbv beta. now rewrite ln_exp.
Qed.
Lemma C72_2pnormal_l :
forall (obs scale1 scale2 location scale : arr) (s : list nat) (y m c : list nat -> R),
  params s [(obs, fins y); (scale1, fins c); (scale2, fins c); (location, fins m)]%list ->
  params s [(obs, fins y); (location, fins m); (scale, fins c)]%list ->
  (forall i, inb s i -> 0 < c i) ->
  exists v, returns (logs_2pnormal obs scale1 scale2 location) s v /\ returns (logs_normal obs location scale true) s v.
Proof.
intros obs scale1 scale2 location scale s y m c P Q Hc. eapply same_logs; [eapply cl_2pnormal; eauto|eapply cl_normal; eauto|]; intros; apply normal2p_pdf_eq; auto.
Qed.
Lemma C72_2pexponential_l :
forall (obs scale1 scale2 location scale : arr) (s : list nat) (y m c : list nat -> R),
  params s [(obs, fins y); (scale1, fins c); (scale2, fins c); (location, fins m)]%list ->
  params s [(obs, fins y); (location, fins m); (scale, fins c)]%list ->
  (forall i, inb s i -> 0 < c i) ->
  exists v, returns (logs_2pexponential obs scale1 scale2 location) s v /\ returns (logs_laplace obs location scale) s v.
Proof.
intros obs scale1 scale2 location scale s y m c P Q Hc. eapply same_logs; [eapply cl_2pexponential; eauto|eapply cl_laplace; eauto|]; intros; apply exponential2p_pdf_eq; auto.
Qed.
Lemma C72_exponential2_l :
forall (obs location scale rate : arr) (s : list nat) (y c l : list nat -> R),
  params s [(obs, fins y); (location, (fun _ => Fin 0)); (scale, fins c)]%list ->
  dt obs = DFloat ->
  sh obs = s ->
  params s [(obs, fins y); (rate, fins l)]%list ->
  (forall i, inb s i -> 0 < c i /\ l i * c i = 1) ->
  exists v, returns (logs_exponential2 obs location scale) s v /\ returns (logs_exponential obs rate) s v.
Proof.
intros obs location scale rate s y c l P D S Q H. eapply same_logs; [eapply (cl_exponential2 obs location scale s y (fun _ => 0) c); eauto|eapply cl_exponential; eauto|]; [intros i Hi; apply H; auto|intros i Hi; specialize (H i Hi); nra|intros i Hi; apply ls_exponential; apply H; auto].
Qed.
Lemma C72_gpd_exponential_l :
forall (obs shape location scale : arr) (s : list nat) (y m c : list nat -> R),
  params s [(obs, fins y); (shape, (fun _ => Fin 0)); (location, fins m); (scale, fins c)]%list ->
  dt obs = DFloat ->
  sh obs = s ->
  params s [(obs, fins y); (location, fins m); (scale, fins c)]%list ->
  (forall i, inb s i -> 0 < c i) ->
  exists v, returns (logs_gpd obs shape location scale) s v /\ returns (logs_exponential2 obs location scale) s v.
Proof.
intros obs shape location scale s y m c P D S Q H. eapply same_logs; [eapply (cl_gpd obs shape location scale s y (fun _ => 0) m c); eauto|eapply cl_exponential2; eauto|]; [intros i Hi; specialize (H i Hi); split; [auto|lra]|intros i Hi; unfold ls_pdf; now rewrite gpd_pdf_0].
Qed.
Lemma C72_gpd_uniform_l :
forall (obs shape location scale upper : arr) (s : list nat) (y m c : list nat -> R),
  params s [(obs, fins y); (shape, (fun _ => Fin (-1))); (location, fins m); (scale, fins c)]%list ->
  params s [(obs, fins y); (location, fins m); (upper, (fun i => Fin (m i + c i)))]%list ->
  (forall i, inb s i -> 0 < c i /\ y i <> m i + c i) ->
  exists v, returns (logs_gpd obs shape location scale) s v /\ returns (logs_uniform obs location upper) s v.
Proof.
intros obs shape location scale upper s y m c P Q H. eapply same_logs; [eapply (cl_gpd obs shape location scale s y (fun _ => -1) m c); eauto|eapply (cl_uniform obs location upper s y m (fun i => m i + c i)); eauto|]; [intros i Hi; specialize (H i Hi); split; [apply H|]; intros E; apply (proj2 H); replace (y i) with (m i + c i * ((y i - m i) / c i)) by (field; lra); nra|intros i Hi; specialize (H i Hi); lra|intros i Hi; apply gpd_pdf_m1; [apply H; auto|]; specialize (H i Hi); intros E; apply (proj2 H); replace (y i) with (m i + c i * ((y i - m i) / c i)) by (field; lra); nra].
Qed.
Lemma C72_unbounded_normal_l :
forall (obs location scale lower upper : arr) (s : list nat) (y m c : list nat -> R),
  params s [(obs, fins y); (location, fins m); (scale, fins c); (lower, (fun _ => NInf)); (upper, (fun _ => PInf))]%list ->
  params s [(obs, fins y); (location, fins m); (scale, fins c)]%list ->
  (forall i, inb s i -> 0 < c i) ->
  exists v, returns (logs_tnormal obs location scale lower upper) s v /\ returns (logs_normal obs location scale true) s v.
Proof.
intros obs location scale lower upper s y m c P Q Hc. eapply same_logs; [eapply (cl_tnormal obs location scale lower upper s y m c (fun _ => m_infty) (fun _ => p_infty) P); eauto|eapply cl_normal; eauto|]; [intros i Hi; specialize (Hc i Hi); repeat split; try apply Hc; simpl; auto|intros; apply trunc_pdf_all].
Qed.
Lemma C72_unbounded_logistic_l :
forall (obs location scale lower upper : arr) (s : list nat) (y m c : list nat -> R),
  params s [(obs, fins y); (location, fins m); (scale, fins c); (lower, (fun _ => NInf)); (upper, (fun _ => PInf))]%list ->
  params s [(obs, fins y); (location, fins m); (scale, fins c)]%list ->
  (forall i, inb s i -> 0 < c i) ->
  exists v, returns (logs_tlogistic obs location scale lower upper) s v /\ returns (logs_logistic obs location scale) s v.
Proof.
intros obs location scale lower upper s y m c P Q Hc. eapply same_logs; [eapply (cl_tlogistic obs location scale lower upper s y m c (fun _ => m_infty) (fun _ => p_infty) P); eauto|eapply cl_logistic; eauto|]; [intros i Hi; specialize (Hc i Hi); repeat split; try apply Hc; simpl; auto|intros; apply trunc_pdf_all].
Qed.
Lemma C72_unbounded_t_l :
forall (obs df location scale lower upper : arr) (s : list nat) (y n m c : list nat -> R),
  params s [(obs, fins y); (df, fins n); (location, fins m); (scale, fins c); (lower, (fun _ => NInf)); (upper, (fun _ => PInf))]%list ->
  params s [(obs, fins y); (df, fins n); (location, fins m); (scale, fins c)]%list ->
  (forall i, inb s i -> 0 < n i /\ 0 < c i) ->
  exists v, returns (logs_tt obs df location scale lower upper) s v /\ returns (logs_t obs df location scale) s v.
Proof.
intros obs df location scale lower upper s y n m c P Q Hc. eapply same_logs; [eapply (cl_tt obs df location scale lower upper s y n m c (fun _ => m_infty) (fun _ => p_infty) P); eauto|eapply cl_t; eauto|]; [intros i Hi; specialize (Hc i Hi); repeat split; try apply Hc; simpl; auto|intros; apply trunc_pdf_all].
Qed.
Lemma C72_beta_l :
forall (obs a b lower upper : arr) (s : list nat) (y l u : list nat -> R),
  params s [(obs, fins y); (a, (fun _ => Fin 1)); (b, (fun _ => Fin 1)); (lower, fins l); (upper, fins u)]%list ->
  params s [(obs, fins y); (lower, fins l); (upper, fins u)]%list ->
  (forall i, inb s i -> l i < u i /\ y i <> l i /\ y i <> u i) ->
  exists v, returns (logs_beta obs a b lower upper) s v /\ returns (logs_uniform obs lower upper) s v.
Proof.
intros obs a b lower upper s y l u P Q H. eapply same_logs; [eapply (cl_beta obs a b lower upper s y (fun _ => 1) (fun _ => 1) l u); eauto|eapply cl_uniform; eauto|]; [intros i Hi; specialize (H i Hi); repeat split; try apply H; lra|intros i Hi; apply H; auto|intros i Hi; apply beta_pdf_1; apply H; auto].
Qed.
Lemma C72_gamma_l :
forall (obs shape rate : arr) (s : list nat) (y r : list nat -> R),
  params s [(obs, fins y); (shape, (fun _ => Fin 1)); (rate, fins r)]%list ->
  params s [(obs, fins y); (rate, fins r)]%list ->
  (forall i, inb s i -> 0 < r i /\ y i <> 0) ->
  exists v, returns (logs_gamma obs shape (Some rate) None) s v /\ returns (logs_exponential obs rate) s v.
Proof.
intros obs shape rate s y r P Q H. eapply same_logs; [eapply (cl_gamma obs shape rate s y (fun _ => 1) r); eauto|eapply cl_exponential; eauto|]; [intros i Hi; specialize (H i Hi); lra|intros i Hi; apply H; auto|intros i Hi; apply gamma_pdf_1; apply H; auto].
Qed.
Lemma C72_gamma_rate_l :
forall (obs shape rate scale : arr) (s : list nat) (y a r c : list nat -> R),
  params s [(obs, fins y); (shape, fins a); (rate, fins r)]%list ->
  params s [(obs, fins y); (shape, fins a); (scale, fins c)]%list ->
  (forall i, inb s i -> 0 < a i /\ 0 < c i /\ r i = 1 / c i) ->
  exists v, returns (logs_gamma obs shape (Some rate) None) s v /\ returns (logs_gamma obs shape None (Some scale)) s v.
Proof.
intros obs shape rate scale s y a r c P Q H. eapply same_logs; [eapply cl_gamma; eauto|eapply cl_gamma_scale; eauto|]; [intros i Hi; destruct (H i Hi) as (H1 & H2 & H3); split; auto; rewrite H3; apply Rdiv_lt_0_compat; lra|intros i Hi; specialize (H i Hi); lra|intros i Hi; destruct (H i Hi) as (H1 & H2 & H3); cbv beta; now rewrite H3].
Qed.
Lemma C72_negbinom_l :
forall (obs size prob mean : arr) (s : list nat) (y r p m : list nat -> R),
  params s [(obs, fins y); (size, fins r); (prob, fins p)]%list ->
  params s [(obs, fins y); (size, fins r); (mean, fins m)]%list ->
  (forall i, inb s i -> 1 <= r i /\ 0 < p i <= 1 /\ m i = r i * (1 - p i) / p i) ->
  exists v, returns (logs_negbinom obs size (Some prob) None) s v /\ returns (logs_negbinom obs size None (Some mean)) s v.
Proof.
intros obs size prob mean s y r p m P Q H. eapply same_logs; [eapply cl_negbinom; eauto|eapply cl_negbinom_mean; eauto|]; [intros i Hi; specialize (H i Hi); lra|intros i Hi; destruct (H i Hi) as (H1 & H2 & H3); split; auto; rewrite H3; apply Rdiv_le_0_compat; [nra|lra]|intros i Hi; destruct (H i Hi) as (H1 & H2 & H3); cbv beta; rewrite H3; do 2 f_equal; field; lra].
Qed.
Lemma C72_mixnorm_l :
forall (obs m sd : arr) (w : option arr) (ax : Z) (s : list nat) (p M : nat) (y mu sg ww : list nat -> R) (location scale : arr) (l c : list nat -> R),
  mix_args obs m sd w ax s p M y mu sg ww -> mix_ok s p M sg ww -> params s [(obs, fins y); (location, fins l); (scale, fins c)]%list ->
  (forall r k, inb s r -> (k < M)%nat -> member p mu r k = l r /\ member p sg r k = c r) -> (forall r, inb s r -> 0 < c r) ->
  exists v, returns (logs_mixnorm obs m sd w ax) s v /\ returns (logs_normal obs location scale true) s v.
Proof.
intros obs m sd w ax s p M y mu sg ww location scale l c A O P E Hc. eapply same_logs; [eapply cl_mixnorm; eauto|eapply cl_normal; eauto|].
  intros r Hr. cbv beta. apply (equal_mixture M (member p ww r) _ (normal_pdf (l r) (c r))); [apply O; auto|].
  intros k Hk. cbv beta. now destruct (E r k Hr Hk) as [-> ->].
Qed.
Lemma C72_ensemble_l :
forall (obs fct sd b : arr) (ax : Z) (s : list nat) (p M : nat) (y x sg ww h : list nat -> R),
  mix_args obs fct sd None ax s p M y x sg ww -> (0 < M)%nat -> broadcasts b s (fun r => Fin (h r)) ->
  (forall r, inb s r -> 0 < h r /\ forall k, (k < M)%nat -> member p sg r k = h r) ->
  exists v, returns (logs_ensemble obs fct ax (Some b)) s v /\ returns (logs_mixnorm obs fct sd None ax) s v.
Proof.
intros obs fct sd b ax s p M y x sg ww h A HM B H. destruct A as (A & D & W). assert (0 < INR M) as HM' by (apply lt_0_INR; lia).
  assert (mix_args obs fct sd None ax s p M y x sg ww) as A' by (split; auto).
  assert (mix_ok s p M sg ww) as O.
  { intros r Hr. split.
    - intros k Hk. split; [destruct (H r Hr) as [P E]; now rewrite E|]. unfold member. rewrite W. left. now apply Rinv_0_lt_compat.
    - rewrite (sumn_ext M _ (fun _ => / INR M * 1)) by (intros; unfold member; rewrite W; ring). rewrite sumn_scal, sumn_const. field. lra. }
  exists (fun r => logp (mixture M (member p ww r) (fun k => normal_pdf (member p x r k) (member p sg r k)) (y r))). split.
  - eapply returns_ext; [exact (C42_log_score_l obs fct ax s p M y x b h A HM B (fun r Hr => proj1 (H r Hr)))|].
    intros r Hr. cbv beta. destruct (H r Hr) as [P E].
    assert (mixture M (member p ww r) (fun k => normal_pdf (member p x r k) (member p sg r k)) (y r) = kde M (member p x r) (h r) (y r)) as ->.
    { rewrite <- kde_mixture by auto. unfold mixture. apply sumn_ext. intros k Hk. rewrite E by auto. unfold member at 1. now rewrite W. }
    unfold log_score. apply logp_pos; [|reflexivity]. apply kde_pos; auto.
  - exact (proj1 (C41_mixnorm_l obs fct sd None ax s p M y x sg ww A' O)).
Qed.
Lemma C72_bernoulli_l :
forall (obs n prob : arr) (s : list nat) (p : list nat -> R) (k : list nat -> bool),
  real_arr obs s (fun i => IZR (if k i then 1 else 0)) -> params s [(obs, fins (fun i => IZR (if k i then 1 else 0))); (n, fins (fun _ => INR 1)); (prob, fins p)]%list -> real_arr prob s p ->
  (forall i, inb s i -> 0 <= p i < 1) ->
  exists v, returns (logs_binomial obs n prob) s v /\ returns (M_prob.log_score obs prob) s v.
Proof.
intros obs n prob s p k R1 P R2 H. exists (fun i => logp (if k i then p i else 1 - p i)). split.
  - eapply returns_ext; [exact (catlogs _ _ _ _ (cl_binomial obs n prob s p (fun i => if k i then 1%Z else 0%Z) (fun _ => 1%nat) P H))|].
    intros i Hi. cbv beta. f_equal. destruct (k i).
    + change (IZR 1) with (INR 1). rewrite outcome_INR. unfold binomial_pmf. simpl. ring.
    + change (IZR 0) with (INR 0). rewrite outcome_INR. unfold binomial_pmf. simpl. ring.
  - eapply returns_ext; [apply (C31_value_l obs prob s _ _ R1 R2)|].
    + intros i Hi. cbv beta. destruct (k i); auto.
    + intros i Hi. specialize (H i Hi). lra.
    + intros i Hi. cbv beta zeta. unfold logp. destruct (k i), (Req_EM_T _ 1); try lra; reflexivity.
Qed.
Lemma C72_proper_l :
forall (Tf Tg : R -> tensor) (F f G g : R -> R) (l u l' u' : Rbar) (S S' : R -> R) (A B : R),
  Rbar_lt l u -> distribution F f l u -> distribution G g l' u' ->
  (forall t : R, closed_logs (Tf t) nil (fun _ => f) (fun _ => t) /\ closed_logs (Tg t) nil (fun _ => g) (fun _ => t)) ->
  (forall t : R, Rbar_lt l t -> Rbar_lt t u -> returns (Tf t) nil (fun _ => Fin (S t)) /\ returns (Tg t) nil (fun _ => Fin (S' t))) ->
  is_RInt_gen (fun t => f t * S t) (from_below l) (from_above u) B -> is_RInt_gen (fun t => f t * S' t) (from_below l) (from_above u) A -> B <= A.
Proof.
intros Tf Tg F f G g l u l' u' S S' A B Hlu DF DG C V IB IA.
  assert (forall t : R, Rbar_lt l t -> Rbar_lt t u -> (0 < f t /\ S t = - ln (f t)) /\ (0 < g t /\ S' t = - ln (g t))) as E.
  { intros t L U. destruct (C t) as [C1 C2], (V t L U) as [V1 V2]. split; apply logp_fin.
    - exact (returns_at _ _ _ _ (catlogs _ _ _ _ C1) V1 nil I).
    - exact (returns_at _ _ _ _ (catlogs _ _ _ _ C2) V2 nil I). }
  apply (C41_gibbs_l F f G g l u l' u' A B Hlu DF DG).
  - intros t L U. apply (E t L U).
  - apply (inside_ext l u (fun t => f t * S' t)); auto. intros t L U. destruct (E t L U) as [_ [_ ->]]. reflexivity.
  - apply (inside_ext l u (fun t => f t * S t)); auto. intros t L U. destruct (E t L U) as [[_ ->] _]. reflexivity.
Qed.
