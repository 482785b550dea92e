(** Proofs that the log scores are minus the logarithm of densities (statements in P_logs.v). *)
From Verif Require Export L_logp.
From Coq Require Import Psatz.
From Coquelicot Require Import Coquelicot.
Open Scope R_scope.
Lemma C41_exponential_l :
forall (obs rate : arr) (s : list nat) (y l : list nat -> R),
  params s [(obs, fins y); (rate, fins l)]%list -> (forall i, inb s i -> 0 < l i) ->
  returns (logs_exponential obs rate) s (fun i => logp (exponential_pdf (l i) (y i))) /\
  forall i, inb s i -> distribution (exponential_cdf (l i)) (exponential_pdf (l i)) 0 p_infty.
Proof.
intros obs rate s y l P H. split.
- ret P. specialize (H i Hi). unfold exponential_pdf. destruct (Rlt_dec (y i) 0); nev; [now apply logp_0|].
  assert (0 < l i * exp (- l i * y i)) by (apply Rmult_lt_0_compat; auto; apply exp_pos). nev. lp. do 2 f_equal. ring.
- intros i Hi. specialize (H i Hi). now apply dist0_distribution, exponential_dist.
Qed.
Lemma C41_2pexponential_l :
forall (obs scale1 scale2 location : arr) (s : list nat) (y p q m : list nat -> R),
  params s [(obs, fins y); (scale1, fins p); (scale2, fins q); (location, fins m)]%list -> (forall i, inb s i -> 0 < p i /\ 0 < q i) ->
  returns (logs_2pexponential obs scale1 scale2 location) s (fun i => logp (exponential2p_pdf (p i) (q i) (m i) (y i))) /\
  forall i, inb s i -> distribution (exponential2p_cdf (p i) (q i) (m i)) (exponential2p_pdf (p i) (q i) (m i)) m_infty p_infty.
Proof.
intros obs scale1 scale2 location s y p q m P H. split.
- ret P. destruct (H i Hi) as [Hp Hq]. unfold exponential2p_pdf. pose proof (Rabs_pos (y i - m i)).
  assert (0 < / (p i)) by now apply Rinv_0_lt_compat. assert (0 < / (q i)) by now apply Rinv_0_lt_compat. assert (0 < p i + q i) by lra.
  assert (forall c, 0 < c -> 0 < 1 / c * exp (- (1 / c) * Rabs (y i - m i)) * (c / (p i + q i))) as K.
  { intros c Hc. repeat apply Rmult_lt_0_compat; try apply exp_pos; try apply Rinv_0_lt_compat; lra. }
  pose proof (K _ Hp). pose proof (K _ Hq). unfold fins.
  destruct (Rlt_dec (y i - m i) 0), (Rlt_dec (y i) (m i)); try lra; nev; lp.
  + rewrite Rabs_left by lra. replace (- (1 / p i) * - (y i - m i)) with ((y i - m i) / p i) by (field; lra). field. lra.
  + rewrite Rabs_right by lra. replace (- (1 / q i) * (y i - m i)) with (- ((y i - m i) / q i)) by (field; lra). field. lra.
- intros i Hi. specialize (H i Hi). destruct H. now apply dist0_distribution, exponential2p_dist.
Qed.
Lemma C41_laplace_l :
forall (obs location scale : arr) (s : list nat) (y m c : list nat -> R),
  params s [(obs, fins y); (location, fins m); (scale, fins c)]%list -> (forall i, inb s i -> 0 < c i) ->
  returns (logs_laplace obs location scale) s (fun i => logp (laplace_pdf (m i) (c i) (y i))) /\
  forall i, inb s i -> distribution (laplace_cdf (m i) (c i)) (laplace_pdf (m i) (c i)) m_infty p_infty.
Proof.
intros obs location scale s y m c P H. split.
- ret P. specialize (H i Hi). unfold laplace_pdf. assert (0 < exp (- Rabs ((y i - m i) / c i)) / 2 / c i) by pd.
  nev. lp. rewrite Rabs_div, (Rabs_right (c i)) by lra. field. lra.
- intros i Hi. specialize (H i Hi). now apply dist0_distribution, laplace_dist.
Qed.
Lemma C41_logistic_l :
forall (obs mu sigma : arr) (s : list nat) (y m c : list nat -> R),
  params s [(obs, fins y); (mu, fins m); (sigma, fins c)]%list -> (forall i, inb s i -> 0 < c i) ->
  returns (logs_logistic obs mu sigma) s (fun i => logp (logistic_pdf (m i) (c i) (y i))) /\
  forall i, inb s i -> distribution (logistic_cdf (m i) (c i)) (logistic_pdf (m i) (c i)) m_infty p_infty.
Proof.
intros obs mu sigma s y m c P H. split.
- ret P. specialize (H i Hi). unfold logistic_pdf. set (w := (y i - m i) / c i). pose proof (exp_pos (- w)).
  assert (0 < (1 + exp (- w)) * (1 + exp (- w))) by nra.
  assert (0 < exp (- w) / ((1 + exp (- w)) * (1 + exp (- w))) / c i) by pd.
  nev. fold w. nev. lp. field. lra.
- intros i Hi. specialize (H i Hi). now apply dist0_distribution, logistic_dist.
Qed.
Lemma C41_normal_l :
forall (obs mu sigma : arr) (s : list nat) (y m c : list nat -> R),
  params s [(obs, fins y); (mu, fins m); (sigma, fins c)]%list -> (forall i, inb s i -> 0 < c i) ->
  returns (logs_normal obs mu sigma true) s (fun i => logp (normal_pdf (m i) (c i) (y i))) /\
  forall i, inb s i -> distribution (normal_cdf (m i) (c i)) (normal_pdf (m i) (c i)) m_infty p_infty.
Proof.
intros obs mu sigma s y m c P H. split.
- retn P. specialize (H i Hi). unfold normal_pdf. set (w := (y i - m i) / c i). pose proof (phi_pos w).
  assert (0 < phi w / c i) by (apply Rdiv_lt_0_compat; lra). nev. fold w. nev. replace (-1 * ln (phi w / c i)) with (- ln (phi w / c i)) by ring. lp. reflexivity.
- intros i Hi. specialize (H i Hi). now apply dist0_distribution, normal_dist.
Qed.
Lemma C41_2pnormal_l :
forall (obs scale1 scale2 location : arr) (s : list nat) (y p q m : list nat -> R),
  params s [(obs, fins y); (scale1, fins p); (scale2, fins q); (location, fins m)]%list -> (forall i, inb s i -> 0 < p i /\ 0 < q i) ->
  returns (logs_2pnormal obs scale1 scale2 location) s (fun i => logp (normal2p_pdf (p i) (q i) (m i) (y i))) /\
  forall i, inb s i -> distribution (normal2p_cdf (p i) (q i) (m i)) (normal2p_pdf (p i) (q i) (m i)) m_infty p_infty.
Proof.
intros obs scale1 scale2 location s y p q m P H. split.
- retn P. destruct (H i Hi) as [Hp Hq]. unfold normal2p_pdf. assert (0 < p i + q i) by lra.
  assert (forall c, 0 < c -> 0 < phi ((y i - m i) / c) * (2 * c / (p i + q i)) / c) as K.
  { intros c Hc. apply Rdiv_lt_0_compat; [apply Rmult_lt_0_compat; [apply phi_pos|apply Rdiv_lt_0_compat; lra]|lra]. }
  pose proof (K _ Hp). pose proof (K _ Hq). unfold fins.
  destruct (Rlt_dec (y i - m i) 0), (Rlt_dec (y i) (m i)); try lra; nev; lp; field; lra.
- intros i Hi. specialize (H i Hi). destruct H. now apply dist0_distribution, normal2p_dist.
Qed.
Lemma C41_lognormal_l :
forall (obs mulog sigmalog : arr) (s : list nat) (y m c : list nat -> R),
  params s [(obs, fins y); (mulog, fins m); (sigmalog, fins c)]%list -> (forall i, inb s i -> 0 < c i) ->
  returns (logs_lognormal obs mulog sigmalog) s (fun i => logp (exp_pdf (normal_pdf (m i) (c i)) (y i))) /\
  forall i, inb s i -> distribution (exp_cdf (normal_cdf (m i) (c i))) (exp_pdf (normal_pdf (m i) (c i))) 0 p_infty.
Proof.
intros obs mulog sigmalog s y m c P H. split.
- retn P. specialize (H i Hi). unfold exp_pdf, normal_pdf. destruct (Rle_dec (y i) 0); nev; [now apply logp_0|].
  set (w := (ln (y i) - m i) / c i). pose proof (phi_pos w). assert (0 < phi w / c i / y i) by pd. nev. fold w. nev. lp. reflexivity.
- intros i Hi. specialize (H i Hi). now apply dist0_distribution, dist0_exp, normal_dist.
Qed.
Lemma C41_loglaplace_l :
forall (obs locationlog scalelog : arr) (s : list nat) (y m c : list nat -> R),
  params s [(obs, fins y); (locationlog, fins m); (scalelog, fins c)]%list -> (forall i, inb s i -> 0 < c i) ->
  returns (logs_loglaplace obs locationlog scalelog) s (fun i => logp (exp_pdf (laplace_pdf (m i) (c i)) (y i))) /\
  forall i, inb s i -> distribution (exp_cdf (laplace_cdf (m i) (c i))) (exp_pdf (laplace_pdf (m i) (c i))) 0 p_infty.
Proof.
intros obs locationlog scalelog s y m c P H. split.
- ret P. specialize (H i Hi). unfold exp_pdf, laplace_pdf. destruct (Rle_dec (y i) 0); nev; [now apply logp_0|].
  set (w := (ln (y i) - m i) / c i). assert (0 < exp (- Rabs w) / 2 / c i / y i) by pd. nev. fold w. nev. lp. unfold w. rewrite Rabs_div, (Rabs_right (c i)) by lra. unfold laplace_pdf. field. lra.
- intros i Hi. specialize (H i Hi). now apply dist0_distribution, dist0_exp, laplace_dist.
Qed.
Lemma C41_loglogistic_l :
forall (obs mulog sigmalog : arr) (s : list nat) (y m c : list nat -> R),
  params s [(obs, fins y); (mulog, fins m); (sigmalog, fins c)]%list -> (forall i, inb s i -> 0 < c i) ->
  returns (logs_loglogistic obs mulog sigmalog) s (fun i => logp (exp_pdf (logistic_pdf (m i) (c i)) (y i))) /\
  forall i, inb s i -> distribution (exp_cdf (logistic_cdf (m i) (c i))) (exp_pdf (logistic_pdf (m i) (c i))) 0 p_infty.
Proof.
intros obs mulog sigmalog s y m c P H. split.
- ret P. specialize (H i Hi). unfold exp_pdf, logistic_pdf. destruct (Rle_dec (y i) 0); nev; [now apply logp_0|].
  set (w := (ln (y i) - m i) / c i). pose proof (exp_pos (- w)). assert (0 < (1 + exp (- w)) * (1 + exp (- w))) by nra. assert (0 < exp (- w) / ((1 + exp (- w)) * (1 + exp (- w))) / c i / y i) by pd. nev. fold w. nev. lp. unfold logistic_pdf. fold w. field. repeat split; lra.
- intros i Hi. specialize (H i Hi). now apply dist0_distribution, dist0_exp, logistic_dist.
Qed.
Lemma C41_uniform_l :
forall (obs min max : arr) (s : list nat) (y a b : list nat -> R),
  params s [(obs, fins y); (min, fins a); (max, fins b)]%list -> (forall i, inb s i -> a i < b i) ->
  returns (logs_uniform obs min max) s (fun i => logp (uniform_pdf (a i) (b i) (y i))) /\
  forall i, inb s i -> distribution (uniform_cdf (a i) (b i) 0 0) (uniform_pdf (a i) (b i)) (a i) (b i).
Proof.
intros obs min max s y a b P H. split.
- ret P. specialize (H i Hi). unfold uniform_pdf. assert (0 < 1 / (b i - a i)) by (apply Rdiv_lt_0_compat; lra).
  destruct (Rlt_dec (y i) (a i)), (Rlt_dec (b i) (y i)); try lra; nev; rewrite ?log_0; try (now apply logp_0). lp. field. lra.
- intros i Hi. specialize (H i Hi). now apply dist0_distribution, uniform_dist.
Qed.
Lemma C41_exponential2_l :
forall (obs location scale : arr) (s : list nat) (y m c : list nat -> R),
  params s [(obs, fins y); (location, fins m); (scale, fins c)]%list -> dt obs = DFloat -> sh obs = s -> (forall i, inb s i -> 0 < c i) ->
  returns (logs_exponential2 obs location scale) s (fun i => logp (ls_pdf (exponential_pdf 1) (m i) (c i) (y i))) /\
  forall i, inb s i -> distribution (ls_cdf (exponential_cdf 1) (m i) (c i)) (ls_pdf (exponential_pdf 1) (m i) (c i)) (m i) p_infty.
Proof.
intros obs location scale s y m c P D S H. split.
- eapply ret_ext; [exact (exponential2_value _ _ _ _ _ _ _ P D S)|]. intros i Hi. specialize (H i Hi). unfold ls_pdf, exponential_pdf. cbv beta.
  assert (m i + c i * ((y i - m i) / c i) = y i) as E by (field; lra). assert (0 < 1 / c i) by (apply Rdiv_lt_0_compat; lra).
  destruct (Rlt_dec ((y i - m i) / c i) 0).
  + assert (y i - m i < 0) by nra. nev. apply logp_0. unfold Rdiv. ring.
  + assert (~ y i - m i < 0) by nra. assert (0 < 1 / c i * exp (- (1 / c i) * (y i - m i))) by (apply Rmult_lt_0_compat; auto; apply exp_pos). nev. lp.
    replace (- (1 / c i) * (y i - m i)) with (- (1 * ((y i - m i) / c i))) by (field; lra). field. lra.
- intros i Hi. specialize (H i Hi). apply dist0_distribution. replace (Finite (m i)) with (ls_end (m i) (c i) 0) by (simpl; f_equal; ring). apply (dist0_ls _ _ 0 p_infty); auto. apply exponential_dist. lra.
Qed.
Lemma C41_gpd_l :
forall (obs shape location scale : arr) (s : list nat) (y k m c : list nat -> R),
  params s [(obs, fins y); (shape, fins k); (location, fins m); (scale, fins c)]%list -> (forall i, inb s i -> 0 < c i /\ 1 + k i * ((y i - m i) / c i) <> 0) ->
  returns (logs_gpd obs shape location scale) s (fun i => logp (ls_pdf (gpd_pdf (k i)) (m i) (c i) (y i))) /\
  forall i, inb s i -> distribution (gpd_cdf (k i) (m i) (c i) 0) (ls_pdf (gpd_pdf (k i)) (m i) (c i)) (m i) (ls_end (m i) (c i) (gpd_end (k i))).
Proof.
intros obs shape location scale s y k m c P H. split.
- ret P. destruct (H i Hi) as [Hc Hn]. unfold ls_pdf, gpd_pdf. set (w := (y i - m i) / c i) in *. nev. fold w.
  assert (forall v, 0 < v -> 0 < v / c i) as Dv by (intros; apply Rdiv_lt_0_compat; auto).
  destruct (Rlt_dec w 0) as [W|W].
  { destruct (Rtotal_order (k i) 0) as [K|[K|K]]; nev; apply logp_0; unfold Rdiv; ring. }
  destruct (Req_EM_T (k i) 0) as [K|K].
  { pose proof (exp_pos (- w)). pose proof (Dv _ (exp_pos (- w))). nev. lp. reflexivity. }
  assert (- (k i + 1) / k i = - (1 / k i) - 1) as Ep by (field; auto).
  destruct (Rlt_dec 0 (1 + k i * w)) as [B|B].
  + rewrite pow0_pos by auto. assert (0 < Rpower (1 + k i * w) (- (1 / k i) - 1)) as Rp by apply exp_pos. pose proof (Dv _ Rp).
    destruct (Rlt_dec (k i) 0) as [K0|K0].
    * assert (w <= -1 / k i) by (apply (Rmult_le_reg_l (- k i)); [lra|]; replace (- k i * (-1 / k i)) with 1 by (field; lra); lra).
      nev. rewrite Ep. nev. lp. reflexivity.
    * nev. rewrite Ep. nev. lp. reflexivity.
  + assert (k i < 0) by nra. assert (-1 / k i < w) by (apply (Rmult_lt_reg_l (- k i)); [lra|]; replace (- k i * (-1 / k i)) with 1 by (field; lra); lra).
    rewrite pow0_neg by lra. nev. apply logp_0. unfold Rdiv; ring.
- intros i Hi. specialize (H i Hi). destruct H as [Hc _]. apply dist0_distribution. apply (dist0_ext (ls_cdf (gpd0_cdf (k i)) (m i) (c i)) (ls_pdf (gpd_pdf (k i)) (m i) (c i))); [intros; symmetry; now apply gpd_cdf_ls|reflexivity|].
  replace (Finite (m i)) with (ls_end (m i) (c i) 0) by (simpl; f_equal; ring). apply dist0_ls; auto. apply gpd_dist.
Qed.
Lemma C41_gev_l :
forall (obs shape location scale : arr) (s : list nat) (y k m c : list nat -> R),
  params s [(obs, fins y); (shape, fins k); (location, fins m); (scale, fins c)]%list -> (forall i, inb s i -> 0 < c i) ->
  returns (logs_gev obs shape location scale) s (fun i => logp (ls_pdf (gev_pdf (k i)) (m i) (c i) (y i))) /\
  forall i, inb s i -> distribution (ls_cdf (gev_cdf (k i)) (m i) (c i)) (ls_pdf (gev_pdf (k i)) (m i) (c i))
    (ls_end (m i) (c i) (gev_lower (k i))) (ls_end (m i) (c i) (gev_upper (k i))).
Proof.
intros obs shape location scale s y k m c P H. split.
- ret P. pose proof (H i Hi) as Hc. unfold ls_pdf, gev_pdf. set (w := (y i - m i) / c i) in *. nev. fold w.
  assert (forall v, 0 < v -> 0 < v / c i) as Dv by (intros; apply Rdiv_lt_0_compat; auto).
  destruct (Req_EM_T (k i) 0) as [K|K].
  { assert (0 < exp (- w) * exp (- exp (- w))) as Pp by (apply Rmult_lt_0_compat; apply exp_pos). pose proof (Dv _ Pp). nev. lp. reflexivity. }
  assert (- (k i + 1) / k i = - (1 / k i) - 1) as Ep by (field; auto). assert (-1 / k i = - (1 / k i)) as Eq by (field; auto).
  destruct (Rlt_dec 0 (1 + k i * w)) as [B|B].
  + assert (0 < Rpower (1 + k i * w) (- (1 / k i) - 1) * exp (- Rpower (1 + k i * w) (- (1 / k i)))) as Rp by (apply Rmult_lt_0_compat; apply exp_pos). pose proof (Dv _ Rp).
    rewrite (Rmult_comm (k i) w) in *. nev. rewrite Ep, Eq. nev. lp. reflexivity.
  + rewrite (Rmult_comm (k i) w) in *. nev. apply logp_0. unfold Rdiv; ring.
- intros i Hi. specialize (H i Hi). apply dist0_distribution, dist0_ls; auto. apply gev_dist.
Qed.
