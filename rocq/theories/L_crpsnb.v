(** The CRPS of the negative binomial distribution. *)
From Verif Require Export L_parseval L_crpspois L_crpsbeta L_crpst.
From Coq Require Import Psatz Lia.
From Coquelicot Require Import Coquelicot.
Open Scope R_scope.

(** * the distribution function *)
Lemma betainc_1 r : 0 < r -> r * Rbeta r 1 = 1 /\ forall t, 0 < t < 1 -> Rbetainc r 1 t = Rpower t r.
Proof.
  intros Hr. pose proof (Rbeta_pos r 1 Hr Rlt_0_1) as HB. set (G := fun t => r * Rbeta r 1 * Rbetainc r 1 t). set (g := fun t => r * Rpower t (r - 1)). set (H := fun t => Rpower t r).
  assert (forall t, inn 0 1 t -> is_derive G t (g t)) as DG.
  { intros t It. apply inn01 in It. unfold G, g. evar_last; [apply (is_derive_scal (Rbetainc r 1) t _ _ (Ibeta_der r 1 t Hr Rlt_0_1 It))|].
    unfold beta_f. replace (1 - 1) with 0 by ring. rewrite (Rpower_O (1 - t)) by lra. field. lra. }
  assert (forall t, inn 0 1 t -> is_derive H t (g t)) as DH by (intros t It; apply inn01 in It; apply L_improp.Rpower_der; lra).
  destruct (Ibeta_lims r 1 Hr Rlt_0_1) as [L0 L1].
  assert (filterlim H (at_right 0) (locally 0)) as H0.
  { eapply filterlim_ext_loc; [|exact (bf_lim0 r 0 Hr)]. exists (mkposreal 1 Rlt_0_1). intros t B Ht. unfold ball in B; simpl in B; unfold AbsRing_ball, minus, plus, opp, abs in B; simpl in B. apply Rabs_def2 in B. rewrite Rpower_O by lra. unfold H. ring. }
  assert (filterlim H (at_left 1) (locally 1)) as H1.
  { replace (locally 1) with (locally (H 1)) by (unfold H; f_equal; unfold Rpower; rewrite ln_1, Rmult_0_r, exp_0; auto). eapply filterlim_filter_le_1; [apply filter_le_within|]. apply (ex_derive_continuous H). eexists. apply L_improp.Rpower_der. lra. }
  assert (filterlim G (at_right 0) (locally 0)) as G0.
  { replace (locally 0) with (locally (scal (r * Rbeta r 1) 0)) by (f_equal; apply Rmult_0_r). apply (filterlim_comp _ _ _ (Rbetainc r 1) (fun u => r * Rbeta r 1 * u) _ (locally 0)); [exact L0|apply (filterlim_scal_r (r * Rbeta r 1) 0)]. }
  assert (filterlim G (at_left 1) (locally (r * Rbeta r 1))) as G1.
  { replace (locally (r * Rbeta r 1)) with (locally (scal (r * Rbeta r 1) 1)) by (f_equal; apply Rmult_1_r). apply (filterlim_comp _ _ _ (Rbetainc r 1) (fun u => r * Rbeta r 1 * u) _ (locally 1)); [exact L1|apply (filterlim_scal_r (r * Rbeta r 1) 1)]. }
  assert (r * Rbeta r 1 = 1) as E by (apply (prim_end 0 1 G g H 0 (r * Rbeta r 1) 1); auto; simpl; lra).
  split; auto. intros t Ht. assert (G t = H t) as K by (apply (prim_eq 0 1 G g H 0 t); auto; try (simpl; lra); split; simpl; lra). unfold G in K. rewrite E, Rmult_1_l in K. exact K.
Qed.
Lemma rising_beta r k : 0 < r -> rising r (S k) * (INR (S k) * Rbeta (INR (S k)) r) = 1.
Proof.
  intros Hr. induction k as [|k IH].
  - destruct (betainc_1 r Hr) as [E _]. rewrite (Rbeta_sym 1 r) in E by lra. simpl. lra.
  - assert (0 < INR (S k)) as P by (apply lt_0_INR; lia). pose proof (beta_rec (INR (S k)) r P Hr) as E. pose proof (Rbeta_pos (INR (S k)) r P Hr) as PB.
    change (rising r (S (S k))) with (rising r (S k) * (r + INR (S k)) / INR (S (S k))). assert (INR (S (S k)) = INR (S k) + 1) as ES by (rewrite (S_INR (S k)); auto). rewrite ES.
    set (a := INR (S k)) in *. set (c := rising r (S k)) in *. replace (c * (r + a) / (a + 1) * ((a + 1) * Rbeta (a + 1) r)) with (c * ((a + r) * Rbeta (a + 1) r)) by (field; lra). rewrite E. exact IH.
Qed.
Lemma inc_nb r p k : 0 < r -> 0 < p <= 1 -> Rbetainc r (INR k + 1) p = sumn (S k) (negbinom_pmf r p).
Proof.
  intros Hr Hp. destruct (Req_dec p 1) as [->|N].
  - unfold Rbetainc. destruct (Rle_dec 1 0); [lra|]. destruct (Rle_dec 1 1); [|lra]. unfold negbinom_pmf. induction k as [|k IH].
    + rewrite sumn_S, sumn_0. simpl. unfold Rpower. rewrite ln_1, Rmult_0_r, exp_0. ring.
    + rewrite sumn_S, <- IH. rewrite Rminus_diag_eq, pow_i by (auto; lia). ring.
  - assert (0 < p < 1) as Hp' by lra. clear Hp N. induction k as [|k IH].
    + replace (INR 0 + 1) with 1 by (simpl; ring). rewrite (proj2 (betainc_1 r Hr) p Hp'), sumn_S, sumn_0. unfold negbinom_pmf. simpl. ring.
    + rewrite sumn_S, <- IH. rewrite <- (S_INR k). assert (0 < INR (S k)) as P by (apply lt_0_INR; lia). rewrite (betainc_sym r (INR (S k) + 1) p), (betainc_sym r (INR (S k)) p) by lra.
      rewrite (betainc_rec (INR (S k)) r P Hr) by lra. replace (1 - (1 - p)) with p by ring. rewrite (Rpower_pow (S k) (1 - p)) by lra. pose proof (Rbeta_pos (INR (S k)) r P Hr) as PB.
      pose proof (rising_beta r k Hr) as E. assert (0 < INR (S k) * Rbeta (INR (S k)) r) as PQ by (apply Rmult_lt_0_compat; auto). set (B := INR (S k) * Rbeta (INR (S k)) r) in *.
      assert (negbinom_pmf r p (S k) = (1 - p) ^ S k * Rpower p r / B) as ->; [|ring]. unfold negbinom_pmf. replace (rising r (S k)) with (/ B); [field; lra|]. apply (Rmult_eq_reg_r B); [|lra]. rewrite E. field. lra.
Qed.
(** * size bias *)
Lemma rising_bias r k : INR (S k) * rising r (S k) = r * rising (r + 1) k.
Proof.
  induction k as [|k IH]; [simpl; field|]. change (rising r (S (S k))) with (rising r (S k) * (r + INR (S k)) / INR (S (S k))). change (rising (r + 1) (S k)) with (rising (r + 1) k * (r + 1 + INR k) / INR (S k)).
  pose proof (lt_0_INR (S k) ltac:(lia)). pose proof (lt_0_INR (S (S k)) ltac:(lia)). replace (rising r (S k)) with (r * rising (r + 1) k / INR (S k)) by (rewrite <- IH; field; lra). rewrite (S_INR k) in *. field. lra.
Qed.
Lemma rising_pascal r k : rising r (S k) = rising (r + 1) (S k) - rising (r + 1) k.
Proof.
  pose proof (rising_bias r k) as E. pose proof (lt_0_INR (S k) ltac:(lia)). change (rising (r + 1) (S k)) with (rising (r + 1) k * (r + 1 + INR k) / INR (S k)).
  apply (Rmult_eq_reg_l (INR (S k))); [|lra]. rewrite E. rewrite (S_INR k) in *. field. lra.
Qed.
Lemma Rpower_S p r : 0 < p -> Rpower p (r + 1) = p * Rpower p r.
Proof. intros Hp. rewrite Rpower_plus, Rpower_1 by auto. ring. Qed.
Lemma nb_bias r p k : 0 < p -> INR (S k) * negbinom_pmf r p (S k) = r * (1 - p) / p * negbinom_pmf (r + 1) p k.
Proof.
  intros Hp. unfold negbinom_pmf. rewrite Rpower_S by auto. pose proof (rising_bias r k) as E. change ((1 - p) ^ S k) with ((1 - p) * (1 - p) ^ k).
  replace (INR (S k) * (rising r (S k) * Rpower p r * ((1 - p) * (1 - p) ^ k))) with (INR (S k) * rising r (S k) * (Rpower p r * ((1 - p) * (1 - p) ^ k))) by ring. rewrite E. field. lra.
Qed.
Lemma nb_F r p m : 0 < p -> sumn (S m) (negbinom_pmf r p) = sumn (S m) (negbinom_pmf (r + 1) p) + (1 - p) / p * negbinom_pmf (r + 1) p m.
Proof.
  intros Hp. induction m as [|m IH].
  - rewrite !sumn_S, !sumn_0. unfold negbinom_pmf. rewrite Rpower_S by auto. simpl. field. lra.
  - rewrite sumn_S, IH, (sumn_S (S m) (negbinom_pmf (r + 1) p)). assert (negbinom_pmf r p (S m) = (negbinom_pmf (r + 1) p (S m) - (1 - p) * negbinom_pmf (r + 1) p m) / p) as ->; [|field; lra].
    unfold negbinom_pmf. rewrite Rpower_S, rising_pascal by auto. change ((1 - p) ^ S m) with ((1 - p) * (1 - p) ^ m). field. lra.
Qed.
(** * the hypergeometric function by the substitution t = sin^2 (th / 2) *)
Lemma beta_half_32 : Rbeta (1 / 2) (2 - 1 / 2) = PI / 2.
Proof.
  replace (2 - 1 / 2) with (1 / 2 + 1) by field. rewrite (Rbeta_sym (1 / 2 + 1) (1 / 2)) by lra. pose proof (beta_rec (1 / 2) (1 / 2) ltac:(lra) ltac:(lra)) as E.
  pose proof (beta_gamma (1 / 2) (1 / 2) ltac:(lra) ltac:(lra)) as B. rewrite gamma_half in B. replace (1 / 2 + 1 / 2) with (INR 0 + 1) in B by (simpl; field). rewrite gamma_fact in B. simpl in B.
  rewrite sqrt_sqrt in B by (left; apply PI_RGT_0). lra.
Qed.
Lemma asin_der (x : R) : -1 < x < 1 -> is_derive asin x (1 / sqrt (1 - (x)²)).
Proof. intros H. apply is_derive_Reals. rewrite <- (derive_pt_asin x H). unfold derive_pt. destruct (derivable_pt_asin x H); auto. Qed.
Section euler.
Variables (a z W : R).
Hypothesis Hz : 0 <= z.
Let f th := (1 + cos th) * Rpower (1 + z * (1 - cos th) / 2) (- a).
Hypothesis HW : is_RInt f 0 PI W.
Let Ph x := RInt f 0 x.
Let T t := 2 * asin (sqrt t).
Lemma f_cont (x : R) : continuous f x.
Proof.
  apply (ex_derive_continuous (V := R_NormedModule)). unfold f, Rpower. auto_derive. pose proof (COS_bound x). assert (0 <= z * (1 - cos x)) by (apply Rmult_le_pos; lra). unfold Rdiv in *. lra.
Qed.
Lemma Ph_der (x : R) : is_derive Ph x (f x).
Proof.
  apply (is_derive_RInt f Ph 0 x); [|apply f_cont]. exists (mkposreal 1 Rlt_0_1). intros y _. apply (RInt_correct (V := R_CompleteNormedModule)). apply (ex_RInt_continuous (V := R_CompleteNormedModule)). intros. apply f_cont.
Qed.
Lemma T_der (t : R) : 0 < t < 1 -> is_derive T t (/ (sqrt t * sqrt (1 - t))).
Proof.
  intros Ht. pose proof (sqrt_lt_R0 t ltac:(lra)) as P. pose proof (sqrt_lt_R0 (1 - t) ltac:(lra)) as P'. assert (sqrt t < 1) as L by (rewrite <- sqrt_1; apply sqrt_lt_1; lra).
  unfold T. evar_last.
  - apply (is_derive_scal (fun t => asin (sqrt t)) t 2 (/ (2 * sqrt t) * (1 / sqrt (1 - (sqrt t)²)))). apply (is_derive_comp asin sqrt t (1 / sqrt (1 - (sqrt t)²)) (/ (2 * sqrt t))).
    + apply asin_der. lra.
    + apply is_derive_Reals. apply derivable_pt_lim_sqrt. lra.
  - rewrite Rsqr_sqrt by lra. field. lra.
Qed.
Lemma T_cos t : 0 <= t <= 1 -> cos (T t) = 1 - 2 * t.
Proof.
  intros Ht. unfold T. rewrite cos_2a_sin. assert (sqrt t <= 1) as L by (rewrite <- sqrt_1; apply sqrt_le_1; lra). pose proof (sqrt_pos t). rewrite sin_asin by lra. rewrite Rmult_assoc, sqrt_sqrt by lra. ring.
Qed.
Lemma asin_cont_0 : filterlim (fun t => Ph (T t)) (at_right 0) (locally 0).
Proof.
  assert (T 0 = 0) as E by (unfold T; rewrite sqrt_0, asin_0; ring). replace 0 with (Ph (T 0)) at 2 by (rewrite E; unfold Ph; apply (RInt_point (V := R_CompleteNormedModule))).
  apply (filterlim_comp _ _ _ T Ph _ (locally (T 0))); [|apply (ex_derive_continuous Ph); eexists; apply Ph_der].
  unfold T. apply (filterlim_comp _ _ _ (fun t => asin (sqrt t)) (fun u => 2 * u) _ (locally (asin (sqrt 0)))); [|apply (ex_derive_continuous (fun u => 2 * u)); auto_derive; auto].
  apply (filterlim_comp _ _ _ sqrt asin _ (locally (sqrt 0))); [eapply filterlim_filter_le_1; [apply filter_le_within|]; apply continuous_sqrt|].
  rewrite sqrt_0. apply (ex_derive_continuous asin). exists (1 / sqrt (1 - (0)²)). apply asin_der. lra.
Qed.
Lemma euler_int : is_RInt_gen (fun t => beta_f (1 / 2) (2 - 1 / 2) t * Rpower (1 - - z * t) (- a)) (at_right 0) (at_left 1) (W / 2).
Proof.
  replace (W / 2) with (1 / 2 * W - 1 / 2 * 0) by field. apply (prim_gen _ (fun t => 1 / 2 * Ph (T t)) (at_right 0) (at_left 1)).
  - apply (Filter_prod _ _ _ (fun x => 0 < x < 1 / 2) (fun y => 1 / 2 < y < 1)).
    + exists (mkposreal (1 / 2) ltac:(lra)). intros t B Ht. unfold ball in B; simpl in B; unfold AbsRing_ball, minus, plus, opp, abs in B; simpl in B. apply Rabs_def2 in B. lra.
    + exists (mkposreal (1 / 2) ltac:(lra)). intros t B Ht. unfold ball in B; simpl in B; unfold AbsRing_ball, minus, plus, opp, abs in B; simpl in B. apply Rabs_def2 in B. lra.
    + intros x y Hx Hy. simpl. apply (is_RInt_derive (V := R_CompleteNormedModule) (fun t => 1 / 2 * Ph (T t))).
      * intros t Ht. rewrite Rmin_left, Rmax_right in Ht by lra. assert (0 < t < 1) as Ht' by lra. pose proof (sqrt_lt_R0 t ltac:(lra)) as P. pose proof (sqrt_lt_R0 (1 - t) ltac:(lra)) as P'.
        evar_last; [apply (is_derive_scal (fun t => Ph (T t)) t (1 / 2) (/ (sqrt t * sqrt (1 - t)) * f (T t))); apply (is_derive_comp Ph T t (f (T t)) (/ (sqrt t * sqrt (1 - t)))); [apply Ph_der|now apply T_der]|].
        unfold f, beta_f. rewrite T_cos by lra. replace (1 + z * (1 - (1 - 2 * t)) / 2) with (1 - - z * t) by field. replace (1 / 2 - 1) with (- (/ 2)) by field. rewrite (Rpower_Ropp t), (Rpower_sqrt t) by lra.
        replace (2 - 1 / 2 - 1) with (/ 2) by field. rewrite Rpower_sqrt by lra. replace (1 + (1 - 2 * t)) with (2 * (sqrt (1 - t) * sqrt (1 - t))) by (rewrite sqrt_sqrt by lra; ring). match goal with |- ?l = ?r => change (@eq R l r) end. field. lra.
      * intros t Ht. rewrite Rmin_left, Rmax_right in Ht by lra. apply (ex_derive_continuous (V := R_NormedModule)). unfold beta_f, Rpower. auto_derive. assert (0 <= z * t) by (apply Rmult_le_pos; lra). repeat split; lra.
  - apply (filterlim_comp _ _ _ (fun t => Ph (T t)) (fun u => 1 / 2 * u) _ (locally 0)); [apply asin_cont_0|apply (ex_derive_continuous (fun u => 1 / 2 * u)); auto_derive; auto].
  - apply (filterlim_comp _ _ _ (fun t => Ph (T t)) (fun u => 1 / 2 * u) _ (locally W)); [|apply (ex_derive_continuous (fun u => 1 / 2 * u)); auto_derive; auto].
    assert (Ph PI = W) as <- by (apply is_RInt_unique; exact HW).
    apply (filterlim_comp _ _ _ T Ph _ (locally PI)); [|apply (ex_derive_continuous Ph); eexists; apply Ph_der].
    apply (filterlim_ext_loc (fun t => PI - 2 * asin (sqrt (1 - t)))).
    + exists (mkposreal 1 Rlt_0_1). intros t B Ht. unfold ball in B; simpl in B; unfold AbsRing_ball, minus, plus, opp, abs in B; simpl in B. apply Rabs_def2 in B. unfold T.
      pose proof (sqrt_lt_R0 t ltac:(lra)) as P. pose proof (sqrt_lt_R0 (1 - t) ltac:(lra)) as P'. assert (sqrt t < 1) as L by (rewrite <- sqrt_1; apply sqrt_lt_1; lra).
      assert (PI / 2 - asin (sqrt t) = asin (sqrt (1 - t))) as E; [|lra].
      pose proof (asin_bound (sqrt t)) as Ab. assert (0 < asin (sqrt t)) as A0 by (rewrite asin_atan by lra; rewrite <- atan_0; apply atan_increasing; apply Rdiv_lt_0_compat; auto; apply sqrt_lt_R0; rewrite Rsqr_sqrt; lra).
      rewrite <- (asin_sin (PI / 2 - asin (sqrt t))) by lra. f_equal. rewrite sin_shift, cos_asin by lra. f_equal. rewrite Rsqr_sqrt by lra. reflexivity.
    + replace (locally PI) with (locally (PI - 2 * asin (sqrt 0))) by (f_equal; rewrite sqrt_0, asin_0; ring).
      apply (filterlim_comp _ _ _ (fun t => asin (sqrt (1 - t))) (fun u => PI - 2 * u) _ (locally (asin (sqrt 0)))); [|apply (ex_derive_continuous (fun u => PI - 2 * u)); auto_derive; auto].
      apply (filterlim_comp _ _ _ (fun t => sqrt (1 - t)) asin _ (locally (sqrt 0))).
      * replace (sqrt 0) with (sqrt (1 - 1)) by (f_equal; ring). eapply filterlim_filter_le_1; [apply filter_le_within|]. apply (continuous_comp (fun t => 1 - t) sqrt); [apply (ex_derive_continuous (fun t => 1 - t)); auto_derive; auto|apply continuous_sqrt].
      * rewrite sqrt_0. apply (ex_derive_continuous asin). exists (1 / sqrt (1 - (0)²)). apply asin_der. lra.
Qed.
Lemma hyp_euler : Rhyp2f1 a (1 / 2) 2 (- z) = W / PI.
Proof.
  unfold Rhyp2f1. rewrite beta_half_32. rewrite (is_RInt_gen_unique _ _ euler_int). pose proof PI_RGT_0. field. lra.
Qed.
End euler.
Lemma nb_hyp a p W V : 0 < a -> 0 < p <= 1 -> is_series (fun k => negbinom_pmf a p k * negbinom_pmf a p k) W -> is_series (fun k => negbinom_pmf a p k * negbinom_pmf a p (S k)) V ->
  Rhyp2f1 a (1 / 2) 2 (- (4 * (1 - p) / p ^ 2)) = W + V.
Proof.
  intros Ha Hp HW HV. set (c := Rpower p a). assert (0 < c) as Pc by apply exp_pos. assert (0 < p * p) as Pp by (apply Rmult_lt_0_compat; lra).
  assert (is_series (fun k => (rising a k * (1 - p) ^ k) * (rising a k * (1 - p) ^ k)) (/ (c * c) * W)) as KW.
  { eapply is_series_ext; [|exact (is_series_scal (/ (c * c)) _ _ HW)]. intros k. unfold negbinom_pmf, scal; simpl; unfold mult; simpl. fold c. match goal with |- ?l = ?r => change (@eq R l r) end. field. lra. }
  assert (is_series (fun k => (rising a k * (1 - p) ^ k) * (rising a (S k) * (1 - p) ^ S k)) (/ (c * c) * V)) as KV.
  { eapply is_series_ext; [|exact (is_series_scal (/ (c * c)) _ _ HV)]. intros k. unfold negbinom_pmf. fold c. generalize (rising a (S k)), (rising a k), ((1 - p) ^ S k), ((1 - p) ^ k). intros u1 u2 u3 u4. unfold scal; simpl; unfold mult; simpl. match goal with |- ?l = ?r => change (@eq R l r) end. field. lra. }
  pose proof (circle_int a (1 - p) _ _ Ha ltac:(lra) KW KV) as K.
  rewrite (hyp_euler a (4 * (1 - p) / p ^ 2) (PI * (W + V))).
  - pose proof PI_RGT_0. field. lra.
  - apply Rmult_le_pos; [lra|]. left. apply Rinv_0_lt_compat. simpl. lra.
  - replace (PI * (W + V)) with (scal (c * c) (PI * (/ (c * c) * W + / (c * c) * V))) by (unfold scal; simpl; unfold mult; simpl; field; lra).
    eapply is_RInt_ext; [|exact (is_RInt_scal _ _ _ (c * c) _ K)]. intros th _. unfold scal; simpl; unfold mult; simpl.
    pose proof (cD_pos (1 - p) th ltac:(lra)) as PD.
    replace (1 + 4 * (1 - p) / (p * (p * 1)) * (1 - cos th) / 2) with (cD (1 - p) th * / (p * p)) by (unfold cD; field; lra).
    rewrite <- Rpower_mult_distr; [|lra|now apply Rinv_0_lt_compat]. assert (Rpower (/ (p * p)) (- a) = c * c) as ->.
    { unfold c, Rpower. rewrite ln_Rinv, ln_mult, <- exp_plus by lra. f_equal. ring. }
    match goal with |- ?l = ?r => change (@eq R l r) end. ring.
Qed.
Lemma nb_pmf r p : 0 < r -> 0 < p <= 1 -> pmf (negbinom_pmf r p).
Proof.
  intros Hr Hp. split; [|].
  - intros k. unfold negbinom_pmf. apply Rmult_le_pos; [apply Rmult_le_pos|]; [left; now apply rising_pos|left; apply exp_pos|apply pow_le; lra].
  - now apply negbinom_sum.
Qed.
Theorem nb_crps r p y : 0 < r -> 0 < p <= 1 ->
  is_crps (count_cdf (negbinom_pmf r p)) y (y * (2 * count_cdf (negbinom_pmf r p) y - 1) - r * (1 - p) * (p * (2 * count_cdf (negbinom_pmf (r + 1) p) (y - 1) - 1) + Rhyp2f1 (r + 1) (1 / 2) 2 (- (4 * (1 - p) / p ^ 2))) / p ^ 2).
Proof.
  intros Hr Hp. assert (pmf (negbinom_pmf (r + 1) p)) as Hq by (apply nb_pmf; lra).
  destruct (ex_sq _ (fun k => k) Hq) as [W HW]. destruct (ex_sq _ S Hq) as [V HV].
  rewrite (nb_hyp (r + 1) p W V) by (auto; lra).
  pose proof (biased_crps (negbinom_pmf r p) (negbinom_pmf (r + 1) p) (r * (1 - p) / p) (1 / p) W V (nb_pmf r p Hr Hp) Hq) as K.
  replace (y * _ - _) with (y * (2 * count_cdf (negbinom_pmf r p) y - 1) - 2 * (r * (1 - p) / p) * count_cdf (negbinom_pmf (r + 1) p) (y - 1) + r * (1 - p) / p - r * (1 - p) / p * (1 / p) * (W + V)) by (field; lra).
  apply K; auto.
  - intros k. apply nb_bias. lra.
  - intros m. rewrite (nb_F r p m), (nb_F r p (S m)) by lra. rewrite (sumn_S (S m) (negbinom_pmf (r + 1) p)). field. lra.
Qed.
