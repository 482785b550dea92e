(** The gamma function: recurrence, its relation to the beta function, duplication, Gamma(1/2). Everything is moved to the
    real line by x = exp t. *)
From Verif Require Export L_crpst L_gaussint L_crpslog.
From Coq Require Import Psatz.
From Coquelicot Require Import Coquelicot.
Open Scope R_scope.

Definition lg (a t : R) : R := exp (a * t - exp t).
Definition LG (a t : R) : R := Rgamma a * Rgammainc a (exp t).
Lemma lg_pos a t : 0 < lg a t. Proof. apply exp_pos. Qed.
Lemma lg_gf a t : gamma_f a (exp t) * exp t = lg a t.
Proof. unfold gamma_f, lg, Rpower. rewrite ln_exp, <- !exp_plus. f_equal. ring. Qed.
Lemma lg_S a t : exp t * lg a t = lg (a + 1) t.
Proof. unfold lg. rewrite <- exp_plus. f_equal. ring. Qed.
Lemma lg_cont (a t : R) : continuous (lg a) t.
Proof. apply (ex_derive_continuous (lg a)). unfold lg. auto_derive. auto. Qed.
Lemma lg_der (a t : R) : is_derive (lg a) t (a * lg a t - lg (a + 1) t).
Proof. rewrite <- lg_S. unfold lg. auto_derive; [auto|]. unfold Rminus. ring. Qed.
Lemma lg_bound a t : 0 < a -> lg a t <= exp (a * ln a - a).
Proof.
  intros Ha. assert (a * t - exp t <= a * ln a - a) as [L|L]; [|left; now apply exp_increasing|unfold lg; rewrite L; lra].
  pose proof (ln_le1 (exp t / a) ltac:(apply Rdiv_lt_0_compat; [apply exp_pos|lra])) as L. unfold Rdiv in L. rewrite ln_mult, ln_Rinv, ln_exp in L by (try apply exp_pos; try (apply Rinv_0_lt_compat); lra).
  apply (Rmult_le_compat_l a) in L; [|lra]. replace (a * (exp t * / a - 1)) with (exp t - a) in L by (field; lra). lra.
Qed.
Lemma full_lg a : 0 < a -> full (lg a) (LG a) (Rgamma a).
Proof.
  intros Ha. destruct (gam_dist0 a Ha) as (_ & _ & _ & _ & D & L0 & L1). pose proof (Rgamma_pos a Ha) as HG.
  assert (forall t, Rgamma a * gam_cdf0 a (exp t) = LG a t) as E by (intros t; unfold LG, gam_cdf0; pose proof (exp_pos t); destruct (Rle_dec (exp t) 0); [lra|auto]).
  split; [|split].
  - intros t. pose proof (exp_pos t) as Ht. apply (is_derive_ext (fun t => Rgamma a * gam_cdf0 a (exp t))); [exact E|].
    evar_last; [apply (is_derive_scal (fun t => gam_cdf0 a (exp t)) t (Rgamma a) (exp t * gam_pdf0 a (exp t))); apply (is_derive_comp (gam_cdf0 a) exp t (gam_pdf0 a (exp t)) (exp t)); [apply D; [exact Ht|exact I]|apply is_derive_exp]|].
    rewrite <- lg_gf. unfold gam_pdf0. destruct (Rle_dec (exp t) 0); [lra|]. field. lra.
  - apply (is_lim_ext (fun t => Rgamma a * gam_cdf0 a (exp t))); [exact E|]. replace (Finite 0) with (Finite (Rgamma a * 0)) by (f_equal; ring). apply lim_scal.
    intros P HP. specialize (L0 P HP). destruct L0 as [e He]. destruct (lim_exp_m0 (ball 0 e)) as [M HM]; [exists e; auto|].
    exists M. intros t Ht. apply He; [now apply HM|apply exp_pos].
  - apply (is_lim_ext (fun t => Rgamma a * gam_cdf0 a (exp t))); [exact E|]. replace (Finite (Rgamma a)) with (Finite (Rgamma a * 1)) by (f_equal; ring). apply lim_scal.
    eapply filterlim_comp; [exact is_lim_exp_p|exact L1].
Qed.
Lemma full_uniq_prim g G Z H W x : full g G Z -> full g H W -> G x = H x.
Proof. intros (D & L & _) (D' & L' & _). apply (prim_eq m_infty p_infty G g H 0 x); auto; [exact I|split; exact I]. Qed.
Lemma full_shift g G Z c : full g G Z -> full (fun x => g (x + c)) (fun x => G (x + c)) Z.
Proof. intros H. eapply full_ext; [| | |exact (full_aff g G Z 1 c Rlt_0_1 H)]; intros; cbv beta; rewrite ?Rmult_1_l; reflexivity. Qed.
(** * recurrence *)
Lemma lg_lims a : 0 < a -> is_lim (lg a) m_infty 0 /\ is_lim (lg a) p_infty 0.
Proof.
  intros Ha. split.
  - apply (is_lim_le_le_loc (fun _ => 0) (fun t => exp (a * t + 0)) _ m_infty 0); [|apply is_lim_const|now apply lim_exp_lin_m].
    exists 0. intros t _. split; [left; apply lg_pos|]. left. apply exp_increasing. pose proof (exp_pos t). lra.
  - apply (is_lim_le_le_loc (fun _ => 0) (fun t => exp ((a + 1) * ln (a + 1) - (a + 1)) * exp (-1 * t + 0)) _ p_infty 0); [|apply is_lim_const|].
    + exists 0. intros t _. split; [left; apply lg_pos|]. pose proof (lg_bound (a + 1) t ltac:(lra)) as B. rewrite <- lg_S in B.
      apply (Rmult_le_reg_l (exp t)); [apply exp_pos|]. replace (exp t * (exp ((a + 1) * ln (a + 1) - (a + 1)) * exp (-1 * t + 0))) with (exp ((a + 1) * ln (a + 1) - (a + 1))); auto.
      rewrite (Rmult_comm (exp t)), Rmult_assoc, <- exp_plus. replace (-1 * t + 0 + t) with 0 by ring. rewrite exp_0. ring.
    + replace (Finite 0) with (Finite (exp ((a + 1) * ln (a + 1) - (a + 1)) * 0)) by (f_equal; ring). apply lim_scal. apply lim_exp_lin. lra.
Qed.
Lemma full_rec a : 0 < a -> full (fun t => a * lg a t + -1 * lg (a + 1) t) (lg a) 0.
Proof.
  intros Ha. destruct (lg_lims a Ha) as [L0 L1]. split; [|split]; auto. intros t. evar_last; [apply lg_der|ring].
Qed.
Lemma gamma_rec a : 0 < a -> Rgamma (a + 1) = a * Rgamma a.
Proof.
  intros Ha. pose proof (full_lin _ _ _ _ _ _ a (-1) (full_lg a Ha) (full_lg (a + 1) ltac:(lra))) as K. pose proof (full_unique _ _ _ _ _ K (full_rec a Ha)). lra.
Qed.
Lemma LG_rec a t : 0 < a -> LG (a + 1) t = a * LG a t - lg a t.
Proof.
  intros Ha. pose proof (full_lin _ _ _ _ _ _ a (-1) (full_lg a Ha) (full_lg (a + 1) ltac:(lra))) as K. pose proof (full_uniq_prim _ _ _ _ _ t K (full_rec a Ha)) as E. cbv beta in E. lra.
Qed.
Lemma LG_bounds a t : 0 < a -> 0 < LG a t < Rgamma a.
Proof.
  intros Ha. destruct (full_lg a Ha) as (D & L0 & L1). assert (forall x y, x < y -> LG a x < LG a y) as Inc.
  { intros x y Hxy. destruct (MVT_gen (LG a) x y (lg a)) as (c & _ & E); [intros; apply D|intros; apply continuity_pt_filterlim; apply (ex_derive_continuous (LG a)); eexists; apply D|].
    pose proof (lg_pos a c). nra. }
  split.
  - assert (0 <= LG a (t - 1)); [|specialize (Inc (t - 1) t); lra].
    assert (Rbar_le 0 (LG a (t - 1))) as K; [|exact K]. apply (is_lim_le_loc (LG a) (fun _ => LG a (t - 1)) m_infty 0 (LG a (t - 1))); [|exact L0|apply is_lim_const].
    exists (t - 1). intros x Hx. left. now apply Inc.
  - assert (LG a (t + 1) <= Rgamma a); [|specialize (Inc t (t + 1)); lra].
    assert (Rbar_le (LG a (t + 1)) (Rgamma a)) as K; [|exact K]. apply (is_lim_le_loc (fun _ => LG a (t + 1)) (LG a) p_infty (LG a (t + 1)) (Rgamma a)); [|apply is_lim_const|exact L1].
    exists (t + 1). intros x Hx. left. now apply Inc.
Qed.
(** * existence of integrals of products *)
Lemma full_wex d D Z g K : (forall x, continuous d x) -> (forall x, 0 < d x) -> full d D Z -> (forall x, continuous g x) -> (forall x, 0 < g x <= K) ->
  exists G W, full (fun x => d x * g x) G W /\ is_RInt_gen (fun x => d x * g x) (Rbar_locally m_infty) (Rbar_locally p_infty) W.
Proof.
  intros Cd Pd (DD & L0 & L1) Cg Hg. assert (0 < K) as HK by (specialize (Hg 0); lra).
  assert (forall x y, x <= y -> D x <= D y) as Inc by (intros x y Hxy; apply (mono_der D d); auto; intros; left; auto).
  assert (forall x, 0 <= D x <= Z) as BD.
  { intros x. split.
    - assert (Rbar_le 0 (D x)) as B; [|exact B]. apply (is_lim_le_loc D (fun _ => D x) m_infty 0 (D x)); [|exact L0|apply is_lim_const]. exists x. intros t Ht. apply Inc. lra.
    - assert (Rbar_le (D x) Z) as B; [|exact B]. apply (is_lim_le_loc (fun _ => D x) D p_infty (D x) Z); [|apply is_lim_const|exact L1]. exists x. intros t Ht. apply Inc. lra. }
  destruct (improper_bounded m_infty p_infty 0 (conj I I) (fun x => d x * g x)) with (K := K * Z) as (W & HW & IW & G & DG & M0 & M1 & _).
  - intros x _. apply (continuous_mult d g); auto.
  - intros x _. apply Rmult_lt_0_compat; auto. apply Hg.
  - intros x _. assert (forall a b, ex_RInt (fun x => d x * g x) a b) as EX.
    { intros a b. apply (ex_RInt_continuous (V := R_CompleteNormedModule)). intros z _. apply (continuous_mult d g); auto. }
    assert (forall a b, a <= b -> 0 <= RInt (fun x => d x * g x) a b <= K * Z) as B.
    { intros a b Hab. assert (is_RInt (fun x => K * d x) a b (K * (D b - D a))) as IP by (apply (is_RInt_scal d a b K (D b - D a)); apply (is_RInt_derive D d); intros; auto). split.
      - apply RInt_ge_0; auto. intros z _. apply Rmult_le_pos; left; auto. apply Hg.
      - apply Rle_trans with (K * (D b - D a)).
        + rewrite <- (is_RInt_unique _ _ _ _ IP). apply RInt_le; auto; [eexists; exact IP|]. intros z _. specialize (Pd z). specialize (Hg z). nra.
        + pose proof (BD a). pose proof (BD b). apply Rmult_le_compat_l; lra. }
    apply Rabs_le. destruct (Rle_dec 0 x); [specialize (B 0 x ltac:(lra)); lra|]. specialize (B x 0 ltac:(lra)). rewrite <- opp_RInt_swap by auto. unfold opp; simpl. lra.
  - exists G, W. split; [split; [|split]|]; auto. intros x. apply DG. split; exact I.
Qed.
(** * beta and gamma *)
Section bg.
Variables a b : R.
Hypotheses (Ha : 0 < a) (Hb : 0 < b).
Let g v x := lg a x * LG b (x + v).
Let J v := RInt_gen (g v) (Rbar_locally m_infty) (Rbar_locally p_infty).
Let k v := exp (b * v - (a + b) * ln (1 + exp v)) * Rgamma (a + b).
Let C := b * exp (b * ln b - b) + exp ((b + 1) * ln (b + 1) - (b + 1)).
Lemma bg_full v : exists G, full (g v) G (J v).
Proof.
  destruct (full_wex (lg a) (LG a) (Rgamma a) (fun x => LG b (x + v)) (Rgamma b)) as (G & W & HG & IW).
  - apply lg_cont.
  - apply lg_pos.
  - now apply full_lg.
  - intros x. apply (ex_derive_continuous (fun x => LG b (x + v))). eexists. apply (full_shift _ _ _ v (full_lg b Hb)).
  - intros x. pose proof (LG_bounds b (x + v) Hb). lra.
  - exists G. assert (J v = W) as ->; [|exact HG]. apply (is_RInt_gen_unique (V := R_CompleteNormedModule) (Fa := Rbar_locally m_infty) _ _ IW).
Qed.
Lemma e1_pos v : 0 < 1 + exp v. Proof. pose proof (exp_pos v). lra. Qed.
Lemma bg_prod v x : lg a x * lg b (x + v) = exp (b * v - (a + b) * ln (1 + exp v)) * lg (a + b) (x + ln (1 + exp v)).
Proof.
  unfold lg. rewrite <- !exp_plus. f_equal. rewrite (exp_plus x (ln _)), exp_ln by apply e1_pos. rewrite (exp_plus x v). ring.
Qed.
Lemma bg_prod_full v : exists G, full (fun x => lg a x * lg b (x + v)) G (k v).
Proof.
  eexists. eapply full_ext; [|reflexivity| |exact (full_scal _ _ _ (exp (b * v - (a + b) * ln (1 + exp v))) (full_shift _ _ _ (ln (1 + exp v)) (full_lg (a + b) ltac:(lra))))].
  - intros x. cbv beta. symmetry. apply bg_prod.
  - reflexivity.
Qed.
Lemma lg_lip x y : Rabs (lg b y - lg b x) <= C * Rabs (y - x).
Proof.
  destruct (MVT_gen (lg b) x y (fun t => b * lg b t - lg (b + 1) t)) as (c & _ & E).
  - intros; apply lg_der.
  - intros. apply continuity_pt_filterlim, lg_cont.
  - rewrite E, Rabs_mult. apply Rmult_le_compat_r; [apply Rabs_pos|]. unfold C. pose proof (lg_bound b c Hb). pose proof (lg_bound (b + 1) c ltac:(lra)). pose proof (lg_pos b c). pose proof (lg_pos (b + 1) c). apply Rabs_le. split; nra.
Qed.
Lemma C_pos : 0 < C. Proof. unfold C. pose proof (exp_pos (b * ln b - b)). pose proof (exp_pos ((b + 1) * ln (b + 1) - (b + 1))). nra. Qed.
Lemma LG_taylor z h : Rabs (LG b (z + h) - LG b z - h * lg b z) <= C * (h * h).
Proof.
  destruct (full_lg b Hb) as (D & _ & _). destruct (MVT_gen (LG b) z (z + h) (lg b)) as (c & Hc & E).
  - intros; apply D.
  - intros. apply continuity_pt_filterlim. apply (ex_derive_continuous (LG b)). eexists; apply D.
  - rewrite E. replace (lg b c * (z + h - z) - h * lg b z) with (h * (lg b c - lg b z)) by ring. rewrite Rabs_mult.
    pose proof (lg_lip z c) as L. assert (Rabs (c - z) <= Rabs h) as K.
    { unfold Rmin, Rmax in Hc. destruct (Rle_dec z (z + h)); unfold Rabs; destruct (Rcase_abs (c - z)), (Rcase_abs h); lra. }
    pose proof (Rabs_pos h). pose proof (Rabs_pos (lg b c - lg b z)). pose proof C_pos. replace (h * h) with (Rabs h * Rabs h) by (rewrite <- Rabs_mult; apply Rabs_right; nra).
    apply (Rmult_le_compat_l C) in K; [|lra]. nra.
Qed.
Lemma bg_diff v h : Rabs (J (v + h) - J v - h * k v) <= C * Rgamma a * (h * h).
Proof.
  destruct (bg_full v) as [G HG]. destruct (bg_full (v + h)) as [G' HG']. destruct (bg_prod_full v) as [P HP]. pose proof (full_lg a Ha) as HA.
  pose proof (full_lin _ _ _ _ _ _ 1 (- h) (full_lin _ _ _ _ _ _ 1 (-1) HG' HG) HP) as K. pose proof (full_scal _ _ _ (C * (h * h)) HA) as K2. pose proof (full_scal _ _ _ (- (C * (h * h))) HA) as K3.
  assert (forall x, Rabs (1 * (1 * g (v + h) x + -1 * g v x) + - h * (lg a x * lg b (x + v))) <= C * (h * h) * lg a x) as B.
  { intros x. unfold g. replace (1 * (1 * (lg a x * LG b (x + (v + h))) + -1 * (lg a x * LG b (x + v))) + - h * (lg a x * lg b (x + v))) with (lg a x * (LG b (x + v + h) - LG b (x + v) - h * lg b (x + v))) by (replace (x + (v + h)) with (x + v + h) by ring; ring).
    rewrite Rabs_mult, (Rabs_right (lg a x)) by (left; apply lg_pos). pose proof (LG_taylor (x + v) h). pose proof (lg_pos a x). nra. }
  apply Rabs_le. split.
  - enough (- (C * (h * h)) * Rgamma a <= 1 * (1 * J (v + h) + -1 * J v) + - h * k v) by lra. eapply full_le; [|exact K3|exact K]. intros x. cbv beta. specialize (B x). apply Rabs_le_between in B. lra.
  - enough (1 * (1 * J (v + h) + -1 * J v) + - h * k v <= C * (h * h) * Rgamma a) by lra. eapply full_le; [|exact K|exact K2]. intros x. cbv beta. specialize (B x). apply Rabs_le_between in B. lra.
Qed.
Lemma bg_der (v : R) : is_derive J v (k v).
Proof.
  pose proof C_pos as HC. pose proof (Rgamma_pos a Ha) as HG. assert (0 < C * Rgamma a) as HP by now apply Rmult_lt_0_compat.
  apply is_derive_Reals. intros e He. exists (mkposreal (e / (C * Rgamma a)) (Rdiv_lt_0_compat _ _ He HP)). intros h Hh Hd. simpl in Hd.
  replace ((J (v + h) - J v) / h - k v) with ((J (v + h) - J v - h * k v) / h) by (field; auto).
  rewrite Rabs_div by auto. pose proof (bg_diff v h) as K. assert (0 < Rabs h) as P by now apply Rabs_pos_lt.
  apply Rle_lt_trans with (C * Rgamma a * Rabs h).
  - apply (Rmult_le_reg_r (Rabs h)); auto. unfold Rdiv. rewrite Rmult_assoc, Rinv_l, Rmult_1_r by lra. rewrite Rmult_assoc, <- Rabs_mult, (Rabs_right (h * h)) by nra. exact K.
  - apply (Rmult_lt_compat_l (C * Rgamma a)) in Hd; auto. replace (C * Rgamma a * (e / (C * Rgamma a))) with e in Hd by (field; split; lra). exact Hd.
Qed.
(** the limits *)
Lemma LG_le t : LG b t <= exp (b * t) / b.
Proof.
  destruct (full_lg b Hb) as (D & L0 & _). assert (0 <= exp (b * t) / b - LG b t); [|lra].
  assert (Rbar_le 0 (exp (b * t) / b - LG b t)) as K; [|exact K].
  assert (is_lim (fun t => exp (b * t + 0) * / b - LG b t) m_infty (0 * / b - 0)) as L by (apply is_lim_minus'; [apply lim_mult'; [now apply lim_exp_lin_m|apply is_lim_const]|exact L0]).
  apply (is_lim_le_loc (fun t => exp (b * t + 0) * / b - LG b t) (fun _ => exp (b * t) / b - LG b t) m_infty 0 (exp (b * t) / b - LG b t)); [|rewrite Rmult_0_l, Rminus_0_r in L; exact L|apply is_lim_const].
  exists t. intros x Hx. rewrite Rplus_0_r. change (exp (b * x) * / b) with (exp (b * x) / b).
  apply (mono_der (fun t => exp (b * t) / b - LG b t) (fun t => exp (b * t) - lg b t)); [lra| |].
  - intros z _. apply (is_derive_minus (fun t => exp (b * t) / b) (LG b) z (exp (b * z)) (lg b z)); [|apply D]. auto_derive; [auto|field; lra].
  - intros z _. unfold lg. enough (exp (b * z - exp z) < exp (b * z)) by lra. apply exp_increasing. pose proof (exp_pos z). lra.
Qed.
Lemma J_bound v : 0 <= J v <= exp (b * v) / b * Rgamma (a + b).
Proof.
  destruct (bg_full v) as [G HG]. split.
  - eapply full_pos; [|exact HG]. intros x. unfold g. apply Rmult_le_pos; [left; apply lg_pos|left; now apply LG_bounds].
  - eapply full_le; [|exact HG|exact (full_scal _ _ _ (exp (b * v) / b) (full_lg (a + b) ltac:(lra)))]. intros x. cbv beta. unfold g.
    replace (exp (b * v) / b * lg (a + b) x) with (lg a x * (exp (b * (x + v)) / b)); [apply Rmult_le_compat_l; [left; apply lg_pos|apply LG_le]|].
    unfold lg. replace ((a + b) * x - exp x) with ((a * x - exp x) + b * x) by ring. rewrite exp_plus. replace (b * (x + v)) with (b * v + b * x) by ring. rewrite exp_plus. field. lra.
Qed.
Lemma J_lim_m : is_lim J m_infty 0.
Proof.
  apply (is_lim_le_le_loc (fun _ => 0) (fun v => exp (b * v + 0) * (/ b * Rgamma (a + b))) _ m_infty 0).
  - exists 0. intros v _. rewrite Rplus_0_r. destruct (J_bound v) as [B1 B2]. split; [exact B1|]. unfold Rdiv in B2. lra.
  - apply is_lim_const.
  - replace (Finite 0) with (Finite (0 * (/ b * Rgamma (a + b)))) by (f_equal; ring). apply lim_mult'; [now apply lim_exp_lin_m|apply is_lim_const].
Qed.
(** the primitive of k: an incomplete beta integral *)
Let p v := logistic_cdf 0 1 v.
Let E v := Rgamma (a + b) * Rbeta b a * Rbetainc b a (p v).
Lemma pv v : p v = exp v / (1 + exp v) /\ 1 - p v = / (1 + exp v) /\ 0 < p v < 1.
Proof.
  pose proof (exp_pos v) as He. assert (p v = exp v / (1 + exp v)) as Ep.
  { unfold p, logistic_cdf. replace (- ((v - 0) / 1)) with (- v) by field. rewrite exp_Ropp. field. lra. }
  rewrite Ep. split; [reflexivity|]. split; [field; lra|]. split; [apply Rdiv_lt_0_compat; lra|]. apply (Rmult_lt_reg_r (1 + exp v)); [lra|]. unfold Rdiv. rewrite Rmult_assoc, Rinv_l by lra. lra.
Qed.
Lemma E_der (v : R) : is_derive E v (k v).
Proof.
  destruct (logistic_dist 0 1 ltac:(lra)) as (_ & _ & _ & _ & D & _). destruct (D v I I) as [Dp _]. destruct (pv v) as (P1 & P2 & P3). pose proof (exp_pos v) as He.
  assert (logistic_pdf 0 1 v = p v * (1 - p v)) as Lp.
  { rewrite P2, P1. unfold logistic_pdf. replace (- ((v - 0) / 1)) with (- v) by field. rewrite exp_Ropp. field. lra. }
  evar_last; [apply (is_derive_scal (fun v => Rbetainc b a (p v))); apply (is_derive_comp (Rbetainc b a) p v _ _ (Ibeta_der b a (p v) Hb Ha P3) Dp)|].
  pose proof (Rbeta_pos b a Hb Ha). unfold scal; simpl; unfold mult; simpl. rewrite Lp. unfold k, beta_f.
  assert (p v * (1 - p v) * (Rpower (p v) (b - 1) * Rpower (1 - p v) (a - 1)) = exp (b * v - (a + b) * ln (1 + exp v))) as X; [|rewrite <- X; field; lra].
  assert (p v = exp (ln (p v))) as X1 by (rewrite exp_ln; lra). assert (1 - p v = exp (ln (1 - p v))) as X2 by (rewrite exp_ln; lra).
  rewrite X1 at 1. rewrite X2 at 1. unfold Rpower. rewrite <- !exp_plus. f_equal.
  assert (ln (1 - p v) = - ln (1 + exp v)) as Y2 by (rewrite P2, ln_Rinv; [auto|lra]).
  assert (ln (p v) = v - ln (1 + exp v)) as Y1 by (rewrite P1; unfold Rdiv; rewrite ln_mult, ln_Rinv, ln_exp; try lra; apply Rinv_0_lt_compat; lra).
  rewrite Y1, Y2. ring.
Qed.
Lemma E_lims : is_lim E m_infty 0 /\ is_lim E p_infty (Rgamma (a + b) * Rbeta b a).
Proof.
  destruct (logistic_dist 0 1 ltac:(lra)) as (_ & _ & _ & _ & _ & L0 & L1). destruct (Ibeta_lims b a Hb Ha) as [I0 I1]. split.
  - replace (Finite 0) with (Finite (Rgamma (a + b) * Rbeta b a * 0)) by (f_equal; ring). apply lim_scal. intros P HP. specialize (I0 P HP). destruct I0 as [e He].
    destruct (L0 (ball 0 e)) as [M HM]; [exists e; auto|]. exists M. intros v Hv. apply He; [now apply HM|]. apply (pv v).
  - replace (Finite (Rgamma (a + b) * Rbeta b a)) with (Finite (Rgamma (a + b) * Rbeta b a * 1)) by (f_equal; ring). apply lim_scal. intros P HP. specialize (I1 P HP). destruct I1 as [e He].
    destruct (L1 (ball 1 e)) as [M HM]; [exists e; auto|]. exists M. intros v Hv. apply He; [now apply HM|]. apply (pv v).
Qed.
Lemma bg_conv v : exists G, full (fun x => lg a x * LG b (x + v)) G (E v).
Proof.
  destruct (bg_full v) as [G HG]. exists G. replace (E v) with (J v); [exact HG|]. destruct E_lims as [E0 _].
  apply (prim_eq m_infty p_infty J k E 0 v); [exact I|intros t _; apply bg_der|intros t _; apply E_der|exact J_lim_m|exact E0|split; exact I].
Qed.
End bg.
Lemma beta_gamma a b : 0 < a -> 0 < b -> Rgamma a * Rgamma b = Rgamma (a + b) * Rbeta a b.
Proof.
  intros Ha Hb. destruct (bg_conv a b Ha Hb 0) as [G HG]. destruct (bg_conv b a Hb Ha 0) as [G' HG'].
  pose proof (full_lin _ _ _ _ _ _ 1 1 HG HG') as K.
  assert (full (fun x => 1 * (lg a x * LG b (x + 0)) + 1 * (lg b x * LG a (x + 0))) (fun x => LG a x * LG b x) (Rgamma a * Rgamma b)) as K2.
  { destruct (full_lg a Ha) as (Da & A0 & A1). destruct (full_lg b Hb) as (Db & B0 & B1). split; [|split].
    - intros x. rewrite Rplus_0_r. evar_last; [apply (is_derive_mult (LG a) (LG b) x (lg a x) (lg b x)); [apply Da|apply Db|intros; apply Rmult_comm]|]. unfold plus, mult; simpl. ring.
    - replace (Finite 0) with (Finite (0 * 0)) by (f_equal; ring). now apply lim_mult'.
    - now apply lim_mult'. }
  pose proof (full_unique _ _ _ _ _ K K2) as E. rewrite <- E. replace (b + a) with (a + b) by ring. rewrite (Rbeta_sym a b Ha Hb) .
  assert (logistic_cdf 0 1 0 = 1 / 2) as L by (unfold logistic_cdf; replace (- ((0 - 0) / 1)) with 0 by field; rewrite exp_0; field). rewrite L.
  pose proof (betainc_sym a b (1 / 2) Ha Hb ltac:(lra)) as S. replace (1 - 1 / 2) with (1 / 2) in S by field. rewrite S. ring.
Qed.
(** * duplication *)
Lemma flim_aff (F : (R -> Prop) -> Prop) {FF : Filter F} (f : R -> R) (c k v : R) : filterlim f F (locally v) -> filterlim (fun t => c + k * f t) F (locally (c + k * v)).
Proof. intros H. apply (filterlim_comp _ _ _ f (fun z => c + k * z) F (locally v) _ H). apply (ex_derive_continuous (fun z => c + k * z) v). auto_derive. auto. Qed.
Lemma beta_dup a : 0 < a -> Rpower 4 a * Rbeta a a = 2 * Rbeta (1 / 2) a.
Proof.
  intros Ha. pose proof (Rbeta_pos a a Ha Ha) as Hp. pose proof (Rbeta_pos (1 / 2) a ltac:(lra) Ha) as Hq.
  set (P u := Rpower 4 a * Rbeta a a * Rbetainc a a u). set (Q u := Rbeta (1 / 2) a - Rbeta (1 / 2) a * Rbetainc (1 / 2) a ((1 - 2 * u) * (1 - 2 * u))).
  assert (forall t, 0 < t < 1 -> continuous (Rbetainc a a) t) as Ct by (intros t Ht; apply (ex_derive_continuous (Rbetainc a a)); eexists; apply Ibeta_der; auto).
  destruct (Ibeta_lims a a Ha Ha) as [A0 _]. destruct (Ibeta_lims (1 / 2) a ltac:(lra) Ha) as [B0 B1].
  assert (Rpower 4 a * Rbeta a a * (1 / 2) = Rbeta (1 / 2) a - Rbeta (1 / 2) a * 0) as E; [|lra].
  apply (prim_end 0 (1 / 2) P (fun u => Rpower 4 a * beta_f a a u) Q 0).
  - simpl. lra.
  - intros t [H1 H2]. simpl in H1, H2. evar_last; [apply (is_derive_scal (Rbetainc a a)); apply Ibeta_der; auto; lra|]. field. lra.
  - intros t [H1 H2]. simpl in H1, H2. assert (0 < (1 - 2 * t) * (1 - 2 * t) < 1) as Hx by nra.
    evar_last.
    + apply (is_derive_minus (fun _ => Rbeta (1 / 2) a) (fun u => Rbeta (1 / 2) a * Rbetainc (1 / 2) a ((1 - 2 * u) * (1 - 2 * u))) t 0 (Rbeta (1 / 2) a * (-4 * (1 - 2 * t) * (beta_f (1 / 2) a ((1 - 2 * t) * (1 - 2 * t)) / Rbeta (1 / 2) a)))).
      * exact (is_derive_const (K := R_AbsRing) (V := R_NormedModule) _ t).
      * apply (is_derive_scal (fun u => Rbetainc (1 / 2) a ((1 - 2 * u) * (1 - 2 * u)))). apply (is_derive_comp (Rbetainc (1 / 2) a) (fun u => (1 - 2 * u) * (1 - 2 * u))); [apply Ibeta_der; auto; lra|auto_derive; [auto|ring]].
    + unfold minus, plus, opp; simpl. unfold beta_f. replace (1 - (1 - 2 * t) * (1 - 2 * t)) with (4 * (t * (1 - t))) by ring.
      assert (0 < t * (1 - t)) by nra. rewrite (Rpower_mult_distr t (1 - t) (a - 1)) by lra. rewrite <- (Rpower_mult_distr 4 (t * (1 - t))) by lra.
      replace (Rpower 4 a) with (4 * Rpower 4 (a - 1)) by (rewrite <- (Rpower_1 4) at 1 by lra; rewrite <- Rpower_plus; f_equal; ring).
      assert (Rpower ((1 - 2 * t) * (1 - 2 * t)) (1 / 2 - 1) = / (1 - 2 * t)) as ->.
      { rewrite <- Rpower_mult_distr, <- Rpower_plus by lra. replace (1 / 2 - 1 + (1 / 2 - 1)) with (Ropp 1) by field. rewrite Rpower_Ropp, Rpower_1 by lra. reflexivity. }
      field. split; lra.
  - apply (lim_eq _ _ (0 + Rpower 4 a * Rbeta a a * 0)); [ring|]. apply (filterlim_ext (fun u => 0 + Rpower 4 a * Rbeta a a * Rbetainc a a u)); [intros; unfold P; ring|]. apply flim_aff; [apply within_filter, locally_filter|exact A0].
  - apply (lim_eq _ _ (Rbeta (1 / 2) a + - Rbeta (1 / 2) a * 1)); [ring|]. apply (filterlim_ext (fun u => Rbeta (1 / 2) a + - Rbeta (1 / 2) a * Rbetainc (1 / 2) a ((1 - 2 * u) * (1 - 2 * u)))); [intros; unfold Q; ring|]. apply flim_aff; [apply within_filter, locally_filter|].
    eapply (filterlim_comp _ _ _ (fun u => (1 - 2 * u) * (1 - 2 * u)) (Rbetainc (1 / 2) a)); [|exact B1]. intros R [e He]. exists (mkposreal (Rmin (e / 4) (1 / 2)) ltac:(apply Rmin_case; [apply Rdiv_lt_0_compat; [apply e|lra]|lra])). intros u Hu Pu. unfold ball in Hu; simpl in Hu. unfold AbsRing_ball, abs, minus, plus, opp in Hu; simpl in Hu.
    rewrite Ropp_0, Rplus_0_r, Rabs_right in Hu by lra. pose proof (Rmin_l (e / 4) (1 / 2)). pose proof (Rmin_r (e / 4) (1 / 2)). apply He; [|nra].
    unfold ball; simpl. unfold AbsRing_ball, abs, minus, plus, opp; simpl. apply Rabs_lt_between. split; nra.
  - assert (Rbetainc a a (1 / 2) = 1 / 2) as Eh.
    { pose proof (betainc_sym a a (1 / 2) Ha Ha ltac:(lra)) as S. replace (1 - 1 / 2) with (1 / 2) in S by field. lra. }
    apply (lim_eq _ _ (0 + Rpower 4 a * Rbeta a a * Rbetainc a a (1 / 2))); [rewrite Eh; ring|]. apply (filterlim_ext (fun u => 0 + Rpower 4 a * Rbeta a a * Rbetainc a a u)); [intros; unfold P; ring|]. apply flim_aff; [apply within_filter, locally_filter|].
    intros R HR. pose proof (Ct (1 / 2) ltac:(lra) R HR) as [e He]. exists e. intros u Hu _. now apply He.
  - apply (lim_eq _ _ (Rbeta (1 / 2) a + - Rbeta (1 / 2) a * 0)); [ring|]. apply (filterlim_ext (fun u => Rbeta (1 / 2) a + - Rbeta (1 / 2) a * Rbetainc (1 / 2) a ((1 - 2 * u) * (1 - 2 * u)))); [intros; unfold Q; ring|]. apply flim_aff; [apply within_filter, locally_filter|].
    eapply (filterlim_comp _ _ _ (fun u => (1 - 2 * u) * (1 - 2 * u)) (Rbetainc (1 / 2) a)); [|exact B0]. intros R [e He]. exists (mkposreal (Rmin (e / 4) (1 / 4)) ltac:(apply Rmin_case; [apply Rdiv_lt_0_compat; [apply e|lra]|lra])). intros u Hu Pu. unfold ball in Hu; simpl in Hu. unfold AbsRing_ball, abs, minus, plus, opp in Hu; simpl in Hu.
    pose proof (Rmin_l (e / 4) (1 / 4)). pose proof (Rmin_r (e / 4) (1 / 4)). simpl in Pu. apply Rabs_lt_between in Hu. apply He; [|nra].
    unfold ball; simpl. unfold AbsRing_ball, abs, minus, plus, opp; simpl. apply Rabs_lt_between. split; nra.
Qed.
(** * Gamma(1/2), Gamma(1) *)
Lemma gamma_half : Rgamma (1 / 2) = sqrt PI.
Proof.
  pose proof PI_RGT_0 as HPI. pose proof (sqrt_lt_R0 PI HPI) as HS. pose proof Rlt_sqrt2_0 as H2.
  apply (full_unique (lg (1 / 2)) (LG (1 / 2)) _ (fun t => 2 * sqrt PI * (NF (sqrt 2 * exp (t / 2)) - 1 / 2))); [apply full_lg; lra|]. split; [|split].
  - intros t. change R in (type of t). evar_last.
    + apply (is_derive_scal (fun t => NF (sqrt 2 * exp (t / 2)) - 1 / 2) t (2 * sqrt PI) (sqrt 2 * (1 / 2 * exp (t / 2)) * phi (sqrt 2 * exp (t / 2)) - 0)).
      apply (is_derive_minus (fun t => NF (sqrt 2 * exp (t / 2))) (fun _ => 1 / 2)); [|exact (is_derive_const (K := R_AbsRing) (V := R_NormedModule) _ t)].
      apply (is_derive_comp NF (fun t => sqrt 2 * exp (t / 2))); [apply NF_der|auto_derive; [auto|]; unfold Rdiv; ring].
    + rewrite phi_alt. replace (sqrt 2 * exp (t / 2) * (sqrt 2 * exp (t / 2)) / 2) with (exp t).
      * unfold lg. unfold Rminus at 2. rewrite exp_plus. replace (1 / 2 * t) with (t / 2) by field. field. split; lra.
      * replace (sqrt 2 * exp (t / 2) * (sqrt 2 * exp (t / 2)) / 2) with ((sqrt 2 * sqrt 2) * (exp (t / 2) * exp (t / 2)) / 2) by field. rewrite sqrt_sqrt, <- exp_plus by lra. replace (t / 2 + t / 2) with t by field. field.
  - replace (Finite 0) with (Finite (2 * sqrt PI * (1 / 2 - 1 / 2))) by (f_equal; field). apply lim_scal. apply is_lim_minus'; [|apply is_lim_const]. rewrite <- NF0.
    apply (is_lim_comp_continuous (fun t => sqrt 2 * exp (t / 2)) NF m_infty 0); [|apply NF_cont].
    replace (Finite 0) with (Finite (sqrt 2 * 0)) by (f_equal; ring). apply lim_scal. apply (is_lim_ext (fun t => exp (/ 2 * t + 0))); [intros; f_equal; field|apply lim_exp_lin_m; lra].
  - replace (Finite (sqrt PI)) with (Finite (2 * sqrt PI * (1 - 1 / 2))) by (f_equal; field). apply lim_scal. apply is_lim_minus'; [|apply is_lim_const].
    apply (is_lim_comp NF _ p_infty 1 p_infty NF_lim_p); [|exists 0; discriminate].
    apply (is_lim_ext_loc (fun t => sqrt 2 * exp (t / 2))); [exists 0; auto|]. assert (is_lim (fun t => exp (/ 2 * t + 0)) p_infty p_infty) as L.
    { apply (is_lim_comp exp (fun t => / 2 * t + 0) p_infty p_infty p_infty); [apply is_lim_exp_p|apply lim_lin_p; lra|exists 0; discriminate]. }
    evar_last; [apply (is_lim_scal_l _ (sqrt 2) p_infty _ (is_lim_ext _ _ _ _ (fun t => f_equal exp (ltac:(field) : / 2 * t + 0 = t / 2)) L))|]. simpl. destruct (Rle_dec 0 (sqrt 2)) as [r|]; [|lra]. destruct (Rle_lt_or_eq_dec 0 (sqrt 2) r); [reflexivity|lra].
Qed.
(** the constant of the CRPS of the gamma distribution *)
Lemma gamma_const a : 0 < a -> 2 * (Rgamma (2 * a) / Rpower 4 a) / (Rgamma a * Rgamma a) = 1 / Rbeta (1 / 2) a.
Proof.
  intros Ha. pose proof (beta_gamma a a Ha Ha) as E. replace (a + a) with (2 * a) in E by ring. pose proof (beta_dup a Ha) as D.
  pose proof (Rbeta_pos a a Ha Ha). pose proof (Rbeta_pos (1 / 2) a ltac:(lra) Ha). pose proof (Rgamma_pos (2 * a) ltac:(lra)). assert (0 < Rpower 4 a) by apply exp_pos.
  rewrite E. replace (Rbeta (1 / 2) a) with (Rpower 4 a * Rbeta a a / 2) by lra. field. repeat split; lra.
Qed.
Lemma beta_half a : 0 < a -> 1 / Rbeta (1 / 2) a = a / PI * Rbeta (1 / 2) (a + 1 / 2).
Proof.
  intros Ha. pose proof PI_RGT_0 as HPI. pose proof (beta_gamma (1 / 2) a ltac:(lra) Ha) as E1. pose proof (beta_gamma (1 / 2) (a + 1 / 2) ltac:(lra) ltac:(lra)) as E2.
  replace (1 / 2 + (a + 1 / 2)) with (a + 1) in E2 by field. rewrite (gamma_rec a Ha) in E2. rewrite gamma_half in *. replace (1 / 2 + a) with (a + 1 / 2) in E1 by ring.
  pose proof (Rbeta_pos (1 / 2) a ltac:(lra) Ha) as B1. pose proof (Rbeta_pos (1 / 2) (a + 1 / 2) ltac:(lra) ltac:(lra)) as B2. pose proof (Rgamma_pos a Ha) as G1. pose proof (Rgamma_pos (a + 1 / 2) ltac:(lra)) as G2.
  pose proof (sqrt_sqrt PI ltac:(lra)) as S. set (r := sqrt PI) in *.
  assert (a * (Rbeta (1 / 2) a * Rbeta (1 / 2) (a + 1 / 2)) = PI) as E.
  { apply (Rmult_eq_reg_r (Rgamma a * Rgamma (a + 1 / 2))); [|apply Rmult_integral_contrapositive; lra].
    replace (a * (Rbeta (1 / 2) a * Rbeta (1 / 2) (a + 1 / 2)) * (Rgamma a * Rgamma (a + 1 / 2))) with ((Rgamma (a + 1 / 2) * Rbeta (1 / 2) a) * (a * Rgamma a * Rbeta (1 / 2) (a + 1 / 2))) by ring.
    rewrite <- E1, <- E2, <- S. ring. }
  rewrite <- E at 1. field. repeat split; lra.
Qed.
