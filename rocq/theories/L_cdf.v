(** CRPS integrals of standard distributions. *)
From Verif Require Export L_rint S_dist L_gauss.
From Coq Require Import Psatz.
From Coquelicot Require Import Coquelicot.
Open Scope R_scope.

Ltac der := auto_derive; [try (repeat split; auto; lra)|].
Ltac cont f := apply (ex_derive_continuous f); auto_derive; try (repeat split; auto; lra).
Lemma lim_exp_opp : is_lim (fun t => exp (- t)) p_infty 0.
Proof.
  apply (is_lim_comp exp (fun t => - t) p_infty 0 m_infty); [apply is_lim_exp_m| |].
  - evar_last; [apply is_lim_opp, is_lim_id|reflexivity].
  - exists 0. discriminate.
Qed.
Lemma lim_lin_p a b : 0 < a -> is_lim (fun t => a * t + b) p_infty p_infty.
Proof.
  intros H. apply is_lim_spec. intros M. exists ((M - b) / a). intros x Hx.
  apply (Rmult_lt_compat_l a) in Hx; auto. replace (a * ((M - b) / a)) with (M - b) in Hx by (field; lra). lra.
Qed.
Lemma lim_lin_m a b : a < 0 -> is_lim (fun t => a * t + b) p_infty m_infty.
Proof.
  intros H. apply is_lim_spec. intros M. exists ((M - b) / a). intros x Hx.
  apply (Rmult_lt_compat_l (- a)) in Hx; [|lra]. replace (- a * ((M - b) / a)) with (- (M - b)) in Hx by (field; lra). lra.
Qed.
Lemma lim_opp_m f l : is_lim (fun t => f (- t)) p_infty l -> is_lim f m_infty l.
Proof.
  intros H. apply (is_lim_ext (fun t => f (- (- t)))); [intros; now rewrite Ropp_involutive|].
  apply (is_lim_comp (fun t => f (- t)) Ropp m_infty l p_infty); [exact H| |].
  - evar_last; [apply is_lim_opp, is_lim_id|reflexivity].
  - exists 0. discriminate.
Qed.
Lemma lim_opp_p f l : is_lim (fun t => f (- t)) m_infty l -> is_lim f p_infty l.
Proof.
  intros H. apply (is_lim_ext (fun t => f (- (- t)))); [intros; now rewrite Ropp_involutive|].
  apply (is_lim_comp (fun t => f (- t)) Ropp p_infty l m_infty); [exact H| |].
  - evar_last; [apply is_lim_opp, is_lim_id|reflexivity].
  - exists 0. discriminate.
Qed.
Lemma lim_exp_lin a b : a < 0 -> is_lim (fun t => exp (a * t + b)) p_infty 0.
Proof.
  intros H. apply (is_lim_comp exp (fun t => a * t + b) p_infty 0 m_infty); [apply is_lim_exp_m|now apply lim_lin_m|].
  exists 0. discriminate.
Qed.
Lemma lim_exp_lin_m a b : 0 < a -> is_lim (fun t => exp (a * t + b)) m_infty 0.
Proof.
  intros H. apply lim_opp_m. apply (is_lim_ext (fun t => exp (- a * t + b))); [intros; f_equal; ring|]. apply lim_exp_lin. lra.
Qed.
Lemma lim_scal c f x l : is_lim f x (Finite l) -> is_lim (fun t => c * f t) x (c * l).
Proof. intros H. exact (is_lim_scal_l f c x l H). Qed.

Lemma lim_mult' f g x (a b : R) : is_lim f x a -> is_lim g x b -> is_lim (fun t => f t * g t) x (a * b).
Proof. intros H1 H2. exact (is_lim_mult f g x a b H1 H2 I). Qed.
Lemma cont_sq (f : R -> R) t : continuous f t -> continuous (fun t => f t ^ 2) t.
Proof.
  intros H. apply (continuous_comp f (fun x => x ^ 2)); auto. cont (fun x : R => x ^ 2).
Qed.
(** * powers *)
Lemma Rpower_der x p : 0 < x -> is_derive (fun x => Rpower x p) x (p * Rpower x (p - 1)).
Proof.
  intros H. unfold Rpower. auto_derive; auto. replace ((p - 1) * ln x) with (p * ln x + - ln x) by ring.
  rewrite exp_plus, exp_Ropp, exp_ln by auto. field. lra.
Qed.
Lemma Rpower_small p e : 0 < p -> 0 < e -> exists d, 0 < d /\ forall x, 0 < x < d -> Rpower x p < e.
Proof.
  intros Hp He. exists (Rpower e (/ p)). split; [apply exp_pos|]. intros x Hx.
  replace e with (Rpower (Rpower e (/ p)) p) by (rewrite Rpower_mult, Rinv_l, Rpower_1; lra).
  unfold Rpower at 1 2. apply exp_increasing. apply Rmult_lt_compat_l; auto. apply ln_increasing; lra.
Qed.
Lemma pow0_pos x p : 0 < x -> pow0 x p = Rpower x p.
Proof. intros H. unfold pow0. destruct (Rlt_dec 0 x); [auto|lra]. Qed.
Lemma pow0_neg x p : x <= 0 -> pow0 x p = 0.
Proof. intros H. unfold pow0. destruct (Rlt_dec 0 x); [lra|auto]. Qed.
Lemma pow0_der x p : 0 < x \/ 1 < p -> is_derive (fun x => pow0 x p) x (p * pow0 x (p - 1)).
Proof.
  intros H. destruct (Rtotal_order x 0) as [Hx|[->|Hx]].
  - rewrite (pow0_neg x) by lra. rewrite Rmult_0_r. apply (is_derive_ext_loc (fun _ => 0)); [|apply (is_derive_const (K := R_AbsRing) (V := R_NormedModule))].
    generalize (open_lt 0 x Hx). apply filter_imp. intros y Hy. symmetry. apply pow0_neg. lra.
  - destruct H as [H|H]; [lra|]. rewrite (pow0_neg 0) by lra. rewrite Rmult_0_r. apply is_derive_Reals. intros e He.
    destruct (Rpower_small (p - 1) e) as (d & Hd & D); [lra|auto|]. exists (mkposreal d Hd). simpl. intros h Hh Hhd.
    rewrite Rplus_0_l, (pow0_neg 0) by lra. rewrite !Rminus_0_r. destruct (Rlt_dec 0 h) as [P|P].
    + rewrite pow0_pos by auto. rewrite Rabs_right in Hhd by lra.
      replace (Rpower h p / h) with (Rpower h (p - 1)).
      * rewrite Rabs_right; [apply D; lra|]. apply Rle_ge, Rlt_le, exp_pos.
      * replace (p - 1) with (p + - (1)) by ring. rewrite Rpower_plus, Rpower_Ropp, Rpower_1 by auto. reflexivity.
    + rewrite pow0_neg by lra. unfold Rdiv. rewrite Rmult_0_l, Rabs_R0. auto.
  - rewrite (pow0_pos x) by auto. apply (is_derive_ext_loc (fun x => Rpower x p)); [|now apply Rpower_der].
    generalize (open_gt 0 x Hx). apply filter_imp. intros y Hy. symmetry. now apply pow0_pos.
Qed.
Lemma pow0_cont x p : 0 < x \/ 0 < p -> continuous (fun x => pow0 x p) x.
Proof.
  intros H. destruct (Rtotal_order x 0) as [Hx|[->|Hx]].
  - apply (continuous_ext_loc _ (fun _ => 0)); [|apply continuous_const].
    generalize (open_lt 0 x Hx). apply filter_imp. intros y Hy. symmetry. apply pow0_neg. lra.
  - destruct H as [H|H]; [lra|]. apply continuity_pt_filterlim. intros e He.
    destruct (Rpower_small p e) as (d & Hd & D); [lra|auto|]. exists d. split; auto. intros h [_ Hhd]. unfold R_dist in *. simpl in *. unfold R_dist in *.
    rewrite Rminus_0_r in Hhd. rewrite (pow0_neg 0), Rminus_0_r by lra. destruct (Rlt_dec 0 h) as [P|P].
    + rewrite pow0_pos by auto. rewrite Rabs_right in Hhd by lra. rewrite Rabs_right; [apply D; lra|]. apply Rle_ge, Rlt_le, exp_pos.
    + rewrite pow0_neg by lra. rewrite Rabs_R0. auto.
  - apply (ex_derive_continuous (fun x => pow0 x p)). eexists. apply pow0_der. now left.
Qed.
Lemma lim_Rpower_0 a b q : 0 < a -> q < 0 -> is_lim (fun t => pow0 (a * t + b) q) p_infty 0.
Proof.
  intros Ha Hq. apply (is_lim_ext_loc (fun t => exp (q * ln (a * t + b)))).
  - pose proof (lim_lin_p a b Ha) as L. apply is_lim_spec in L. destruct (L 0) as [m Hm]. exists m. intros x Hx.
    rewrite pow0_pos by (apply Hm; auto). reflexivity.
  - apply (is_lim_comp exp (fun t => q * ln (a * t + b)) p_infty 0 m_infty); [apply is_lim_exp_m| |exists 0; discriminate].
    evar_last; [apply (is_lim_scal_l (fun t => ln (a * t + b)) q p_infty p_infty)|].
    + apply (is_lim_comp ln (fun t => a * t + b) p_infty p_infty p_infty); [apply is_lim_ln_p|now apply lim_lin_p|exists 0; discriminate].
    + apply is_Rbar_mult_unique. unfold is_Rbar_mult. simpl. destruct (Rle_dec 0 q) as [Q|Q]; [exfalso; lra|reflexivity].
Qed.
(** * distributions on [0, oo) with a point mass *)
Section gpd.
Variables (S A B : R -> R) (k : R).
Hypothesis DA : forall x, 0 <= x -> is_derive A x (S x).
Hypothesis DB : forall x, 0 <= x -> is_derive B x (S x ^ 2).
Hypothesis CS : forall x, 0 <= x -> continuous S x.
Hypothesis LB : is_lim B p_infty 0.
Definition pm_cdf (t : R) : R := if Rlt_dec t 0 then 0 else 1 - k * S t.
Lemma pm_neg y : y < 0 -> is_crps pm_cdf y (- y - k ^ 2 * B 0).
Proof.
  intros Hy. replace (- y - k ^ 2 * B 0) with (0 + (1 * (0 - y) + (0 - k ^ 2 * B 0))) by ring. apply crps_split.
  - apply ltail_0. intros t Ht. unfold pm_cdf. destruct (Rlt_dec t 0); [ring|lra].
  - eapply rtail_seg.
    + apply (seg_const _ 1); [lra|]. intros t Ht. unfold pm_cdf. destruct (Rlt_dec t 0); [ring|lra].
    + apply (rtail_der _ (fun t => k ^ 2 * (S t) ^ 2) (fun t => k ^ 2 * B t)).
      * intros t Ht. unfold pm_cdf. destruct (Rlt_dec t 0); [lra|ring].
      * intros t Ht. apply (is_derive_scal B t (k ^ 2)), DB. auto.
      * intros t Ht. apply (continuous_mult (fun _ => k ^ 2) (fun t => S t ^ 2)); [apply continuous_const|].
        now apply cont_sq, CS.
      * replace (Finite 0) with (Finite (k ^ 2 * 0)) by (f_equal; ring). now apply lim_scal.
Qed.
Lemma pm_pos y : 0 <= y -> is_crps pm_cdf y (y - 2 * k * (A y - A 0) - k ^ 2 * B 0).
Proof.
  intros Hy. replace (y - 2 * k * (A y - A 0) - k ^ 2 * B 0)
    with (0 + ((y - 2 * k * A y + k ^ 2 * B y) - (0 - 2 * k * A 0 + k ^ 2 * B 0)) + (0 - k ^ 2 * B y)) by ring. apply crps_split.
  - eapply ltail_seg.
    + apply (ltail_0 _ 0). intros t Ht. unfold pm_cdf. destruct (Rlt_dec t 0); [ring|lra].
    + apply (seg_der _ (fun t => 1 - 2 * k * S t + k ^ 2 * (S t) ^ 2) (fun t => t - 2 * k * A t + k ^ 2 * B t)); auto.
      * intros t Ht. unfold pm_cdf. destruct (Rlt_dec t 0); [lra|ring].
      * intros t Ht. apply (is_derive_plus (fun t => t - 2 * k * A t) (fun t => k ^ 2 * B t)).
        -- apply (is_derive_minus (fun t => t) (fun t => 2 * k * A t)); [apply (is_derive_id (K := R_AbsRing))|]. apply (is_derive_scal A t (2 * k)), DA. lra.
        -- apply (is_derive_scal B t (k ^ 2)), DB. lra.
      * intros t Ht. assert (continuous S t) by (apply CS; lra).
        apply (continuous_plus (fun t => 1 - 2 * k * S t) (fun t => k ^ 2 * S t ^ 2)).
        -- apply (continuous_minus (fun _ => 1) (fun t => 2 * k * S t)); [apply continuous_const|].
           apply (continuous_mult (fun _ => 2 * k) S); [apply continuous_const|auto].
        -- apply (continuous_mult (fun _ => k ^ 2) (fun t => S t ^ 2)); [apply continuous_const|].
           now apply cont_sq.
  - apply (rtail_der _ (fun t => k ^ 2 * (S t) ^ 2) (fun t => k ^ 2 * B t)).
      * intros t Ht. unfold pm_cdf. destruct (Rlt_dec t 0); [lra|ring].
      * intros t Ht. apply (is_derive_scal B t (k ^ 2)), DB. lra.
      * intros t Ht. apply (continuous_mult (fun _ => k ^ 2) (fun t => S t ^ 2)); [apply continuous_const|].
        apply cont_sq, CS. lra.
      * replace (Finite 0) with (Finite (k ^ 2 * 0)) by (f_equal; ring). now apply lim_scal.
Qed.
End gpd.
(** the generalised Pareto distribution *)
Definition gpd_A (k x : R) : R := if Req_EM_T k 0 then - exp (- x) else pow0 (1 + k * x) (1 - 1 / k) / (k - 1).
Definition gpd_B (k x : R) : R := if Req_EM_T k 0 then - exp (- 2 * x) / 2 else pow0 (1 + k * x) (1 - 2 / k) / (k - 2).
Lemma inv_pos_lt k : k < 0 -> 1 / k < 0.
Proof. intros. unfold Rdiv. rewrite Rmult_1_l. now apply Rinv_lt_0_compat. Qed.
Lemma lin_der c x (f : R -> R) l : is_derive f (1 + c * x) l -> is_derive (fun x => f (1 + c * x)) x (c * l).
Proof.
  intros H. apply (is_derive_comp f (fun x => 1 + c * x)); auto. auto_derive; auto. ring.
Qed.
Section gpdk.
Variable k : R.
Hypothesis Hk : k < 1.
Lemma gpd_base x : 0 <= x -> 0 < 1 + k * x \/ k < 0.
Proof. intros Hx. destruct (Rle_dec 0 k); [left; nra|right; lra]. Qed.
Lemma gpd_DA x : 0 <= x -> is_derive (gpd_A k) x (gpd_sf k x).
Proof.
  intros Hx. unfold gpd_A, gpd_sf. destruct (Req_EM_T k 0) as [E|N]; [auto_derive; auto; ring|].
  replace (pow0 (1 + k * x) (- (1 / k))) with (/ (k - 1) * (k * ((1 - 1 / k) * pow0 (1 + k * x) (1 - 1 / k - 1)))).
  2: { replace (1 - 1 / k - 1) with (- (1 / k)) by ring. field. lra. }
  apply (is_derive_ext (fun x => / (k - 1) * pow0 (1 + k * x) (1 - 1 / k))); [intros; apply Rmult_comm|].
  apply (is_derive_scal (fun x => pow0 (1 + k * x) (1 - 1 / k)) x (/ (k - 1))), (lin_der k x (fun x => pow0 x (1 - 1 / k))), pow0_der.
  destruct (gpd_base x Hx) as [H|H]; [now left|right]. pose proof (inv_pos_lt k H). lra.
Qed.
Lemma gpd_DB x : 0 <= x -> is_derive (gpd_B k) x (gpd_sf k x ^ 2).
Proof.
  intros Hx. unfold gpd_B, gpd_sf. destruct (Req_EM_T k 0) as [E|N].
  { auto_derive; auto. replace (exp (- x) ^ 2) with (exp (- x) * exp (- x)) by ring. rewrite <- exp_plus. replace (- x + - x) with (-2 * x) by ring. field. }
  replace (pow0 (1 + k * x) (- (1 / k)) ^ 2) with (/ (k - 2) * (k * ((1 - 2 / k) * pow0 (1 + k * x) (1 - 2 / k - 1)))).
  2: { replace (1 - 2 / k - 1) with (- (1 / k) + - (1 / k)) by (field; auto). unfold pow0. destruct (Rlt_dec 0 (1 + k * x)).
       - rewrite Rpower_plus. field. lra.
       - ring. }
  apply (is_derive_ext (fun x => / (k - 2) * pow0 (1 + k * x) (1 - 2 / k))); [intros; apply Rmult_comm|].
  apply (is_derive_scal (fun x => pow0 (1 + k * x) (1 - 2 / k)) x (/ (k - 2))), (lin_der k x (fun x => pow0 x (1 - 2 / k))), pow0_der.
  destruct (gpd_base x Hx) as [H|H]; [now left|right]. pose proof (inv_pos_lt k H). unfold Rdiv in *. lra.
Qed.
Lemma gpd_CS x : 0 <= x -> continuous (gpd_sf k) x.
Proof.
  intros Hx. unfold gpd_sf. destruct (Req_EM_T k 0) as [E|N]; [cont (fun x => exp (- x))|].
  apply (continuous_comp (fun x => 1 + k * x) (fun x => pow0 x (- (1 / k)))); [cont (fun x => 1 + k * x)|].
  apply pow0_cont. destruct (gpd_base x Hx) as [H|H]; [now left|right]. pose proof (inv_pos_lt k H). lra.
Qed.
Lemma gpd_lim q : k <> 0 -> (0 < k -> q < 0) -> is_lim (fun x => pow0 (1 + k * x) q) p_infty 0.
Proof.
  intros N Hq. destruct (Rlt_dec 0 k) as [P|P].
  - apply (is_lim_ext (fun x => pow0 (k * x + 1) q)); [intros; f_equal; ring|]. apply lim_Rpower_0; auto.
  - apply (is_lim_ext_loc (fun _ => 0)); [|apply is_lim_const]. exists (- (1 / k)). intros x Hx. symmetry. apply pow0_neg.
    assert (k < 0) by lra. apply (Rmult_lt_compat_l (- k)) in Hx; [|lra]. replace (- k * - (1 / k)) with 1 in Hx by (field; auto). lra.
Qed.
Lemma gpd_LB : is_lim (gpd_B k) p_infty 0.
Proof.
  unfold gpd_B. destruct (Req_EM_T k 0) as [E|N].
  - apply (is_lim_ext (fun x => (- / 2) * exp (-2 * x + 0))); [intros; rewrite Rplus_0_r; field|].
    replace (Finite 0) with (Finite (- / 2 * 0)) by (f_equal; ring). apply lim_scal, lim_exp_lin. lra.
  - apply (is_lim_ext (fun x => / (k - 2) * pow0 (1 + k * x) (1 - 2 / k))); [intros; unfold Rdiv; ring|].
    replace (Finite 0) with (Finite (/ (k - 2) * 0)) by (f_equal; ring). apply lim_scal, gpd_lim; auto. intros P.
    apply (Rmult_lt_reg_l k); auto. replace (k * (1 - 2 / k)) with (k - 2) by (field; lra). lra.
Qed.
Lemma gpd_A_sf x : 0 <= x -> gpd_A k x = - pow0 (gpd_sf k x) (1 - k) / (1 - k).
Proof.
  intros Hx. unfold gpd_A, gpd_sf. destruct (Req_EM_T k 0) as [E|N].
  - rewrite pow0_pos, E by apply exp_pos. rewrite Rminus_0_r, Rpower_1 by apply exp_pos. field.
  - destruct (Rlt_dec 0 (1 + k * x)) as [P|P].
    + rewrite !(pow0_pos (1 + k * x)), pow0_pos by (auto; apply exp_pos). rewrite Rpower_mult.
      replace (- (1 / k) * (1 - k)) with (1 - 1 / k) by (field; auto). field. lra.
    + rewrite !(pow0_neg (1 + k * x)), pow0_neg by lra. field. lra.
Qed.
Lemma gpd_B_0 : gpd_B k 0 = - (1 / (2 - k)).
Proof.
  unfold gpd_B. destruct (Req_EM_T k 0) as [E|N].
  - rewrite Rmult_0_r, exp_0, E. field.
  - rewrite Rmult_0_r, Rplus_0_r, pow0_pos by lra. unfold Rpower. rewrite ln_1, Rmult_0_r, exp_0. field. lra.
Qed.
Lemma gpd_sf_0 : gpd_sf k 0 = 1.
Proof.
  unfold gpd_sf. destruct (Req_EM_T k 0) as [E|N]; [rewrite Ropp_0; apply exp_0|].
  rewrite Rmult_0_r, Rplus_0_r, pow0_pos by lra. unfold Rpower. now rewrite ln_1, Rmult_0_r, exp_0.
Qed.
(** the score of the standardised observation w; u is the survival function at max(w, 0) *)
Lemma gpd_crps p m s y : 0 < s ->
  let w := (y - m) / s in
  let u := gpd_sf k (Rmax w 0) in
  is_crps (gpd_cdf k m s p) y
    (s * (Rabs w - 2 * (1 - p) * (1 - pow0 u (1 - k)) / (1 - k) + (1 - p) ^ 2 / (2 - k))).
Proof.
  intros Hs w u. apply (crps_eq (fun t => pm_cdf (gpd_sf k) (1 - p) ((t - m) / s)) _ _ (s * (Rabs w - 2 * (1 - p) * (1 - pow0 u (1 - k)) / (1 - k) + (1 - p) ^ 2 / (2 - k)))); auto.
  { intros t. unfold pm_cdf, gpd_cdf. assert (m + s * ((t - m) / s) = t) by (field; lra).
    destruct (Rlt_dec ((t - m) / s) 0), (Rlt_dec t m); try ring; exfalso; nra. }
  apply crps_scale; auto. fold w. destruct (Rlt_dec w 0) as [H|H].
  - eapply crps_eq; [reflexivity| |apply (pm_neg (gpd_sf k) (gpd_B k) (1 - p) gpd_DB gpd_CS gpd_LB w H)].
    unfold u. rewrite Rmax_right by lra. rewrite gpd_sf_0, gpd_B_0, pow0_pos by lra. unfold Rpower. rewrite ln_1, Rmult_0_r, exp_0, Rabs_left by auto. field. lra.
  - eapply crps_eq; [reflexivity| |apply (pm_pos (gpd_sf k) (gpd_A k) (gpd_B k) (1 - p) gpd_DA gpd_DB gpd_CS gpd_LB w)]; [|lra].
    unfold u. rewrite Rmax_left by lra. rewrite !gpd_A_sf, gpd_sf_0, gpd_B_0 by lra.
    rewrite (pow0_pos 1) by lra. unfold Rpower at 1. rewrite ln_1, Rmult_0_r, exp_0, Rabs_right by lra. field. lra.
Qed.
End gpdk.
(** * exponential tails on both sides *)
Section twosided.
Variables (s1 s2 : R).
Hypotheses (H1 : 0 < s1) (H2 : 0 < s2).
Let a := s1 / (s1 + s2).
Let b := s2 / (s1 + s2).
Definition tp_cdf (t : R) : R := if Rlt_dec t 0 then s1 / (s1 + s2) * exp (t / s1) else 1 - s2 / (s1 + s2) * exp (- (t / s2)).
Lemma exp_sq_l x s : exp (x / s) ^ 2 = exp (2 * x / s).
Proof. replace (exp (x / s) ^ 2) with (exp (x / s) * exp (x / s)) by ring. rewrite <- exp_plus. f_equal. unfold Rdiv. ring. Qed.
Lemma exp_sq_r x s : exp (- (x / s)) ^ 2 = exp (- 2 * x / s).
Proof. replace (exp (- (x / s)) ^ 2) with (exp (- (x / s)) * exp (- (x / s))) by ring. rewrite <- exp_plus. f_equal. unfold Rdiv. ring. Qed.
Lemma tp_left y : y <= 0 -> ltail (fun t => tp_cdf t ^ 2) y (a ^ 2 * (s1 / 2) * exp (2 * y / s1)).
Proof.
  intros Hy. rewrite <- (Rminus_0_r (a ^ 2 * (s1 / 2) * exp (2 * y / s1))).
  apply (ltail_der _ (fun t => a ^ 2 * exp (2 * t / s1)) (fun t => a ^ 2 * (s1 / 2) * exp (2 * t / s1))).
  - intros t Ht. unfold tp_cdf. fold a. destruct (Rlt_dec t 0); [|lra]. rewrite <- exp_sq_l. ring.
  - intros t _. auto_derive; auto. unfold Rdiv. field. lra.
  - intros t _. cont (fun t => a ^ 2 * exp (2 * t / s1)).
  - replace (Finite 0) with (Finite (a ^ 2 * (s1 / 2) * 0)) by (f_equal; ring). apply lim_scal.
    apply (is_lim_ext (fun t => exp (2 / s1 * t + 0))); [intros; f_equal; field; lra|].
    apply lim_exp_lin_m. apply Rdiv_lt_0_compat; lra.
Qed.
Lemma tp_right y : 0 <= y -> rtail (fun t => (1 - tp_cdf t) ^ 2) y (b ^ 2 * (s2 / 2) * exp (- 2 * y / s2)).
Proof.
  intros Hy. replace (b ^ 2 * (s2 / 2) * exp (- 2 * y / s2)) with (0 - (- b ^ 2 * (s2 / 2) * exp (- 2 * y / s2))) by ring.
  apply (rtail_der _ (fun t => b ^ 2 * exp (- 2 * t / s2)) (fun t => - b ^ 2 * (s2 / 2) * exp (- 2 * t / s2))).
  - intros t Ht. unfold tp_cdf. fold b. destruct (Rlt_dec t 0); [lra|]. rewrite <- exp_sq_r. ring.
  - intros t _. auto_derive; auto. unfold Rdiv. field. lra.
  - intros t _. cont (fun t => b ^ 2 * exp (- 2 * t / s2)).
  - replace (Finite 0) with (Finite (- b ^ 2 * (s2 / 2) * 0)) by (f_equal; ring). apply lim_scal.
    apply (is_lim_ext (fun t => exp (- (2 / s2) * t + 0))); [intros; f_equal; field; lra|].
    apply lim_exp_lin. assert (0 < 2 / s2) by (apply Rdiv_lt_0_compat; lra). lra.
Qed.
Lemma tp_neg y : y < 0 ->
  is_crps tp_cdf y (- y + 2 * s1 ^ 2 / (s1 + s2) * exp (y / s1) - 2 * s1 ^ 2 / (s1 + s2) + (s1 ^ 3 + s2 ^ 3) / (2 * (s1 + s2) ^ 2)).
Proof.
  intros Hy. eapply crps_eq; [reflexivity| |apply crps_split].
  2: { apply tp_left. lra. }
  2: { eapply rtail_seg; [|apply (tp_right 0); lra].
       apply (seg_der _ (fun t => 1 - 2 * a * exp (t / s1) + a ^ 2 * exp (2 * t / s1)) (fun t => t - 2 * a * s1 * exp (t / s1) + a ^ 2 * (s1 / 2) * exp (2 * t / s1))).
       - lra.
       - intros t Ht. unfold tp_cdf. fold a. destruct (Rlt_dec t 0); [|lra]. rewrite <- exp_sq_l. ring.
       - intros t _. auto_derive; auto. unfold Rdiv. field. lra.
       - intros t _. cont (fun t => 1 - 2 * a * exp (t / s1) + a ^ 2 * exp (2 * t / s1)). }
  replace (0 / s1) with 0 by (field; lra). replace (2 * 0 / s1) with 0 by (field; lra). replace (-2 * 0 / s2) with 0 by (field; lra).
  rewrite exp_0. unfold a, b. field. lra.
Qed.
Lemma tp_pos y : 0 <= y ->
  is_crps tp_cdf y (y + 2 * s2 ^ 2 / (s1 + s2) * exp (- (y / s2)) - 2 * s2 ^ 2 / (s1 + s2) + (s1 ^ 3 + s2 ^ 3) / (2 * (s1 + s2) ^ 2)).
Proof.
  intros Hy. eapply crps_eq; [reflexivity| |apply crps_split].
  3: { apply tp_right. lra. }
  2: { eapply ltail_seg; [apply (tp_left 0); lra|].
       apply (seg_der _ (fun t => 1 - 2 * b * exp (- (t / s2)) + b ^ 2 * exp (- 2 * t / s2)) (fun t => t + 2 * b * s2 * exp (- (t / s2)) - b ^ 2 * (s2 / 2) * exp (- 2 * t / s2))).
       - lra.
       - intros t Ht. unfold tp_cdf. fold b. destruct (Rlt_dec t 0); [lra|]. rewrite <- exp_sq_r. ring.
       - intros t _. auto_derive; auto. unfold Rdiv. field. lra.
       - intros t _. cont (fun t => 1 - 2 * b * exp (- (t / s2)) + b ^ 2 * exp (- 2 * t / s2)). }
  replace (0 / s2) with 0 by (field; lra). replace (2 * 0 / s1) with 0 by (field; lra). replace (-2 * 0 / s2) with 0 by (field; lra).
  rewrite Ropp_0, exp_0. unfold a, b. field. lra.
Qed.
Lemma exp2p_crps m y :
  let z := Rabs (y - m) in
  let s := if Rlt_dec (y - m) 0 then s1 else s2 in
  is_crps (exponential2p_cdf s1 s2 m) y
    (z + 2 * s ^ 2 / (s1 + s2) * exp (- z / s) - 2 * s ^ 2 / (s1 + s2) + (s1 ^ 3 + s2 ^ 3) / (2 * (s1 + s2) ^ 2)).
Proof.
  intros z s. apply (crps_eq (fun t => tp_cdf ((t - m) / 1)) _ _ (1 * (z + 2 * s ^ 2 / (s1 + s2) * exp (- z / s) - 2 * s ^ 2 / (s1 + s2) + (s1 ^ 3 + s2 ^ 3) / (2 * (s1 + s2) ^ 2)))).
  - intros t. unfold tp_cdf, exponential2p_cdf. replace ((t - m) / 1) with (t - m) by field. destruct (Rlt_dec (t - m) 0), (Rlt_dec t m); try lra.
  - ring.
  - apply crps_scale; [lra|]. replace ((y - m) / 1) with (y - m) by field. unfold z, s. destruct (Rlt_dec (y - m) 0) as [H|H].
    + rewrite Rabs_left by auto. rewrite Ropp_involutive. now apply tp_neg.
    + rewrite Rabs_right by lra. replace (- (y - m) / s2) with (- ((y - m) / s2)) by (field; lra). apply tp_pos. lra.
Qed.
End twosided.
Lemma laplace_crps m s y : 0 < s ->
  let w := (y - m) / s in is_crps (laplace_cdf m s) y (s * (Rabs w + exp (- Rabs w) - 3 / 4)).
Proof.
  intros Hs w. pose proof (exp2p_crps s s Hs Hs m y) as H. cbv zeta in H.
  assert (Rabs (y - m) = s * Rabs w) as E.
  { unfold w, Rdiv. rewrite Rabs_mult, (Rabs_right (/ s)); [field; lra|]. apply Rle_ge, Rlt_le, Rinv_0_lt_compat. auto. }
  eapply crps_eq; [| |exact H].
  - intros t. unfold exponential2p_cdf, laplace_cdf. replace (s / (s + s)) with (/ 2) by (field; lra). destruct (Rlt_dec t m); field.
  - rewrite E. replace (if Rlt_dec (y - m) 0 then s else s) with s by (destruct (Rlt_dec (y - m) 0); auto).
    replace (- (s * Rabs w) / s) with (- Rabs w) by (field; lra). field. lra.
Qed.
(** * logistic distribution *)
Definition lA (t : R) : R := ln (1 + exp t).
Definition lB (t : R) : R := ln (1 + exp t) - / (1 + exp (- t)).
Lemma exp_opp_inv t : exp (- t) = / exp t. Proof. apply exp_Ropp. Qed.
Lemma logis_alt t : / (1 + exp (- t)) = exp t / (1 + exp t).
Proof. rewrite exp_opp_inv. pose proof (exp_pos t). field. lra. Qed.
Lemma lA_der t : is_derive lA t (/ (1 + exp (- t))).
Proof. unfold lA. pose proof (exp_pos t). rewrite logis_alt. auto_derive; [lra|]. field. lra. Qed.
Lemma lB_der t : is_derive lB t ((/ (1 + exp (- t))) ^ 2).
Proof.
  apply (is_derive_ext (fun t => ln (1 + exp t) - exp t / (1 + exp t))); [intros x; unfold lB; now rewrite logis_alt|].
  pose proof (exp_pos t). rewrite logis_alt. auto_derive; [repeat split; lra|]. field. lra.
Qed.
Lemma logis_cont t : continuous (fun t => / (1 + exp (- t))) t.
Proof. pose proof (exp_pos (- t)). cont (fun t => / (1 + exp (- t))). Qed.
Lemma lim_exp_m0 : is_lim exp m_infty 0. Proof. apply is_lim_exp_m. Qed.
Lemma lA_lim : is_lim lA m_infty 0.
Proof.
  unfold lA. replace (Finite 0) with (Finite (ln (1 + 0))) by (f_equal; rewrite Rplus_0_r; apply ln_1).
  apply (is_lim_comp_continuous (fun t => 1 + exp t) ln m_infty (1 + 0)).
  - apply (is_lim_plus' (fun _ => 1) exp); [apply is_lim_const|apply is_lim_exp_m].
  - apply (ex_derive_continuous ln). auto_derive. lra.
Qed.
Lemma logis_lim_m : is_lim (fun t => / (1 + exp (- t))) m_infty 0.
Proof.
  apply (is_lim_ext (fun t => exp t * / (1 + exp t))); [intros; symmetry; apply logis_alt|].
  replace (Finite 0) with (Finite (0 * / (1 + 0))) by (f_equal; lra).
  apply (lim_mult' exp (fun t => / (1 + exp t))); [apply is_lim_exp_m|].
  apply (is_lim_comp_continuous (fun t => 1 + exp t) Rinv m_infty (1 + 0)).
  - apply (is_lim_plus' (fun _ => 1) exp); [apply is_lim_const|apply is_lim_exp_m].
  - apply (ex_derive_continuous Rinv). auto_derive. lra.
Qed.
Lemma lB_lim : is_lim lB m_infty 0.
Proof.
  unfold lB. replace (Finite 0) with (Finite (0 - 0)) by (f_equal; ring). apply (is_lim_minus' _ _ _ _ _ lA_lim logis_lim_m).
Qed.
Lemma logis_sym t : 1 - / (1 + exp (- t)) = / (1 + exp (- - t)).
Proof. rewrite Ropp_involutive, logis_alt. pose proof (exp_pos t). field. lra. Qed.
Lemma logistic_std y : is_crps (fun t => / (1 + exp (- t))) y (lB y + lB (- y)).
Proof.
  apply crps_split.
  - rewrite <- (Rminus_0_r (lB y)). apply (ltail_der _ (fun t => (/ (1 + exp (- t))) ^ 2) lB); auto.
    + intros; apply lB_der.
    + intros; apply cont_sq, logis_cont.
    + apply lB_lim.
  - replace (lB (- y)) with (0 - (- lB (- y))) by ring.
    apply (rtail_der _ (fun t => (/ (1 + exp (- - t))) ^ 2) (fun t => - lB (- t))).
    + intros; now rewrite logis_sym.
    + intros t _. evar_last.
      * apply @is_derive_opp. apply (is_derive_comp lB Ropp); [apply lB_der|]. auto_derive; auto.
      * unfold opp, scal; simpl; unfold mult; simpl. ring.
    + intros t _. apply (continuous_comp Ropp (fun t => (/ (1 + exp (- t))) ^ 2)); [cont Ropp|apply cont_sq, logis_cont].
    + replace (Finite 0) with (Rbar_opp 0) by (simpl; f_equal; ring). apply is_lim_opp. apply lim_opp_p.
      apply (is_lim_ext lB); [intros; now rewrite Ropp_involutive|]. apply lB_lim.
Qed.
Lemma logistic_crps m s y : 0 < s ->
  let w := (y - m) / s in is_crps (logistic_cdf m s) y (s * (w - 2 * ln (1 / (1 + exp (- w))) - 1)).
Proof.
  intros Hs w. eapply crps_eq; [| |apply (crps_scale _ m s y _ Hs (logistic_std ((y - m) / s)))].
  - reflexivity.
  - fold w. f_equal. unfold lB. pose proof (logis_sym w) as E. rewrite Ropp_involutive in *. rewrite <- E.
    pose proof (exp_pos w). pose proof (exp_pos (- w)). unfold Rdiv. rewrite Rmult_1_l, ln_Rinv by lra.
    replace (1 + exp w) with (exp w * (1 + exp (- w))).
    + rewrite ln_mult, ln_exp by lra. ring.
    + rewrite exp_Ropp. field. lra.
Qed.
(** * restriction to an interval *)
Section trunc.
Variables (F A B : R -> R) (l u lm um : R).
Hypothesis Hlu : l < u.
Hypothesis DA : forall t, l <= t <= u -> is_derive A t (F t).
Hypothesis DB : forall t, l <= t <= u -> is_derive B t (F t ^ 2).
Hypothesis CF : forall t, l <= t <= u -> continuous F t.
Hypothesis HF : F l <> F u.
Let c := (1 - lm - um) / (F u - F l).
Let G t := truncens F l u lm um t.
Let e := lm - c * F l.
Let GA t := c ^ 2 * B t + 2 * c * e * A t + e ^ 2 * t.
Let GB t := c ^ 2 * B t + 2 * c * (e - 1) * A t + (e - 1) ^ 2 * t.
Lemma trunc_in t : l <= t < u -> G t = c * F t + e.
Proof.
  intros Ht. unfold G, truncens, e, c. destruct (Rlt_dec t l); [lra|]. destruct (Rlt_dec t u); [|lra]. field. intros K. apply HF. lra.
Qed.
Lemma GA_seg a b : l <= a -> a <= b -> b <= u -> is_RInt (fun t => G t ^ 2) a b (GA b - GA a).
Proof.
  intros Ha Hab Hb. apply (seg_der _ (fun t => c ^ 2 * F t ^ 2 + 2 * c * e * F t + e ^ 2)); auto.
  - intros t Ht. rewrite trunc_in by lra. ring.
  - intros t Ht. assert (l <= t <= u) as H by lra. unfold GA.
    apply (is_derive_plus (fun t => c ^ 2 * B t + 2 * c * e * A t) (fun t => e ^ 2 * t)).
    + apply (is_derive_plus (fun t => c ^ 2 * B t) (fun t => 2 * c * e * A t)); [apply (is_derive_scal B), DB|apply (is_derive_scal A), DA]; auto.
    + auto_derive; auto. ring.
  - intros t Ht. assert (continuous F t) as H by (apply CF; lra).
    apply (continuous_plus (fun t => c ^ 2 * F t ^ 2 + 2 * c * e * F t) (fun t => e ^ 2)); [|apply continuous_const].
    apply (continuous_plus (fun t => c ^ 2 * F t ^ 2) (fun t => 2 * c * e * F t)).
    + apply (continuous_mult (fun _ => c ^ 2) (fun t => F t ^ 2)); [apply continuous_const|now apply cont_sq].
    + apply (continuous_mult (fun _ => 2 * c * e) F); [apply continuous_const|auto].
Qed.
Lemma GB_seg a b : l <= a -> a <= b -> b <= u -> is_RInt (fun t => (1 - G t) ^ 2) a b (GB b - GB a).
Proof.
  intros Ha Hab Hb. apply (seg_der _ (fun t => c ^ 2 * F t ^ 2 + 2 * c * (e - 1) * F t + (e - 1) ^ 2)); auto.
  - intros t Ht. rewrite trunc_in by lra. ring.
  - intros t Ht. assert (l <= t <= u) as H by lra. unfold GB.
    apply (is_derive_plus (fun t => c ^ 2 * B t + 2 * c * (e - 1) * A t) (fun t => (e - 1) ^ 2 * t)).
    + apply (is_derive_plus (fun t => c ^ 2 * B t) (fun t => 2 * c * (e - 1) * A t)); [apply (is_derive_scal B), DB|apply (is_derive_scal A), DA]; auto.
    + auto_derive; auto. ring.
  - intros t Ht. assert (continuous F t) as H by (apply CF; lra).
    apply (continuous_plus (fun t => c ^ 2 * F t ^ 2 + 2 * c * (e - 1) * F t) (fun t => (e - 1) ^ 2)); [|apply continuous_const].
    apply (continuous_plus (fun t => c ^ 2 * F t ^ 2) (fun t => 2 * c * (e - 1) * F t)).
    + apply (continuous_mult (fun _ => c ^ 2) (fun t => F t ^ 2)); [apply continuous_const|now apply cont_sq].
    + apply (continuous_mult (fun _ => 2 * c * (e - 1)) F); [apply continuous_const|auto].
Qed.
Lemma trunc_lo t : t < l -> G t = 0.
Proof. intros H. unfold G, truncens. destruct (Rlt_dec t l); [auto|lra]. Qed.
Lemma trunc_hi t : u <= t -> G t = 1.
Proof. intros H. unfold G, truncens. destruct (Rlt_dec t l); [lra|]. destruct (Rlt_dec t u); [lra|auto]. Qed.
Lemma trunc_crps w : let z := Rmin (Rmax w l) u in
  is_crps (truncens F l u lm um) w (Rabs (w - z) + (GA z - GA l) + (GB u - GB z)).
Proof.
  intros z. fold G. change (is_crps G w (Rabs (w - z) + (GA z - GA l) + (GB u - GB z))). destruct (Rlt_dec w l) as [Hl|Hl]; [|destruct (Rle_dec w u) as [Hu|Hu]].
  - assert (z = l) as -> by (unfold z; rewrite Rmax_right, Rmin_left; lra). rewrite Rabs_left by lra.
    eapply crps_eq; [reflexivity| |apply crps_split].
    2: { apply ltail_0. intros t Ht. rewrite trunc_lo by lra. ring. }
    2: { eapply rtail_seg; [apply (seg_const _ 1 w l); [lra|]; intros t Ht; rewrite trunc_lo by lra; ring|].
         eapply rtail_seg; [apply (GB_seg l u); lra|]. apply rtail_0. intros t Ht. rewrite trunc_hi by lra. ring. }
    ring.
  - assert (z = w) as -> by (unfold z; rewrite Rmax_left, Rmin_left; lra). rewrite Rminus_eq_0, Rabs_R0.
    eapply crps_eq; [reflexivity| |apply crps_split].
    2: { eapply ltail_seg; [apply (ltail_0 _ l); intros t Ht; rewrite trunc_lo by lra; ring|]. apply (GA_seg l w); lra. }
    2: { eapply rtail_seg; [apply (GB_seg w u); lra|]. apply rtail_0. intros t Ht. rewrite trunc_hi by lra. ring. }
    ring.
  - assert (z = u) as -> by (unfold z; rewrite Rmax_left, Rmin_right; lra). rewrite Rabs_right by lra.
    eapply crps_eq; [reflexivity| |apply crps_split].
    2: { eapply ltail_seg; [apply (ltail_0 _ l); intros t Ht; rewrite trunc_lo by lra; ring|].
         eapply seg_seg; [apply (GA_seg l u); lra|]. apply (seg_const _ 1 u w); [lra|]. intros t Ht. rewrite trunc_hi by lra. ring. }
    2: { apply rtail_0. intros t Ht. rewrite trunc_hi by lra. ring. }
    ring.
Qed.
End trunc.
Definition trunc_value (F A B : R -> R) (l u lm um z : R) : R :=
  let c := (1 - lm - um) / (F u - F l) in
  let e := lm - c * F l in
  c ^ 2 * (B u - B l) + 2 * c * e * (A z - A l) + 2 * c * (e - 1) * (A u - A z) + e ^ 2 * (z - l) + (e - 1) ^ 2 * (u - z).
Lemma trunc_crps' F A B l u lm um w : l < u -> (forall t, l <= t <= u -> is_derive A t (F t)) ->
  (forall t, l <= t <= u -> is_derive B t (F t ^ 2)) -> (forall t, l <= t <= u -> continuous F t) -> F l <> F u ->
  let z := Rmin (Rmax w l) u in
  is_crps (truncens F l u lm um) w (Rabs (w - z) + trunc_value F A B l u lm um z).
Proof.
  intros Hlu DA DB CF HF z. eapply crps_eq; [reflexivity| |apply (trunc_crps F A B l u lm um Hlu DA DB CF HF w)].
  cbv zeta. fold z. unfold trunc_value. cbv zeta. ring.
Qed.
(** location and scale *)
Lemma truncens_scale F m s l u lm um t : 0 < s ->
  truncens F ((l - m) / s) ((u - m) / s) lm um ((t - m) / s) = truncens (fun t => F ((t - m) / s)) l u lm um t.
Proof.
  intros Hs. assert (forall x, m + s * ((x - m) / s) = x) as I by (intros; field; lra).
  pose proof (I t). pose proof (I l). pose proof (I u). unfold truncens.
  destruct (Rlt_dec ((t - m) / s) ((l - m) / s)), (Rlt_dec t l); auto; try (exfalso; nra).
  destruct (Rlt_dec ((t - m) / s) ((u - m) / s)), (Rlt_dec t u); auto; exfalso; nra.
Qed.
(** * uniform distribution *)
Lemma uniform_crps a b lm um y : a < b ->
  let w := (y - a) / (b - a) in
  let z := Rmin (Rmax w 0) 1 in
  is_crps (uniform_cdf a b lm um) y
    ((b - a) * (Rabs (w - z) + z ^ 2 * (1 - lm - um) - z * (1 - 2 * lm) + (1 - lm - um) ^ 2 / 3 + (1 - lm) * um)).
Proof.
  intros Hab w z.
  pose proof (trunc_crps' (fun t => t) (fun t => t ^ 2 / 2) (fun t => t ^ 3 / 3) 0 1 lm um w Rlt_0_1) as H. cbv zeta in H. fold z in H.
  eapply crps_eq; [| |apply (crps_scale (truncens (fun t => t) 0 1 lm um) a (b - a) y (Rabs (w - z) + trunc_value (fun t => t) (fun t => t ^ 2 / 2) (fun t => t ^ 3 / 3) 0 1 lm um z))].
  - intros t. cbv beta. replace (truncens (fun t => t) 0 1 lm um ((t - a) / (b - a)))
      with (truncens (fun t => t) ((a - a) / (b - a)) ((b - a) / (b - a)) lm um ((t - a) / (b - a))).
    2: { f_equal; field; lra. }
    rewrite truncens_scale by lra. unfold truncens, uniform_cdf. destruct (Rlt_dec t a); auto. destruct (Rlt_dec t b); auto. field. lra.
  - f_equal. unfold trunc_value. field.
  - lra.
  - fold w. apply H.
    + intros t _. auto_derive; auto. field.
    + intros t _. auto_derive; auto. field.
    + intros t _. apply continuous_id.
    + lra.
Qed.
