(** The Gaussian integral. *)
From Coq Require Import Reals Lra Psatz.
From Coquelicot Require Import Coquelicot.
Open Scope R_scope.

Definition g2 (t : R) : R := exp (- (t * t)).
Lemma g2_cont t : continuous g2 t.
Proof. apply (ex_derive_continuous g2). unfold g2. auto_derive. auto. Qed.
Lemma g2_int a b : ex_RInt g2 a b.
Proof. apply (@ex_RInt_continuous R_CompleteNormedModule). intros; apply g2_cont. Qed.
Definition GI (x : R) : R := RInt g2 0 x.
Lemma GI_der x : is_derive GI x (g2 x).
Proof.
  apply (is_derive_RInt g2 GI 0 x).
  - apply filter_forall. intros y. apply (@RInt_correct R_CompleteNormedModule), g2_int.
  - apply g2_cont.
Qed.
Definition gk (x t : R) : R := exp (- (x * x * (1 + t * t))) / (1 + t * t).
Definition gk' (x t : R) : R := - 2 * x * exp (- (x * x * (1 + t * t))).
Lemma one_sq t : 0 < 1 + t * t. Proof. nra. Qed.
Lemma gk_der x t : is_derive (fun u => gk u t) x (gk' x t).
Proof. pose proof (one_sq t). unfold gk, gk'. auto_derive; [lra|]. field. lra. Qed.
Lemma gk_int x a b : ex_RInt (gk x) a b.
Proof.
  apply (@ex_RInt_continuous R_CompleteNormedModule). intros t _. apply (ex_derive_continuous (gk x)). pose proof (one_sq t). unfold gk. auto_derive. lra.
Qed.
Lemma gk'_cont x t : continuity_2d_pt gk' x t.
Proof.
  unfold gk'. apply continuity_2d_pt_mult.
  - apply continuity_2d_pt_mult; [apply continuity_2d_pt_const|apply continuity_2d_pt_id1].
  - apply (continuity_1d_2d_pt_comp exp (fun x t => - (x * x * (1 + t * t)))).
    + apply derivable_continuous_pt, derivable_pt_exp.
    + apply continuity_2d_pt_opp, continuity_2d_pt_mult.
      * apply continuity_2d_pt_mult; apply continuity_2d_pt_id1.
      * apply continuity_2d_pt_plus; [apply continuity_2d_pt_const|]. apply continuity_2d_pt_mult; apply continuity_2d_pt_id2.
Qed.
Definition GJ (x : R) : R := RInt (gk x) 0 1.
Lemma GJ_der x : is_derive GJ x (- 2 * g2 x * GI x).
Proof.
  assert (RInt (fun t => Derive (fun u => gk u t) x) 0 1 = - 2 * g2 x * GI x) as <-.
  { rewrite (RInt_ext _ (gk' x)) by (intros; apply is_derive_unique, gk_der).
    apply is_RInt_unique. apply (is_RInt_ext (fun t => scal (- 2 * g2 x) (scal x (g2 (x * t + 0))))).
    - intros t _. unfold scal; simpl; unfold mult; simpl. unfold gk', g2.
      replace (- 2 * x * exp (- (x * x * (1 + t * t)))) with (- 2 * x * (exp (- (x * x)) * exp (- ((x * t + 0) * (x * t + 0))))); [ring|].
      rewrite <- exp_plus. do 2 f_equal. ring.
    - apply (is_RInt_scal (V := R_NormedModule)). apply (is_RInt_comp_lin (V := R_NormedModule) g2 x 0 0 1).
      rewrite Rmult_0_r, Rmult_1_r, !Rplus_0_r. apply (@RInt_correct R_CompleteNormedModule), g2_int. }
  apply (is_derive_RInt_param gk 0 1 x).
  - apply filter_forall. intros y t _. eexists. apply gk_der.
  - intros t _. apply (continuity_2d_pt_ext gk'); [|apply gk'_cont].
    intros u v. symmetry. apply is_derive_unique, gk_der.
  - apply filter_forall. intros y. apply gk_int.
Qed.
Lemma GJ_0 : GJ 0 = PI / 4.
Proof.
  unfold GJ. apply is_RInt_unique. rewrite <- atan_1. replace (atan 1) with (minus (atan 1) (atan 0)) by (rewrite atan_0; unfold minus, plus, opp; simpl; ring).
  apply (is_RInt_ext (fun t => / (1 + t ^ 2))).
  { intros t _. unfold gk. rewrite !Rmult_0_l, Ropp_0, exp_0. unfold Rdiv. rewrite Rmult_1_l. f_equal. ring. }
  apply (is_RInt_derive atan).
  - intros t _. apply is_derive_Reals. apply derivable_pt_lim_atan.
  - intros t _. apply (ex_derive_continuous (fun t => / (1 + t ^ 2))). auto_derive. pose proof (one_sq t). nra.
Qed.
Lemma GIJ x : GI x * GI x + GJ x = PI / 4.
Proof.
  rewrite <- GJ_0. replace (GJ 0) with (GI 0 * GI 0 + GJ 0).
  2: { unfold GI. rewrite RInt_point. unfold zero; simpl. ring. }
  assert (forall t, is_derive (fun x => GI x * GI x + GJ x) t 0) as D.
  { intros t. evar_last.
    - apply @is_derive_plus; [|apply GJ_der]. apply (is_derive_mult GI GI t); [apply GI_der|apply GI_der|]. intros; apply Rmult_comm.
    - unfold plus, mult; simpl. ring. }
  set (h := fun x => GI x * GI x + GJ x) in *. change (h x = h 0).
  destruct (MVT_gen h 0 x (fun _ => 0)) as (c & _ & E).
  - intros; apply D.
  - intros t _. apply continuity_pt_filterlim. apply (ex_derive_continuous h). eexists; apply D.
  - lra.
Qed.
Lemma GJ_bound x : 0 <= GJ x <= g2 x.
Proof.
  split.
  - apply RInt_ge_0; [lra|apply gk_int|]. intros t _. unfold gk. apply Rlt_le, Rdiv_lt_0_compat; [apply exp_pos|apply one_sq].
  - replace (g2 x) with (RInt (fun _ => g2 x) 0 1) by (rewrite RInt_const; unfold scal; simpl; unfold mult; simpl; ring).
    apply RInt_le; [lra|apply gk_int|apply ex_RInt_const|]. intros t _. unfold gk, g2. pose proof (one_sq t). pose proof (exp_pos (- (x * x))).
    assert (exp (- (x * x * (1 + t * t))) <= exp (- (x * x))) as L.
    { destruct (Req_dec (x * x * (t * t)) 0) as [E|N].
      - right. f_equal. nra.
      - left. apply exp_increasing. assert (0 <= x * x * (t * t)) by nra. nra. }
    apply (Rmult_le_reg_r (1 + t * t)); [lra|]. unfold Rdiv. rewrite Rmult_assoc, Rinv_l by lra. nra.
Qed.
Lemma exp_bound x : x * g2 x <= 1.
Proof.
  unfold g2. rewrite exp_Ropp. pose proof (exp_pos (x * x)). apply (Rmult_le_reg_r (exp (x * x))); [auto|]. rewrite Rmult_assoc, Rinv_l by lra.
  pose proof (exp_ineq1_le (x * x)). nra.
Qed.
Lemma g2_lim : is_lim g2 p_infty 0.
Proof.
  unfold g2. apply (is_lim_comp exp (fun t => - (t * t)) p_infty 0 m_infty); [apply is_lim_exp_m| |].
  - evar_last; [apply is_lim_opp, is_lim_mult; [apply is_lim_id|apply is_lim_id|exact I]|reflexivity].
  - exists 0. discriminate.
Qed.
Lemma GI_nonneg x : 0 <= x -> 0 <= GI x.
Proof. intros H. apply RInt_ge_0; [lra|apply g2_int|]. intros; apply Rlt_le, exp_pos. Qed.
Lemma GI_lim : is_lim GI p_infty (sqrt PI / 2).
Proof.
  apply (is_lim_ext_loc (fun x => sqrt (PI / 4 - GJ x))).
  - exists 0. intros x Hx. rewrite <- (GIJ x). replace (GI x * GI x + GJ x - GJ x) with (GI x * GI x) by ring. apply sqrt_square, GI_nonneg. lra.
  - replace (sqrt PI / 2) with (sqrt (PI / 4 - 0)).
    2: { rewrite Rminus_0_r, sqrt_div by (pose proof PI_RGT_0; lra). replace 4 with (2 * 2) by ring. rewrite sqrt_square by lra. reflexivity. }
    apply (is_lim_comp_continuous (fun x => PI / 4 - GJ x) sqrt p_infty (PI / 4 - 0)).
    + apply (is_lim_minus' (fun _ => PI / 4) GJ p_infty); [apply is_lim_const|].
      apply (is_lim_le_le_loc (fun _ => 0) g2 GJ p_infty 0); [|apply is_lim_const|apply g2_lim].
      exists 0. intros; apply GJ_bound.
    + apply continuous_sqrt.
Qed.
