(** The parametric families have the stated densities. *)
From Verif Require Export L_dens.
From Coq Require Import Psatz.
From Coquelicot Require Import Coquelicot.
Open Scope R_scope.

Lemma exponential_dist l : 0 < l -> dist0 (exponential_cdf l) (exponential_pdf l) 0 p_infty.
Proof.
  intros Hl. unfold exponential_cdf, exponential_pdf. split; [exact I|].
  split. { intros t. destruct (Rlt_dec t 0); [lra|]. apply Rmult_le_pos; [lra|left; apply exp_pos]. }
  split. { intros t Ht. simpl in Ht. destruct (Rlt_dec t 0); [auto|lra]. }
  split; [easy|]. split.
  { intros t Ht _. simpl in Ht. split.
    - apply (der_in _ (fun t => 1 - exp (- (l * t))) 0 p_infty); simpl; auto; [intros x Hx _; destruct (Rlt_dec x 0); [lra|auto]|].
      destruct (Rlt_dec t 0); [lra|]. auto_derive; auto. ring.
    - apply (cont_in _ (fun t => l * exp (- (l * t))) 0 p_infty); simpl; auto; [intros x Hx _; destruct (Rlt_dec x 0); [lra|auto]|].
      cont (fun t => l * exp (- (l * t))). }
  split.
  - apply (below_ext (fun t => 1 - exp (- (l * t))) _ 0 1); simpl; [lra|intros x Hx _; destruct (Rlt_dec x 0); [lra|auto]|].
    apply cont_below; [cont (fun t => 1 - exp (- (l * t)))|]. rewrite Rmult_0_r, Ropp_0, exp_0. ring.
  - apply (above_ext (fun t => 1 - exp (- (l * t))) _ p_infty 0); simpl; [auto|intros x _ Hx; destruct (Rlt_dec x 0); [lra|auto]|].
    change (is_lim (fun t => 1 - exp (- (l * t))) p_infty 1). apply (is_lim_ext (fun t => 1 - exp (- l * t + 0))); [intros; do 2 f_equal; ring|].
    replace (Finite 1) with (Finite (1 - 0)) by (f_equal; ring). apply is_lim_minus'; [apply is_lim_const|]. apply lim_exp_lin. lra.
Qed.
Lemma exponential2p_dist s1 s2 m : 0 < s1 -> 0 < s2 -> dist0 (exponential2p_cdf s1 s2 m) (exponential2p_pdf s1 s2 m) m_infty p_infty.
Proof.
  intros H1 H2. assert (0 < s1 + s2) as H by lra. split; [exact I|].
  split. { intros t. unfold exponential2p_pdf. destruct (Rlt_dec t m); apply Rdiv_le_0_compat; auto; left; apply exp_pos. }
  split; [easy|]. split; [easy|]. split.
  { intros t _ _. split.
    - apply (piece_der _ (fun t => s1 / (s1 + s2) * exp ((t - m) / s1)) (fun t => 1 - s2 / (s1 + s2) * exp (- ((t - m) / s2))) (exponential2p_pdf s1 s2 m) m).
      + intros x Hx. unfold exponential2p_cdf. destruct (Rlt_dec x m); [auto|lra].
      + intros x Hx. unfold exponential2p_cdf. destruct (Rlt_dec x m); [lra|auto].
      + replace ((m - m) / s1) with 0 by (field; lra). replace (- ((m - m) / s2)) with 0 by (field; lra). rewrite exp_0. field. lra.
      + intros x Hx. unfold exponential2p_pdf. auto_derive; auto. unfold Rminus, Rdiv. destruct (Rlt_dec x m); [field; lra|]. assert (x = m) as -> by lra.
        replace ((m + - m) * / s1) with 0 by (field; lra). replace (- ((m + - m) * / s2)) with 0 by (field; lra). rewrite exp_0. field. lra.
      + intros x Hx. unfold exponential2p_pdf. auto_derive; auto. destruct (Rlt_dec x m); [lra|]. unfold Rminus, Rdiv. field. lra.
    - apply (piece_cont _ (fun t => exp ((t - m) / s1) / (s1 + s2)) (fun t => exp (- ((t - m) / s2)) / (s1 + s2)) m).
      + intros x Hx. unfold exponential2p_pdf. destruct (Rlt_dec x m); [auto|lra].
      + intros x Hx. unfold exponential2p_pdf. destruct (Rlt_dec x m); [lra|auto].
      + replace ((m - m) / s1) with 0 by (field; lra). replace (- ((m - m) / s2)) with 0 by (field; lra). reflexivity.
      + intros x Hx. cont (fun t => exp ((t - m) / s1) / (s1 + s2)).
      + intros x Hx. cont (fun t => exp (- ((t - m) / s2)) / (s1 + s2)). }
  assert (0 < / s1) by now apply Rinv_0_lt_compat. assert (0 < / s2) by now apply Rinv_0_lt_compat. split.
  - apply (below_ext (fun t => s1 / (s1 + s2) * exp ((t - m) / s1)) _ m_infty m); simpl; [auto|intros x _ Hx; unfold exponential2p_cdf; destruct (Rlt_dec x m); [auto|lra]|].
    change (is_lim (fun t => s1 / (s1 + s2) * exp ((t - m) / s1)) m_infty 0). replace (Finite 0) with (Finite (s1 / (s1 + s2) * 0)) by (f_equal; ring). apply lim_scal.
    apply (is_lim_ext (fun t => exp (/ s1 * t + - (m / s1)))); [intros; f_equal; field; lra|]. now apply lim_exp_lin_m.
  - apply (above_ext (fun t => 1 - s2 / (s1 + s2) * exp (- ((t - m) / s2))) _ p_infty m); simpl; [auto|intros x _ Hx; unfold exponential2p_cdf; destruct (Rlt_dec x m); [lra|auto]|].
    change (is_lim (fun t => 1 - s2 / (s1 + s2) * exp (- ((t - m) / s2))) p_infty 1). replace (Finite 1) with (Finite (1 - s2 / (s1 + s2) * 0)) by (f_equal; ring).
    apply is_lim_minus'; [apply is_lim_const|]. apply lim_scal.
    apply (is_lim_ext (fun t => exp (- / s2 * t + (m / s2)))); [intros; f_equal; field; lra|]. apply lim_exp_lin. lra.
Qed.
Lemma laplace_dist m s : 0 < s -> dist0 (laplace_cdf m s) (laplace_pdf m s) m_infty p_infty.
Proof.
  intros Hs. apply (dist0_ext (exponential2p_cdf s s m) (exponential2p_pdf s s m)); [| |now apply exponential2p_dist].
  - intros t. unfold exponential2p_cdf, laplace_cdf. destruct (Rlt_dec t m); field; lra.
  - intros t. unfold exponential2p_pdf, laplace_pdf. replace (2 * s) with (s + s) by ring. destruct (Rlt_dec t m).
    + rewrite Rabs_left by lra. do 2 f_equal. field. lra.
    + rewrite Rabs_right by lra. reflexivity.
Qed.
Lemma logistic_dist m s : 0 < s -> dist0 (logistic_cdf m s) (logistic_pdf m s) m_infty p_infty.
Proof.
  intros Hs. apply (dist0_ext (ls_cdf (fun t => / (1 + exp (- t))) m s) (ls_pdf (fun t => exp (- t) / (1 + exp (- t)) ^ 2) m s)).
  - reflexivity.
  - intros t. unfold ls_pdf, logistic_pdf. pose proof (exp_pos (- ((t - m) / s))). field. split; lra.
  - apply (dist0_ls _ _ m_infty p_infty); auto. split; [exact I|].
    assert (forall t, 0 < 1 + exp (- t)) as P by (intros t; pose proof (exp_pos (- t)); lra).
    split. { intros t. pose proof (P t). apply Rdiv_le_0_compat; [left; apply exp_pos|apply pow_lt; auto]. }
    split; [easy|]. split; [easy|]. split.
    { intros t _ _. pose proof (P t). split; [auto_derive; [lra|field; lra]|]. cont (fun t => exp (- t) / (1 + exp (- t)) ^ 2). apply Rgt_not_eq, Rmult_lt_0_compat; [auto|]. rewrite Rmult_1_r. auto. }
    split; [apply logis_lim_m|]. change (is_lim (fun t => / (1 + exp (- t))) p_infty 1). apply (is_lim_ext (fun t => 1 - / (1 + exp (- - t)))); [intros t; rewrite <- logis_sym; ring|].
    replace (Finite 1) with (Finite (1 - 0)) by (f_equal; ring). apply is_lim_minus'; [apply is_lim_const|].
    apply (is_lim_comp (fun t => / (1 + exp (- t))) Ropp p_infty 0 m_infty); [apply logis_lim_m|evar_last; [apply is_lim_opp, is_lim_id|reflexivity]|exists 0; discriminate].
Qed.
Lemma NF_dist : dist0 NF phi m_infty p_infty.
Proof.
  split; [exact I|]. split; [intros; left; apply phi_pos|]. split; [easy|]. split; [easy|].
  split; [intros t _ _; split; [apply NF_der|apply phi_cont]|]. split; [apply NF_lim_m|apply NF_lim_p].
Qed.
Lemma normal_dist m s : 0 < s -> dist0 (normal_cdf m s) (normal_pdf m s) m_infty p_infty.
Proof.
  intros Hs. apply (dist0_ext (ls_cdf NF m s) (ls_pdf phi m s)); [intros; unfold normal_cdf; now rewrite Phi_NF|reflexivity|].
  apply (dist0_ls _ _ m_infty p_infty); auto. apply NF_dist.
Qed.
Lemma NF0 : NF 0 = 1 / 2.
Proof. pose proof (NF_opp 0) as N. rewrite Ropp_0 in N. lra. Qed.
Lemma normal2p_dist s1 s2 m : 0 < s1 -> 0 < s2 -> dist0 (normal2p_cdf s1 s2 m) (normal2p_pdf s1 s2 m) m_infty p_infty.
Proof.
  intros H1 H2. assert (0 < s1 + s2) as H by lra. assert (0 < 2 / (s1 + s2)) as H0 by (apply Rdiv_lt_0_compat; lra).
  set (F1 := fun t => 2 * s1 / (s1 + s2) * NF ((t - m) / s1)). set (F2 := fun t => 1 - 2 * s2 / (s1 + s2) * NF (- ((t - m) / s2))).
  assert (forall t, t < m -> normal2p_cdf s1 s2 m t = F1 t) as E1 by (intros t Ht; unfold normal2p_cdf; destruct (Rlt_dec t m); [|lra]; rewrite Phi_NF; auto).
  assert (forall t, m <= t -> normal2p_cdf s1 s2 m t = F2 t) as E2 by (intros t Ht; unfold normal2p_cdf; destruct (Rlt_dec t m); [lra|]; rewrite Phi_NF; auto).
  split; [exact I|].
  split. { intros t. unfold normal2p_pdf. apply Rmult_le_pos; [lra|]. destruct (Rlt_dec t m); left; apply phi_pos. }
  split; [easy|]. split; [easy|]. split.
  { intros t _ _. split.
    - apply (piece_der _ F1 F2 (normal2p_pdf s1 s2 m) m); auto.
      + unfold F1, F2. replace ((m - m) / s1) with 0 by (field; lra). replace (- ((m - m) / s2)) with 0 by (field; lra). rewrite NF0. field. lra.
      + intros x Hx. unfold normal2p_pdf, F1. evar_last; [apply (is_derive_scal (fun t => NF ((t - m) / s1))), (is_derive_comp NF (fun t => (t - m) / s1)); [apply NF_der|auto_derive; [exact I|reflexivity]]|].
        unfold scal, mult; simpl; unfold mult; simpl. destruct (Rlt_dec x m); [field; lra|]. assert (x = m) as -> by lra.
        replace ((m - m) / s1) with 0 by (field; lra). replace ((m - m) / s2) with 0 by (field; lra). field. lra.
      + intros x Hx. unfold normal2p_pdf, F2.
        apply (is_derive_ext (fun t => 1 - 2 * s2 / (s1 + s2) * (1 - NF ((t - m) / s2)))); [intros; now rewrite NF_opp|].
        evar_last; [apply (is_derive_comp (fun z => 1 - 2 * s2 / (s1 + s2) * (1 - z)) (fun t => NF ((t - m) / s2))); [auto_derive; [exact I|reflexivity]|
          apply (is_derive_comp NF (fun t => (t - m) / s2)); [apply NF_der|auto_derive; [exact I|reflexivity]]]|].
        unfold scal, mult; simpl; unfold mult; simpl. destruct (Rlt_dec x m); [lra|]. field. lra.
    - assert (forall s x, continuous (fun t => 2 / (s1 + s2) * phi ((t - m) / s)) x) as C.
      { intros s x. apply (continuous_mult (fun _ => 2 / (s1 + s2)) (fun t => phi ((t - m) / s))); [apply continuous_const|].
        apply (continuous_comp (fun t => (t - m) / s) phi); [cont (fun t => (t - m) / s)|apply phi_cont]. }
      apply (piece_cont _ (fun t => 2 / (s1 + s2) * phi ((t - m) / s1)) (fun t => 2 / (s1 + s2) * phi ((t - m) / s2)) m); auto.
      + intros x Hx. unfold normal2p_pdf. destruct (Rlt_dec x m); [auto|lra].
      + intros x Hx. unfold normal2p_pdf. destruct (Rlt_dec x m); [lra|auto].
      + replace ((m - m) / s1) with 0 by (field; lra). replace ((m - m) / s2) with 0 by (field; lra). reflexivity. }
  assert (forall s, 0 < s -> filterlim (fun t => NF ((t - m) / s)) (Rbar_locally m_infty) (locally 0)) as Lm.
  { intros s Hs. destruct (ls_tend m s m_infty Hs) as [A _]. eapply filterlim_comp; [exact A|apply NF_lim_m]. }
  assert (forall s, 0 < s -> filterlim (fun t => NF ((t - m) / s)) (Rbar_locally p_infty) (locally 1)) as Lp.
  { intros s Hs. destruct (ls_tend m s p_infty Hs) as [_ A]. eapply filterlim_comp; [exact A|apply NF_lim_p]. }
  split.
  - apply (below_ext F1 _ m_infty m); simpl; [auto|intros; now apply E1|]. change (is_lim F1 m_infty 0). unfold F1. replace (Finite 0) with (Finite (2 * s1 / (s1 + s2) * 0)) by (f_equal; ring). apply lim_scal, Lm; auto.
  - apply (above_ext F2 _ p_infty m); simpl; [auto|intros; apply E2; lra|]. change (is_lim F2 p_infty 1). unfold F2.
    apply (is_lim_ext (fun t => 1 - 2 * s2 / (s1 + s2) * (1 - NF ((t - m) / s2)))); [intros; now rewrite NF_opp|].
    replace (Finite 1) with (Finite (1 - 2 * s2 / (s1 + s2) * (1 - 1))) by (f_equal; ring). apply is_lim_minus'; [apply is_lim_const|]. apply lim_scal.
    apply is_lim_minus'; [apply is_lim_const|]. apply Lp; auto.
Qed.
Lemma uniform_dist a b : a < b -> dist0 (uniform_cdf a b 0 0) (uniform_pdf a b) a b.
Proof.
  intros H. assert (forall t, a < t < b -> uniform_cdf a b 0 0 t = (t - a) / (b - a)) as EF.
  { intros t Ht. unfold uniform_cdf. destruct (Rlt_dec t a); [lra|]. destruct (Rlt_dec t b); [|lra]. ring. }
  assert (forall t, a < t < b -> uniform_pdf a b t = / (b - a)) as Ef.
  { intros t Ht. unfold uniform_pdf. destruct (Rlt_dec t a); [lra|]. destruct (Rlt_dec b t); [lra|]. reflexivity. }
  split; [exact H|].
  split. { intros t. unfold uniform_pdf. destruct (Rlt_dec t a); [lra|]. destruct (Rlt_dec b t); [lra|]. left; apply Rinv_0_lt_compat; lra. }
  split. { intros t Ht. simpl in Ht. unfold uniform_pdf, uniform_cdf. destruct (Rlt_dec t a); [auto|lra]. }
  split. { intros t Ht. simpl in Ht. unfold uniform_pdf, uniform_cdf. destruct (Rlt_dec t a); [lra|]. destruct (Rlt_dec b t); [|lra]. destruct (Rlt_dec t b); [lra|auto]. }
  split.
  { intros t Ha Hb. split.
    - apply (der_in _ (fun t => (t - a) / (b - a)) a b); [exact Ha|exact Hb|intros x X1 X2; apply EF; split; assumption|]. rewrite Ef by (split; assumption). auto_derive; auto. field. lra.
    - apply (cont_in _ (fun t => / (b - a)) a b); [exact Ha|exact Hb|intros x X1 X2; apply Ef; split; assumption|]. apply continuous_const. }
  split.
  - apply (below_ext (fun t => (t - a) / (b - a)) _ a b); simpl; [auto|intros; apply EF; auto|]. apply cont_below; [cont (fun t => (t - a) / (b - a))|field; lra].
  - apply (above_ext (fun t => (t - a) / (b - a)) _ b a); simpl; [auto|intros; apply EF; auto|]. apply cont_above; [cont (fun t => (t - a) / (b - a))|field; lra].
Qed.
(** generalised Pareto *)
Definition gpd0_cdf (k x : R) : R := if Rlt_dec x 0 then 0 else 1 - gpd_sf k x.
Lemma gpd_cdf_ls k m s t : 0 < s -> gpd_cdf k m s 0 t = ls_cdf (gpd0_cdf k) m s t.
Proof.
  intros Hs. unfold gpd_cdf, ls_cdf, gpd0_cdf. destruct (ls_lt m s 0 t Hs) as [_ B]. simpl in B. rewrite Rmult_0_r, Rplus_0_r in B.
  destruct (Rlt_dec t m), (Rlt_dec ((t - m) / s) 0); try tauto. ring.
Qed.
Lemma gpd_sf0 k : gpd_sf k 0 = 1.
Proof.
  unfold gpd_sf. destruct (Req_EM_T k 0) as [E|N]; [rewrite Ropp_0; apply exp_0|].
  rewrite Rmult_0_r, Rplus_0_r, pow0_pos by lra. unfold Rpower. now rewrite ln_1, Rmult_0_r, exp_0.
Qed.
Lemma gpd_in k t : 0 < t -> Rbar_lt t (gpd_end k) -> 0 < 1 + k * t.
Proof.
  intros H. unfold gpd_end. destruct (Rlt_dec k 0) as [K|K]; simpl; intros Ht; [|nra].
  apply (Rmult_lt_compat_l (- k)) in Ht; [|lra]. replace (- k * - (1 / k)) with 1 in Ht by (field; lra). lra.
Qed.
Lemma gpd_cs k x : 0 <= x -> continuous (gpd_sf k) x.
Proof.
  intros Hx. unfold gpd_sf. destruct (Req_EM_T k 0) as [E|N]; [cont (fun x => exp (- x))|].
  apply (continuous_comp (fun x => 1 + k * x) (fun x => pow0 x (- (1 / k)))); [cont (fun x => 1 + k * x)|].
  apply pow0_cont. destruct (Rle_dec 0 k); [left; nra|right]. pose proof (inv_pos_lt k ltac:(lra)). lra.
Qed.
Lemma gpd_dist k : dist0 (gpd0_cdf k) (gpd_pdf k) 0 (gpd_end k).
Proof.
  assert (Rbar_lt 0 (gpd_end k)) as H0.
  { unfold gpd_end. destruct (Rlt_dec k 0) as [K|K]; simpl; auto. pose proof (inv_pos_lt k K). lra. }
  assert (forall x p, 0 <= pow0 x p) as P0 by (intros; unfold pow0; destruct (Rlt_dec 0 x); [left; apply exp_pos|lra]).
  split; [exact H0|].
  split. { intros t. unfold gpd_pdf. destruct (Rlt_dec t 0); [lra|]. destruct (Req_EM_T k 0); [left; apply exp_pos|auto]. }
  split. { intros t Ht. simpl in Ht. unfold gpd_pdf, gpd0_cdf. destruct (Rlt_dec t 0); [auto|lra]. }
  split.
  { intros t Ht. unfold gpd_end in Ht, H0. destruct (Rlt_dec k 0) as [K|K]; simpl in *; [|easy]. unfold gpd_pdf, gpd0_cdf, gpd_sf.
    destruct (Rlt_dec t 0); [lra|]. destruct (Req_EM_T k 0); [lra|]. assert (1 + k * t <= 0).
    { apply (Rmult_lt_compat_l (- k)) in Ht; [|lra]. replace (- k * - (1 / k)) with 1 in Ht by (field; lra). lra. }
    rewrite !pow0_neg by auto. split; ring. }
  split.
  { intros t Ht Hu. simpl in Ht. pose proof (gpd_in k t Ht Hu) as P. split.
    - apply (der_in _ (fun t => 1 - gpd_sf k t) 0 p_infty); simpl; auto; [intros x Hx _; unfold gpd0_cdf; destruct (Rlt_dec x 0); [lra|auto]|].
      unfold gpd_pdf, gpd_sf. destruct (Rlt_dec t 0); [lra|]. destruct (Req_EM_T k 0) as [E|N]; [auto_derive; auto; ring|].
      replace (pow0 (1 + k * t) (- (1 / k) - 1)) with (0 - k * (- (1 / k) * pow0 (1 + k * t) (- (1 / k) - 1))) by (field; auto).
      apply (is_derive_minus (K := R_AbsRing) (V := R_NormedModule) (fun _ => 1) (fun t => pow0 (1 + k * t) (- (1 / k)))).
      + apply (is_derive_const (K := R_AbsRing) (V := R_NormedModule)).
      + apply (lin_der k t (fun x => pow0 x (- (1 / k)))), pow0_der. now left.
    - apply (cont_in _ (fun t => if Req_EM_T k 0 then exp (- t) else pow0 (1 + k * t) (- (1 / k) - 1)) 0 p_infty); simpl; auto.
      + intros x Hx _; unfold gpd_pdf; destruct (Rlt_dec x 0); [lra|auto].
      + destruct (Req_EM_T k 0) as [E|N]; [cont (fun x => exp (- x))|].
        apply (continuous_comp (fun x => 1 + k * x) (fun x => pow0 x (- (1 / k) - 1))); [cont (fun x => 1 + k * x)|]. apply pow0_cont. now left. }
  split.
  - apply (below_ext (fun t => 1 - gpd_sf k t) _ 0 1); simpl; [lra|intros x Hx _; unfold gpd0_cdf; destruct (Rlt_dec x 0); [lra|auto]|].
    apply (cont_below (fun t => 1 - gpd_sf k t)); [|rewrite gpd_sf0; ring]. apply (continuous_minus (fun _ => 1) (gpd_sf k)); [apply continuous_const|apply gpd_cs; lra].
  - apply (above_ext (fun t => 1 - gpd_sf k t) _ _ 0); simpl; auto; [intros x _ Hx; unfold gpd0_cdf; destruct (Rlt_dec x 0); [lra|auto]|].
    unfold gpd_end in *. destruct (Rlt_dec k 0) as [K|K].
    + simpl in H0. apply (cont_above (fun t => 1 - gpd_sf k t)).
      * apply (continuous_minus (fun _ => 1) (gpd_sf k)); [apply continuous_const|apply gpd_cs; lra].
      * unfold gpd_sf. destruct (Req_EM_T k 0); [lra|]. replace (1 + k * - (1 / k)) with 0 by (field; lra). rewrite pow0_neg by lra. ring.
    + change (is_lim (fun t => 1 - gpd_sf k t) p_infty 1). replace (Finite 1) with (Finite (1 - 0)) by (f_equal; ring). apply is_lim_minus'; [apply is_lim_const|].
      unfold gpd_sf. destruct (Req_EM_T k 0) as [E|N]; [apply lim_exp_opp|].
      apply (is_lim_ext (fun x => pow0 (k * x + 1) (- (1 / k)))); [intros; f_equal; ring|]. apply lim_Rpower_0; [lra|].
      assert (0 < 1 / k) by (apply Rdiv_lt_0_compat; lra). lra.
Qed.
(** generalised extreme value *)
Lemma gev_dom k (t : R) : k <> 0 -> ((Rbar_lt (gev_lower k) t /\ Rbar_lt t (gev_upper k)) <-> 0 < 1 + k * t).
Proof.
  intros N. unfold gev_lower, gev_upper. assert (k * - (1 / k) = -1) as E by (field; auto). set (q := - (1 / k)) in *.
  destruct (Rlt_dec 0 k), (Rlt_dec k 0); simpl; try lra; split; intros; try split; auto; nra.
Qed.
Lemma gumbel_lim_m : filterlim (fun z => exp (- exp (- z))) (Rbar_locally m_infty) (locally 0).
Proof.
  change (is_lim (fun z => exp (- exp (- z))) m_infty 0). apply (is_lim_comp (fun z => exp (- z)) (fun z => exp (- z)) m_infty 0 p_infty); [apply lim_exp_opp| |exists 0; discriminate].
  apply lim_opp_m. apply (is_lim_ext exp); [intros; f_equal; ring|apply is_lim_exp_p].
Qed.
Lemma gumbel_lim_p : filterlim (fun z => exp (- exp (- z))) (Rbar_locally p_infty) (locally 1).
Proof.
  change (is_lim (fun z => exp (- exp (- z))) p_infty 1). rewrite <- exp_0. replace (exp 0) with (exp (- 0)) by (f_equal; ring).
  apply (is_lim_comp_continuous (fun x => exp (- x)) (fun z => exp (- z)) p_infty 0); [apply lim_exp_opp|cont (fun x => exp (- x))].
Qed.
Lemma gev_tend k : k <> 0 -> filterlim (fun x => ln (1 + k * x) / k) (from_below (gev_lower k)) (Rbar_locally m_infty) /\
  filterlim (fun x => ln (1 + k * x) / k) (from_above (gev_upper k)) (Rbar_locally p_infty).
Proof.
  intros N. assert (forall M, let X := (exp (k * M) - 1) / k in 1 + k * X = exp (k * M)) as EX by (intros; unfold X; field; auto).
  assert (forall M x, 0 < 1 + k * x -> let X := (exp (k * M) - 1) / k in (x < X -> ln (1 + k * x) / k < M) /\ (X < x -> M < ln (1 + k * x) / k)) as K.
  { intros M x Hx X. pose proof (EX M) as E. cbv zeta in E. fold X in E. set (b := 1 + k * x) in *. assert (ln b / k * k = ln b) as L by (field; auto). 
    destruct (Rlt_dec 0 k).
    - split; intros H.
      + assert (b < exp (k * M)) as Hb by (unfold b; nra). apply (ln_increasing b) in Hb; auto. rewrite ln_exp in Hb. nra.
      + assert (exp (k * M) < b) as Hb by (unfold b; nra). apply ln_increasing in Hb; [|apply exp_pos]. rewrite ln_exp in Hb. nra.
    - split; intros H.
      + assert (exp (k * M) < b) as Hb by (unfold b; nra). apply ln_increasing in Hb; [|apply exp_pos]. rewrite ln_exp in Hb. nra.
      + assert (b < exp (k * M)) as Hb by (unfold b; nra). apply (ln_increasing b) in Hb; auto. rewrite ln_exp in Hb. nra. }
  assert (forall M, Rbar_lt (gev_lower k) ((exp (k * M) - 1) / k) /\ Rbar_lt ((exp (k * M) - 1) / k) (gev_upper k)) as B.
  { intros M. apply gev_dom; auto. pose proof (EX M) as E. cbv zeta in E. rewrite E. apply exp_pos. }
  split; intros P (M & HM); destruct (B M) as [B1 B2].
  - unfold filtermap. eapply filter_imp; [|apply (below_in _ _ B1)]. intros x [H1 H2]. apply HM. apply K; auto. apply gev_dom; auto. split; auto. eapply Rbar_lt_trans; [|exact B2]. exact H2.
  - unfold filtermap. eapply filter_imp; [|apply (above_in _ _ B2)]. intros x [H1 H2]. apply HM. apply K; auto. apply gev_dom; auto. split; auto. eapply Rbar_lt_trans; [exact B1|]. exact H2.
Qed.
Lemma gev_dist k : dist0 (gev_cdf k) (gev_pdf k) (gev_lower k) (gev_upper k).
Proof.
  destruct (Req_EM_T k 0) as [->|N].
  { unfold gev_cdf, gev_pdf, gev_lower, gev_upper. destruct (Req_EM_T 0 0); [|lra]. destruct (Rlt_dec 0 0); [lra|]. split; [exact I|].
    split; [intros; apply Rmult_le_pos; left; apply exp_pos|]. split; [easy|]. split; [easy|].
    split; [intros t _ _; split; [auto_derive; auto; ring|cont (fun x => exp (- x) * exp (- exp (- x)))]|]. split; [apply gumbel_lim_m|apply gumbel_lim_p]. }
  assert (Rbar_lt (gev_lower k) 0 /\ Rbar_lt 0 (gev_upper k)) as [B1 B2] by (apply gev_dom; auto; rewrite Rmult_0_r; lra).
  assert (forall t : R, Rbar_lt (gev_lower k) t -> Rbar_lt t (gev_upper k) -> gev_cdf k t = exp (- Rpower (1 + k * t) (- (1 / k)))) as EF.
  { intros t H1 H2. unfold gev_cdf. destruct (Req_EM_T k 0); [contradiction|]. assert (0 < 1 + k * t) by (apply gev_dom; auto). destruct (Rlt_dec 0 (1 + k * t)); [auto|lra]. }
  assert (forall t : R, Rbar_lt (gev_lower k) t -> Rbar_lt t (gev_upper k) -> gev_pdf k t = Rpower (1 + k * t) (- (1 / k) - 1) * exp (- Rpower (1 + k * t) (- (1 / k)))) as Ef.
  { intros t H1 H2. unfold gev_pdf. destruct (Req_EM_T k 0); [contradiction|]. assert (0 < 1 + k * t) by (apply gev_dom; auto). destruct (Rlt_dec 0 (1 + k * t)); [auto|lra]. }
  split; [eapply Rbar_lt_trans; eauto|].
  split. { intros t. unfold gev_pdf. destruct (Req_EM_T k 0); [contradiction|]. destruct (Rlt_dec 0 (1 + k * t)); [|lra]. apply Rmult_le_pos; left; apply exp_pos. }
  assert (forall t, ~ 0 < 1 + k * t -> gev_pdf k t = 0 /\ gev_cdf k t = if Rlt_dec 0 k then 0 else 1) as Out.
  { intros t H. unfold gev_pdf, gev_cdf. destruct (Req_EM_T k 0); [contradiction|]. destruct (Rlt_dec 0 (1 + k * t)); [lra|auto]. }
  split.
  { intros t Ht. destruct (Out t) as [E1 E2].
    - rewrite <- gev_dom by auto. intros [H1 _]. pose proof (Rbar_lt_trans _ _ _ H1 Ht) as C. destruct (gev_lower k); simpl in C; auto; lra.
    - split; auto. rewrite E2. unfold gev_lower in Ht. destruct (Rlt_dec 0 k); auto. easy. }
  split.
  { intros t Ht. destruct (Out t) as [E1 E2].
    - rewrite <- gev_dom by auto. intros [_ H1]. pose proof (Rbar_lt_trans _ _ _ H1 Ht) as C. simpl in C. lra.
    - split; auto. rewrite E2. unfold gev_upper in Ht. destruct (Rlt_dec 0 k), (Rlt_dec k 0); auto; try lra; easy. }
  split.
  { intros t H1 H2. assert (0 < 1 + k * t) as P by (apply gev_dom; auto). split.
    - apply (der_in _ (fun t => exp (- Rpower (1 + k * t) (- (1 / k)))) _ _ t _ H1 H2); auto. rewrite Ef by auto.
      unfold Rpower. auto_derive; auto. replace ((- (1 / k) - 1) * ln (1 + k * t)) with (- (1 / k) * ln (1 + k * t) + - ln (1 + k * t)) by ring.
      rewrite exp_plus, (exp_Ropp (ln (1 + k * t))), exp_ln by auto. field. split; auto. lra.
    - apply (cont_in _ (fun t => Rpower (1 + k * t) (- (1 / k) - 1) * exp (- Rpower (1 + k * t) (- (1 / k)))) _ _ t H1 H2); auto.
      unfold Rpower. cont (fun t => exp ((- (1 / k) - 1) * ln (1 + k * t)) * exp (- exp (- (1 / k) * ln (1 + k * t)))). }
  assert (forall b, Rpower b (- (1 / k)) = exp (- (ln b / k))) as EP by (intros; unfold Rpower; f_equal; field; auto).
  destruct (gev_tend k N) as [T1 T2]. split.
  - apply (below_ext (fun x => exp (- exp (- (ln (1 + k * x) / k)))) _ _ 0 0 B1).
    + intros x H1 H2. rewrite EF, EP; auto. eapply Rbar_lt_trans; [|exact B2]. exact H2.
    + eapply (filterlim_comp _ _ _ (fun x => ln (1 + k * x) / k) (fun z => exp (- exp (- z)))); [exact T1|apply gumbel_lim_m].
  - apply (above_ext (fun x => exp (- exp (- (ln (1 + k * x) / k)))) _ _ 0 1 B2).
    + intros x H1 H2. rewrite EF, EP; auto. eapply Rbar_lt_trans; [exact B1|]. exact H2.
    + eapply (filterlim_comp _ _ _ (fun x => ln (1 + k * x) / k) (fun z => exp (- exp (- z)))); [exact T2|apply gumbel_lim_p].
Qed.
