(** Every call of the catalogue returns minus the logarithm of the density. *)
From Verif Require Export S_catlogs T_logs T_logs2 T_logsc T_logsd L_special S_logs.
From Coquelicot Require Import Coquelicot.
From Coq Require Import Psatz Lia.
Open Scope R_scope.

Theorem catlogs T s f y : closed_logs T s f y -> returns T s (fun i => logp (f i (y i))).
Proof.
  intros H. destruct H.
  - eapply C41_exponential_l; eassumption.
  - eapply C41_2pexponential_l; eassumption.
  - eapply C41_laplace_l; eassumption.
  - eapply C41_logistic_l; eassumption.
  - eapply C41_normal_l; eassumption.
  - eapply C41_2pnormal_l; eassumption.
  - eapply C41_lognormal_l; eassumption.
  - eapply C41_loglaplace_l; eassumption.
  - eapply C41_loglogistic_l; eassumption.
  - eapply C41_uniform_l; eassumption.
  - eapply C41_exponential2_l; eassumption.
  - eapply C41_gpd_l; eassumption.
  - eapply C41_gev_l; eassumption.
  - eapply C41_tnormal_l; eassumption.
  - eapply C41_tlogistic_l; eassumption.
  - eapply C41_mixnorm_l; eassumption.
  - eapply C41_gamma_l; eassumption.
  - eapply C41_gamma_scale_l; eassumption.
  - eapply C41_beta_l; eassumption.
  - eapply C41_t_l; eassumption.
  - eapply C41_tt_l; eassumption.
  - eapply C41_poisson_l; eassumption.
  - eapply C41_binomial_l; eassumption.
  - eapply C41_hypergeometric_l; eassumption.
  - eapply C41_negbinom_l; eassumption.
  - eapply C41_negbinom_mean_l; eassumption.
Qed.

Lemma same_logs T T' s f f' y y' : closed_logs T s f y -> closed_logs T' s f' y' -> (forall i, inb s i -> f i (y i) = f' i (y' i)) ->
  exists v, returns T s v /\ returns T' s v.
Proof.
  intros H H' E. exists (fun i => logp (f i (y i))). split; [now apply catlogs|]. eapply returns_ext; [exact (catlogs _ _ _ _ H')|].
  intros i Hi. cbv beta. now rewrite E.
Qed.
Lemma logp_scale p b : 0 < b -> logp (p / b) = nadd (logp p) (Fin (ln b)).
Proof.
  intros Hb. unfold logp. pose proof (Rinv_0_lt_compat b Hb). destruct (Rlt_dec 0 p) as [P|P], (Rlt_dec 0 (p / b)) as [Q|Q]; simpl; auto.
  - f_equal. unfold Rdiv. rewrite ln_mult, ln_Rinv by auto. ring.
  - destruct Q. unfold Rdiv. nra.
  - exfalso. unfold Rdiv in Q. nra.
Qed.
Lemma logs_change T T' s f f' y y' b : closed_logs T s f y -> closed_logs T' s f' y' -> (forall i, inb s i -> 0 < b i /\ f' i (y' i) = f i (y i) / b i) ->
  exists v, returns T s v /\ returns T' s (fun i => nadd (v i) (Fin (ln (b i)))).
Proof.
  intros H H' E. exists (fun i => logp (f i (y i))). split; [now apply catlogs|]. eapply returns_ext; [exact (catlogs _ _ _ _ H')|].
  intros i Hi. cbv beta. destruct (E i Hi) as [P ->]. now apply logp_scale.
Qed.
Lemma logp_fin p v : logp p = Fin v -> 0 < p /\ v = - ln p.
Proof. unfold logp. destruct (Rlt_dec 0 p); [|discriminate]. intros [= <-]. auto. Qed.

(** densities that are special cases of each other *)
Lemma proportional_pdf F f G g l u k : dist0 F f l u -> dist0 G g l u -> (forall t : R, Rbar_lt l t -> Rbar_lt t u -> f t = k * g t) -> forall t : R, Rbar_lt l t -> Rbar_lt t u -> f t = g t.
Proof.
  intros DF DG H t Hl Hu. pose proof (proportional F f G g l u k DF DG H) as E. destruct DF as (_ & _ & _ & _ & HF & _). destruct DG as (_ & _ & _ & _ & HG & _).
  pose proof (proj1 (HF t Hl Hu)) as A. pose proof (proj1 (HG t Hl Hu)) as B.
  apply (is_derive_ext_loc F G) in A.
  - apply is_derive_unique in A. apply is_derive_unique in B. congruence.
  - apply (filter_imp (fun x : R => Rbar_lt l x /\ Rbar_lt x u)).
    + intros x [X1 X2]. now apply E.
    + apply filter_and; [apply (open_Rbar_gt' t l)|apply (open_Rbar_lt' t u)]; auto.
Qed.
Lemma normal2p_pdf_eq m c t : 0 < c -> normal2p_pdf c c m t = normal_pdf m c t.
Proof. intros. unfold normal2p_pdf, normal_pdf. destruct (Rlt_dec t m); field; lra. Qed.
Lemma exponential2p_pdf_eq m c t : 0 < c -> exponential2p_pdf c c m t = laplace_pdf m c t.
Proof.
  intros. unfold exponential2p_pdf, laplace_pdf. destruct (Rlt_dec t m); [rewrite Rabs_left by lra|rewrite Rabs_right by lra].
  - replace (- (- (t - m) / c)) with ((t - m) / c) by (field; lra). field. lra.
  - field. lra.
Qed.
Lemma ls_exponential l c t : 0 < c -> l * c = 1 -> ls_pdf (exponential_pdf 1) 0 c t = exponential_pdf l t.
Proof.
  intros H E. unfold ls_pdf, exponential_pdf. assert (l = 1 / c) as -> by (apply (Rmult_eq_reg_r c); [|lra]; rewrite E; field; lra).
  assert (c * ((t - 0) / c) = t) as Ht by (field; lra). destruct (Rlt_dec ((t - 0) / c) 0), (Rlt_dec t 0); try (exfalso; nra).
  - field. lra.
  - replace (1 * ((t - 0) / c)) with (1 / c * t) by (field; lra). field. lra.
Qed.
Lemma gpd_pdf_0 x : gpd_pdf 0 x = exponential_pdf 1 x.
Proof. unfold gpd_pdf, exponential_pdf. destruct (Rlt_dec x 0); auto. destruct (Req_EM_T 0 0); [|lra]. rewrite !Rmult_1_l. reflexivity. Qed.
Lemma gpd_pdf_m1 m c t : 0 < c -> 1 + -1 * ((t - m) / c) <> 0 -> ls_pdf (gpd_pdf (-1)) m c t = uniform_pdf m (m + c) t.
Proof.
  intros Hc Ht. assert (m + c * ((t - m) / c) = t) as E by (field; lra). unfold ls_pdf, uniform_pdf, gpd_pdf. set (x := (t - m) / c) in *. unfold pow0.
  destruct (Req_EM_T (-1) 0); [lra|]. destruct (Rlt_dec x 0), (Rlt_dec t m); try (exfalso; nra); [field; lra|].
  destruct (Rlt_dec 0 (1 + -1 * x)), (Rlt_dec (m + c) t); try (exfalso; nra).
  - replace (- (1 / -1) - 1) with 0 by field. rewrite Rpower_O by auto. field. lra.
  - field. lra.
Qed.
Lemma gamma_pdf_1 r t : 0 < r -> t <> 0 -> gamma_pdf 1 r t = exponential_pdf r t.
Proof.
  intros Hr Ht. destruct (Rlt_dec 0 t) as [P|P].
  - apply (proportional_pdf _ _ _ _ 0 p_infty (/ Euler_gamma 1) (gamma_dist0 1 r ltac:(lra) Hr) (exponential_dist r Hr)); simpl; auto.
    intros x Hx _. simpl in Hx. unfold gamma_pdf, exponential_pdf. destruct (Rle_dec x 0); [lra|]. destruct (Rlt_dec x 0); [lra|].
    replace (1 - 1) with 0 by ring. rewrite Rpower_O by nra. unfold Rdiv. ring.
  - unfold gamma_pdf, exponential_pdf. destruct (Rle_dec t 0); [|lra]. destruct (Rlt_dec t 0); lra.
Qed.
Lemma beta_pdf_1 l u t : l < u -> t <> l -> t <> u -> ls_pdf (beta_pdf 1 1) l (u - l) t = uniform_pdf l u t.
Proof.
  intros H H1 H2. assert (l + (u - l) * ((t - l) / (u - l)) = t) as E by (field; lra). unfold ls_pdf. set (x := (t - l) / (u - l)) in *.
  unfold uniform_pdf. destruct (Rlt_dec t l); [unfold beta_pdf; destruct (Rle_dec x 0); [field; lra|exfalso; nra]|].
  destruct (Rlt_dec u t); [unfold beta_pdf; destruct (Rle_dec x 0); [field; lra|]; destruct (Rle_dec 1 x); [field; lra|exfalso; nra]|].
  rewrite (proportional_pdf _ _ _ _ 0 1 (/ Euler_beta 1 1) (beta_dist0 1 1 ltac:(lra) ltac:(lra)) (uniform_dist 0 1 ltac:(lra))); [| |simpl; nra|simpl; nra].
  - unfold uniform_pdf. destruct (Rlt_dec x 0); [exfalso; nra|]. destruct (Rlt_dec 1 x); [exfalso; nra|]. field. lra.
  - intros z Z1 Z2. simpl in Z1, Z2. unfold beta_pdf, uniform_pdf. destruct (Rle_dec z 0); [lra|]. destruct (Rle_dec 1 z); [lra|]. destruct (Rlt_dec z 0); [lra|]. destruct (Rlt_dec 1 z); [lra|].
    replace (1 - 1) with 0 by ring. rewrite !Rpower_O by lra. rewrite Rminus_0_r, Rinv_1. unfold Rdiv. ring.
Qed.
Lemma trunc_pdf_all F f t : trunc_pdf F f m_infty p_infty t = f t.
Proof. unfold trunc_pdf. destruct (Rbar_lt_dec t m_infty) as [H|H]; [destruct H|]. destruct (Rbar_lt_dec p_infty t) as [H'|H']; [destruct H'|]. simpl. field. Qed.
Lemma exp_pdf_exp f t : exp_pdf f (exp t) = f t / exp t.
Proof. unfold exp_pdf. pose proof (exp_pos t). destruct (Rle_dec (exp t) 0); [lra|]. now rewrite ln_exp. Qed.
Lemma equal_mixture M (w : nat -> R) f g t : sumn M w = 1 -> (forall k, (k < M)%nat -> f k t = g t) -> mixture M w f t = g t.
Proof. intros S E. unfold mixture. rewrite (sumn_ext M _ (fun k => g t * w k)) by (intros k Hk; cbv beta; rewrite E; auto; ring). rewrite sumn_scal, S. ring. Qed.
Lemma kde_mixture M x h t : (0 < M)%nat -> mixture M (fun _ => / INR M) (fun k => normal_pdf (x k) h) t = kde M x h t.
Proof. intros HM. unfold mixture, kde, normal_pdf. rewrite sumn_scal. field. apply not_0_INR. lia. Qed.
Lemma inside_ext l u (f g : R -> R) v : Rbar_lt l u -> (forall t : R, Rbar_lt l t -> Rbar_lt t u -> f t = g t) ->
  is_RInt_gen f (from_below l) (from_above u) v -> is_RInt_gen g (from_below l) (from_above u) v.
Proof.
  intros Hlu E. assert (exists t : R, Rbar_lt l t /\ Rbar_lt t u) as (t & Hl & Hu).
  { destruct l as [l| |], u as [u| |]; simpl in *; try contradiction; [exists ((l + u) / 2)|exists (l + 1)|exists (u - 1)|exists 0]; split; simpl; auto; lra. }
  assert (from_below l (fun x : R => Rbar_lt l x /\ x <= t)) as MA by (eapply filter_imp; [|apply (below_in l t Hl)]; intros x [X1 X2]; split; auto; lra).
  assert (from_above u (fun x : R => t <= x /\ Rbar_lt x u)) as MB by (eapply filter_imp; [|apply (above_in u t Hu)]; intros x [X1 X2]; split; auto; lra).
  apply is_RInt_gen_ext. apply (Filter_prod _ _ _ _ _ MA MB). intros a b [Ha Ha'] [Hb Hb'] x Hx. simpl in Hx. rewrite Rmin_left, Rmax_right in Hx by lra. apply E.
  - eapply Rbar_lt_le_trans; [exact Ha|]. simpl. lra.
  - eapply Rbar_le_lt_trans; [|exact Hb']. simpl. lra.
Qed.
