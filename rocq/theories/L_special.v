(** Distributions that are special cases of each other. *)
From Verif Require Export S_catalog L_fam L_gam L_tt L_crpsgam.
From Coquelicot Require Import Coquelicot.
From Coq Require Import Psatz Lia.
Open Scope R_scope.

Lemma two_piece_normal m c t : 0 < c -> normal2p_cdf c c m t = normal_cdf m c t.
Proof.
  intros Hc. unfold normal2p_cdf, normal_cdf. rewrite !Phi_NF, NF_opp. destruct (Rlt_dec t m); field; lra.
Qed.
Lemma two_piece_exponential m c t : 0 < c -> exponential2p_cdf c c m t = laplace_cdf m c t.
Proof. intros Hc. unfold exponential2p_cdf, laplace_cdf. destruct (Rlt_dec t m); field; lra. Qed.
Lemma exponential_of_M l c t : l * c = 1 -> exponentialM_cdf 0 0 c t = exponential_cdf l t.
Proof.
  intros H. assert (c <> 0) by (intros ->; lra). unfold exponentialM_cdf, exponential_cdf. destruct (Rlt_dec t 0); auto.
  replace ((t - 0) / c) with (l * t) by (apply (Rmult_eq_reg_r c); auto; field_simplify; auto; nra). ring.
Qed.
Lemma gpd_zero m c p t : gpd_cdf 0 m c p t = exponentialM_cdf p m c t.
Proof. unfold gpd_cdf, exponentialM_cdf, gpd_sf. destruct (Req_EM_T 0 0); [reflexivity|lra]. Qed.
Lemma gpd_minus_one m c p t : 0 < c -> gpd_cdf (-1) m c p t = uniform_cdf m (m + c) p 0 t.
Proof.
  intros Hc. unfold gpd_cdf, uniform_cdf, gpd_sf. destruct (Rlt_dec t m); auto. destruct (Req_EM_T (-1) 0); [lra|].
  assert (m + c * ((t - m) / c) = t) as E by (field; lra). set (x := (t - m) / c) in *. unfold pow0. destruct (Rlt_dec 0 (1 + -1 * x)), (Rlt_dec t (m + c)); try (exfalso; nra).
  - replace (- (1 / -1)) with 1 by field. rewrite Rpower_1 by auto. replace ((t - m) / (m + c - m)) with x by (unfold x; field; lra). ring.
  - ring.
Qed.
Lemma unbounded_tc F t : truncensx F m_infty p_infty 0 0 t = F t.
Proof. unfold truncensx. destruct (Rbar_lt_dec t m_infty) as [H|H]; [destruct H|]. destruct (Rbar_lt_dec t p_infty) as [H'|H']; [|destruct H'; simpl; auto]. simpl. field. Qed.
Lemma unbounded_c F t : censored F m_infty p_infty t = F t.
Proof. unfold censored. destruct (Rbar_lt_dec t m_infty) as [H|H]; [destruct H|]. destruct (Rbar_lt_dec t p_infty) as [H'|H']; [auto|destruct H'; simpl; auto]. Qed.
(** the mass outside the bounds as point masses *)
Lemma outside_mass F (l u : Rbar) t : ext_cdf F l <> ext_cdf F u -> truncensx F l u (ext_cdf F l) (1 - ext_cdf F u) t = censored F l u t.
Proof. intros H. unfold truncensx, censored. destruct (Rbar_lt_dec t l); auto. destruct (Rbar_lt_dec t u); auto. field. lra. Qed.
Lemma csg0_no_shift a r t : csg0_cdf a r 0 t = gamma_cdf a r t.
Proof. unfold csg0_cdf. rewrite Rplus_0_r. destruct (Rlt_dec t 0); auto. unfold gamma_cdf. destruct (Rle_dec t 0); auto. lra. Qed.

(** distributions with proportional densities are equal *)
Lemma proportional F f G g l u k : dist0 F f l u -> dist0 G g l u -> (forall t : R, Rbar_lt l t -> Rbar_lt t u -> f t = k * g t) -> forall t : R, Rbar_lt l t -> Rbar_lt t u -> F t = G t.
Proof.
  intros DF DG H t Hl Hu. apply dist0_distribution in DF. apply dist0_distribution in DG.
  destruct DF as (_ & _ & _ & CF & TF). destruct DG as (_ & _ & _ & CG & TG).
  assert (forall (A B : (R -> Prop) -> Prop) (v w : R), ProperFilter' A -> ProperFilter' B -> A (fun x : R => Rbar_lt l x /\ x <= t) -> B (fun x : R => t <= x /\ Rbar_lt x u) ->
    is_RInt_gen f A B v -> is_RInt_gen g A B w -> v = k * w) as E.
  { intros A B v w PA PB MA MB HF HG. apply (is_RInt_gen_scal (V := R_NormedModule) g k) in HG.
    assert (is_RInt_gen f A B (k * w)) as K.
    { eapply is_RInt_gen_ext; [|exact HG]. apply (Filter_prod _ _ _ _ _ MA MB). intros a b [Ha Ha'] [Hb Hb'] x Hx. simpl in Hx. rewrite Rmin_left, Rmax_right in Hx by lra. symmetry. apply H.
      - eapply Rbar_lt_le_trans; [exact Ha|]. simpl. lra.
      - eapply Rbar_le_lt_trans; [|exact Hb']. simpl. lra. }
    rewrite <- (is_RInt_gen_unique f v HF). exact (is_RInt_gen_unique f _ K). }
  assert (from_below l (fun x : R => Rbar_lt l x /\ x <= t)) as MA by (eapply filter_imp; [|apply (below_in l t Hl)]; intros x [X1 X2]; split; auto; lra).
  assert (from_above u (fun x : R => t <= x /\ Rbar_lt x u)) as MB by (eapply filter_imp; [|apply (above_in u t Hu)]; intros x [X1 X2]; split; auto; lra).
  pose proof (E _ _ _ _ _ _ MA MB TF TG). pose proof (E _ _ _ _ _ _ MA (conj (Rle_refl t) Hu) (CF t Hl Hu) (CG t Hl Hu)). nra.
Qed.
Lemma gamma_one r t : 0 < r -> gamma_cdf 1 r t = exponential_cdf r t.
Proof.
  intros Hr. destruct (Rle_lt_dec t 0) as [H|H].
  - unfold gamma_cdf, exponential_cdf. destruct (Rle_dec t 0); [|lra]. destruct (Rlt_dec t 0); auto. replace t with 0 by lra. rewrite Rmult_0_r, Ropp_0, exp_0. ring.
  - apply (proportional _ _ _ _ 0 p_infty (/ Euler_gamma 1) (gamma_dist0 1 r ltac:(lra) Hr) (exponential_dist r Hr)); simpl; auto.
    clear t H. intros t Ht _. simpl in Ht. unfold gamma_pdf, exponential_pdf. destruct (Rle_dec t 0), (Rlt_dec t 0); try lra.
    replace (1 - 1) with 0 by ring. rewrite Rpower_O by nra. unfold Rdiv. ring.
Qed.
Lemma beta_one l u t : l < u -> ls_cdf (beta_cdf 1 1) l (u - l) t = uniform_cdf l u 0 0 t.
Proof.
  intros Hlu. unfold ls_cdf. assert (l + (u - l) * ((t - l) / (u - l)) = t) as E by (field; lra).
  transitivity (uniform_cdf 0 1 0 0 ((t - l) / (u - l))).
  - generalize ((t - l) / (u - l)). clear t E. intros t. destruct (Rle_lt_dec t 0) as [H|H]; [|destruct (Rle_lt_dec 1 t) as [H'|H']].
    + unfold beta_cdf, uniform_cdf. destruct (Rle_dec t 0); [|lra]. destruct (Rlt_dec t 0); auto. destruct (Rlt_dec t 1); [|lra]. replace t with 0 by lra. field.
    + unfold beta_cdf, uniform_cdf. destruct (Rle_dec t 0); [lra|]. destruct (Rle_dec 1 t); [|lra]. destruct (Rlt_dec t 0); [lra|]. destruct (Rlt_dec t 1); [lra|]. reflexivity.
    + apply (proportional _ _ _ _ 0 1 (/ Euler_beta 1 1) (beta_dist0 1 1 ltac:(lra) ltac:(lra)) (uniform_dist 0 1 ltac:(lra))); simpl; auto.
      clear t H H'. intros t Ht Ht'. simpl in Ht, Ht'. unfold beta_pdf, uniform_pdf. destruct (Rle_dec t 0); [lra|]. destruct (Rle_dec 1 t); [lra|]. destruct (Rlt_dec t 0); [lra|]. destruct (Rlt_dec 1 t); [lra|].
      replace (1 - 1) with 0 by ring. rewrite !Rpower_O by lra. replace (1 - 0) with 1 by ring. unfold Rdiv. rewrite Rinv_1. ring.
  - set (x := (t - l) / (u - l)) in *. unfold uniform_cdf. destruct (Rlt_dec x 0), (Rlt_dec t l); try (exfalso; nra); auto. destruct (Rlt_dec x 1), (Rlt_dec t u); try (exfalso; nra); auto. unfold x. field. lra.
Qed.
