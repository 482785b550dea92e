(** Consequences of the integral form of the CRPS that hold for every distribution function. *)
From Verif Require Export S_dss L_crps_real L_ow L_rint.
From Coq Require Import Psatz Lia.
From Coquelicot Require Import Coquelicot.
Open Scope R_scope.

Notation line f v := (is_RInt_gen f (Rbar_locally m_infty) (Rbar_locally p_infty) v).
Lemma line_ext (f g : R -> R) (v w : R) : (forall t, f t = g t) -> v = w -> line f v -> line g w.
Proof.
  intros H -> L. eapply is_RInt_gen_ext; [|exact L].
  apply (Filter_prod _ _ _ (fun _ => True) (fun _ => True)); [exists 0; auto|exists 0; auto|]. intros; rewrite H; reflexivity.
Qed.
Lemma line_plus (f g : R -> R) (v w : R) : line f v -> line g w -> line (fun t => f t + g t) (v + w).
Proof. intros Hf Hg. exact (is_RInt_gen_plus (V := R_NormedModule) f g v w Hf Hg). Qed.
Lemma line_scal (f : R -> R) (c v : R) : line f v -> line (fun t => c * f t) (c * v).
Proof. intros Hf. exact (is_RInt_gen_scal (V := R_NormedModule) f c v Hf). Qed.
Lemma line_minus (f g : R -> R) (v w : R) : line f v -> line g w -> line (fun t => f t - g t) (v - w).
Proof. intros Hf Hg. exact (is_RInt_gen_minus (V := R_NormedModule) f g v w Hf Hg). Qed.
Lemma line_zero : line (fun _ => 0) 0.
Proof. apply (is_RInt_gen_compact _ 0 0). intros a b _ _. pose proof (is_RInt_const (V := R_NormedModule) a b 0) as K. unfold scal in K; simpl in K; unfold mult in K; simpl in K. now rewrite Rmult_0_r in K. Qed.
Lemma line_sumn n (f : nat -> R -> R) (v : nat -> R) : (forall k, (k < n)%nat -> line (f k) (v k)) -> line (fun t => sumn n (fun k => f k t)) (sumn n v).
Proof.
  induction n as [|n IH]; intros H.
  - eapply line_ext; [| |exact line_zero]; intros; now rewrite sumn_0.
  - eapply line_ext; [| |apply line_plus; [apply IH; intros; apply H; lia|apply (H n); lia]]; intros; now rewrite sumn_S.
Qed.
Lemma line_nonneg (f : R -> R) v : (forall t, 0 <= f t) -> line f v -> 0 <= v.
Proof. apply is_RInt_gen_unique_pos. Qed.

Lemma crps_nonneg F y v : is_crps F y v -> 0 <= v.
Proof. intros H. refine (line_nonneg _ v _ H). intros t. apply pow2_ge_0. Qed.
(** the length of an interval as an integral *)
Lemma gap y y' : line (fun t => (ind_le y t - ind_le y' t) ^ 2) (Rabs (y - y')).
Proof.
  pose proof (is_crps_kernel 1 (fun _ => 1) (fun _ => y) y' ltac:(unfold sumn, Rsum; simpl; lra)) as K. unfold is_crps in K. eapply line_ext; [| |exact K].
  - intros t. cbv beta. unfold sumn, Rsum. simpl. ring.
  - unfold wmae, wpairsum, sumn, Rsum. simpl. replace (y - y) with 0 by ring. rewrite Rabs_R0. ring.
Qed.
Lemma crps_lipschitz F y y' v v' : (forall t, 0 <= F t <= 1) -> is_crps F y v -> is_crps F y' v' -> Rabs (v - v') <= Rabs (y - y').
Proof.
  intros HF H H'. pose proof (line_minus _ _ _ _ H H') as D. pose proof (gap y y') as G.
  assert (0 <= Rabs (y - y') - (v - v')) as A.
  { eapply line_nonneg; [|exact (line_minus _ _ _ _ G D)]. intros t. cbv beta. specialize (HF t). unfold ind_le. destruct (Rle_dec y t), (Rle_dec y' t); nra. }
  assert (0 <= Rabs (y - y') + (v - v')) as B.
  { eapply line_nonneg; [|exact (line_plus _ _ _ _ G D)]. intros t. cbv beta. specialize (HF t). unfold ind_le. destruct (Rle_dec y t), (Rle_dec y' t); nra. }
  apply Rabs_le. lra.
Qed.
(** score divergence: the mean score over observations y 0, ..., y (n-1) with weights q minus the mean score of the
    distribution of these observations is the squared distance of the distribution functions *)
Lemma divergence n q (F : R -> R) y v u : sumn n q = 1 -> (forall i, (i < n)%nat -> is_crps F (y i) (v i)) ->
  (forall i, (i < n)%nat -> is_crps (fun t => sumn n (fun k => q k * ind_le (y k) t)) (y i) (u i)) ->
  line (fun t => (F t - sumn n (fun k => q k * ind_le (y k) t)) ^ 2) (sumn n (fun i => q i * v i) - sumn n (fun i => q i * u i)).
Proof.
  intros Hq HF HG. set (G := fun t => sumn n (fun k => q k * ind_le (y k) t)) in *.
  pose proof (line_sumn n (fun i t => q i * (F t - ind_le (y i) t) ^ 2) (fun i => q i * v i) (fun i Hi => line_scal _ (q i) _ (HF i Hi))) as A.
  pose proof (line_sumn n (fun i t => q i * (G t - ind_le (y i) t) ^ 2) (fun i => q i * u i) (fun i Hi => line_scal _ (q i) _ (HG i Hi))) as B.
  eapply line_ext; [|reflexivity|exact (line_minus _ _ _ _ A B)]. intros t. cbv beta. fold (G t).
  assert (forall c, sumn n (fun i => q i * (c - ind_le (y i) t) ^ 2) = c ^ 2 - 2 * c * G t + sumn n (fun i => q i * ind_le (y i) t ^ 2)) as E.
  { intros c. rewrite (sumn_ext n _ (fun i => c ^ 2 * q i + (-2 * c) * (q i * ind_le (y i) t) + q i * ind_le (y i) t ^ 2)) by (intros; ring). rewrite !sumn_plus, !sumn_scal, Hq. fold (G t). ring. }
  rewrite !E. ring.
Qed.
Lemma is_crps_ecdf_q n y i u : (0 < n)%nat -> is_crps (ecdf n y) (y i) u -> is_crps (fun t => sumn n (fun k => / INR n * ind_le (y k) t)) (y i) u.
Proof. intros Hn. apply is_crps_ext. intros t. unfold ecdf, Rdiv. rewrite sumn_scal. ring. Qed.
Lemma insample n (F : R -> R) y v u : (0 < n)%nat -> (forall i, (i < n)%nat -> is_crps F (y i) (v i)) -> (forall i, (i < n)%nat -> is_crps (ecdf n y) (y i) (u i)) ->
  line (fun t => (F t - ecdf n y t) ^ 2) (mean n v - mean n u).
Proof.
  intros Hn HF HG. assert (INR n <> 0) as N0 by (apply not_0_INR; lia). pose proof (divergence n (fun _ => / INR n) F y v u) as D. eapply line_ext; [| |apply D].
  - intros t. cbv beta. unfold ecdf, Rdiv. rewrite sumn_scal. f_equal. ring.
  - unfold mean, Rdiv. rewrite !sumn_scal. ring.
  - rewrite sumn_const. field. auto.
  - exact HF.
  - intros i Hi. apply is_crps_ecdf_q; auto.
Qed.

(** the value of the integrand at one point does not matter *)
Lemma line_off (f g : R -> R) c v : (forall t, t <> c -> f t = g t) -> line f v -> line g v.
Proof.
  intros H Hf. assert (line (fun t => g t - f t) 0) as Hd.
  { apply (is_RInt_gen_compact _ (c - 1) (c + 1)). intros a b Ha Hb.
    assert (forall p q, p <= q -> (forall t, p < t < q -> t <> c) -> is_RInt (fun t => g t - f t) p q 0) as K.
    { intros p q Hpq E. pose proof (is_RInt_const (V := R_NormedModule) p q 0) as Z. unfold scal in Z; simpl in Z; unfold mult in Z; simpl in Z. rewrite Rmult_0_r in Z.
      eapply is_RInt_ext; [|exact Z]. intros t Ht. rewrite Rmin_left, Rmax_right in Ht by lra. rewrite H by (apply E; lra). simpl. ring. }
    pose proof (is_RInt_Chasles _ a c b 0 0 (K a c ltac:(lra) ltac:(intros; lra)) (K c b ltac:(lra) ltac:(intros; lra))) as Z. unfold plus in Z; simpl in Z. now rewrite Rplus_0_r in Z. }
  eapply line_ext; [| |exact (line_plus _ _ _ _ Hf Hd)]; intros; lra.
Qed.
Lemma line_opp (f : R -> R) v : line f v -> line (fun t => f (- t)) v.
Proof.
  intros H P HP. destruct (H P HP) as [Q S [A HA] [B HB] K]. apply (Filter_prod _ _ _ (fun a => a < - B) (fun b => - A < b)).
  - exists (- B). auto.
  - exists (- A). auto.
  - intros a b Ha Hb. destruct (K (- b) (- a)) as (w & Hw & Pw); [apply HA; lra|apply HB; lra|]. exists w. split; [|exact Pw]. cbn [fst snd] in *.
    pose proof (is_RInt_swap (V := R_NormedModule) f _ _ _ Hw) as S1. apply is_RInt_comp_opp in S1. apply (is_RInt_opp (V := R_NormedModule)) in S1.
    unfold opp in S1; simpl in S1. rewrite Ropp_involutive in S1. eapply is_RInt_ext; [|exact S1]. intros t _. simpl. lra.
Qed.
(** the same for finitely many points *)
Lemma line_offs (L : list R) : forall (f g : R -> R) v, (forall t, ~ In t L -> f t = g t) -> line f v -> line g v.
Proof.
  induction L as [|c L IH]; intros f g v H Hf.
  - eapply line_ext; [|reflexivity|exact Hf]. intros t. apply H. simpl; tauto.
  - apply (line_off (fun t => if Req_EM_T t c then f t else g t) g c).
    + intros t Ht. destruct (Req_EM_T t c); tauto.
    + apply (IH f); auto. intros t Ht. destruct (Req_EM_T t c); auto. apply H. simpl. intros [E|E]; auto.
Qed.
(** the score of the reflected forecast; the reflected distribution function is determined except where it jumps *)
Lemma crps_reflect F G L y v : (forall t, ~ In t L -> G (- t) = 1 - F t) -> is_crps F y v -> is_crps G (- y) v.
Proof.
  intros H HF. unfold is_crps in *.
  apply (line_offs (- y :: map Ropp L) (fun t => (F (- t) - ind_le y (- t)) ^ 2)); [|exact (line_opp _ _ HF)].
  intros t Ht. simpl in Ht. pose proof (H (- t)) as K. rewrite Ropp_involutive in K. rewrite K.
  - unfold ind_le. destruct (Rle_dec y (- t)), (Rle_dec (- y) t); try ring; exfalso; apply Ht; left; lra.
  - intros E. apply Ht. right. apply (in_map Ropp) in E. now rewrite Ropp_involutive in E.
Qed.
Lemma crps_affine F G a b y v : 0 < b -> (forall t, G (a + b * t) = F t) -> is_crps F y v -> is_crps G (a + b * y) (b * v).
Proof.
  intros Hb H HF. eapply crps_eq; [|reflexivity|apply (crps_scale F a b); auto].
  - intros t. cbv beta. rewrite <- H. f_equal. field. lra.
  - replace ((a + b * y - a) / b) with y by (field; lra). exact HF.
Qed.
