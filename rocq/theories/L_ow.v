(** Outcome-weighted and vertically re-scaled CRPS. *)
From Coq Require Import FunctionalExtensionality.
From Verif Require Export L_tw S_ow.
Open Scope R_scope.

Lemma wmae_nw M w y x : wmae M (nw M w) y x = wmae M w y x / sumn M w.
Proof. unfold wmae, nw. rewrite <- sumn_div. apply sumn_ext; intros. unfold Rdiv. ring. Qed.
Lemma wpairsum_nw M w x : wpairsum M (nw M w) x = wpairsum M w x / (sumn M w * sumn M w).
Proof.
  unfold wpairsum, nw. rewrite <- sumn_div. apply sumn_ext; intros. rewrite <- sumn_div. apply sumn_ext; intros.
  unfold Rdiv. rewrite Rinv_mult. ring.
Qed.
Lemma wtri2 M w x c : sumn M (fun i => Rsum (map (fun j => 2 * Rabs (x i - x j) * w i * w j * c) (seq (i + 1) (M - (i + 1)))))
  = wpairsum M w x * c.
Proof.
  unfold wpairsum. rewrite (sumn_triangle M (fun i j => w i * w j * Rabs (x i - x j))).
  - rewrite <- sumn_scal, <- sumn_scal_r. apply sumn_ext; intros i Hi.
    rewrite Rmult_comm, <- !Rsum_map_scal.
    apply Rsum_map_ext; intros. ring.
  - intros. rewrite Rabs_minus_sym. ring.
  - intros; rewrite Rminus_eq_0, Rabs_R0; ring.
Qed.
(** the vertically re-scaled score of an ensemble with mass p i on x i *)
Definition vrv (M : nat) (p w : nat -> R) (a y : R) (x : nat -> R) : R :=
  a * sumn M (fun i => p i * w i * Rabs (x i - y)) - / 2 * wpairsum M (fun i => p i * w i) x
  + (sumn M (fun i => p i * w i * Rabs (x i)) - a * Rabs y) * (sumn M (fun i => p i * w i) - a).

Lemma combine_rw2 M f g : combine (rw M f) (rw M g) = map (fun i => (f i, g i)) (seq 0 M).
Proof. apply combine_rw. Qed.
Lemma combine_rw3 M f g h : combine (rw M f) (combine (rw M g) (rw M h)) = map (fun i => (f i, (g i, h i))) (seq 0 M).
Proof. unfold rw. now rewrite !combine_rw. Qed.
Section Rows.
Variables (M : nat) (yn an : num) (xn wn : nat -> num) (y a : R) (x w : nat -> R).
Hypothesis HM : (0 < M)%nat.
Hypothesis Hy : yn = Fin y.
Hypothesis Ha : an = Fin a.
Hypothesis Hx : forall k, (k < M)%nat -> xn k = Fin (x k).
Hypothesis Hw : forall k, (k < M)%nat -> wn k = Fin (w k).
Ltac nz0 := pose proof (INR_nz M HM).

Lemma sum_div_nz : sumn M w <> 0 -> sumn M w / INR M <> 0.
Proof. nz0. intros H1 E. apply H1. replace (sumn M w) with (sumn M w / INR M * INR M) by (field; auto). rewrite E; ring. Qed.
Lemma abs_e1 : sumn M (fun k => Rabs (y - x k) * w k) = wmae M w y x. Proof. apply abs_wmae. Qed.
Lemma row_ow_real : sumn M w <> 0 -> row_ow M yn xn an wn = Fin (a * wexact_crps M (nw M w) y x).
Proof.
  intros HW. nz0. pose proof (sum_div_nz HW). unfold row_ow, e1wn, e2wn. fin; auto; rewrite ?mult_INR;
    try (apply Rmult_integral_contrapositive_currified; auto; apply Rmult_integral_contrapositive_currified; auto).
  rewrite abs_wmae, wpairsum_diag. unfold wexact_crps, half. rewrite wmae_nw, wpairsum_nw. change (fun k => w k) with w. field. auto.
Qed.
Lemma nmean_rw f g : (forall k, (k < M)%nat -> f k = Fin (g k)) -> nmean (rw M f) = Fin (sumn M g / INR M).
Proof. intros H. nz0. unfold nmean. rewrite rw_length. fold (nsumn M f). unfold rw. fold (nsumn M f). fin; auto. Qed.
Lemma ow_k_real : sumn M w <> 0 -> owcrps_nrg_k yn (rw M xn) an (rw M wn) = Fin (a * wexact_crps M (nw M w) y x).
Proof.
  intros HW. nz0. pose proof (sum_div_nz HW). pose proof (Hithx M xn x Hx). pose proof (Hithx M wn w Hw).
  unfold owcrps_nrg_k. rewrite rw_length, Hy, Ha. cbn [nisnan].
  rewrite (fold_pairs M (fun i => nabs (ith (rw M xn) i .- Fin y) .* ith (rw M wn) i .* Fin a)
     (fun i j => n2 .* nabs (ith (rw M xn) i .- ith (rw M xn) j) .* ith (rw M wn) i .* ith (rw M wn) j .* Fin a)).
  rewrite (nmean_rw wn w) by auto. unfold n2, nhalf. fin; auto; rewrite ?mult_INR;
    try (repeat (apply Rmult_integral_contrapositive_currified; auto)).
  rewrite wtri2. unfold wexact_crps, half. rewrite wmae_nw, wpairsum_nw, <- abs_wmae.
  rewrite (sumn_ext M (fun k => Rabs (x k - y) * w k * a) (fun k => (Rabs (y - x k) * w k) * a)) by (intros; now rewrite Rabs_minus_sym).
  rewrite sumn_scal_r. field. auto.
Qed.
Lemma row_ow_zero : (forall k, (k < M)%nat -> w k = 0) -> row_ow M yn xn an wn = NaN.
Proof.
  intros HW. unfold row_ow.
  assert (E1 : e1wn M yn xn wn .* an = Fin 0).
  { unfold e1wn. fin. rewrite (sumn_ext M _ (fun _ => 0)) by (intros; rewrite HW by auto; ring). rewrite sumn_zero. ring. }
  assert (E2 : nofnat M .* (nsumn M wn ./ nofnat M) = Fin 0).
  { fin; [now apply INR_nz|]. rewrite (sumn_ext M _ (fun _ => 0)) by auto. rewrite sumn_zero. unfold Rdiv; ring. }
  rewrite E1, E2, ndiv_0. apply nsub_NaN_l.
Qed.
Lemma ow_k_zero : (forall k, (k < M)%nat -> w k = 0) -> owcrps_nrg_k yn (rw M xn) an (rw M wn) = NaN.
Proof.
  intros HW. pose proof (Hithx M xn x Hx). pose proof (Hithx M wn w Hw). unfold owcrps_nrg_k. rewrite rw_length, Hy, Ha. cbn [nisnan].
  rewrite (fold_pairs M (fun i => nabs (ith (rw M xn) i .- Fin y) .* ith (rw M wn) i .* Fin a)
     (fun i j => n2 .* nabs (ith (rw M xn) i .- ith (rw M xn) j) .* ith (rw M wn) i .* ith (rw M wn) j .* Fin a)).
  rewrite (nmean_rw wn w) by auto.
  assert (E1 : nsumn M (fun i => nabs (ith (rw M xn) i .- Fin y) .* ith (rw M wn) i .* Fin a) = Fin 0).
  { fin. rewrite (sumn_ext M _ (fun _ => 0)) by (intros; rewrite HW by auto; ring). apply sumn_zero. }
  assert (E2 : nofnat M .* Fin (sumn M w / INR M) = Fin 0).
  { fin. rewrite (sumn_ext M _ (fun _ => 0)) by auto. rewrite sumn_zero. unfold Rdiv; ring. }
  rewrite E1, E2, ndiv_0. apply nsub_NaN_l.
Qed.
Lemma row_vr_real : row_vr M yn xn an wn = Fin (vrv M (fun _ => / INR M) w a y x).
Proof.
  nz0. unfold row_vr, e1wn. fin; auto; rewrite ?mult_INR; auto. rewrite abs_wmae.
  unfold vrv, half.
  replace (sumn M (fun i => / INR M * w i * Rabs (x i - y))) with (wmae M w y x / INR M)
    by (unfold wmae; rewrite <- sumn_div; apply sumn_ext; intros; unfold Rdiv; ring).
  replace (wpairsum M (fun i => / INR M * w i) x) with (wpairsum M w x / (INR M * INR M))
    by (unfold wpairsum; rewrite <- sumn_div; apply sumn_ext; intros; rewrite <- sumn_div; apply sumn_ext; intros; unfold Rdiv; rewrite Rinv_mult; ring).
  replace (sumn M (fun i => / INR M * w i * Rabs (x i))) with (sumn M (fun k => Rabs (x k) * w k) / INR M)
    by (rewrite <- sumn_div; apply sumn_ext; intros; unfold Rdiv; ring).
  replace (sumn M (fun i => / INR M * w i)) with (sumn M w / INR M) by (rewrite sumn_scal; unfold Rdiv; apply Rmult_comm).
  replace (sumn M (fun k => sumn M (fun k0 => Rabs (x k - x k0) * (w k * w k0)))) with (wpairsum M w x)
    by (unfold wpairsum; apply sumn_ext; intros; apply sumn_ext; intros; ring).
  change (fun k => w k) with w. field. auto.
Qed.
Lemma vr_k_real : vrcrps_nrg_k yn (rw M xn) an (rw M wn) = Fin (vrv M (fun _ => / INR M) w a y x).
Proof.
  nz0. pose proof (Hithx M xn x Hx). pose proof (Hithx M wn w Hw).
  unfold vrcrps_nrg_k. rewrite rw_length, Hy, Ha. cbn [nisnan].
  rewrite (fold_pairs M (fun i => nabs (ith (rw M xn) i .- Fin y) .* ith (rw M wn) i .* Fin a)
     (fun i j => n2 .* nabs (ith (rw M xn) i .- ith (rw M xn) j) .* ith (rw M wn) i .* ith (rw M wn) j)).
  rewrite (nmean_rw wn w) by auto. rewrite combine_rw2, map_map. fold (rw M (fun k => nabs (xn k) .* wn k)).
  rewrite (nmean_rw _ (fun k => Rabs (x k) * w k)) by (intros; fin; reflexivity).
  unfold n2, nhalf. fin; auto; rewrite ?mult_INR; auto.
  rewrite (sumn_ext M (fun k => Rsum (map (fun j => 2 * Rabs (x k - x j) * w k * w j) (seq (k + 1) (M - (k + 1)))))
     (fun k => Rsum (map (fun j => 2 * Rabs (x k - x j) * w k * w j * 1) (seq (k + 1) (M - (k + 1))))))
    by (intros; apply Rsum_map_ext; intros; ring).
  rewrite wtri2. unfold vrv, half.
  replace (sumn M (fun i => / INR M * w i * Rabs (x i - y))) with (wmae M w y x / INR M)
    by (unfold wmae; rewrite <- sumn_div; apply sumn_ext; intros; unfold Rdiv; ring).
  replace (wpairsum M (fun i => / INR M * w i) x) with (wpairsum M w x / (INR M * INR M))
    by (unfold wpairsum; rewrite <- sumn_div; apply sumn_ext; intros; rewrite <- sumn_div; apply sumn_ext; intros; unfold Rdiv; rewrite Rinv_mult; ring).
  replace (sumn M (fun i => / INR M * w i * Rabs (x i))) with (sumn M (fun k => Rabs (x k) * w k) / INR M)
    by (rewrite <- sumn_div; apply sumn_ext; intros; unfold Rdiv; ring).
  replace (sumn M (fun i => / INR M * w i)) with (sumn M w / INR M) by (rewrite sumn_scal; unfold Rdiv; apply Rmult_comm).
  rewrite (sumn_ext M (fun k => Rabs (x k - y) * w k * a) (fun k => (w k * Rabs (x k - y)) * a)) by (intros; ring).
  rewrite sumn_scal_r. fold (wmae M w y x). field. auto.
Qed.

(** with ensemble weights *)
Variables (en : nat -> num) (e : nat -> R).
Hypothesis He : forall k, (k < M)%nat -> en k = Fin (e k).
Let q k := e k * w k.
Lemma nsumn_q : nsumn M (fun k => en k .* wn k) = Fin (sumn M q).
Proof. fin. reflexivity. Qed.
Lemma nsum_q : nsum (map (fun '(e, f) => e .* f) (combine (rw M en) (rw M wn))) = Fin (sumn M q).
Proof. unfold rw. rewrite combine_rw, map_map. apply nsumn_q. Qed.
Lemma row_ow_w_real : sumn M q <> 0 -> row_ow_w M yn xn an wn en = Fin (a * wexact_crps M (nw M q) y x).
Proof.
  intros HW. unfold row_ow_w, e1own, e2own. rewrite nsumn_q. fin; auto;
    try (repeat (apply Rmult_integral_contrapositive_currified; auto)).
  unfold wexact_crps, half. rewrite wmae_nw, wpairsum_nw.
  replace (sumn M (fun k => e k * Rabs (y - x k) * w k)) with (wmae M q y x)
    by (apply sumn_ext; intros; unfold q; rewrite Rabs_minus_sym; ring).
  replace (sumn M (fun k => sumn M (fun k0 => e k * e k0 * Rabs (x k - x k0) * w k * w k0))) with (wpairsum M q x)
    by (apply sumn_ext; intros; apply sumn_ext; intros; unfold q; ring).
  field. auto.
Qed.
Lemma tri_q c : sumn M (fun i => Rsum (map (fun j => 2 * e i * e j * Rabs (x i - x j) * w i * w j * c) (seq (i + 1) (M - (i + 1)))))
  = wpairsum M q x * c.
Proof. rewrite <- (wtri2 M q x c). apply sumn_ext; intros. apply Rsum_map_ext; intros. unfold q. ring. Qed.
Lemma ow_w_k_real : sumn M q <> 0 -> owcrps_nrg_w_k yn (rw M xn) an (rw M wn) (rw M en) = Fin (a * wexact_crps M (nw M q) y x).
Proof.
  intros HW. pose proof (Hithx M xn x Hx). pose proof (Hithx M wn w Hw). pose proof (Hithx M en e He).
  unfold owcrps_nrg_w_k. rewrite rw_length, Hy, Ha. cbn [nisnan].
  rewrite (fold_pairs M (fun i => ith (rw M en) i .* nabs (ith (rw M xn) i .- Fin y) .* ith (rw M wn) i .* Fin a)
     (fun i j => n2 .* ith (rw M en) i .* ith (rw M en) j .* nabs (ith (rw M xn) i .- ith (rw M xn) j) .* ith (rw M wn) i .* ith (rw M wn) j .* Fin a)).
  rewrite nsum_q. unfold n2, nhalf. fin; auto; try (repeat (apply Rmult_integral_contrapositive_currified; auto)).
  rewrite tri_q. unfold wexact_crps, half. rewrite wmae_nw, wpairsum_nw.
  replace (sumn M (fun k => e k * Rabs (x k - y) * w k * a)) with (wmae M q y x * a)
    by (unfold wmae; rewrite <- sumn_scal_r; apply sumn_ext; intros; unfold q; ring).
  field. auto.
Qed.
Lemma row_ow_w_zero : (forall k, (k < M)%nat -> q k = 0) -> row_ow_w M yn xn an wn en = NaN.
Proof.
  intros HW. unfold row_ow_w. rewrite nsumn_q, (sumn_ext M _ (fun _ => 0)), sumn_zero by auto.
  assert (E1 : e1own M yn xn wn en .* an = Fin 0).
  { unfold e1own. fin. rewrite (sumn_ext M _ (fun k => 0)); [rewrite sumn_zero; ring|].
    intros k Hk. replace (e k * Rabs (y - x k) * w k) with (q k * Rabs (y - x k)) by (unfold q; ring). rewrite HW by auto; ring. }
  rewrite E1, ndiv_0. apply nsub_NaN_l.
Qed.
Lemma ow_w_k_zero : (forall k, (k < M)%nat -> q k = 0) -> owcrps_nrg_w_k yn (rw M xn) an (rw M wn) (rw M en) = NaN.
Proof.
  intros HW. pose proof (Hithx M xn x Hx). pose proof (Hithx M wn w Hw). pose proof (Hithx M en e He).
  unfold owcrps_nrg_w_k. rewrite rw_length, Hy, Ha. cbn [nisnan].
  rewrite (fold_pairs M (fun i => ith (rw M en) i .* nabs (ith (rw M xn) i .- Fin y) .* ith (rw M wn) i .* Fin a)
     (fun i j => n2 .* ith (rw M en) i .* ith (rw M en) j .* nabs (ith (rw M xn) i .- ith (rw M xn) j) .* ith (rw M wn) i .* ith (rw M wn) j .* Fin a)).
  rewrite nsum_q, (sumn_ext M _ (fun _ => 0)), sumn_zero by auto.
  assert (E1 : nsumn M (fun i => ith (rw M en) i .* nabs (ith (rw M xn) i .- Fin y) .* ith (rw M wn) i .* Fin a) = Fin 0).
  { fin. rewrite (sumn_ext M _ (fun k => 0)); [apply sumn_zero|].
    intros k Hk. replace (e k * Rabs (x k - y) * w k * a) with (q k * (Rabs (x k - y) * a)) by (unfold q; ring). rewrite HW by auto; ring. }
  rewrite E1, ndiv_0. apply nsub_NaN_l.
Qed.
Lemma row_vr_w_real : row_vr_w M yn xn an wn en = Fin (vrv M e w a y x).
Proof.
  unfold row_vr_w, e1own, e2own. rewrite nsumn_q. fin. unfold vrv, half.
  replace (sumn M (fun k => e k * Rabs (y - x k) * w k)) with (wmae M q y x)
    by (apply sumn_ext; intros; unfold q; rewrite Rabs_minus_sym; ring).
  replace (sumn M (fun k => sumn M (fun k0 => e k * e k0 * Rabs (x k - x k0) * w k * w k0))) with (wpairsum M q x)
    by (apply sumn_ext; intros; apply sumn_ext; intros; unfold q; ring).
  replace (sumn M (fun k => e k * Rabs (x k) * w k)) with (sumn M (fun i => e i * w i * Rabs (x i))) by (apply sumn_ext; intros; ring).
  unfold wmae, q. lra.
Qed.
Lemma vr_w_k_real : vrcrps_nrg_w_k yn (rw M xn) an (rw M wn) (rw M en) = Fin (vrv M e w a y x).
Proof.
  pose proof (Hithx M xn x Hx). pose proof (Hithx M wn w Hw). pose proof (Hithx M en e He).
  unfold vrcrps_nrg_w_k. rewrite rw_length, Hy, Ha. cbn [nisnan].
  rewrite (fold_pairs M (fun i => ith (rw M en) i .* nabs (ith (rw M xn) i .- Fin y) .* ith (rw M wn) i .* Fin a)
     (fun i j => n2 .* ith (rw M en) i .* ith (rw M en) j .* nabs (ith (rw M xn) i .- ith (rw M xn) j) .* ith (rw M wn) i .* ith (rw M wn) j)).
  rewrite nsum_q. rewrite combine_rw3, map_map. fold (nsumn M (fun k => en k .* nabs (xn k) .* wn k)).
  unfold n2, nhalf. fin.
  rewrite (sumn_ext M (fun i => Rsum (map (fun j => 2 * e i * e j * Rabs (x i - x j) * w i * w j) (seq (i + 1) (M - (i + 1)))))
     (fun i => Rsum (map (fun j => 2 * e i * e j * Rabs (x i - x j) * w i * w j * 1) (seq (i + 1) (M - (i + 1))))))
    by (intros; apply Rsum_map_ext; intros; ring).
  rewrite tri_q. unfold vrv, half. fold q.
  replace (sumn M (fun k => e k * Rabs (x k - y) * w k * a)) with (wmae M q y x * a)
    by (unfold wmae; rewrite <- sumn_scal_r; apply sumn_ext; intros; unfold q; ring).
  replace (sumn M (fun k => e k * Rabs (x k) * w k)) with (sumn M (fun i => e i * w i * Rabs (x i))) by (apply sumn_ext; intros; ring).
  unfold wmae, q. lra.
Qed.
End Rows.

(** the vertically re-scaled score is an integral: add the observation with mass -a and the
    origin with the mass that is missing to one *)
Lemma is_vr M p w a y x : is_vrcrps M p w a y x (vrv M p w a y x).
Proof.
  set (q := fun k => p k * w k). set (c := 1 - (sumn M q - a)).
  set (W := fun k => if (k <? M)%nat then q k else if (k =? M)%nat then - a else c).
  set (X := fun k => if (k <? M)%nat then x k else if (k =? M)%nat then y else 0).
  assert (WM : W M = - a) by (unfold W; rewrite Nat.ltb_irrefl, Nat.eqb_refl; auto).
  assert (XM : X M = y) by (unfold X; rewrite Nat.ltb_irrefl, Nat.eqb_refl; auto).
  assert (WS : W (S M) = c).
  { unfold W. destruct (Nat.ltb_spec (S M) M); [lia|]. destruct (Nat.eqb_spec (S M) M); [lia|auto]. }
  assert (XS : X (S M) = 0).
  { unfold X. destruct (Nat.ltb_spec (S M) M); [lia|]. destruct (Nat.eqb_spec (S M) M); [lia|auto]. }
  assert (Wk : forall k, (k < M)%nat -> W k = q k) by (intros k Hk; unfold W; destruct (Nat.ltb_spec k M); [auto|lia]).
  assert (Xk : forall k, (k < M)%nat -> X k = x k) by (intros k Hk; unfold X; destruct (Nat.ltb_spec k M); [auto|lia]).
  assert (Sm : forall f g, (forall k, (k < M)%nat -> f k = g k) -> sumn (S (S M)) f = sumn M g + f M + f (S M)).
  { intros f g H. rewrite !sumn_S. now rewrite (sumn_ext M f g). }
  assert (HW : sumn (S (S M)) W = 1).
  { rewrite (Sm W q) by auto. rewrite WM, WS. unfold c. ring. }
  pose proof (is_crps_kernel (S (S M)) W X 0 HW) as K. unfold is_crps in K. unfold is_vrcrps.
  replace (vrv M p w a y x) with (wexact_crps (S (S M)) W 0 X).
  - eapply is_RInt_gen_ext; [|exact K]. apply filter_forall. intros [u v] t _. cbn [fst snd].
    rewrite (Sm _ (fun i => q i * ind_le (x i) t)) by (intros k Hk; now rewrite Wk, Xk).
    rewrite WM, WS, XM, XS. f_equal.
    rewrite (sumn_ext M (fun i => p i * w i * (ind_le (x i) t - ind_le 0 t)) (fun i => q i * ind_le (x i) t - q i * ind_le 0 t))
      by (intros; unfold q; ring).
    rewrite sumn_minus, sumn_scal_r. unfold c. ring.
  - unfold wexact_crps, wmae, wpairsum.
    rewrite (Sm _ (fun i => q i * Rabs (x i))) by (intros k Hk; now rewrite Wk, Xk, Rminus_0_r).
    rewrite (Sm _ (fun i => sumn M (fun j => q i * q j * Rabs (x i - x j)) + q i * (- a) * Rabs (x i - y) + q i * c * Rabs (x i))).
    2:{ intros i Hi. rewrite (Sm _ (fun j => q i * q j * Rabs (x i - x j))) by (intros k Hk; now rewrite !Wk, !Xk).
        rewrite WM, WS, XM, XS, Wk, Xk by auto. now rewrite Rminus_0_r. }
    rewrite WM, WS, XM, XS.
    rewrite (Sm _ (fun j => (-a) * q j * Rabs (x j - y))).
    2:{ intros i Hi. rewrite !Wk, !Xk by auto. f_equal. apply Rabs_minus_sym. }
    rewrite (Sm _ (fun j => c * q j * Rabs (x j))).
    2:{ intros i Hi. rewrite !Wk, !Xk by auto. f_equal. now rewrite Rabs_minus_sym, Rminus_0_r. }
    rewrite WM, WS, XM, XS. rewrite !Rminus_0_r, !Rminus_eq_0, Rabs_R0. rewrite Rminus_0_l, Rabs_Ropp.
    rewrite !sumn_plus.
    rewrite (sumn_ext M (fun k => q k * - a * Rabs (x k - y)) (fun k => (- a) * (q k * Rabs (x k - y)))) by (intros; ring).
    rewrite (sumn_ext M (fun k => - a * q k * Rabs (x k - y)) (fun k => (- a) * (q k * Rabs (x k - y)))) by (intros; ring).
    rewrite (sumn_ext M (fun k => q k * c * Rabs (x k)) (fun k => c * (q k * Rabs (x k)))) by (intros; ring).
    rewrite (sumn_ext M (fun k => c * q k * Rabs (x k)) (fun k => c * (q k * Rabs (x k)))) by (intros; ring).
    rewrite !sumn_scal. unfold vrv, wpairsum. fold q. unfold c. 
    change (fun i => p i * w i * Rabs (x i - y)) with (fun k => q k * Rabs (x k - y)).
    change (fun i => p i * w i * Rabs (x i)) with (fun k => q k * Rabs (x k)).
    change (fun i => sumn M (fun j => p i * w i * (p j * w j) * Rabs (x i - x j))) with (fun i => sumn M (fun j => q i * q j * Rabs (x i - x j))).
    field.
Qed.
(** owcrps of a row: mass q, observation weight a; NaN if there is no mass *)
Definition owv (M : nat) (q : nat -> R) (a y : R) (x : nat -> R) : num :=
  if Req_EM_T (sumn M q) 0 then NaN else Fin (a * wexact_crps M (nw M q) y x).
Lemma is_RInt_gen_unique_pos f v : (forall t, 0 <= f t) ->
  is_RInt_gen f (Rbar_locally m_infty) (Rbar_locally p_infty) v -> 0 <= v.
Proof.
  intros H0 H. destruct (Rle_dec 0 v) as [|N]; auto. exfalso.
  assert (Hl : locally v (fun z => z < 0)) by (apply (open_lt 0 v); lra).
  destruct (H _ Hl) as [Q R [m Qm] [n Rn] HQR].
  specialize (HQR (Rmin (m - 1) (n + 1)) (n + 1)).
  destruct HQR as (I & HI & HI0).
  - apply Qm. unfold Rmin. destruct (Rle_dec _ _); lra.
  - apply Rn. lra.
  - cbn [fst snd] in HI. assert (0 <= I); [|lra].
    apply (is_RInt_le (fun _ => 0) f (Rmin (m - 1) (n + 1)) (n + 1)).
    + apply Rmin_r.
    + pose proof (is_RInt_const (V := R_NormedModule) (Rmin (m - 1) (n + 1)) (n + 1) 0) as K.
      unfold scal in K; simpl in K; unfold mult in K; simpl in K. now rewrite Rmult_0_r in K.
    + exact HI.
    + auto.
Qed.
Lemma vrv_nonneg M p w a y x : 0 <= vrv M p w a y x.
Proof. eapply is_RInt_gen_unique_pos; [|apply is_vr]. intros t. cbv beta. apply pow2_ge_0. Qed.
Lemma vrv_one M p y x : sumn M p = 1 -> vrv M p (fun _ => 1) 1 y x = wexact_crps M p y x.
Proof.
  intros H. unfold vrv, wexact_crps, wmae.
  rewrite (sumn_ext M (fun i => p i * 1) p) by (intros; ring). rewrite H.
  rewrite (sumn_ext M (fun i => p i * 1 * Rabs (x i - y)) (fun i => p i * Rabs (x i - y))) by (intros; ring).
  replace (wpairsum M (fun i => p i * 1) x) with (wpairsum M p x); [ring|].
  unfold wpairsum. apply sumn_ext; intros; apply sumn_ext; intros; ring.
Qed.
