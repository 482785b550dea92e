(** Proofs of the Gaussian kernel score properties (statements in P_kernels.v). *)
From Verif Require Export L_kernels_api T_energy S_tw L_tw T_crps_tw.
From Coq Require Import FunctionalExtensionality.
Open Scope R_scope.
Ltac fn := auto; try (now apply fair_names); auto using kmem1_refl, kmemD_refl.
Section forms.
Variable M : nat.
Implicit Types (w A : nat -> R) (B : nat -> nat -> R).
Lemma gk_exact_ext A B A' B' : (forall i, (i < M)%nat -> A i = A' i) ->
  (forall i j, (i < M)%nat -> (j < M)%nat -> B i j = B' i j) -> gk_exact M A B = gk_exact M A' B'.
Proof.
  intros H1 H2. unfold gk_exact. rewrite (sumn_ext M A A') by auto.
  rewrite (sumn_ext M (fun i => sumn M (B i)) (fun i => sumn M (B' i))); auto. intros; apply sumn_ext; auto.
Qed.
Lemma gk_fair_ext A B A' B' : (forall i, (i < M)%nat -> A i = A' i) ->
  (forall i j, (i < M)%nat -> (j < M)%nat -> B i j = B' i j) -> gk_fair M A B = gk_fair M A' B'.
Proof. intros H1 H2. unfold gk_fair. rewrite (sumn_ext M A A') by auto. now rewrite (offdiag_ext M B B'). Qed.
Lemma gk_lag_ext g A B A' B' : (forall i, (i < M)%nat -> (g i < M)%nat) -> (forall i, (i < M)%nat -> A i = A' i) ->
  (forall i j, (i < M)%nat -> (j < M)%nat -> B i j = B' i j) -> gk_lag M g A B = gk_lag M g A' B'.
Proof.
  intros Hg H1 H2. unfold gk_lag. rewrite (sumn_ext M A A') by auto.
  rewrite (sumn_ext M (fun i => B i (g i)) (fun i => B' i (g i))); auto.
Qed.
Lemma gk_vr_ext a w A B a' w' A' B' : a = a' -> (forall i, (i < M)%nat -> w i = w' i) -> (forall i, (i < M)%nat -> A i = A' i) ->
  (forall i j, (i < M)%nat -> (j < M)%nat -> B i j = B' i j) -> gk_vr M a w A B = gk_vr M a' w' A' B'.
Proof.
  intros -> H0 H1 H2. unfold gk_vr. rewrite (sumn_ext M (fun i => w i * A i) (fun i => w' i * A' i)) by (intros; rewrite H0, H1; auto).
  rewrite (sumn_ext M (fun i => sumn M (fun j => w i * w j * B i j)) (fun i => sumn M (fun j => w' i * w' j * B' i j))); auto.
  intros; apply sumn_ext; intros; rewrite !H0, H2; auto.
Qed.
Lemma gk_wexact_vr w A B : gk_wexact M w A B = gk_vr M 1 w A B.
Proof. unfold gk_wexact, gk_vr. ring. Qed.
Lemma gk_wexact_ext w A B w' A' B' : (forall i, (i < M)%nat -> w i = w' i) -> (forall i, (i < M)%nat -> A i = A' i) ->
  (forall i j, (i < M)%nat -> (j < M)%nat -> B i j = B' i j) -> gk_wexact M w A B = gk_wexact M w' A' B'.
Proof. intros. rewrite !gk_wexact_vr. apply gk_vr_ext; auto. Qed.
Lemma gk_wfair_ext w A B w' A' B' : (forall i, (i < M)%nat -> w i = w' i) -> (forall i, (i < M)%nat -> A i = A' i) ->
  (forall i j, (i < M)%nat -> (j < M)%nat -> B i j = B' i j) -> gk_wfair M w A B = gk_wfair M w' A' B'.
Proof.
  intros H0 H1 H2. unfold gk_wfair. rewrite (sumn_ext M (fun i => w i * A i) (fun i => w' i * A' i)) by (intros; rewrite H0, H1; auto).
  rewrite (sumn_ext M (fun i => w i * w i) (fun i => w' i * w' i)) by (intros; rewrite H0; auto).
  rewrite (offdiag_ext M (fun i j => w i * w j * B i j) (fun i j => w' i * w' j * B' i j)); auto.
  intros; rewrite !H0, H2; auto.
Qed.
Lemma gk_wlag_ext g w A B w' A' B' : (forall i, (i < M)%nat -> (g i < M)%nat) -> (forall i, (i < M)%nat -> w i = w' i) ->
  (forall i, (i < M)%nat -> A i = A' i) ->
  (forall i j, (i < M)%nat -> (j < M)%nat -> B i j = B' i j) -> gk_wlag M g w A B = gk_wlag M g w' A' B'.
Proof.
  intros Hg H0 H1 H2. unfold gk_wlag. rewrite (sumn_ext M (fun i => w i * A i) (fun i => w' i * A' i)) by (intros; rewrite H0, H1; auto).
  rewrite (sumn_ext M (fun i => w i * B i (g i)) (fun i => w' i * B' i (g i))); auto. intros; rewrite H0, H2; auto.
Qed.

(** the kernel scores in terms of the distances 1 - k *)
Let e A i := 1 - A i.
Let d B i j := 1 - B i j.
Hypothesis HM : (0 < M)%nat.
Lemma s1 A : sumn M (e A) = INR M - sumn M A.
Proof. unfold e. rewrite (sumn_minus M (fun _ => 1) A), sumn_const. ring. Qed.
Lemma s2 B : sumn M (fun i => sumn M (d B i)) = INR M * INR M - sumn M (fun i => sumn M (B i)).
Proof.
  rewrite (sumn_ext M _ (fun i => INR M - sumn M (B i))).
  - rewrite (sumn_minus M (fun _ => INR M)), sumn_const. ring.
  - intros i Hi. apply (s1 (B i)).
Qed.
Lemma gk_exact_k A B : gk_exact M A B = k_exact M (e A) (d B).
Proof. pose proof (INR_nz M HM). unfold gk_exact, k_exact. rewrite s1, s2. field. auto. Qed.
Lemma gk_fair_k A B : (1 < M)%nat -> (forall i, B i i = 1) -> gk_fair M A B = k_fair M (e A) (d B).
Proof.
  intros H2 H. pose proof (INR_nz M HM). assert (INR M - 1 <> 0) by (apply lt_INR in H2; simpl in H2; lra).
  unfold gk_fair, k_fair. rewrite s1, s2, offdiag_sub.
  rewrite (sumn_ext M (fun i => B i i) (fun _ => 1)), sumn_const by auto. field. auto.
Qed.
Lemma gk_lag_k g A B : gk_lag M g A B = k_lag M g (e A) (d B).
Proof.
  pose proof (INR_nz M HM). unfold gk_lag, k_lag. rewrite s1. unfold d.
  rewrite (sumn_minus M (fun _ => 1) (fun i => B i (g i))), sumn_const. field. auto.
Qed.
Section sum1.
Variable w : nat -> R.
Hypothesis Hw : sumn M w = 1.
Lemma w1 A : sumn M (fun i => w i * e A i) = 1 - sumn M (fun i => w i * A i).
Proof. unfold e. rewrite (sumn_ext M _ (fun i => w i - w i * A i)) by (intros; ring). now rewrite sumn_minus, Hw. Qed.
Lemma w2 B : sumn M (fun i => sumn M (fun j => w i * w j * d B i j)) = 1 - sumn M (fun i => sumn M (fun j => w i * w j * B i j)).
Proof.
  rewrite (sumn_ext M _ (fun i => w i - sumn M (fun j => w i * w j * B i j))).
  - now rewrite sumn_minus, Hw.
  - intros i Hi. unfold d. rewrite (sumn_ext M _ (fun j => w i * w j - w i * w j * B i j)) by (intros; ring).
    rewrite sumn_minus, sumn_scal, Hw. ring.
Qed.
Lemma gk_wexact_k A B : gk_wexact M w A B = k_wexact M w (e A) (d B).
Proof. unfold gk_wexact, k_wexact. rewrite w1, w2. field. Qed.
Lemma gk_wfair_k A B : sumn M (fun i => w i * w i) <> 1 -> (forall i, B i i = 1) -> gk_wfair M w A B = k_wfair M w (e A) (d B).
Proof.
  intros H2 H. assert (1 - sumn M (fun i => w i * w i) <> 0) by lra.
  unfold gk_wfair, k_wfair. rewrite w1, w2, offdiag_sub.
  rewrite (sumn_ext M (fun i => w i * w i * B i i) (fun i => w i * w i)) by (intros; rewrite H; ring). field. auto.
Qed.
Lemma gk_wlag_k g A B : gk_wlag M g w A B = k_wlag M g w (e A) (d B).
Proof.
  unfold gk_wlag, k_wlag. rewrite w1. unfold d.
  rewrite (sumn_ext M (fun i => w i * (1 - B i (g i))) (fun i => w i - w i * B i (g i))) by (intros; ring).
  rewrite sumn_minus, Hw. field.
Qed.
End sum1.
End forms.
Lemma gval_ext e M A B A' B' : (0 < M)%nat -> (forall i, (i < M)%nat -> A i = A' i) ->
  (forall i j, (i < M)%nat -> (j < M)%nat -> B i j = B' i j) -> gval e M A B = gval e M A' B'.
Proof. intros HM H1 H2. destruct e; cbn [gval]; [apply gk_exact_ext|apply gk_fair_ext|apply gk_lag_ext|apply gk_lag_ext]; auto using lag1_lt, lagc_lt. Qed.
Lemma gval_w_ext e M w A B w' A' B' : (0 < M)%nat -> (forall i, (i < M)%nat -> w i = w' i) -> (forall i, (i < M)%nat -> A i = A' i) ->
  (forall i j, (i < M)%nat -> (j < M)%nat -> B i j = B' i j) -> gval_w e M w A B = gval_w e M w' A' B'.
Proof. intros HM H0 H1 H2. destruct e; cbn [gval_w]; [apply gk_wexact_ext|apply gk_wfair_ext|apply gk_wlag_ext|apply gk_wlag_ext]; auto using lag1_lt, lagc_lt. Qed.
Lemma gval_unif e M w A B : (0 < M)%nat -> (e = MFair -> (1 < M)%nat) -> (forall i, B i i = 1) -> (forall k, (k < M)%nat -> w k = / INR M) ->
  gval_w e M w A B = gval e M A B.
Proof.
  intros HM H2 HB H. pose proof (INR_pos M HM).
  assert (Hs : sumn M w = 1) by (rewrite (sumn_ext M w (fun _ => / INR M)), sumn_const by auto; field; lra).
  rewrite (gval_w_ext e M w A B (fun _ => / INR M) A B) by auto.
  assert (Hs' : sumn M (fun _ => / INR M) = 1) by (rewrite sumn_const; field; lra).
  destruct e; cbn [gval gval_w].
  - rewrite gk_wexact_k, gk_exact_k by auto. now apply k_exact_unif.
  - assert (1 < INR M) by (change 1 with (INR 1); apply lt_INR; auto).
    rewrite gk_wfair_k, gk_fair_k by (auto; rewrite sumn_const; intros E; apply (f_equal (Rmult (INR M))) in E; field_simplify in E; lra).
    apply k_fair_unif; auto.
  - rewrite gk_wlag_k, gk_lag_k by auto. now apply k_lag_unif.
  - rewrite gk_wlag_k, gk_lag_k by auto. now apply k_lag_unif.
Qed.
Lemma gval_perm e M g A B : (0 < M)%nat -> (e = MNrg \/ e = MFair /\ (1 < M)%nat) -> (forall i, B i i = 1) -> reorders M g ->
  gval e M (fun i => A (g i)) (fun i j => B (g i) (g j)) = gval e M A B.
Proof.
  intros HM [-> |[-> H2]] HB Hg; cbn [gval].
  - rewrite !gk_exact_k by auto. now apply (k_exact_perm M g (fun i => 1 - A i) (fun i j => 1 - B i j)).
  - rewrite !gk_fair_k by auto. now apply (k_fair_perm M g (fun i => 1 - A i) (fun i j => 1 - B i j)).
Qed.
Lemma gval_const e M A B : (0 < M)%nat -> (e = MFair -> (1 < M)%nat) -> (forall i, (i < M)%nat -> A i = 1) ->
  (forall i j, (i < M)%nat -> (j < M)%nat -> B i j = 1) -> gval e M A B = 0.
Proof.
  intros HM H2 HA HB. pose proof (INR_nz M HM). rewrite (gval_ext e M A B (fun _ => 1) (fun _ _ => 1)) by auto.
  destruct e; cbn [gval].
  - unfold gk_exact. rewrite (sumn_ext M (fun i => sumn M ((fun _ _ : nat => 1) i)) (fun _ => INR M * 1)) by (intros; apply sumn_const).
    rewrite !sumn_const. field; auto.
  - rewrite gk_fair_k by auto. unfold k_fair.
    assert (INR M - 1 <> 0) by (specialize (H2 eq_refl); apply lt_INR in H2; simpl in H2; lra).
    rewrite (sumn_ext M (fun i => 1 - (fun _ : nat => 1) i) (fun _ => 0)) by (intros; ring).
    rewrite (sumn_ext M (fun i => sumn M (fun j => 0)) (fun _ => 0)) by (intros; rewrite sumn_const; ring).
    rewrite sumn_const. field. auto.
  - unfold gk_lag. rewrite !sumn_const. field; auto.
  - unfold gk_lag. rewrite !sumn_const. field; auto.
Qed.

(** ** the Gaussian kernel is positive definite *)
Lemma gaussD_ext D u v u' v' : (forall k, (k < D)%nat -> u k = u' k) -> (forall k, (k < D)%nat -> v k = v' k) ->
  gaussD D u v = gaussD D u' v'.
Proof. intros H1 H2. unfold gaussD. rewrite (sumn_ext D _ (fun k => (u' k - v' k) ^ 2)); auto. intros; rewrite H1, H2; auto. Qed.
Lemma gauss1_D u v : gauss1 u v = gaussD 1 (fun _ => u) (fun _ => v).
Proof. unfold gauss1, gaussD. f_equal. unfold sumn, Rsum; simpl. lra. Qed.
Lemma gaussD_sqd D u v : gaussD D u v = exp (- (/ 2 * sqd D u v)).
Proof. unfold gaussD, sqd. f_equal. lra. Qed.
Lemma gaussD_eucl D u v : gaussD D u v = exp (- (eucl D u v * eucl D u v) / 2).
Proof. unfold gaussD. now rewrite eucl_sq. Qed.
Lemma gaussD_pos D u v : 0 < gaussD D u v. Proof. apply exp_pos. Qed.
Lemma gaussD_le1 D u v : gaussD D u v <= 1.
Proof.
  rewrite gaussD_sqd. pose proof (sqd_nonneg D u v). rewrite <- exp_0. destruct (Req_dec (sqd D u v) 0) as [-> |]; [right; f_equal; ring|].
  left. apply exp_increasing. lra.
Qed.
Lemma gauss_two M N D w x v z : 0 <=
  sumn M (fun i => sumn M (fun j => w i * w j * gaussD D (x i) (x j)))
  + sumn N (fun i => sumn N (fun j => v i * v j * gaussD D (z i) (z j)))
  - 2 * sumn N (fun j => v j * sumn M (fun i => w i * gaussD D (x i) (z j))).
Proof.
  set (a k := if (k <? M)%nat then w k else - v (k - M)%nat).
  set (p k := if (k <? M)%nat then x k else z (k - M)%nat).
  assert (A1 : forall k, (k < M)%nat -> a k = w k /\ p k = x k).
  { intros k Hk. unfold a, p. destruct (Nat.ltb_spec k M); [auto|lia]. }
  assert (A2 : forall k, a (M + k)%nat = - v k /\ p (M + k)%nat = z k).
  { intros k. unfold a, p. destruct (Nat.ltb_spec (M + k) M); [lia|].
    replace (M + k - M)%nat with k by lia. auto. }
  pose proof (qf_gauss (M + N) D p (/ 2) a ltac:(lra)) as H.
  rewrite (qf_ext _ _ _ (fun i j => gaussD D (p i) (p j))) in H by (intros; symmetry; apply gaussD_sqd).
  rewrite qf_split in H.
  rewrite (sumn_ext M (fun i => sumn M (fun j => a i * a j * gaussD D (p i) (p j)))
    (fun i => sumn M (fun j => w i * w j * gaussD D (x i) (x j)))) in H.
  2:{ intros i Hi. apply sumn_ext; intros j Hj. destruct (A1 i Hi) as [-> ->]. now destruct (A1 j Hj) as [-> ->]. }
  rewrite (sumn_ext N (fun i => sumn N (fun j => a (M + i)%nat * a (M + j)%nat * gaussD D (p (M + i)%nat) (p (M + j)%nat)))
    (fun i => sumn N (fun j => v i * v j * gaussD D (z i) (z j)))) in H.
  2:{ intros i Hi. apply sumn_ext; intros j Hj. destruct (A2 i) as [-> ->]. destruct (A2 j) as [-> ->]. ring. }
  rewrite (sumn_swap M N (fun i j => a i * a (M + j)%nat * gaussD D (p i) (p (M + j)%nat))) in H.
  set (C := sumn N (fun j => v j * sumn M (fun i => w i * gaussD D (x i) (z j)))) in *.
  assert (E1 : sumn N (fun j => sumn M (fun i => a i * a (M + j)%nat * gaussD D (p i) (p (M + j)%nat))) = - C).
  { unfold C. rewrite <- sumn_opp. apply sumn_ext; intros j Hj. rewrite <- sumn_scal, <- sumn_opp.
    apply sumn_ext; intros i Hi. destruct (A1 i Hi) as [-> ->]. destruct (A2 j) as [-> ->]. ring. }
  assert (E2 : sumn N (fun i => sumn M (fun j => a (M + i)%nat * a j * gaussD D (p (M + i)%nat) (p j))) = - C).
  { rewrite <- E1. apply sumn_ext; intros j Hj. apply sumn_ext; intros i Hi.
    rewrite gaussD_sym. ring. }
  rewrite E1, E2 in H. lra.
Qed.
Lemma gk_vr_nonneg M D a u y x : 0 <= gk_vr M a u (kobsD D y x) (kmemD D x).
Proof.
  pose proof (gauss_two M 1 D u x (fun _ => a) (fun _ => y)) as H. rewrite !(sumn_S 0), !sumn_0, gaussD_refl in H.
  unfold gk_vr, kobsD, kmemD. lra.
Qed.
Lemma gk_vr_nonneg1 M a u y x : 0 <= gk_vr M a u (kobs1 y x) (kmem1 x).
Proof.
  rewrite (gk_vr_ext M a u (kobs1 y x) (kmem1 x) a u (kobsD 1 (fun _ => y) (fun i _ => x i)) (kmemD 1 (fun i _ => x i)));
    auto; try (intros; apply gauss1_D). apply gk_vr_nonneg.
Qed.
Lemma gk_wexact_nonneg M D w y x : 0 <= gk_wexact M w (kobsD D y x) (kmemD D x).
Proof. rewrite gk_wexact_vr. apply gk_vr_nonneg. Qed.
Lemma gk_uv_mv M w y x : gk_wexact M w (kobs1 y x) (kmem1 x) = gk_wexact M w (kobsD 1 (fun _ => y) (fun i _ => x i)) (kmemD 1 (fun i _ => x i)).
Proof. apply gk_wexact_ext; auto; intros; apply gauss1_D. Qed.
Lemma gk_proper M N D w x v z : sumn N v = 1 ->
  sumn N (fun j => v j * gk_wexact N v (kobsD D (z j) z) (kmemD D z))
  <= sumn N (fun j => v j * gk_wexact M w (kobsD D (z j) x) (kmemD D x)).
Proof.
  intros Hv. pose proof (gauss_two M N D w x v z) as H.
  assert (E : forall L u p, sumn N (fun j => v j * gk_wexact L u (kobsD D (z j) p) (kmemD D p)) =
    / 2 - sumn N (fun j => v j * sumn L (fun i => u i * gaussD D (p i) (z j)))
    + / 2 * sumn L (fun i => sumn L (fun j => u i * u j * gaussD D (p i) (p j)))).
  { intros L u p. unfold gk_wexact, kobsD, kmemD.
    rewrite (sumn_ext N _ (fun j => v j * (/ 2 + / 2 * sumn L (fun i => sumn L (fun k => u i * u k * gaussD D (p i) (p k))))
       - v j * sumn L (fun i => u i * gaussD D (p i) (z j)))) by (intros; ring).
    rewrite sumn_minus, sumn_scal_r, Hv. ring. }
  rewrite !E.
  assert (F : sumn N (fun j => v j * sumn N (fun i => v i * gaussD D (z i) (z j)))
    = sumn N (fun i => sumn N (fun j => v i * v j * gaussD D (z i) (z j)))).
  { rewrite sumn_swap. apply sumn_ext; intros j Hj. rewrite <- sumn_scal. apply sumn_ext; intros; ring. }
  rewrite F. lra.
Qed.
Lemma nw_s1 M w : 0 < sumn M w -> sumn M (nw M w) = 1.
Proof. intros H. unfold nw. rewrite sumn_div. field. lra. Qed.
Lemma nw_nonneg M w : (forall i, (i < M)%nat -> 0 <= w i) -> 0 < sumn M w -> forall i, (i < M)%nat -> 0 <= nw M w i.
Proof. intros H0 H1 i Hi. apply Rmult_le_pos; auto. left. now apply Rinv_0_lt_compat. Qed.
Lemma gk_exact_unif M A B : (0 < M)%nat -> gk_exact M A B = gk_wexact M (fun _ => / INR M) A B.
Proof.
  intros HM. pose proof (INR_nz M HM). rewrite gk_exact_k, gk_wexact_k by (auto; rewrite sumn_const; now field).
  symmetry. now apply k_exact_unif.
Qed.
Lemma unif_w M : (0 < M)%nat -> sumn M (fun _ => / INR M) = 1 /\ 0 < / INR M.
Proof. intros HM. pose proof (INR_pos M HM). split; [rewrite sumn_const; field; lra|now apply Rinv_0_lt_compat]. Qed.
Lemma uv_real_args M y x : ens_args (num0 (Fin y)) (real1 M x) (-1) [] 0 M (fun _ => y) (fun i => x (hd 0%nat i)).
Proof. repeat split; simpl; auto; now left. Qed.
Lemma uv_real_wts M w : (forall k, (k < M)%nat -> 0 <= w k) -> 0 < sumn M w -> uv_wts (real1 M w) [] 0 M (fun i => w (hd 0%nat i)).
Proof. intros H0 H1. repeat split; simpl; auto. Qed.
Lemma gval_wa_0 b e M w A B : (b = Array -> e <> MFair) -> gval_wa b e M w A B = gval_w e M w A B.
Proof. intros H. unfold gval_wa. destruct b, e; try ring. now destruct (H eq_refl). Qed.
Lemma clips_R a b c t : thresholds a b -> clips a b c -> Fin (c t) = nmin (nmax (Fin t) a) b.
Proof.
  intros Ht Hc. rewrite (clamp_num a b t Ht). destruct (Hc t) as (H1 & H2 & H3). unfold clampR.
  assert (A1 : forall u, Fin (c t) = Fin u -> c t = u) by (intros u E; now injection E).
  unfold thresholds, below, above in *. destruct a as [a| | |], b as [b| | |]; try easy; f_equal.
  - destruct (Rle_dec a t) as [L|L].
    + rewrite Rmax_left by lra. destruct (Rle_dec t b) as [L'|L'].
      * rewrite Rmin_left by lra. apply H1; auto.
      * rewrite Rmin_right by lra. apply A1, H3; auto.
    + rewrite Rmax_right, Rmin_left by lra. apply A1, H2; auto.
  - destruct (Rle_dec a t) as [L|L]; [rewrite Rmax_left by lra; apply H1; auto|rewrite Rmax_right by lra; apply A1, H2; auto].
  - destruct (Rle_dec t b) as [L|L]; [rewrite Rmin_left by lra; apply H1; auto|rewrite Rmin_right by lra; apply A1, H3; auto].
  - apply H1; auto.
Qed.
Lemma pos_min n (A : nat -> R) : (forall i, (i < n)%nat -> 0 < A i) -> exists m, 0 < m /\ forall i, (i < n)%nat -> m <= A i.
Proof.
  induction n as [|n IH]; intros H; [exists 1; split; [lra|lia]|].
  destruct IH as (m & Hm & Hi); [auto|]. exists (Rmin m (A n)). split; [apply Rmin_glb_lt; auto|].
  intros i Hl. destruct (Nat.eq_dec i n) as [-> |]; [apply Rmin_r|]. eapply Rle_trans; [apply Rmin_l|]. apply Hi. lia.
Qed.
Lemma gk_wexact_lt1 M D w y x : (forall i, (i < M)%nat -> 0 <= w i) -> sumn M w = 1 -> gk_wexact M w (kobsD D y x) (kmemD D x) < 1.
Proof.
  intros Hw H1. unfold gk_wexact, kobsD, kmemD.
  destruct (pos_min M (fun i => gaussD D (x i) y)) as (m & Hm & Hi); [intros; apply gaussD_pos|].
  assert (m <= sumn M (fun i => w i * gaussD D (x i) y)).
  { rewrite <- (Rmult_1_l m), <- H1, <- sumn_scal_r. apply sumn_le. intros i Hl. apply Rmult_le_compat_l; auto. }
  assert (H0 : sumn M (fun i => sumn M (fun j => w i * w j * gaussD D (x i) (x j))) <= sumn M (fun i => sumn M (fun j => w i * w j))).
  { apply sumn_le. intros i Hl. apply sumn_le. intros j Hj. rewrite <- (Rmult_1_r (w i * w j)) at 2.
    apply Rmult_le_compat_l; [apply Rmult_le_pos; auto|apply gaussD_le1]. }
  rewrite (sumn_ext M (fun i => sumn M (fun j => w i * w j)) w) in H0 by (intros; rewrite sumn_scal, H1; ring). lra.
Qed.
Lemma rtrunc_small t : 0 <= t -> t < 1 -> rtrunc t = 0%Z.
Proof. intros H0 H1. unfold rtrunc. destruct (Rle_dec 0 t); [|lra]. unfold Int_part. rewrite <- (up_tech t 0); [reflexivity|simpl; lra|simpl; lra]. Qed.
Lemma gk_chain b obs fct a c ax ow vf e s p M y x f : ens_args obs fct ax s p M y x ->
  (thresholds a c /\ clips a c f /\ vf = None \/ exists h, vf = Some h /\ forall t, h (Fin t) = Fin (f t)) ->
  exists obs' fct', dt obs' = DFloat /\ ens_args obs' fct' ax s p M (fun r => f (y r)) (fun i => f (x i)) /\
    twgksuv_ensemble b obs fct a c ax ow vf e = gksuv_ensemble b obs' fct' ax ow e.
Proof.
  intros Ha Hf. assert (Hc : forall t, match vf with None => nmin (nmax (Fin t) a) c | Some g => g (Fin t) end = Fin (f t)).
  { intros t. destruct Hf as [(H1 & H2 & ->)|(h & -> & H)]; auto. symmetry. now apply clips_R. }
  destruct Ha as ((H1 & H2) & (H3 & H4) & H5 & H6).
  destruct (chain_is a c vf (Ok obs) (dt obs) s (fun r => Fin (y r))) as (obs' & E1 & D1 & S1 & A1); [apply ten_Ok; repeat split; auto|].
  destruct (chain_is a c vf (Ok fct) (dt fct) (insert_at p M s) (fun i => Fin (x i))) as (fct' & E2 & D2 & S2 & A2); [apply ten_Ok; repeat split; auto|].
  exists obs', fct'. unfold twgksuv_ensemble, uv_weighted_score_chain. unfold tensor in *. rewrite E1, E2. cbn [bind].
  repeat split; auto; intros; [rewrite A1 by auto|rewrite A2 by auto]; apply Hc.
Qed.
Lemma C37_uv_values_l :
  forall b obs fct ax s p M y x e,
  ens_args obs fct ax s p M y x -> (0 < M)%nat -> (b = Numba -> dt obs = DFloat) ->
  let A r := kobs1 (y r) (member p x r) in let B r := kmem1 (member p x r) in
  (e = "nrg"%string -> returns (gksuv_ensemble b obs fct ax None e) s (fun r => Fin (gk_exact M (A r) (B r)))) /\
  (e = "fair"%string -> (1 < M)%nat -> returns (gksuv_ensemble b obs fct ax None e) s (fun r => Fin (gk_fair M (A r) (B r)))) /\
  (e = "akr"%string -> returns (gksuv_ensemble b obs fct ax None e) s (fun r => Fin (gk_lag M (lag1 M) (A r) (B r)))) /\
  (e = "akr_circperm"%string -> returns (gksuv_ensemble b obs fct ax None e) s (fun r => Fin (gk_lag M (lagc M) (A r) (B r)))).
Proof.
  intros b obs fct ax s p M y x e Ha HM Hd A B. repeat split.
  - intros ->. eapply returns_is, (gksuv_call b obs fct ax s p M y x Ha HM Hd MNrg); easy.
  - intros -> H2. eapply returns_is, (gksuv_call b obs fct ax s p M y x Ha HM Hd MFair); easy.
  - intros ->. eapply returns_is, (gksuv_call b obs fct ax s p M y x Ha HM Hd MAkr); easy.
  - intros ->. eapply returns_is, (gksuv_call b obs fct ax s p M y x Ha HM Hd MCirc); easy.
Qed.
Lemma C37_mv_values_l :
  forall b obs fct m v s p q M D y x e,
  mv_args obs fct m v s p q M D y x -> (0 < M)%nat -> (0 < D)%nat -> (b = Numba -> floats obs fct) ->
  let A r := kobsD D (obsv q y r) (memv p q x r) in let B r := kmemD D (memv p q x r) in
  (e = "nrg"%string -> returns (gksmv_ensemble b obs fct m v None e) s (fun r => Fin (gk_exact M (A r) (B r)))) /\
  (e = "fair"%string -> (1 < M)%nat -> returns (gksmv_ensemble b obs fct m v None e) s (fun r => Fin (gk_fair M (A r) (B r)))) /\
  (e = "akr"%string -> returns (gksmv_ensemble b obs fct m v None e) s (fun r => Fin (gk_lag M (lag1 M) (A r) (B r)))) /\
  (e = "akr_circperm"%string -> returns (gksmv_ensemble b obs fct m v None e) s (fun r => Fin (gk_lag M (lagc M) (A r) (B r)))).
Proof.
  intros b obs fct m v s p q M D y x e Ha HM HD Hd A B. repeat split.
  - intros ->. eapply returns_is, (gksmv_call b obs fct m v s p q M D y x Ha HM HD Hd MNrg); easy.
  - intros -> H2. eapply returns_is, (gksmv_call b obs fct m v s p q M D y x Ha HM HD Hd MFair); easy.
  - intros ->. eapply returns_is, (gksmv_call b obs fct m v s p q M D y x Ha HM HD Hd MAkr); easy.
  - intros ->. eapply returns_is, (gksmv_call b obs fct m v s p q M D y x Ha HM HD Hd MCirc); easy.
Qed.
Lemma C37_agree_l :
  forall e, In e ["nrg"; "fair"; "akr"; "akr_circperm"]%string ->
  (forall obs fct ax s p M y x, ens_args obs fct ax s p M y x -> (0 < M)%nat -> dt obs = DFloat -> (e = "fair"%string -> (1 < M)%nat) ->
   exists u, returns (gksuv_ensemble Array obs fct ax None e) s (fun r => Fin (u r)) /\
             returns (gksuv_ensemble Numba obs fct ax None e) s (fun r => Fin (u r))) /\
  (forall obs fct m v s p q M D y x, mv_args obs fct m v s p q M D y x -> (0 < M)%nat -> (0 < D)%nat -> floats obs fct ->
   (e = "fair"%string -> (1 < M)%nat) ->
   exists u, returns (gksmv_ensemble Array obs fct m v None e) s (fun r => Fin (u r)) /\
             returns (gksmv_ensemble Numba obs fct m v None e) s (fun r => Fin (u r))).
Proof.
  intros e He. destruct (name_mest e He) as (e' & ->). split.
  - intros obs fct ax s p M y x Ha HM Hd H2. eexists.
    split; eapply returns_is, (gksuv_call _ obs fct ax s p M y x Ha HM); fn.
  - intros obs fct m v s p q M D y x Ha HM HD Hd H2. eexists.
    split; eapply returns_is, (gksmv_call _ obs fct m v s p q M D y x Ha HM HD); fn.
Qed.
Lemma C37_uv_weighted_l :
  forall b obs fct wt ax s p M y x w e,
  ens_args obs fct ax s p M y x -> (0 < M)%nat -> (b = Numba -> dt obs = DFloat) -> uv_wts wt s p M w ->
  let A r := kobs1 (y r) (member p x r) in let B r := kmem1 (member p x r) in let W r := nw M (member p w r) in
  (e = "nrg"%string -> returns (gksuv_ensemble b obs fct ax (Some wt) e) s (fun r => Fin (gk_wexact M (W r) (A r) (B r)))) /\
  (e = "akr"%string -> returns (gksuv_ensemble b obs fct ax (Some wt) e) s (fun r => Fin (gk_wlag M (lag1 M) (W r) (A r) (B r)))) /\
  (b = Numba -> e = "akr_circperm"%string ->
     returns (gksuv_ensemble b obs fct ax (Some wt) e) s (fun r => Fin (gk_wlag M (lagc M) (W r) (A r) (B r)))) /\
  (b = Numba -> e = "fair"%string -> (forall r, inb s r -> two_positive M (member p w r)) ->
     returns (gksuv_ensemble b obs fct ax (Some wt) e) s (fun r => Fin (gk_wfair M (W r) (A r) (B r)))).
Proof.
  intros b obs fct wt ax s p M y x w e Ha HM Hd Hw A B W.
  assert (K : forall e', e = mname e' -> (e' = MFair -> forall r, inb s r -> two_positive M (member p w r)) ->
    ~ (b = Array /\ e' = MCirc) -> (b = Array -> e' <> MFair) ->
    returns (gksuv_ensemble b obs fct ax (Some wt) e) s (fun r => Fin (gval_w e' M (W r) (A r) (B r)))).
  { intros e' -> H2 Hc Hf. eapply returns_ext; [eapply returns_is, (gksuv_call_w b obs fct ax s p M y x Ha HM Hd wt w Hw e'); auto|].
    intros r Hr. cbv beta. now rewrite gval_wa_0. }
  repeat split.
  - intros E. apply (K MNrg); auto; try easy; try (intros [? ?]; congruence); intros ?; congruence.
  - intros E. apply (K MAkr); auto; try easy; try (intros [? ?]; congruence); intros ?; congruence.
  - intros Hb E. apply (K MCirc); auto; try easy; try (intros [? ?]; congruence); intros ?; congruence.
  - intros Hb E H2. apply (K MFair); auto; try (intros [? ?]; congruence); intros ?; congruence.
Qed.
Lemma C37_mv_weighted_l :
  forall b obs fct wt m v s p q M D y x w e,
  mv_args obs fct m v s p q M D y x -> (0 < M)%nat -> (0 < D)%nat -> (b = Numba -> floats obs fct) ->
  (q < p)%nat -> mv_wts wt s (wpos p q) M w ->
  let A r := kobsD D (obsv q y r) (memv p q x r) in let B r := kmemD D (memv p q x r) in let W r := nw M (member (wpos p q) w r) in
  (e = "nrg"%string -> returns (gksmv_ensemble b obs fct m v (Some wt) e) s (fun r => Fin (gk_wexact M (W r) (A r) (B r)))) /\
  (e = "akr"%string -> returns (gksmv_ensemble b obs fct m v (Some wt) e) s (fun r => Fin (gk_wlag M (lag1 M) (W r) (A r) (B r)))) /\
  (e = "akr_circperm"%string ->
     returns (gksmv_ensemble b obs fct m v (Some wt) e) s (fun r => Fin (gk_wlag M (lagc M) (W r) (A r) (B r)))) /\
  (b = Numba -> e = "fair"%string -> (forall r, inb s r -> two_positive M (member (wpos p q) w r)) ->
     returns (gksmv_ensemble b obs fct m v (Some wt) e) s (fun r => Fin (gk_wfair M (W r) (A r) (B r)))).
Proof.
  intros b obs fct wt m v s p q M D y x w e Ha HM HD Hd Hqp Hw A B W.
  assert (K : forall e', e = mname e' -> (e' = MFair -> forall r, inb s r -> two_positive M (member (wpos p q) w r)) ->
    (b = Array -> e' <> MFair) ->
    returns (gksmv_ensemble b obs fct m v (Some wt) e) s (fun r => Fin (gval_w e' M (W r) (A r) (B r)))).
  { intros e' -> H2 Hf. eapply returns_ext; [eapply returns_is, (gksmv_call_w b obs fct m v s p q M D y x Ha HM HD Hd wt _ w Hw (wpos_S _ _ Hqp) e'); auto|].
    intros r Hr. cbv beta. now rewrite gval_wa_0. }
  repeat split.
  - intros E. apply (K MNrg); auto; easy.
  - intros E. apply (K MAkr); auto; easy.
  - intros E. apply (K MCirc); auto; easy.
  - intros Hb E H2. apply (K MFair); auto. intros X; congruence.
Qed.
Lemma C37_fair_weighted_array_l :
  (forall obs fct wt ax s p M y x w,
   ens_args obs fct ax s p M y x -> (0 < M)%nat -> uv_wts wt s p M w -> (forall r, inb s r -> two_positive M (member p w r)) ->
   returns (gksuv_ensemble Array obs fct ax (Some wt) "fair") s (fun r =>
     let W := nw M (member p w r) in
     Fin (gk_wfair M W (kobs1 (y r) (member p x r)) (kmem1 (member p x r))
          + sumn M (fun i => W i * W i) / (2 * (1 - sumn M (fun i => W i * W i)))))) /\
  (forall obs fct wt m v s p q M D y x w,
   mv_args obs fct m v s p q M D y x -> (0 < M)%nat -> (0 < D)%nat -> (q < p)%nat -> mv_wts wt s (wpos p q) M w ->
   (forall r, inb s r -> two_positive M (member (wpos p q) w r)) ->
   returns (gksmv_ensemble Array obs fct m v (Some wt) "fair") s (fun r =>
     let W := nw M (member (wpos p q) w r) in
     Fin (gk_wfair M W (kobsD D (obsv q y r) (memv p q x r)) (kmemD D (memv p q x r))
          + sumn M (fun i => W i * W i) / (2 * (1 - sumn M (fun i => W i * W i)))))).
Proof.
  split.
  - intros obs fct wt ax s p M y x w Ha HM Hw H2.
    eapply returns_is, (gksuv_call_w Array obs fct ax s p M y x Ha HM ltac:(easy) wt w Hw MFair); auto. intros [_ X]; discriminate.
  - intros obs fct wt m v s p q M D y x w Ha HM HD Hqp Hw H2.
    eapply returns_is, (gksmv_call_w Array obs fct m v s p q M D y x Ha HM HD ltac:(easy) wt _ w Hw (wpos_S _ _ Hqp) MFair); auto.
Qed.
Lemma C37_fair_weighted_refuted_l :
  exists obs fct wt : arr, ens_args obs fct (-1) [] 0 2 (fun _ => 3) (fun _ => 3) /\ uv_wts wt [] 0 2 (fun _ => 1) /\
  returns (gksuv_ensemble Numba obs fct (-1) (Some wt) "fair") [] (fun _ => Fin 0) /\
  returns (gksuv_ensemble Array obs fct (-1) (Some wt) "fair") [] (fun _ => Fin (/ 2)).
Proof.
  exists (num0 (Fin 3)), (real1 2 (fun _ => 3)), (real1 2 (fun _ => 1)).
  assert (Ha : ens_args (num0 (Fin 3)) (real1 2 (fun _ => 3)) (-1) [] 0 2 (fun _ => 3) (fun _ => 3)).
  { repeat split; simpl; auto; now left. }
  assert (Hw : uv_wts (real1 2 (fun _ => 1)) [] 0 2 (fun _ => 1)).
  { repeat split; intros; unfold member; [lra|]. unfold sumn, Rsum; simpl; lra. }
  assert (H2 : forall r, inb [] r -> two_positive 2 (member 0 (fun _ => 1) r)).
  { intros r Hr. exists 0%nat, 1%nat. unfold member. repeat split; try lia; lra. }
  split; [auto|]. split; [auto|]. destruct C37_fair_weighted_array_l as [U _].
  specialize (U _ _ _ _ _ _ _ _ _ _ Ha ltac:(lia) Hw H2).
  destruct (C37_uv_weighted_l Numba _ _ _ _ _ _ _ _ _ _ "fair" Ha ltac:(lia) ltac:(easy) Hw) as (_ & _ & _ & V).
  specialize (V eq_refl eq_refl H2).
  assert (E : gauss1 3 3 = 1) by apply gauss1_refl.
  split; (eapply returns_ext; [eassumption|]); intros r Hr; cbv beta zeta; f_equal;
    unfold gk_wfair, offdiag, kobs1, kmem1, member, nw, sumn, Rsum; simpl; rewrite E; field; lra.
Qed.
Lemma C37_circperm_weighted_refuted_l :
  forall obs fct wt ax s p M y x w,
  ens_args obs fct ax s p M y x -> (0 < M)%nat -> dt obs = DFloat -> uv_wts wt s p M w ->
  raises (gksuv_ensemble Array obs fct ax (Some wt) "akr_circperm") ValueError /\
  exists u, returns (gksuv_ensemble Numba obs fct ax (Some wt) "akr_circperm") s (fun r => Fin (u r)).
Proof.
  intros obs fct wt ax s p M y x w Ha HM Hd Hw. split.
  - eapply (gksuv_circ_raises Array); eauto.
  - destruct (C37_uv_weighted_l Numba _ _ _ _ _ _ _ _ _ _ "akr_circperm" Ha HM ltac:(easy) Hw) as (_ & _ & V & _). eexists. now apply V.
Qed.
Lemma C37_uniform_l :
  forall b e, In e ["nrg"; "fair"; "akr"; "akr_circperm"]%string -> (b = Array -> e <> "fair"%string) ->
  (forall obs fct wt ax s p M y x c, ens_args obs fct ax s p M y x -> (0 < M)%nat -> (b = Numba -> dt obs = DFloat) ->
   (e = "fair"%string -> (1 < M)%nat) -> (b = Array -> e <> "akr_circperm"%string) ->
   real_arr wt (insert_at p M s) (fun _ => c) -> 0 < c ->
   exists u, returns (gksuv_ensemble b obs fct ax None e) s (fun r => Fin (u r)) /\
             returns (gksuv_ensemble b obs fct ax (Some wt) e) s (fun r => Fin (u r))) /\
  (forall obs fct wt m v s p q M D y x c, mv_args obs fct m v s p q M D y x -> (0 < M)%nat -> (0 < D)%nat -> (b = Numba -> floats obs fct) ->
   (e = "fair"%string -> (1 < M)%nat) -> (q < p)%nat ->
   real_arr wt (insert_at (wpos p q) M s) (fun _ => c) -> 0 < c ->
   exists u, returns (gksmv_ensemble b obs fct m v None e) s (fun r => Fin (u r)) /\
             returns (gksmv_ensemble b obs fct m v (Some wt) e) s (fun r => Fin (u r))).
Proof.
  intros b e He Hf. destruct (name_mest e He) as (e' & ->).
  assert (Hf' : b = Array -> e' <> MFair) by (intros Hb ->; now apply (Hf Hb)).
  assert (HW : forall M pw c r k, (0 < M)%nat -> 0 < c -> (k < M)%nat -> nw M (member pw (fun _ : list nat => c) r) k = / INR M).
  { intros M pw c r k HM Hc Hk. apply (nw_const' M _ c); auto. unfold member. rewrite sumn_const. pose proof (INR_pos M HM). nra. }
  assert (HP : forall M c, (0 < M)%nat -> 0 < c -> 0 < sumn M (fun _ => c)).
  { intros M c HM Hc. rewrite sumn_const. pose proof (INR_pos M HM). nra. }
  split.
  - intros obs fct wt ax s p M y x c Ha HM Hd H2 Hc Hw Hc0. eexists.
    split; [eapply returns_is, (gksuv_call b obs fct ax s p M y x Ha HM Hd); fn|].
    eapply returns_ext; [eapply returns_is, (gksuv_call_w b obs fct ax s p M y x Ha HM Hd wt (fun _ => c))|].
    + repeat split; try apply Hw; intros; [unfold member; lra|]. now apply HP.
    + intros -> r Hr. exists 0%nat, 1%nat. specialize (H2 eq_refl). unfold member. repeat split; auto; lia.
    + intros [Hb ->]. now apply (Hc Hb).
    + intros r Hr. cbv beta. f_equal. rewrite gval_wa_0 by auto. apply gval_unif; fn.
  - intros obs fct wt m v s p q M D y x c Ha HM HD Hd H2 Hqp Hw Hc0. eexists.
    split; [eapply returns_is, (gksmv_call b obs fct m v s p q M D y x Ha HM HD Hd); fn|].
    eapply returns_ext; [eapply returns_is, (gksmv_call_w b obs fct m v s p q M D y x Ha HM HD Hd wt _ (fun _ => c))|].
    + repeat split; try apply Hw; intros; [unfold member; lra|]. now apply HP.
    + now apply wpos_S.
    + intros -> r Hr. exists 0%nat, 1%nat. specialize (H2 eq_refl). unfold member. repeat split; auto; lia.
    + intros r Hr. cbv beta. f_equal. rewrite gval_wa_0 by auto. apply gval_unif; fn.
Qed.
Lemma C37_bounds_l :
  (forall b obs fct ax s p M y x, ens_args obs fct ax s p M y x -> (0 < M)%nat -> (b = Numba -> dt obs = DFloat) ->
   (exists u, returns (gksuv_ensemble b obs fct ax None "nrg") s (fun r => Fin (u r)) /\ forall r, inb s r -> 0 <= u r < 1) /\
   (forall wt w, uv_wts wt s p M w ->
    exists u, returns (gksuv_ensemble b obs fct ax (Some wt) "nrg") s (fun r => Fin (u r)) /\ forall r, inb s r -> 0 <= u r < 1)) /\
  (forall b obs fct m v s p q M D y x, mv_args obs fct m v s p q M D y x -> (0 < M)%nat -> (0 < D)%nat -> (b = Numba -> floats obs fct) ->
   (exists u, returns (gksmv_ensemble b obs fct m v None "nrg") s (fun r => Fin (u r)) /\ forall r, inb s r -> 0 <= u r < 1) /\
   (forall wt w, (q < p)%nat -> mv_wts wt s (wpos p q) M w ->
    exists u, returns (gksmv_ensemble b obs fct m v (Some wt) "nrg") s (fun r => Fin (u r)) /\ forall r, inb s r -> 0 <= u r < 1)).
Proof.
  split.
  - intros b obs fct ax s p M y x Ha HM Hd. destruct (unif_w M HM) as [U1 U2]. split.
    + destruct (C37_uv_values_l b _ _ _ _ _ _ _ _ "nrg" Ha HM Hd) as (V & _). eexists; split; [now apply V|].
      intros r Hr. cbv beta. rewrite gk_exact_unif, gk_uv_mv by auto. split; [apply gk_wexact_nonneg|apply gk_wexact_lt1; auto; intros; lra].
    + intros wt w Hw. destruct (C37_uv_weighted_l b _ _ _ _ _ _ _ _ _ _ "nrg" Ha HM Hd Hw) as (V & _). eexists; split; [now apply V|].
      destruct Hw as (_ & W1 & W2).
      intros r Hr. cbv beta. rewrite gk_uv_mv by auto. split; [apply gk_wexact_nonneg|apply gk_wexact_lt1; [apply nw_nonneg; auto|apply nw_s1; auto]].
  - intros b obs fct m v s p q M D y x Ha HM HD Hd. destruct (unif_w M HM) as [U1 U2]. split.
    + destruct (C37_mv_values_l b _ _ _ _ _ _ _ _ _ _ _ "nrg" Ha HM HD Hd) as (V & _). eexists; split; [now apply V|].
      intros r Hr. cbv beta. rewrite gk_exact_unif by auto. split; [apply gk_wexact_nonneg|apply gk_wexact_lt1; auto; intros; lra].
    + intros wt w Hqp Hw. destruct (C37_mv_weighted_l b _ _ _ _ _ _ _ _ _ _ _ _ _ "nrg" Ha HM HD Hd Hqp Hw) as (V & _). eexists; split; [now apply V|].
      destruct Hw as (_ & W1 & W2).
      intros r Hr. cbv beta. split; [apply gk_wexact_nonneg|apply gk_wexact_lt1; [apply nw_nonneg; auto|apply nw_s1; auto]].
Qed.
Lemma C37_perfect_l :
  forall b e, In e ["nrg"; "fair"; "akr"; "akr_circperm"]%string ->
  (forall obs fct ax s p M y x, ens_args obs fct ax s p M y x -> (0 < M)%nat -> (b = Numba -> dt obs = DFloat) ->
   (e = "fair"%string -> (1 < M)%nat) -> (forall r k, inb s r -> (k < M)%nat -> member p x r k = y r) ->
   returns (gksuv_ensemble b obs fct ax None e) s (fun _ => Fin 0)) /\
  (forall obs fct m v s p q M D y x, mv_args obs fct m v s p q M D y x -> (0 < M)%nat -> (0 < D)%nat -> (b = Numba -> floats obs fct) ->
   (e = "fair"%string -> (1 < M)%nat) -> (forall r i k, inb s r -> (i < M)%nat -> (k < D)%nat -> memv p q x r i k = obsv q y r k) ->
   returns (gksmv_ensemble b obs fct m v None e) s (fun _ => Fin 0)).
Proof.
  intros b e He. destruct (name_mest e He) as (e' & ->). split.
  - intros obs fct ax s p M y x Ha HM Hd H2 Hx.
    eapply returns_ext; [eapply returns_is, (gksuv_call b obs fct ax s p M y x Ha HM Hd e'); fn|].
    intros r Hr. cbv beta. f_equal. apply gval_const; fn.
    + intros i Hi. unfold kobs1. rewrite Hx by auto. apply gauss1_refl.
    + intros i j Hi Hj. unfold kmem1. rewrite !Hx by auto. apply gauss1_refl.
  - intros obs fct m v s p q M D y x Ha HM HD Hd H2 Hx.
    eapply returns_ext; [eapply returns_is, (gksmv_call b obs fct m v s p q M D y x Ha HM HD Hd e'); fn|].
    intros r Hr. cbv beta. f_equal. apply gval_const; fn.
    + intros i Hi. unfold kobsD. rewrite (gaussD_ext D _ _ (obsv q y r) (obsv q y r)) by auto. apply gaussD_refl.
    + intros i j Hi Hj. unfold kmemD. rewrite (gaussD_ext D _ _ (obsv q y r) (obsv q y r)) by auto. apply gaussD_refl.
Qed.
Lemma C37_permutation_l :
  forall b e, In e ["nrg"; "fair"]%string ->
  (forall obs fct fct' ax s p M y x x' g,
   ens_args obs fct ax s p M y x -> ens_args obs fct' ax s p M y x' -> (0 < M)%nat -> (b = Numba -> dt obs = DFloat) ->
   (e = "fair"%string -> (1 < M)%nat) -> (forall r, inb s r -> reorders M (g r)) ->
   (forall r i, inb s r -> (i < M)%nat -> member p x' r i = member p x r (g r i)) ->
   exists u, returns (gksuv_ensemble b obs fct ax None e) s (fun r => Fin (u r)) /\
             returns (gksuv_ensemble b obs fct' ax None e) s (fun r => Fin (u r))) /\
  (forall obs fct fct' m v s p q M D y x x' g,
   mv_args obs fct m v s p q M D y x -> mv_args obs fct' m v s p q M D y x' -> (0 < M)%nat -> (0 < D)%nat ->
   (b = Numba -> floats obs fct /\ floats obs fct') ->
   (e = "fair"%string -> (1 < M)%nat) -> (forall r, inb s r -> reorders M (g r)) ->
   (forall r i k, inb s r -> (i < M)%nat -> (k < D)%nat -> memv p q x' r i k = memv p q x r (g r i) k) ->
   exists u, returns (gksmv_ensemble b obs fct m v None e) s (fun r => Fin (u r)) /\
             returns (gksmv_ensemble b obs fct' m v None e) s (fun r => Fin (u r))).
Proof.
  intros b e He. assert (exists e', e = mname e' /\ (e' = MNrg \/ e' = MFair)) as (e' & -> & Ee).
  { names He; [exists MNrg|exists MFair]; auto. }
  split.
  - intros obs fct fct' ax s p M y x x' g Ha Ha' HM Hd H2 Hg Hx. eexists.
    split; [eapply returns_is, (gksuv_call b obs fct ax s p M y x Ha HM Hd e'); fn|].
    eapply returns_ext; [eapply returns_is, (gksuv_call b obs fct' ax s p M y x' Ha' HM Hd e'); fn|].
    intros r Hr. cbv beta. f_equal.
    rewrite (gval_ext e' M _ _ (fun i => kobs1 (y r) (member p x r) (g r i)) (fun i j => kmem1 (member p x r) (g r i) (g r j)) HM).
    + apply gval_perm; auto using kmem1_refl. destruct Ee as [-> | ->]; auto.
    + intros i Hi. unfold kobs1. now rewrite Hx.
    + intros i j Hi Hj. unfold kmem1. now rewrite !Hx.
  - intros obs fct fct' m v s p q M D y x x' g Ha Ha' HM HD Hd H2 Hg Hx. eexists.
    split; [eapply returns_is, (gksmv_call b obs fct m v s p q M D y x Ha HM HD ltac:(intros E; apply (Hd E)) e'); fn|].
    eapply returns_ext; [eapply returns_is, (gksmv_call b obs fct' m v s p q M D y x' Ha' HM HD ltac:(intros E; apply (Hd E)) e'); fn|].
    intros r Hr. cbv beta. f_equal.
    rewrite (gval_ext e' M _ _ (fun i => kobsD D (obsv q y r) (memv p q x r) (g r i)) (fun i j => kmemD D (memv p q x r) (g r i) (g r j)) HM).
    + apply gval_perm; auto using kmemD_refl. destruct Ee as [-> | ->]; auto.
    + intros i Hi. apply gaussD_ext; auto.
    + intros i j Hi Hj. apply gaussD_ext; auto.
Qed.
Lemma C37_isometry_l :
  forall b e, In e ["nrg"; "fair"; "akr"; "akr_circperm"]%string ->
  (forall obs fct obs' fct' ax s p M y x y' x' c d,
   ens_args obs fct ax s p M y x -> ens_args obs' fct' ax s p M y' x' -> (0 < M)%nat ->
   (b = Numba -> dt obs = DFloat /\ dt obs' = DFloat) -> (e = "fair"%string -> (1 < M)%nat) -> c * c = 1 ->
   (forall r, inb s r -> y' r = c * y r + d) -> (forall r i, inb s r -> (i < M)%nat -> member p x' r i = c * member p x r i + d) ->
   exists u, returns (gksuv_ensemble b obs fct ax None e) s (fun r => Fin (u r)) /\
             returns (gksuv_ensemble b obs' fct' ax None e) s (fun r => Fin (u r))) /\
  (forall obs fct obs' fct' m v s p q M D y x y' x' h,
   mv_args obs fct m v s p q M D y x -> mv_args obs' fct' m v s p q M D y' x' -> (0 < M)%nat -> (0 < D)%nat ->
   (b = Numba -> floats obs fct /\ floats obs' fct') -> (e = "fair"%string -> (1 < M)%nat) -> similarity D 1 h ->
   (forall r k, inb s r -> (k < D)%nat -> obsv q y' r k = h (obsv q y r) k) ->
   (forall r i k, inb s r -> (i < M)%nat -> (k < D)%nat -> memv p q x' r i k = h (memv p q x r i) k) ->
   exists u, returns (gksmv_ensemble b obs fct m v None e) s (fun r => Fin (u r)) /\
             returns (gksmv_ensemble b obs' fct' m v None e) s (fun r => Fin (u r))).
Proof.
  intros b e He. destruct (name_mest e He) as (e' & ->). split.
  - intros obs fct obs' fct' ax s p M y x y' x' c d Ha Ha' HM Hd H2 Hc Hy Hx. eexists.
    split; [eapply returns_is, (gksuv_call b obs fct ax s p M y x Ha HM ltac:(intros E; apply (Hd E)) e'); fn|].
    eapply returns_ext; [eapply returns_is, (gksuv_call b obs' fct' ax s p M y' x' Ha' HM ltac:(intros E; apply (Hd E)) e'); fn|].
    assert (G : forall u t, gauss1 (c * u + d) (c * t + d) = gauss1 u t).
    { intros u t. unfold gauss1. do 2 f_equal. replace ((c * u + d - (c * t + d)) ^ 2) with (c * c * (u - t) ^ 2) by ring. rewrite Hc. ring. }
    intros r Hr. cbv beta. f_equal. apply gval_ext; auto.
    + intros i Hi. unfold kobs1. now rewrite Hx, Hy.
    + intros i j Hi Hj. unfold kmem1. now rewrite !Hx.
  - intros obs fct obs' fct' m v s p q M D y x y' x' h Ha Ha' HM HD Hd H2 Hh Hy Hx. eexists.
    split; [eapply returns_is, (gksmv_call b obs fct m v s p q M D y x Ha HM HD ltac:(intros E; apply (Hd E)) e'); fn|].
    eapply returns_ext; [eapply returns_is, (gksmv_call b obs' fct' m v s p q M D y' x' Ha' HM HD ltac:(intros E; apply (Hd E)) e'); fn|].
    assert (G : forall u t, gaussD D (h u) (h t) = gaussD D u t).
    { intros u t. rewrite !gaussD_eucl, Hh. f_equal. field. }
    intros r Hr. cbv beta. f_equal. apply gval_ext; auto.
    + intros i Hi. unfold kobsD. rewrite <- (G (memv p q x r i) (obsv q y r)). apply gaussD_ext; auto.
    + intros i j Hi Hj. unfold kmemD. rewrite <- (G (memv p q x r i) (memv p q x r j)). apply gaussD_ext; auto.
Qed.
Lemma C37_one_variable_l :
  forall b obs fct m v s p q M y x obs1 fct1 ax p1 y1 x1 e,
  mv_args obs fct m v s p q M 1 y x -> ens_args obs1 fct1 ax s p1 M y1 x1 -> (0 < M)%nat ->
  (forall r, inb s r -> obsv q y r 0 = y1 r) ->
  (forall r i, inb s r -> (i < M)%nat -> memv p q x r i 0 = member p1 x1 r i) ->
  In e ["nrg"; "fair"; "akr"; "akr_circperm"]%string -> (e = "fair"%string -> (1 < M)%nat) ->
  (b = Numba -> floats obs fct /\ dt obs1 = DFloat) ->
  exists u, returns (gksmv_ensemble b obs fct m v None e) s (fun r => Fin (u r)) /\
            returns (gksuv_ensemble b obs1 fct1 ax None e) s (fun r => Fin (u r)).
Proof.
  intros b obs fct m v s p q M y x obs1 fct1 ax p1 y1 x1 e Ha Ha1 HM Hy Hx He H2 Hd.
  destruct (name_mest e He) as (e' & ->). eexists.
  split; [eapply returns_is, (gksmv_call b obs fct m v s p q M 1 y x Ha HM ltac:(lia) ltac:(intros E; apply (Hd E)) e'); fn|].
  eapply returns_ext; [eapply returns_is, (gksuv_call b obs1 fct1 ax s p1 M y1 x1 Ha1 HM ltac:(intros E; apply (Hd E)) e'); fn|].
  intros r Hr. cbv beta. f_equal. apply gval_ext; auto.
  - intros i Hi. unfold kobs1, kobsD. rewrite gauss1_D. apply gaussD_ext; intros k Hk; replace k with 0%nat by lia; cbv beta; rewrite ?Hx, ?Hy; auto.
  - intros i j Hi Hj. unfold kmem1, kmemD. rewrite gauss1_D. apply gaussD_ext; intros k Hk; replace k with 0%nat by lia; cbv beta; rewrite ?Hx, ?Hy; auto.
Qed.
Lemma C37_proper_l :
  forall b M f N g,
  (forall k, (k < M)%nat -> 0 <= f k) -> 0 < sumn M f ->
  (forall j, (j < N)%nat -> 0 <= g j) -> 0 < sumn N g ->
  (forall x z, exists S T : nat -> R,
    (forall j, (j < N)%nat -> returns (gksuv_ensemble b (num0 (Fin (z j))) (real1 M x) (-1) (Some (real1 M f)) "nrg")
       [] (fun _ => Fin (S j))) /\
    (forall j, (j < N)%nat -> returns (gksuv_ensemble b (num0 (Fin (z j))) (real1 N z) (-1) (Some (real1 N g)) "nrg")
       [] (fun _ => Fin (T j))) /\
    sumn N (fun j => g j / sumn N g * T j) <= sumn N (fun j => g j / sumn N g * S j)) /\
  (forall D x z, (0 < D)%nat -> exists S T : nat -> R,
    (forall j, (j < N)%nat -> returns (gksmv_ensemble b (real1 D (z j)) (real2 M D x) (-2) (-1) (Some (real1 M f)) "nrg")
       [] (fun _ => Fin (S j))) /\
    (forall j, (j < N)%nat -> returns (gksmv_ensemble b (real1 D (z j)) (real2 N D z) (-2) (-1) (Some (real1 N g)) "nrg")
       [] (fun _ => Fin (T j))) /\
    sumn N (fun j => g j / sumn N g * T j) <= sumn N (fun j => g j / sumn N g * S j)).
Proof.
  intros b M f N g Hf Hf1 Hg Hg1.
  assert (HM : (0 < M)%nat) by (destruct M; [unfold sumn, Rsum in Hf1; simpl in Hf1; lra|lia]).
  assert (HN : (0 < N)%nat) by (destruct N; [unfold sumn, Rsum in Hg1; simpl in Hg1; lra|lia]).
  split.
  - intros x z.
    assert (C : forall L u p j, (0 < L)%nat -> (forall k, (k < L)%nat -> 0 <= u k) -> 0 < sumn L u ->
      returns (gksuv_ensemble b (num0 (Fin (z j))) (real1 L p) (-1) (Some (real1 L u)) "nrg") []
        (fun _ => Fin (gk_wexact L (nw L u) (kobsD 1 (fun _ => z j) (fun i _ => p i)) (kmemD 1 (fun i _ => p i))))).
    { intros L u p j HL Hu Hu1.
      destruct (C37_uv_weighted_l b _ _ _ _ _ _ _ _ _ _ "nrg" (uv_real_args L (z j) p) HL ltac:(easy) (uv_real_wts L u Hu Hu1)) as (V & _).
      eapply returns_ext; [exact (V eq_refl)|]. intros [|? ?] Hr; [|easy]. cbv beta. rewrite gk_uv_mv. reflexivity. }
    eexists (fun j => gk_wexact M (nw M f) (kobsD 1 (fun _ => z j) _) _), (fun j => gk_wexact N (nw N g) (kobsD 1 (fun _ => z j) _) _).
    split; [intros; apply (C M f x); auto|]. split; [intros; apply (C N g z); auto|].
    apply (gk_proper M N 1 (nw M f) (fun i _ => x i) (nw N g) (fun i _ => z i)). now apply nw_s1.
  - intros D x z HD.
    assert (C : forall L u p j, (0 < L)%nat -> (forall k, (k < L)%nat -> 0 <= u k) -> 0 < sumn L u ->
      returns (gksmv_ensemble b (real1 D (z j)) (real2 L D p) (-2) (-1) (Some (real1 L u)) "nrg") []
        (fun _ => Fin (gk_wexact L (nw L u) (kobsD D (z j) p) (kmemD D p)))).
    { intros L u p j HL Hu Hu1.
      destruct (C37_mv_weighted_l b _ _ _ _ _ _ _ _ _ _ _ _ _ "nrg" (real2_args L D (z j) p) HL HD ltac:(easy) ltac:(lia) (real1_wts L u Hu Hu1)) as (V & _).
      eapply returns_ext; [exact (V eq_refl)|]. intros [|? ?] Hr; [|easy]. reflexivity. }
    exists (fun j => gk_wexact M (nw M f) (kobsD D (z j) x) (kmemD D x)), (fun j => gk_wexact N (nw N g) (kobsD D (z j) z) (kmemD D z)).
    split; [intros; apply (C M f x); auto|]. split; [intros; apply (C N g z); auto|].
    apply (gk_proper M N D (nw M f) x (nw N g) z). now apply nw_s1.
Qed.
Lemma C37_numba_integer_refuted_l :
  (forall obs fct ax s p M y x, ens_args obs fct ax s p M y x -> (0 < M)%nat -> dt obs = DInt ->
   returns (gksuv_ensemble Numba obs fct ax None "nrg") s (fun _ => Fin 0)) /\
  (exists obs fct : arr, dt obs = DInt /\ ens_args obs fct (-1) [] 0 1 (fun _ => 0) (fun _ => 1) /\
   returns (gksuv_ensemble Array obs fct (-1) None "nrg") [] (fun _ => Fin (1 - exp (- / 2)))).
Proof.
  split.
  - intros obs fct ax s p M y x Ha HM Hd.
    destruct (uv_check obs fct ax s p M y x Ha) as (f' & E & Ho & Hf).
    unfold gksuv_ensemble. rewrite E. cbn [bind]. unfold ks_gufuncs_uv. cbn [String.eqb Ascii.eqb Bool.eqb]. rewrite Hd in Ho.
    eapply returns_ext; [eapply returns_is, (gu_sv_is _ (fun d => d)); [apply outs_lazy|exact Ho|exact Hf]|].
    intros r Hr. cbv beta. cbn [hd tl].
    rewrite (on_uv_gen M (y r) (member p x r) _ eq_refl ks_nrg_k (Fin (gk_exact M (kobs1 (y r) (member p x r)) (kmem1 (member p x r)))))
      by (intros; apply ks_nrg_k_real; auto).
    cbn [ncast]. rewrite gk_exact_unif, gk_uv_mv by auto. destruct (unif_w M HM) as [U1 U2].
    rewrite rtrunc_small; [reflexivity|apply gk_wexact_nonneg|apply gk_wexact_lt1; auto; intros; lra].
  - exists (mkArr DInt [] (fun _ => Fin 0)), (real1 1 (fun _ => 1)).
    assert (Ha : ens_args (mkArr DInt [] (fun _ => Fin 0)) (real1 1 (fun _ => 1)) (-1) [] 0 1 (fun _ => 0) (fun _ => 1)).
    { repeat split; simpl; auto; now left. }
    split; [reflexivity|]. split; [auto|].
    destruct (C37_uv_values_l Array _ _ _ _ _ _ _ _ "nrg" Ha ltac:(lia) ltac:(easy)) as (V & _).
    eapply returns_ext; [exact (V eq_refl)|]. intros r Hr. cbv beta. f_equal.
    unfold gk_exact, kobs1, kmem1, member, sumn, Rsum. simpl. rewrite gauss1_refl.
    unfold gauss1. replace (- (1 - 0) ^ 2 / 2) with (- / 2) by (simpl; field). field.
Qed.
Lemma C53_chain_l :
  forall b obs fct a c ax s p M y x e f vf, ens_args obs fct ax s p M y x -> (0 < M)%nat ->
  (thresholds a c /\ clips a c f /\ vf = None \/ exists h, vf = Some h /\ forall t, h (Fin t) = Fin (f t)) ->
  let A r := kobs1 (f (y r)) (fun i => f (member p x r i)) in let B r := kmem1 (fun i => f (member p x r i)) in
  (e = "nrg"%string -> returns (twgksuv_ensemble b obs fct a c ax None vf e) s (fun r => Fin (gk_exact M (A r) (B r)))) /\
  (e = "fair"%string -> (1 < M)%nat -> returns (twgksuv_ensemble b obs fct a c ax None vf e) s (fun r => Fin (gk_fair M (A r) (B r)))) /\
  (e = "akr"%string -> returns (twgksuv_ensemble b obs fct a c ax None vf e) s (fun r => Fin (gk_lag M (lag1 M) (A r) (B r)))) /\
  (e = "akr_circperm"%string -> returns (twgksuv_ensemble b obs fct a c ax None vf e) s (fun r => Fin (gk_lag M (lagc M) (A r) (B r)))).
Proof.
  intros b obs fct a c ax s p M y x e f vf Ha HM Hf A B.
  destruct (gk_chain b obs fct a c ax None vf e s p M y x f Ha Hf) as (obs' & fct' & D1 & Ha' & ->).
  exact (C37_uv_values_l b obs' fct' ax s p M _ _ e Ha' HM ltac:(auto)).
Qed.
Lemma C53_chain_weighted_l :
  forall b obs fct wt a c ax s p M y x w e f vf, ens_args obs fct ax s p M y x -> (0 < M)%nat -> uv_wts wt s p M w ->
  (thresholds a c /\ clips a c f /\ vf = None \/ exists h, vf = Some h /\ forall t, h (Fin t) = Fin (f t)) ->
  let A r := kobs1 (f (y r)) (fun i => f (member p x r i)) in let B r := kmem1 (fun i => f (member p x r i)) in
  let W r := nw M (member p w r) in
  (e = "nrg"%string -> returns (twgksuv_ensemble b obs fct a c ax (Some wt) vf e) s (fun r => Fin (gk_wexact M (W r) (A r) (B r)))) /\
  (e = "akr"%string -> returns (twgksuv_ensemble b obs fct a c ax (Some wt) vf e) s (fun r => Fin (gk_wlag M (lag1 M) (W r) (A r) (B r)))).
Proof.
  intros b obs fct wt a c ax s p M y x w e f vf Ha HM Hw Hf A B W.
  destruct (gk_chain b obs fct a c ax (Some wt) vf e s p M y x f Ha Hf) as (obs' & fct' & D1 & Ha' & ->).
  destruct (C37_uv_weighted_l b obs' fct' wt ax s p M _ _ w e Ha' HM ltac:(auto) Hw) as (V1 & V2 & _). split; [exact V1|exact V2].
Qed.
Lemma C53_default_l :
  forall b obs fct ax s p M y x e, ens_args obs fct ax s p M y x -> (0 < M)%nat -> dt obs = DFloat ->
  In e ["nrg"; "fair"; "akr"; "akr_circperm"]%string -> (e = "fair"%string -> (1 < M)%nat) ->
  exists u, returns (gksuv_ensemble b obs fct ax None e) s (fun r => Fin (u r)) /\
            returns (twgksuv_ensemble b obs fct NInf PInf ax None None e) s (fun r => Fin (u r)).
Proof.
  intros b obs fct ax s p M y x e Ha HM Hd He H2.
  assert (Hc : thresholds NInf PInf /\ clips NInf PInf (fun t => t) /\ @None (num -> num) = None \/
     exists h, @None (num -> num) = Some h /\ forall t, h (Fin t) = Fin t).
  { left. split; [exact I|]. split; [|reflexivity]. intros t. simpl. repeat split; tauto. }
  destruct (gk_chain b obs fct NInf PInf ax None None e s p M y x (fun t => t) Ha Hc) as (obs' & fct' & D1 & Ha' & ->).
  destruct (name_mest e He) as (e' & ->). eexists.
  split; [eapply returns_is, (gksuv_call b obs fct ax s p M y x Ha HM ltac:(auto) e'); fn|].
  eapply returns_ext; [eapply returns_is, (gksuv_call b obs' fct' ax s p M _ _ Ha' HM ltac:(auto) e'); fn|]. reflexivity.
Qed.
Lemma C53_mv_chain_l :
  forall b obs fct obs' fct' vf m v s p q M D y x y' x' h e,
  vf obs = Ok obs' -> vf fct = Ok fct' ->
  mv_args obs' fct' m v s p q M D y' x' -> (0 < M)%nat -> (0 < D)%nat -> (b = Numba -> floats obs' fct') ->
  (forall r k, inb s r -> (k < D)%nat -> obsv q y' r k = h (obsv q y r) k) ->
  (forall r i k, inb s r -> (i < M)%nat -> (k < D)%nat -> memv p q x' r i k = h (memv p q x r i) k) ->
  let A r := kobsD D (h (obsv q y r)) (fun i => h (memv p q x r i)) in let B r := kmemD D (fun i => h (memv p q x r i)) in
  (e = "nrg"%string -> returns (twgksmv_ensemble b obs fct vf m v None e) s (fun r => Fin (gk_exact M (A r) (B r)))) /\
  (e = "fair"%string -> (1 < M)%nat -> returns (twgksmv_ensemble b obs fct vf m v None e) s (fun r => Fin (gk_fair M (A r) (B r)))) /\
  (e = "akr"%string -> returns (twgksmv_ensemble b obs fct vf m v None e) s (fun r => Fin (gk_lag M (lag1 M) (A r) (B r)))) /\
  (e = "akr_circperm"%string -> returns (twgksmv_ensemble b obs fct vf m v None e) s (fun r => Fin (gk_lag M (lagc M) (A r) (B r)))).
Proof.
  intros b obs fct obs' fct' vf m v s p q M D y x y' x' h e E1 E2 Ha HM HD Hfl Hy Hx A B.
  unfold twgksmv_ensemble, mv_weighted_score_chain. rewrite E1. cbn [bind]. rewrite E2. cbn [bind].
  assert (X1 : forall r i, inb s r -> (i < M)%nat -> kobsD D (obsv q y' r) (memv p q x' r) i = A r i).
  { intros r i Hr Hi. apply gaussD_ext; auto. }
  assert (X2 : forall r i j, inb s r -> (i < M)%nat -> (j < M)%nat -> kmemD D (memv p q x' r) i j = B r i j).
  { intros r i j Hr Hi Hj. apply gaussD_ext; auto. }
  assert (K : forall e', e = mname e' -> (e' = MFair -> (1 < M)%nat) ->
    returns (gksmv_ensemble b obs' fct' m v None e) s (fun r => Fin (gval e' M (A r) (B r)))).
  { intros e' -> H2. eapply returns_ext; [eapply returns_is, (gksmv_call b obs' fct' m v s p q M D y' x' Ha HM HD Hfl e'); auto|].
    intros r Hr. cbv beta. f_equal. apply gval_ext; auto. }
  repeat split.
  - intros E. now apply (K MNrg).
  - intros E H2. now apply (K MFair).
  - intros E. now apply (K MAkr).
  - intros E. now apply (K MCirc).
Qed.
Lemma C53_outcome_l :
  (forall b obs fct a c wf g ax s p M y x, ens_args obs fct ax s p M y x -> (0 < M)%nat -> (b = Numba -> dt obs = DFloat) ->
   weighting a c wf g -> (forall t, 0 <= g t) ->
   let gx r k := g (member p x r k) in (forall r, inb s r -> 0 < sumn M (gx r)) ->
   returns (owgksuv_ensemble b obs fct a c ax None wf) s
     (fun r => Fin (g (y r) * gk_wexact M (nw M (gx r)) (kobs1 (y r) (member p x r)) (kmem1 (member p x r))))) /\
  (forall b obs fct wf g m v s p q M D y x, mv_args obs fct m v s p q M D y x -> (0 < M)%nat -> (0 < D)%nat -> ~ In 0%nat s ->
   (b = Numba -> floats obs fct) -> vweight D wf g ->
   let gx r k := g (memv p q x r k) in (forall r, inb s r -> 0 < sumn M (gx r)) ->
   returns (owgksmv_ensemble b obs fct wf m v None) s
     (fun r => Fin (g (obsv q y r) * gk_wexact M (nw M (gx r)) (kobsD D (obsv q y r) (memv p q x r)) (kmemD D (memv p q x r))))).
Proof.
  split.
  - intros b obs fct a c wf g ax s p M y x Ha HM Hd Hg H0 gx Hp.
    eapply returns_is, (owgksuv_call b obs fct ax s p M y x Ha HM Hd a c wf g Hg H0). intros r Hr E. specialize (Hp r Hr). unfold gx in Hp. lra.
  - intros b obs fct wf g m v s p q M D y x Ha HM HD Hs Hd Hg gx Hp.
    eapply returns_is, (owgksmv_call b obs fct m v s p q M D y x Ha HM HD Hd wf g Hg Hs). intros r Hr E. specialize (Hp r Hr). unfold gx in Hp. lra.
Qed.
Lemma C53_vertical_l :
  (forall b obs fct a c wf g ax s p M y x, ens_args obs fct ax s p M y x -> (0 < M)%nat -> (b = Numba -> dt obs = DFloat) ->
   weighting a c wf g -> (forall t, 0 <= g t) ->
   returns (vrgksuv_ensemble b obs fct a c ax None wf) s
     (fun r => Fin (gk_vr M (g (y r)) (fun k => g (member p x r k) / INR M) (kobs1 (y r) (member p x r)) (kmem1 (member p x r))))) /\
  (forall b obs fct wf g m v s p q M D y x, mv_args obs fct m v s p q M D y x -> (0 < M)%nat -> (0 < D)%nat -> ~ In 0%nat s ->
   (b = Numba -> floats obs fct) -> vweight D wf g ->
   returns (vrgksmv_ensemble b obs fct wf m v None) s
     (fun r => Fin (gk_vr M (g (obsv q y r)) (fun k => g (memv p q x r k) / INR M) (kobsD D (obsv q y r) (memv p q x r)) (kmemD D (memv p q x r))))).
Proof.
  split.
  - intros b obs fct a c wf g ax s p M y x Ha HM Hd Hg H0.
    eapply returns_is, (vrgksuv_call b obs fct ax s p M y x Ha HM Hd a c wf g Hg H0).
  - intros b obs fct wf g m v s p q M D y x Ha HM HD Hs Hd Hg.
    eapply returns_is, (vrgksmv_call b obs fct m v s p q M D y x Ha HM HD Hd wf g Hg Hs).
Qed.
Lemma C53_weighted_l :
  forall b obs fct wt a c wf g ax s p M y x w, ens_args obs fct ax s p M y x -> (0 < M)%nat -> (b = Numba -> dt obs = DFloat) ->
  weighting a c wf g -> (forall t, 0 <= g t) -> uv_wts wt s p M w ->
  let u r k := g (member p x r k) * nw M (member p w r) k in
  ((forall r, inb s r -> 0 < sumn M (u r)) ->
   returns (owgksuv_ensemble b obs fct a c ax (Some wt) wf) s
     (fun r => Fin (g (y r) * gk_wexact M (nw M (u r)) (kobs1 (y r) (member p x r)) (kmem1 (member p x r))))) /\
  returns (vrgksuv_ensemble b obs fct a c ax (Some wt) wf) s
    (fun r => Fin (gk_vr M (g (y r)) (u r) (kobs1 (y r) (member p x r)) (kmem1 (member p x r)))).
Proof.
  intros b obs fct wt a c wf g ax s p M y x w Ha HM Hd Hg H0 Hw u. split.
  - intros Hp. eapply returns_is, (owgksuv_call_w b obs fct ax s p M y x Ha HM Hd a c wf g Hg H0 wt w Hw).
    intros r Hr E. specialize (Hp r Hr). unfold u in Hp. lra.
  - eapply returns_is, (vrgksuv_call_w b obs fct ax s p M y x Ha HM Hd a c wf g Hg H0 wt w Hw).
Qed.
Lemma C53_mv_weighted_l :
  forall obs fct wt wf g m v s p q M D y x w,
  mv_args obs fct m v s p q M D y x -> (0 < M)%nat -> (0 < D)%nat -> ~ In 0%nat s ->
  vweight D wf g -> (q < p)%nat -> mv_wts wt s (wpos p q) M w ->
  let u r k := g (memv p q x r k) * nw M (member (wpos p q) w r) k in
  ((forall r, inb s r -> 0 < sumn M (u r)) ->
   returns (owgksmv_ensemble Array obs fct wf m v (Some wt)) s
    (fun r => Fin (g (obsv q y r) * gk_wexact M (nw M (u r)) (kobsD D (obsv q y r) (memv p q x r)) (kmemD D (memv p q x r))))) /\
  returns (vrgksmv_ensemble Array obs fct wf m v (Some wt)) s
    (fun r => Fin (gk_vr M (g (obsv q y r)) (u r) (kobsD D (obsv q y r) (memv p q x r)) (kmemD D (memv p q x r)))).
Proof.
  intros obs fct wt wf g m v s p q M D y x w Ha HM HD Hs Hg Hqp Hw u. split.
  - intros Hp. eapply returns_is, (owgksmv_call_w Array obs fct m v s p q M D y x); eauto using wpos_S.
    intros r Hr E. specialize (Hp r Hr). unfold u in Hp. lra.
  - eapply returns_is, (vrgksmv_call_w Array obs fct m v s p q M D y x); eauto using wpos_S.
Qed.
Lemma C53_mv_numba_refuted_l :
  forall obs fct wt wf g m v s p q M D y x w,
  mv_args obs fct m v s p q M D y x -> (0 < M)%nat -> (0 < D)%nat -> ~ In 0%nat s ->
  vweight D wf g -> (q < p)%nat -> mv_wts wt s (wpos p q) M w ->
  raises (owgksmv_ensemble Numba obs fct wf m v (Some wt)) NumbaError /\
  (raises (vrgksmv_ensemble Numba obs fct wf m v (Some wt)) IndexError \/
   raises (vrgksmv_ensemble Numba obs fct wf m v (Some wt)) TypeError).
Proof.
  intros obs fct wt wf g m v s p q M D y x w Ha HM HD Hs Hg Hqp Hw. split.
  - eapply (owgksmv_w_numba Numba obs fct m v s p q M D y x); eauto using wpos_S.
  - pose proof (vrgksmv_w_numba Numba obs fct m v s p q M D y x) as H.
    unfold raises. destruct s; [left|right]; eapply H; eauto using wpos_S.
Qed.
Lemma C53_unit_l :
  (forall b obs fct a c wf ax s p M y x, ens_args obs fct ax s p M y x -> (0 < M)%nat -> (b = Numba -> dt obs = DFloat) ->
   weighting a c wf (fun _ => 1) ->
   exists u, returns (gksuv_ensemble b obs fct ax None "nrg") s (fun r => Fin (u r)) /\
             returns (owgksuv_ensemble b obs fct a c ax None wf) s (fun r => Fin (u r)) /\
             returns (vrgksuv_ensemble b obs fct a c ax None wf) s (fun r => Fin (u r))) /\
  (forall b obs fct wf m v s p q M D y x, mv_args obs fct m v s p q M D y x -> (0 < M)%nat -> (0 < D)%nat -> ~ In 0%nat s ->
   (b = Numba -> floats obs fct) -> vweight D wf (fun _ => 1) ->
   exists u, returns (gksmv_ensemble b obs fct m v None "nrg") s (fun r => Fin (u r)) /\
             returns (owgksmv_ensemble b obs fct wf m v None) s (fun r => Fin (u r)) /\
             returns (vrgksmv_ensemble b obs fct wf m v None) s (fun r => Fin (u r))).
Proof.
  assert (N1 : forall M k, (0 < M)%nat -> nw M (fun _ => 1) k = / INR M).
  { intros M k HM. pose proof (INR_pos M HM). unfold nw. rewrite sumn_const. field. lra. }
  assert (P1 : forall M, (0 < M)%nat -> 0 < sumn M (fun _ => 1)).
  { intros M HM. rewrite sumn_const. pose proof (INR_pos M HM). lra. }
  split.
  - intros b obs fct a c wf ax s p M y x Ha HM Hd Hg.
    destruct (C37_uv_values_l b _ _ _ _ _ _ _ _ "nrg" Ha HM Hd) as (V & _).
    destruct C53_outcome_l as [O _]. destruct C53_vertical_l as [Vr _].
    eexists. split; [exact (V eq_refl)|]. split.
    + eapply returns_ext; [apply (O b obs fct a c wf (fun _ => 1) ax s p M y x); auto; intros; lra|].
      intros r Hr. cbv beta. f_equal. rewrite Rmult_1_l, gk_exact_unif by auto. apply gk_wexact_ext; auto.
    + eapply returns_ext; [apply (Vr b obs fct a c wf (fun _ => 1) ax s p M y x); auto; intros; lra|].
      intros r Hr. cbv beta. f_equal. rewrite gk_exact_unif, gk_wexact_vr by auto. apply gk_vr_ext; auto. intros; field. now apply INR_nz.
  - intros b obs fct wf m v s p q M D y x Ha HM HD Hs Hd Hg.
    destruct (C37_mv_values_l b _ _ _ _ _ _ _ _ _ _ _ "nrg" Ha HM HD Hd) as (V & _).
    destruct C53_outcome_l as [_ O]. destruct C53_vertical_l as [_ Vr].
    eexists. split; [exact (V eq_refl)|]. split.
    + eapply returns_ext; [apply (O b obs fct wf (fun _ => 1) m v s p q M D y x); auto; intros; lra|].
      intros r Hr. cbv beta. f_equal. rewrite Rmult_1_l, gk_exact_unif by auto. apply gk_wexact_ext; auto.
    + eapply returns_ext; [apply (Vr b obs fct wf (fun _ => 1) m v s p q M D y x); auto; intros; lra|].
      intros r Hr. cbv beta. f_equal. rewrite gk_exact_unif, gk_wexact_vr by auto. apply gk_vr_ext; auto. intros; field. now apply INR_nz.
Qed.
Lemma C53_nonnegative_l :
  (forall b obs fct a c wf g ax s p M y x, ens_args obs fct ax s p M y x -> (0 < M)%nat -> (b = Numba -> dt obs = DFloat) ->
   weighting a c wf g -> (forall t, 0 <= g t) ->
   ((forall r, inb s r -> 0 < sumn M (fun k => g (member p x r k))) ->
    exists u, returns (owgksuv_ensemble b obs fct a c ax None wf) s (fun r => Fin (u r)) /\ forall r, inb s r -> 0 <= u r) /\
   exists u, returns (vrgksuv_ensemble b obs fct a c ax None wf) s (fun r => Fin (u r)) /\ forall r, 0 <= u r) /\
  (forall b obs fct wf g m v s p q M D y x, mv_args obs fct m v s p q M D y x -> (0 < M)%nat -> (0 < D)%nat -> ~ In 0%nat s ->
   (b = Numba -> floats obs fct) -> vweight D wf g ->
   ((forall r, inb s r -> 0 < sumn M (fun k => g (memv p q x r k))) ->
    exists u, returns (owgksmv_ensemble b obs fct wf m v None) s (fun r => Fin (u r)) /\ forall r, inb s r -> 0 <= u r) /\
   exists u, returns (vrgksmv_ensemble b obs fct wf m v None) s (fun r => Fin (u r)) /\ forall r, 0 <= u r).
Proof.
  destruct C53_outcome_l as [O1 O2]. destruct C53_vertical_l as [V1 V2]. split.
  - intros b obs fct a c wf g ax s p M y x Ha HM Hd Hg H0. split.
    + intros Hp. eexists. split; [apply (O1 b obs fct a c wf g ax s p M y x); auto|].
      intros r Hr. cbv beta. apply Rmult_le_pos; auto. rewrite gk_uv_mv. apply gk_wexact_nonneg.
    + eexists. split; [apply (V1 b obs fct a c wf g ax s p M y x); auto|]. intros r. apply gk_vr_nonneg1.
  - intros b obs fct wf g m v s p q M D y x Ha HM HD Hs Hd Hg. split.
    + intros Hp. eexists. split; [apply (O2 b obs fct wf g m v s p q M D y x); auto|].
      intros r Hr. cbv beta. apply Rmult_le_pos; [apply (Hg (obsv q y r))|]. apply gk_wexact_nonneg.
    + eexists. split; [apply (V2 b obs fct wf g m v s p q M D y x); auto|]. intros r. apply gk_vr_nonneg.
Qed.
