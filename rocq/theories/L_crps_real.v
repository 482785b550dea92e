(** Identities over the reals behind the CRPS estimators. *)
From Verif Require Export S_crps L_num.
Open Scope R_scope.

(** ** indicators *)
Lemma ind_le_1 a b : a <= b -> ind_le a b = 1.
Proof. unfold ind_le; rdec; auto; lra. Qed.
Lemma ind_le_0 a b : b < a -> ind_le a b = 0.
Proof. unfold ind_le; rdec; auto; lra. Qed.
Lemma ind_lt_1 a b : a < b -> ind_lt a b = 1.
Proof. unfold ind_lt; rdec; auto; lra. Qed.
Lemma ind_lt_0 a b : b <= a -> ind_lt a b = 0.
Proof. unfold ind_lt; rdec; auto; lra. Qed.

(** ** integrals of step functions *)
Lemma is_RInt_extR (f g : R -> R) a b (l : R) :
  (forall t : R, Rmin a b < t < Rmax a b -> f t = g t) -> is_RInt f a b l -> is_RInt g a b l.
Proof. exact (is_RInt_ext (V:=R_NormedModule) f g a b l). Qed.
Lemma is_RInt_const_ext (f : R -> R) a b c : a <= b ->
  (forall t, a < t < b -> f t = c) -> is_RInt f a b ((b - a) * c).
Proof.
  intros H Hf. apply (is_RInt_extR (fun _ => c)).
  - intros t Ht. rewrite Rmin_left, Rmax_right in Ht by lra. symmetry; auto.
  - apply (is_RInt_const (V:=R_NormedModule)).
Qed.
Lemma is_RInt_ind a b u v : a <= u -> a <= v -> u <= b -> v <= b ->
  is_RInt (fun t => (ind_le u t - ind_le v t) ^ 2) a b (Rabs (u - v)).
Proof.
  assert (G : forall u v, u <= v -> a <= u -> v <= b ->
    is_RInt (fun t => (ind_le u t - ind_le v t) ^ 2) a b (v - u)).
  { clear u v. intros u v Huv Ha Hb.
    replace (v - u) with (((u - a) * 0 + (v - u) * 1) + (b - v) * 0) by lra.
    apply (is_RInt_Chasles (V:=R_NormedModule) _ a v b); [apply (is_RInt_Chasles (V:=R_NormedModule) _ a u v)|].
    - apply is_RInt_const_ext; [lra|]. intros t Ht. rewrite !ind_le_0 by lra. lra.
    - apply is_RInt_const_ext; [lra|]. intros t Ht. rewrite ind_le_1, ind_le_0 by lra. lra.
    - apply is_RInt_const_ext; [lra|]. intros t Ht. rewrite !ind_le_1 by lra. lra. }
  intros. destruct (Rle_or_lt u v).
  - rewrite Rabs_left1 by lra. replace (- (u - v)) with (v - u) by lra. apply G; lra.
  - rewrite Rabs_right by lra. apply (is_RInt_extR (fun t => (ind_le v t - ind_le u t) ^ 2)).
    + intros; ring.
    + apply G; lra.
Qed.
Lemma is_RInt_sumn n (f : nat -> R -> R) (v : nat -> R) a b :
  (forall k, (k < n)%nat -> is_RInt (f k) a b (v k)) ->
  is_RInt (fun t => sumn n (fun k => f k t)) a b (sumn n v).
Proof.
  induction n; intros H.
  - apply (is_RInt_extR (fun _ => 0)); [intros; now rewrite sumn_0|].
    replace (sumn 0 v) with ((b - a) * 0) by (rewrite sumn_0; lra). apply (is_RInt_const (V:=R_NormedModule)).
  - apply (is_RInt_extR (fun t => sumn n (fun k => f k t) + f n t)); [intros; now rewrite sumn_S|].
    rewrite sumn_S. apply (is_RInt_plus (V:=R_NormedModule)); [apply IHn; intros; apply H; lia|apply H; lia].
Qed.
Lemma is_RInt_gen_compact (f : R -> R) A B v :
  (forall a b, a < A -> B < b -> is_RInt f a b v) ->
  is_RInt_gen f (Rbar_locally m_infty) (Rbar_locally p_infty) v.
Proof.
  intros H P HP.
  apply (Filter_prod _ _ _ (fun a => a < A) (fun b => B < b)).
  - exists A; auto.
  - exists B; auto.
  - intros a b Ha Hb. exists v. split; [apply H; auto|]. now apply locally_singleton.
Qed.

(** bounds of finitely many reals *)
Lemma bounds n (x : nat -> R) y : exists A B, A <= y <= B /\ forall k, (k < n)%nat -> A <= x k <= B.
Proof.
  induction n.
  - exists y, y. split; [lra|]. intros; lia.
  - destruct IHn as (A & B & H1 & H2). exists (Rmin A (x n)), (Rmax B (x n)).
    pose proof (Rmin_l A (x n)); pose proof (Rmin_r A (x n)).
    pose proof (Rmax_l B (x n)); pose proof (Rmax_r B (x n)).
    split; [lra|]. intros k Hk. destruct (Nat.eq_dec k n) as [->|]; [lra|].
    specialize (H2 k ltac:(lia)). lra.
Qed.

(** ** the variance identity *)
Lemma dev_identity M (w p : nat -> R) h : sumn M w = 1 ->
  (sumn M (fun i => w i * p i) - h) ^ 2 =
  sumn M (fun i => w i * (p i - h) ^ 2)
  - / 2 * sumn M (fun i => sumn M (fun j => w i * w j * (p i - p j) ^ 2)).
Proof.
  intros Hw.
  assert (E1 : sumn M (fun i => w i * (p i - h) ^ 2) =
    sumn M (fun i => w i * (p i * p i)) - 2 * h * sumn M (fun i => w i * p i) + h * h * sumn M w).
  { rewrite <- !sumn_scal. rewrite <- sumn_minus, <- sumn_plus. apply sumn_ext; intros; ring. }
  assert (E2 : sumn M (fun i => sumn M (fun j => w i * w j * (p i - p j) ^ 2)) =
    2 * (sumn M w * sumn M (fun i => w i * (p i * p i)))
    - 2 * (sumn M (fun i => w i * p i) * sumn M (fun i => w i * p i))).
  { rewrite (sumn_ext M _ (fun i => (w i * (p i * p i)) * sumn M w
        - 2 * ((w i * p i) * sumn M (fun j => w j * p j)) + w i * sumn M (fun j => w j * (p j * p j)))).
    - rewrite sumn_plus, sumn_minus, sumn_scal, !sumn_scal_r. ring.
    - intros i Hi. rewrite <- !sumn_scal, <- sumn_minus, <- sumn_plus.
      apply sumn_ext; intros; ring. }
  rewrite E1, E2, Hw. field.
Qed.

Lemma crps_kernel_int M w x y a b : sumn M w = 1 -> a <= y <= b ->
  (forall k, (k < M)%nat -> a <= x k <= b) ->
  is_RInt (fun t => (sumn M (fun i => w i * ind_le (x i) t) - ind_le y t) ^ 2) a b
    (wmae M w y x - / 2 * wpairsum M w x).
Proof.
  intros Hw Hy Hx.
  apply (is_RInt_extR (fun t => sumn M (fun i => w i * (ind_le (x i) t - ind_le y t) ^ 2)
    - / 2 * sumn M (fun i => sumn M (fun j => w i * w j * (ind_le (x i) t - ind_le (x j) t) ^ 2)))).
  { intros; symmetry; now apply dev_identity. }
  apply (is_RInt_minus (V:=R_NormedModule)).
  - apply is_RInt_sumn. intros k Hk. apply (is_RInt_scal (V:=R_NormedModule)).
    apply is_RInt_ind; try apply Hx; auto; lra.
  - apply (is_RInt_scal (V:=R_NormedModule)). apply is_RInt_sumn. intros i Hi.
    apply is_RInt_sumn. intros j Hj. apply (is_RInt_scal (V:=R_NormedModule)).
    apply is_RInt_ind; try apply Hx; auto; lra.
Qed.
(** the kernel form is the integral *)
Lemma is_crps_kernel M w x y : sumn M w = 1 ->
  is_crps (fun t => sumn M (fun i => w i * ind_le (x i) t)) y (wmae M w y x - / 2 * wpairsum M w x).
Proof.
  intros Hw. destruct (bounds M x y) as (A & B & H1 & H2).
  apply (is_RInt_gen_compact _ A B). intros a b Ha Hb.
  apply crps_kernel_int; auto; [lra|]. intros k Hk. specialize (H2 k Hk). lra.
Qed.
Lemma is_crps_ext F G y v : (forall t, F t = G t) -> is_crps F y v -> is_crps G y v.
Proof.
  intros H. unfold is_crps. apply is_RInt_gen_ext.
  apply (Filter_prod _ _ _ (fun _ => True) (fun _ => True)); [exists 0; auto|exists 0; auto|].
  intros; rewrite H; reflexivity.
Qed.
Lemma is_crps_unique F y v1 v2 : is_crps F y v1 -> is_crps F y v2 -> v1 = v2.
Proof.
  intros H1 H2. unfold is_crps in *.
  rewrite <- (@is_RInt_gen_unique R_CompleteNormedModule (Rbar_locally m_infty) (Rbar_locally p_infty)
    _ _ (fun t => (F t - ind_le y t) ^ 2) v1 H1).
  apply (@is_RInt_gen_unique R_CompleteNormedModule (Rbar_locally m_infty) (Rbar_locally p_infty)
    _ _ (fun t => (F t - ind_le y t) ^ 2) v2 H2).
Qed.

Lemma nw_sum M w : sumn M w <> 0 -> sumn M (nw M w) = 1.
Proof. intros H. unfold nw. rewrite sumn_div. field; auto. Qed.
Lemma wcdf_nw M w x t : wcdf M w x t = sumn M (fun i => nw M w i * ind_le (x i) t).
Proof. unfold wcdf, nw, Rdiv. rewrite <- sumn_scal_r. apply sumn_ext; intros; ring. Qed.
Lemma is_crps_wcdf M w x y : sumn M w <> 0 ->
  is_crps (wcdf M w x) y (wmae M (nw M w) y x - / 2 * wpairsum M (nw M w) x).
Proof.
  intros H. eapply is_crps_ext; [intros; symmetry; apply wcdf_nw|].
  apply is_crps_kernel. now apply nw_sum.
Qed.
Lemma is_crps_ecdf M x y : (0 < M)%nat ->
  is_crps (ecdf M x) y (mae M y x - pairsum M x / (2 * INR M * INR M)).
Proof.
  intros HM. assert (HR : INR M <> 0) by (apply not_0_INR; lia).
  replace (mae M y x - pairsum M x / (2 * INR M * INR M)) with
    (wmae M (fun _ => / INR M) y x - / 2 * wpairsum M (fun _ => / INR M) x).
  - eapply is_crps_ext; [|apply is_crps_kernel].
    + intros t. unfold ecdf, Rdiv. rewrite sumn_scal. ring.
    + rewrite sumn_const. now field.
  - unfold wmae, wpairsum, mae, pairsum.
    rewrite (sumn_ext M (fun i => sumn M (fun j => / INR M * / INR M * Rabs (x i - x j)))
      (fun i => (/ INR M * / INR M) * sumn M (fun j => Rabs (x i - x j)))) by (intros; apply sumn_scal).
    rewrite !sumn_scal. now field.
Qed.

(** ** sorted members *)
Lemma sorted_pairs M w x : ascending M x ->
  wpairsum M w x = 2 * sumn M (fun k => w k * x k * (2 * sumn (S k) w - w k - sumn M w)).
Proof.
  unfold wpairsum. induction M; intros H; [rewrite !sumn_0; lra|].
  assert (IH := IHM ltac:(intros i j Hij; apply H; lia)). clear IHM.
  rewrite sumn_S. rewrite (sumn_ext M _ (fun i => sumn M (fun j => w i * w j * Rabs (x i - x j))
      + w i * w M * Rabs (x i - x M))) by (intros; now rewrite sumn_S).
  rewrite sumn_plus, IH, !sumn_S. rewrite Rminus_eq_0, Rabs_R0.
  rewrite (sumn_ext M (fun j => w M * w j * Rabs (x M - x j)) (fun j => w M * x M * w j - w M * (w j * x j))).
  2:{ intros j Hj. rewrite Rabs_right by (apply Rge_minus, Rle_ge, H; lia). ring. }
  rewrite (sumn_ext M (fun k => w k * w M * Rabs (x k - x M)) (fun j => w M * x M * w j - w M * (w j * x j))).
  2:{ intros j Hj. rewrite Rabs_left1 by (apply Rle_minus, H; lia). ring. }
  rewrite (sumn_ext M (fun k => w k * x k * (2 * sumn (S k) w - w k - (sumn M w + w M)))
     (fun k => w k * x k * (2 * sumn (S k) w - w k - sumn M w) - w M * (w k * x k)))
    by (intros; ring).
  rewrite !sumn_minus, !sumn_scal. ring.
Qed.
Lemma cum_total M w : sumn M (fun k => w k * (2 * sumn (S k) w - w k)) = sumn M w * sumn M w.
Proof.
  induction M; [rewrite !sumn_0; lra|]. rewrite sumn_S, IHM, !sumn_S. ring.
Qed.

(** quantile-decomposition form *)
Lemma qd_kernel M w x y : ascending M x -> sumn M w = 1 ->
  2 * sumn M (fun k => w k * (ind_lt y (x k) - (sumn (S k) w - / 2 * w k)) * (x k - y)) =
  wmae M w y x - / 2 * wpairsum M w x.
Proof.
  intros Hs Hw. rewrite (sorted_pairs M w x Hs), Hw. unfold wmae.
  assert (T := cum_total M w). rewrite Hw in T.
  assert (E : 2 * sumn M (fun k => w k * (ind_lt y (x k) - (sumn (S k) w - / 2 * w k)) * (x k - y)) =
     sumn M (fun i => w i * Rabs (x i - y))
     - sumn M (fun k => w k * x k * (2 * sumn (S k) w - w k - 1))
     + y * (sumn M (fun k => w k * (2 * sumn (S k) w - w k)) - sumn M w)).
  { rewrite <- !sumn_minus, <- !sumn_scal, <- sumn_plus.
    apply sumn_ext; intros k Hk. destruct (Rlt_or_le y (x k)).
    - rewrite ind_lt_1, Rabs_right by lra. field.
    - rewrite ind_lt_0, Rabs_left1 by lra. field. }
  rewrite E, T, Hw. field.
Qed.

(** the fair spread term of a sorted ensemble *)
Lemma pwm_spread M x : ascending M x ->
  pairsum M x = 4 * sumn M (fun k => x k * INR k) - 2 * (INR M - 1) * sumn M x.
Proof.
  intros H. assert (E := sorted_pairs M (fun _ => 1) x H).
  replace (wpairsum M (fun _ => 1) x) with (pairsum M x) in E
    by (apply sumn_ext; intros; apply sumn_ext; intros; ring).
  rewrite E. rewrite <- !sumn_scal, <- sumn_minus. apply sumn_ext; intros k Hk.
  rewrite !sumn_const, S_INR. ring.
Qed.

(** ** the "int" estimators *)
Lemma max_abs a b : Rmax a b = / 2 * (a + b + Rabs (a - b)).
Proof. unfold Rmax; destruct (Rle_dec a b); [rewrite Rabs_left1|rewrite Rabs_right]; lra. Qed.
Definition maxint (n : nat) (w x : nat -> R) (b : R) : R :=
  sumn n (fun i => sumn n (fun j => w i * w j * (b - Rmax (x i) (x j)))).
Definition obsint (n : nat) (w x : nat -> R) (y b : R) : R :=
  b - y - 2 * sumn n (fun i => w i * (b - Rmax (x i) y)).
(** integral of (F - H)^2 up to the last of the first n members *)
Lemma maxint_step n w x b b' :
  maxint n w x b' = maxint n w x b + sumn n w * sumn n w * (b' - b).
Proof.
  unfold maxint.
  rewrite (sumn_ext n _ (fun i => sumn n (fun j => w i * w j * (b - Rmax (x i) (x j))) + w i * (sumn n w * (b' - b)))).
  - rewrite sumn_plus, sumn_scal_r. ring.
  - intros i Hi. rewrite <- sumn_scal_r, <- sumn_scal, <- sumn_plus. apply sumn_ext; intros; ring.
Qed.
Lemma maxint_S n w x : (forall i, (i < n)%nat -> x i <= x n) ->
  maxint (S n) w x (x n) = maxint n w x (x n).
Proof.
  intros H. unfold maxint. rewrite sumn_S.
  rewrite (sumn_ext n (fun i => sumn (S n) _) (fun i => sumn n (fun j => w i * w j * (x n - Rmax (x i) (x j))))).
  2:{ intros i Hi. rewrite sumn_S, Rmax_right by auto. ring. }
  rewrite (sumn_ext (S n) (fun j => w n * w j * (x n - Rmax (x n) (x j))) (fun _ => 0)).
  2:{ intros i Hi. destruct (Nat.eq_dec i n) as [->|]; [rewrite Rmax_left by lra; ring|].
      rewrite Rmax_left by (apply H; lia). ring. }
  rewrite sumn_zero. ring.
Qed.
Lemma obsint_step n w x y b b' :
  obsint n w x y b' = obsint n w x y b + (1 - 2 * sumn n w) * (b' - b).
Proof.
  unfold obsint. rewrite (sumn_ext n (fun i => w i * (b' - Rmax (x i) y))
    (fun i => w i * (b - Rmax (x i) y) + w i * (b' - b))) by (intros; ring).
  rewrite sumn_plus, sumn_scal_r. ring.
Qed.
Lemma obsint_S n w x y : y <= x n -> obsint (S n) w x y (x n) = obsint n w x y (x n).
Proof. intros H. unfold obsint. rewrite sumn_S, (Rmax_left (x n) y) by lra. ring. Qed.
Lemma obsint_start n w x y : (forall i, (i < n)%nat -> x i <= y) -> obsint n w x y y = 0.
Proof.
  intros H. unfold obsint. rewrite (sumn_ext n _ (fun _ => 0)).
  - rewrite sumn_zero; ring.
  - intros i Hi. rewrite Rmax_right by auto. ring.
Qed.
Lemma maxint_kernel M w x b : sumn M w = 1 ->
  maxint M w x b = b - sumn M (fun i => w i * x i) - / 2 * wpairsum M w x.
Proof.
  intros Hw. unfold maxint, wpairsum.
  rewrite (sumn_ext M _ (fun i => w i * b - / 2 * (w i * x i) - / 2 * (w i * sumn M (fun j => w j * x j))
     - / 2 * sumn M (fun j => w i * w j * Rabs (x i - x j)))).
  - rewrite !sumn_minus, !sumn_scal, !sumn_scal_r, Hw. field.
  - intros i Hi. rewrite <- !sumn_scal.
    replace (w i * b) with (sumn M (fun j => w j * (w i * b))) by (rewrite sumn_scal_r, Hw; ring).
    replace (/ 2 * (w i * x i)) with (sumn M (fun j => w j * (/ 2 * (w i * x i)))) by (rewrite sumn_scal_r, Hw; ring).
    rewrite <- !sumn_minus. apply sumn_ext; intros j Hj. rewrite max_abs. ring.
Qed.
Lemma obsint_kernel M w x y b : sumn M w = 1 ->
  obsint M w x y b = - b + sumn M (fun i => w i * x i) + wmae M w y x.
Proof.
  intros Hw. unfold obsint, wmae.
  rewrite (sumn_ext M _ (fun i => w i * b - / 2 * (w i * x i) - / 2 * (w i * y) - / 2 * (w i * Rabs (x i - y)))).
  - rewrite !sumn_minus, !sumn_scal, !sumn_scal_r, Hw. field.
  - intros i Hi. rewrite max_abs. field.
Qed.
Lemma wmae_above M w x y : sumn M w = 1 -> (forall i, (i < M)%nat -> x i <= y) ->
  wmae M w y x = y - sumn M (fun i => w i * x i).
Proof.
  intros Hw H. unfold wmae. rewrite (sumn_ext M _ (fun i => w i * y - w i * x i)).
  - rewrite sumn_minus, sumn_scal_r, Hw. ring.
  - intros i Hi. rewrite Rabs_left1 by (apply Rle_minus; auto). ring.
Qed.
