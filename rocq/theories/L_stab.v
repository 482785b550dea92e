(** Lipschitz bounds, convexity in the observation and pooling of the kernel forms. *)
From Verif Require Export T_energy.
From Coq Require Import Psatz.
Open Scope R_scope.

(** ** triangle inequality in R^D *)
Lemma cauchy D (a b : nat -> R) : (sumn D (fun k => a k * b k)) ^ 2 <= sumn D (fun k => a k ^ 2) * sumn D (fun k => b k ^ 2).
Proof.
  set (P := sumn D (fun k => a k * b k)). set (A := sumn D (fun k => a k ^ 2)). set (B := sumn D (fun k => b k ^ 2)).
  assert (HB : 0 <= B) by (apply sumn_nonneg; intros; apply pow2_ge_0).
  assert (H : forall t, 0 <= A + 2 * t * P + t * t * B).
  { intros t. replace (A + 2 * t * P + t * t * B) with (sumn D (fun k => (a k + t * b k) ^ 2)).
    - apply sumn_nonneg; intros; apply pow2_ge_0.
    - unfold A, B, P. rewrite <- !sumn_scal, <- !sumn_plus. apply sumn_ext; intros; ring. }
  destruct (Req_dec B 0) as [E|E].
  - assert (Z : P = 0); [|rewrite Z, E; lra]. unfold P. rewrite <- (sumn_zero D). apply sumn_ext; intros k Hk.
    assert (b k ^ 2 = 0) by (apply (sumn_zero_inv D (fun k => b k ^ 2)); auto; intros; apply pow2_ge_0). nra.
  - specialize (H (- P / B)). replace (A + 2 * (- P / B) * P + - P / B * (- P / B) * B) with ((A * B - P ^ 2) / B) in H by (field; auto).
    assert (0 < B) by lra. apply (Rmult_le_compat_r B) in H; [|lra]. unfold Rdiv in H. rewrite Rmult_assoc, Rinv_l in H by auto. lra.
Qed.
Lemma enorm_triangle D (a b : nat -> R) :
  sqrt (sumn D (fun k => (a k + b k) ^ 2)) <= sqrt (sumn D (fun k => a k ^ 2)) + sqrt (sumn D (fun k => b k ^ 2)).
Proof.
  pose proof (cauchy D a b) as C.
  assert (HA : 0 <= sumn D (fun k => a k ^ 2)) by (apply sumn_nonneg; intros; apply pow2_ge_0).
  assert (HB : 0 <= sumn D (fun k => b k ^ 2)) by (apply sumn_nonneg; intros; apply pow2_ge_0).
  rewrite (sumn_ext D (fun k => (a k + b k) ^ 2) (fun k => a k ^ 2 + 2 * (a k * b k) + b k ^ 2)) by (intros; ring).
  assert (HS : 0 <= sumn D (fun k => a k ^ 2 + 2 * (a k * b k) + b k ^ 2))
    by (apply sumn_nonneg; intros k _; replace (a k ^ 2 + 2 * (a k * b k) + b k ^ 2) with ((a k + b k) ^ 2) by ring; apply pow2_ge_0).
  rewrite !sumn_plus, sumn_scal in HS. rewrite !sumn_plus, sumn_scal.
  set (P := sumn D (fun k => a k * b k)) in *. set (A := sumn D (fun k => a k ^ 2)) in *. set (B := sumn D (fun k => b k ^ 2)) in *.
  pose proof (sqrt_pos A). pose proof (sqrt_pos B). pose proof (sqrt_sqrt A HA). pose proof (sqrt_sqrt B HB).
  apply Rsqr_incr_0_var; [|lra].
  assert (P <= sqrt A * sqrt B).
  { apply Rsqr_incr_0_var; [|nra]. unfold Rsqr. nra. }
  rewrite Rsqr_sqrt by (apply Rle_trans with (1 := HS); lra). unfold Rsqr. nra.
Qed.
Lemma eucl_triangle D u v w : eucl D u w <= eucl D u v + eucl D v w.
Proof.
  unfold eucl. eapply Rle_trans; [|apply enorm_triangle]. right. f_equal. apply sumn_ext; intros; ring.
Qed.
Lemma eucl_lip D u v u' v' : Rabs (eucl D u v - eucl D u' v') <= eucl D u u' + eucl D v v'.
Proof.
  pose proof (eucl_triangle D u u' v). pose proof (eucl_triangle D u' v' v). pose proof (eucl_triangle D u' u v').
  pose proof (eucl_triangle D u v v'). rewrite (eucl_sym D u' u), (eucl_sym D v' v) in *. apply Rabs_le. lra.
Qed.
Lemma eucl_convex D t u v v' : 0 <= t <= 1 ->
  eucl D u (fun k => t * v k + (1 - t) * v' k) <= t * eucl D u v + (1 - t) * eucl D u v'.
Proof.
  intros Ht. assert (S : forall c a, 0 <= c -> c * sqrt (sumn D (fun k => a k ^ 2)) = sqrt (sumn D (fun k => (c * a k) ^ 2))).
  { intros c a Hc. rewrite (sumn_ext D (fun k => (c * a k) ^ 2) (fun k => c ^ 2 * a k ^ 2)) by (intros; ring).
    rewrite sumn_scal, sqrt_mult; [|nra|apply sumn_nonneg; intros; apply pow2_ge_0]. now rewrite sqrt_pow2. }
  unfold eucl. rewrite !S by lra. eapply Rle_trans; [|apply enorm_triangle]. right. f_equal. apply sumn_ext; intros; ring.
Qed.
Lemma abs_lip u v u' v' : Rabs (Rabs (u - v) - Rabs (u' - v')) <= Rabs (u - u') + Rabs (v - v').
Proof. unfold Rabs. repeat destruct Rcase_abs; lra. Qed.
Lemma abs_convex t u v v' : 0 <= t <= 1 -> Rabs (u - (t * v + (1 - t) * v')) <= t * Rabs (u - v) + (1 - t) * Rabs (u - v').
Proof.
  intros H. replace (u - (t * v + (1 - t) * v')) with (t * (u - v) + (1 - t) * (u - v')) by ring.
  eapply Rle_trans; [apply Rabs_triang|]. rewrite !Rabs_mult, (Rabs_right t), (Rabs_right (1 - t)) by lra. lra.
Qed.

(** ** weighted forms *)
Section lip.
Variables (M : nat) (w e e' : nat -> R) (d d' : nat -> nat -> R) (a b : R).
Hypothesis Hw : forall i, (i < M)%nat -> 0 <= w i.
Hypothesis Hw1 : sumn M w = 1.
Hypothesis He : forall i, (i < M)%nat -> Rabs (e' i - e i) <= a.
Lemma avg_lip : Rabs (sumn M (fun i => w i * e' i) - sumn M (fun i => w i * e i)) <= a.
Proof.
  rewrite <- sumn_minus. eapply Rle_trans; [apply sumn_Rabs|].
  rewrite <- (Rmult_1_l a), <- Hw1, <- sumn_scal_r. apply sumn_le; intros i Hi.
  rewrite <- Rmult_minus_distr_l, Rabs_mult, (Rabs_right (w i)) by (apply Rle_ge; auto).
  apply Rmult_le_compat_l; auto.
Qed.
Hypothesis Hd : forall i j, (i < M)%nat -> (j < M)%nat -> Rabs (d' i j - d i j) <= b.
Lemma pair_lip : Rabs (sumn M (fun i => sumn M (fun j => w i * w j * d' i j)) - sumn M (fun i => sumn M (fun j => w i * w j * d i j))) <= b.
Proof.
  rewrite <- sumn_minus. eapply Rle_trans; [apply sumn_Rabs|].
  rewrite <- (Rmult_1_l b), <- Hw1, <- sumn_scal_r. apply sumn_le; intros i Hi.
  rewrite <- sumn_minus. eapply Rle_trans; [apply sumn_Rabs|].
  replace (w i * b) with (w i * (sumn M w * b)) by (rewrite Hw1; ring). rewrite <- sumn_scal_r, <- sumn_scal.
  apply sumn_le; intros j Hj. rewrite <- Rmult_minus_distr_l, Rabs_mult, (Rabs_right (w i * w j)) by (apply Rle_ge, Rmult_le_pos; auto).
  rewrite <- Rmult_assoc. apply Rmult_le_compat_l; auto. apply Rmult_le_pos; auto.
Qed.
(** pairs of different members only *)
Lemma off_lip : (forall i, (i < M)%nat -> d' i i = d i i) ->
  Rabs (sumn M (fun i => sumn M (fun j => w i * w j * d' i j)) - sumn M (fun i => sumn M (fun j => w i * w j * d i j)))
  <= b * (1 - sumn M (fun i => w i * w i)).
Proof.
  intros Hz.
  rewrite <- sumn_minus. eapply Rle_trans; [apply sumn_Rabs|].
  rewrite <- Hw1 at 1. rewrite <- sumn_minus, <- sumn_scal. apply sumn_le; intros i Hi.
  rewrite <- sumn_minus. eapply Rle_trans; [apply sumn_Rabs|].
  assert (E : w i - w i * w i = sumn M (fun j => w i * w j - (if (j =? i)%nat then w i * w i else 0))).
  { rewrite sumn_minus, sumn_scal, Hw1, Rmult_1_r. f_equal.
    clear - Hi. revert Hi. generalize (w i * w i). intros c. induction M as [|m IH]; intros Hi; [lia|].
    rewrite sumn_S. destruct (Nat.eqb_spec m i) as [->|N].
    - rewrite (sumn_ext i _ (fun _ => 0)), sumn_zero; [lra|]. intros k Hk. destruct (Nat.eqb_spec k i); [lia|auto].
    - rewrite <- IH by lia. lra. }
  rewrite E, <- sumn_scal. apply sumn_le; intros j Hj. rewrite <- Rmult_minus_distr_l, Rabs_mult, (Rabs_right (w i * w j)) by (apply Rle_ge, Rmult_le_pos; auto).
  destruct (Nat.eqb_spec j i) as [->|N].
  - rewrite Hz by auto. replace (d i i - d i i) with 0 by ring. rewrite Rabs_R0. lra.
  - rewrite Rminus_0_r, Rmult_comm. apply Rmult_le_compat_r; auto. apply Rmult_le_pos; auto.
Qed.
Lemma k_wexact_lip : Rabs (k_wexact M w e' d' - k_wexact M w e d) <= a + b / 2.
Proof.
  pose proof avg_lip as H1. pose proof pair_lip as H2. unfold k_wexact. apply Rabs_le_between in H1, H2. apply Rabs_le. lra.
Qed.
Lemma k_wlag_lip g : (forall i, (i < M)%nat -> (g i < M)%nat) -> Rabs (k_wlag M g w e' d' - k_wlag M g w e d) <= a + b / 2.
Proof.
  intros Hg. pose proof avg_lip as H1.
  assert (H2 : Rabs (sumn M (fun i => w i * d' i (g i)) - sumn M (fun i => w i * d i (g i))) <= b).
  { rewrite <- sumn_minus. eapply Rle_trans; [apply sumn_Rabs|].
    rewrite <- (Rmult_1_l b), <- Hw1, <- sumn_scal_r. apply sumn_le; intros i Hi.
    rewrite <- Rmult_minus_distr_l, Rabs_mult, (Rabs_right (w i)) by (apply Rle_ge; auto).
    apply Rmult_le_compat_l; auto. }
  unfold k_wlag. apply Rabs_le_between in H1, H2. apply Rabs_le. lra.
Qed.
Lemma sq_le1 : sumn M (fun i => w i * w i) <= 1.
Proof.
  rewrite <- Hw1. apply sumn_le; intros i Hi. rewrite <- (Rmult_1_r (w i)) at 3. apply Rmult_le_compat_l; auto.
  pose proof (sumn_mono (S i) M w ltac:(lia) Hw) as H. rewrite sumn_S in H. assert (0 <= sumn i w) by (apply sumn_nonneg; intros; apply Hw; lia). lra.
Qed.
Lemma k_wfair_lip : (forall i, (i < M)%nat -> d' i i = d i i) -> sumn M (fun i => w i * w i) <> 1 ->
  Rabs (k_wfair M w e' d' - k_wfair M w e d) <= a + b / 2.
Proof.
  intros Hz N. pose proof sq_le1 as L. pose proof avg_lip as H1. pose proof (off_lip Hz) as H2. unfold k_wfair.
  set (C := 1 - sumn M (fun i => w i * w i)) in *. assert (0 < C) by (unfold C; lra).
  apply Rabs_le_between in H1. apply Rabs_le_between in H2.
  set (Q := sumn M (fun i => sumn M (fun j => w i * w j * d i j))) in *.
  set (Q' := sumn M (fun i => sumn M (fun j => w i * w j * d' i j))) in *.
  assert (- (b / 2) <= Q' / (2 * C) - Q / (2 * C) <= b / 2).
  { replace (Q' / (2 * C) - Q / (2 * C)) with ((Q' - Q) * / (2 * C)) by (field; lra).
    replace (b / 2) with (b * C * / (2 * C)) by (field; lra).
    assert (0 < / (2 * C)) by (apply Rinv_0_lt_compat; lra). split; [rewrite <- Ropp_mult_distr_l_reverse|]; apply Rmult_le_compat_r; lra. }
  apply Rabs_le. lra.
Qed.
End lip.

Definition offmax (x : nat -> R) (i j : nat) : R := if (j =? i)%nat then 0 else Rmax (x i) (x j).
Lemma wpwm_off M w x : sumn M (fun i => sumn M (fun j => w i * w j * Rmax (x i) (x j))) - sumn M (fun k => w k * w k * x k)
  = sumn M (fun i => sumn M (fun j => w i * w j * offmax x i j)).
Proof.
  rewrite <- sumn_minus. apply sumn_ext; intros i Hi.
  rewrite <- (sumn_delta M i (w i * w i * x i) Hi), <- sumn_minus. apply sumn_ext; intros j Hj. unfold offmax.
  destruct (Nat.eqb_spec j i) as [E|N], (Nat.eq_dec j i); try easy; [subst; rewrite Rmax_left by lra|]; ring.
Qed.
Lemma max_lip a b a' b' c : Rabs (a' - a) <= c -> Rabs (b' - b) <= c -> Rabs (Rmax a' b' - Rmax a b) <= c.
Proof.
  intros H1 H2. apply Rabs_le_between in H1, H2. apply Rabs_le.
  unfold Rmax. repeat destruct Rle_dec; lra.
Qed.
Lemma wpwm_lip M w y x y' x' dy dx : (forall i, (i < M)%nat -> 0 <= w i) -> sumn M w = 1 -> fairc M w <> 0 ->
  Rabs (y' - y) <= dy -> (forall i, (i < M)%nat -> Rabs (x' i - x i) <= dx) ->
  Rabs (wpwm_free M w y' x' - wpwm_free M w y x) <= dy + 3 * dx.
Proof.
  intros Hw Hw1 Hf Hy Hx. unfold wpwm_free. rewrite !wpwm_off.
  assert (H1 : Rabs (wmae M w y' x' - wmae M w y x) <= dy + dx).
  { apply avg_lip; auto. intros i Hi. eapply Rle_trans; [apply abs_lip|]. specialize (Hx i Hi). lra. }
  assert (H2 : Rabs (sumn M (fun k => w k * x' k) - sumn M (fun k => w k * x k)) <= dx) by (apply avg_lip; auto).
  assert (H3 : Rabs (sumn M (fun i => sumn M (fun j => w i * w j * offmax x' i j)) - sumn M (fun i => sumn M (fun j => w i * w j * offmax x i j))) <= dx * (1 - sumn M (fun i => w i * w i))).
  { apply off_lip; auto; intros; unfold offmax.
    - destruct (Nat.eqb_spec j i) as [->|N]; [replace (0 - 0) with 0 by ring; rewrite Rabs_R0; eapply Rle_trans; [apply Rabs_pos|apply (Hx i); auto]|].
      apply max_lip; auto.
    - now rewrite Nat.eqb_refl. }
  pose proof (sq_le1 M w Hw Hw1) as L. unfold fairc in Hf. set (C := 1 - sumn M (fun i => w i * w i)) in *. assert (0 < C) by (unfold C in *; lra).
  set (Q := sumn M (fun i => sumn M (fun j => w i * w j * offmax x i j))) in *.
  set (Q' := sumn M (fun i => sumn M (fun j => w i * w j * offmax x' i j))) in *.
  apply Rabs_le_between in H1, H2, H3.
  assert (- dx <= Q' / C - Q / C <= dx).
  { replace (Q' / C - Q / C) with ((Q' - Q) * / C) by (field; lra).
    replace dx with (dx * C * / C) at 1 2 by (field; lra).
    assert (0 < / C) by (now apply Rinv_0_lt_compat). split; [rewrite <- Ropp_mult_distr_l_reverse|]; apply Rmult_le_compat_r; lra. }
  apply Rabs_le. lra.
Qed.

(** ** the estimators of the CRPS *)
Definition lipc (e : est) : R := match e with Pwm => 3 | _ => 2 end.
Lemma dist_lip M (x x' : nat -> R) dx : (forall i, (i < M)%nat -> Rabs (x' i - x i) <= dx) ->
  forall i j, (i < M)%nat -> (j < M)%nat -> Rabs (Rabs (x' i - x' j) - Rabs (x i - x j)) <= 2 * dx.
Proof. intros H i j Hi Hj. eapply Rle_trans; [apply abs_lip|]. pose proof (H i Hi). pose proof (H j Hj). lra. Qed.
Lemma real_w_lip b e M w y x y' x' dy dx : (0 < M)%nat -> (forall i, (i < M)%nat -> 0 <= w i) -> sumn M w = 1 -> (need2 e = true -> fairc M w <> 0) ->
  Rabs (y' - y) <= dy -> (forall i, (i < M)%nat -> Rabs (x' i - x i) <= dx) ->
  Rabs (real_w b e M w y' x' - real_w b e M w y x) <= dy + lipc e * dx.
Proof.
  intros HM Hw Hw1 Hf Hy Hx.
  assert (A : forall i, (i < M)%nat -> Rabs (Rabs (x' i - y') - Rabs (x i - y)) <= dy + dx).
  { intros i Hi. eapply Rle_trans; [apply abs_lip|]. specialize (Hx i Hi). lra. }
  pose proof (dist_lip M x x' dx Hx) as B.
  replace (dy + lipc e * dx) with (match e with Pwm => dy + 3 * dx | _ => dy + dx + 2 * dx / 2 end) by (destruct e; cbn; field).
  destruct e; cbn [real_w].
  - apply (k_wexact_lip M w (fun i => Rabs (x i - y)) (fun i => Rabs (x' i - y')) (fun i j => Rabs (x i - x j)) (fun i j => Rabs (x' i - x' j))); auto.
  - apply (k_wfair_lip M w (fun i => Rabs (x i - y)) (fun i => Rabs (x' i - y')) (fun i j => Rabs (x i - x j)) (fun i j => Rabs (x' i - x' j))); auto.
    + intros. now rewrite !Rminus_eq_0.
    + specialize (Hf eq_refl). unfold fairc in Hf. lra.
  - apply wpwm_lip; auto.
  - apply (k_wexact_lip M w (fun i => Rabs (x i - y)) (fun i => Rabs (x' i - y')) (fun i j => Rabs (x i - x j)) (fun i j => Rabs (x' i - x' j))); auto.
  - apply (k_wlag_lip M w (fun i => Rabs (x i - y)) (fun i => Rabs (x' i - y')) (fun i j => Rabs (x i - x j)) (fun i j => Rabs (x' i - x' j))); auto using lag1_lt.
  - apply (k_wlag_lip M w (fun i => Rabs (x i - y)) (fun i => Rabs (x' i - y')) (fun i j => Rabs (x i - x j)) (fun i j => Rabs (x' i - x' j))); auto.
    intros i Hi. destruct b; [apply Nat.mod_upper_bound; lia|now apply lagc_lt].
  - apply (k_wexact_lip M w (fun i => Rabs (x i - y)) (fun i => Rabs (x' i - y')) (fun i j => Rabs (x i - x j)) (fun i j => Rabs (x' i - x' j))); auto.
Qed.
Lemma inv_nonneg M : (0 < M)%nat -> forall i, (i < M)%nat -> 0 <= / INR M.
Proof. intros HM i _. left. apply Rinv_0_lt_compat. now apply INR_pos. Qed.
Lemma real_un_lip e M y x y' x' dy dx : (0 < M)%nat -> (need2 e = true -> (1 < M)%nat) ->
  Rabs (y' - y) <= dy -> (forall i, (i < M)%nat -> Rabs (x' i - x i) <= dx) ->
  Rabs (real_un e M y' x' - real_un e M y x) <= dy + 2 * dx.
Proof.
  intros HM H2 Hy Hx.
  assert (exists e', real_un e = real_un e' /\ lipc e' = 2 /\ (need2 e' = true -> (1 < M)%nat)) as (e' & -> & E & H2').
  { destruct e; [exists Nrg|exists Fair|exists Fair|exists Qd|exists Akr|exists Circ|exists EInt]; repeat split; cbn in *; auto. }
  rewrite <- !(real_w_uniform Numba e' M) by (auto; intros; discriminate). rewrite <- E. apply real_w_lip; auto.
  - now apply inv_nonneg.
  - now apply uniform_sum.
  - intros E'. rewrite fairc_uniform by auto. specialize (H2' E'). pose proof (INR_ge2 M H2').
    assert (/ INR M < 1) by (rewrite <- Rinv_1; apply Rinv_lt_contravar; lra). lra.
Qed.

(** ** the estimators of the energy score *)
Lemma mval_w_lip b e M w er er' d d' a c : (0 < M)%nat -> (forall i, (i < M)%nat -> 0 <= w i) -> sumn M w = 1 ->
  (e = MFair -> sumn M (fun i => w i * w i) <> 1) ->
  (forall i, (i < M)%nat -> Rabs (er' i - er i) <= a) ->
  (forall i j, (i < M)%nat -> (j < M)%nat -> Rabs (d' i j - d i j) <= c) -> (forall i, d i i = 0) -> (forall i, d' i i = 0) ->
  Rabs (mval_w b e M w er' d' - mval_w b e M w er d) <= a + c / 2.
Proof.
  intros HM Hw Hw1 Hf He Hd Z Z'. destruct e; cbn [mval_w].
  - now apply k_wexact_lip.
  - apply k_wfair_lip; auto. intros; now rewrite Z, Z'.
  - apply k_wlag_lip; auto using lag1_lt.
  - apply k_wlag_lip; auto. intros; now apply lagb_lt.
Qed.
Lemma mval_lip b e M er er' d d' a c : (0 < M)%nat -> (e = MFair -> (1 < M)%nat) ->
  (forall i, (i < M)%nat -> Rabs (er' i - er i) <= a) ->
  (forall i j, (i < M)%nat -> (j < M)%nat -> Rabs (d' i j - d i j) <= c) -> (forall i, d i i = 0) -> (forall i, d' i i = 0) ->
  Rabs (mval b e M er' d' - mval b e M er d) <= a + c / 2.
Proof.
  intros HM Hf He Hd Z Z'. rewrite <- !(mval_unif b e M (fun _ => / INR M)) by auto. apply mval_w_lip; auto.
  - now apply inv_nonneg.
  - now apply uniform_sum.
  - intros E. specialize (Hf E). pose proof (INR_ge2 M Hf). rewrite sumn_const.
    replace (INR M * (/ INR M * / INR M)) with (/ INR M) by (field; lra).
    assert (/ INR M < 1) by (rewrite <- Rinv_1; apply Rinv_lt_contravar; lra). lra.
Qed.
Lemma es_err_lip M D y x y' x' dy dx : eucl D y' y <= dy -> (forall i, (i < M)%nat -> eucl D (x' i) (x i) <= dx) ->
  forall i, (i < M)%nat -> Rabs (es_err D y' x' i - es_err D y x i) <= dy + dx.
Proof. intros Hy Hx i Hi. eapply Rle_trans; [apply eucl_lip|]. specialize (Hx i Hi). lra. Qed.
Lemma es_dist_lip M D x x' dx : (forall i, (i < M)%nat -> eucl D (x' i) (x i) <= dx) ->
  forall i j, (i < M)%nat -> (j < M)%nat -> Rabs (es_dist D x' i j - es_dist D x i j) <= 2 * dx.
Proof. intros Hx i j Hi Hj. eapply Rle_trans; [apply eucl_lip|]. pose proof (Hx i Hi). pose proof (Hx j Hj). lra. Qed.

(** ** convexity in the observation *)
Section convex.
Variables (M : nat) (w e1 e2 e : nat -> R) (d : nat -> nat -> R) (t : R).
Hypothesis Hw : forall i, (i < M)%nat -> 0 <= w i.
Hypothesis He : forall i, (i < M)%nat -> e i <= t * e1 i + (1 - t) * e2 i.
Lemma avg_convex : sumn M (fun i => w i * e i) <= t * sumn M (fun i => w i * e1 i) + (1 - t) * sumn M (fun i => w i * e2 i).
Proof.
  rewrite <- !sumn_scal, <- sumn_plus. apply sumn_le; intros i Hi.
  replace (t * (w i * e1 i) + (1 - t) * (w i * e2 i)) with (w i * (t * e1 i + (1 - t) * e2 i)) by ring.
  apply Rmult_le_compat_l; auto.
Qed.
Lemma mval_w_convex b k : mval_w b k M w e d <= t * mval_w b k M w e1 d + (1 - t) * mval_w b k M w e2 d.
Proof. pose proof avg_convex. destruct k; cbn [mval_w]; unfold k_wexact, k_wfair, k_wlag; lra. Qed.
End convex.
Lemma mval_convex b k M e1 e2 e d t : (0 < M)%nat -> (k = MFair -> (1 < M)%nat) -> (forall i, (i < M)%nat -> e i <= t * e1 i + (1 - t) * e2 i) ->
  mval b k M e d <= t * mval b k M e1 d + (1 - t) * mval b k M e2 d.
Proof.
  intros HM Hf He. rewrite <- !(mval_unif b k M (fun _ => / INR M)) by auto. apply mval_w_convex; auto. now apply inv_nonneg.
Qed.
Lemma real_w_convex b e M w y1 y2 x t : (forall i, (i < M)%nat -> 0 <= w i) -> 0 <= t <= 1 ->
  real_w b e M w (t * y1 + (1 - t) * y2) x <= t * real_w b e M w y1 x + (1 - t) * real_w b e M w y2 x.
Proof.
  intros Hw Ht.
  assert (wmae M w (t * y1 + (1 - t) * y2) x <= t * wmae M w y1 x + (1 - t) * wmae M w y2 x).
  { apply (avg_convex M w (fun i => Rabs (x i - y1)) (fun i => Rabs (x i - y2)) (fun i => Rabs (x i - (t * y1 + (1 - t) * y2)))); auto. intros; now apply abs_convex. }
  destruct e; cbn [real_w]; unfold wexact_crps, wfair_crps, wpwm_free, wlag_crps; lra.
Qed.
Lemma real_un_convex e M y1 y2 x t : (0 < M)%nat -> (need2 e = true -> (1 < M)%nat) -> 0 <= t <= 1 ->
  real_un e M (t * y1 + (1 - t) * y2) x <= t * real_un e M y1 x + (1 - t) * real_un e M y2 x.
Proof.
  intros HM H2 Ht. rewrite <- !(real_w_uniform Numba e M) by (auto; intros; discriminate). apply real_w_convex; auto. now apply inv_nonneg.
Qed.

(** ** pooling two ensembles *)
Definition pool {A} (M : nat) (f g : nat -> A) (i : nat) : A := if (i <? M)%nat then f i else g (i - M)%nat.
Lemma pool_l {A} M (f g : nat -> A) i : (i < M)%nat -> pool M f g i = f i.
Proof. intros H. unfold pool. now destruct (Nat.ltb_spec i M); [|lia]. Qed.
Lemma pool_r {A} M (f g : nat -> A) i : pool M f g (M + i)%nat = g i.
Proof. unfold pool. destruct (Nat.ltb_spec (M + i) M); [lia|]. f_equal. lia. Qed.
Lemma es_pool M N D f g y x z : 0 < sumn M f -> 0 < sumn N g ->
  k_wexact (M + N) (nw (M + N) (pool M f g)) (es_err D y (pool M x z)) (es_dist D (pool M x z))
  <= (sumn M f * k_wexact M (nw M f) (es_err D y x) (es_dist D x) + sumn N g * k_wexact N (nw N g) (es_err D y z) (es_dist D z)) / (sumn M f + sumn N g).
Proof.
  intros HA HB.
  assert (EW : sumn (M + N) (pool M f g) = sumn M f + sumn N g).
  { rewrite sumn_plus_idx. f_equal; apply sumn_ext; intros; [now apply pool_l|apply pool_r]. }
  rewrite !k_wexact_nw by (rewrite ?EW; lra). rewrite EW.
  set (p := pool M x z). set (v := pool M f g) in *.
  assert (EE : sumn (M + N) (fun i => v i * es_err D y p i) = sumn M (fun i => f i * es_err D y x i) + sumn N (fun i => g i * es_err D y z i)).
  { rewrite sumn_plus_idx. unfold v, p, es_err. f_equal; apply sumn_ext; intros; [now rewrite !pool_l|now rewrite !pool_r]. }
  pose proof (qf_split M N v (es_dist D p)) as EQ. unfold qf in EQ. 
  pose proof (eucl_two M N D (fun i => f i / sumn M f) x (fun i => g i / sumn N g) z) as T.
  rewrite !sumn_div in T. specialize (T ltac:(unfold Rdiv; rewrite !Rinv_r by lra; reflexivity)).
  set (A := sumn M f) in *. set (B := sumn N g) in *.
  set (Q1 := sumn M (fun i => sumn M (fun j => f i * f j * es_dist D x i j))) in *.
  set (Q2 := sumn N (fun i => sumn N (fun j => g i * g j * es_dist D z i j))) in *.
  set (C := sumn N (fun j => sumn M (fun i => g j * f i * eucl D (x i) (z j)))).
  assert (T1 : sumn M (fun i => sumn M (fun j => f i / A * (f j / A) * eucl D (x i) (x j))) = Q1 / (A * A)).
  { unfold Q1. rewrite <- sumn_div. apply sumn_ext; intros. rewrite <- sumn_div. apply sumn_ext; intros. unfold es_dist. field. lra. }
  assert (T2 : sumn N (fun i => sumn N (fun j => g i / B * (g j / B) * eucl D (z i) (z j))) = Q2 / (B * B)).
  { unfold Q2. rewrite <- sumn_div. apply sumn_ext; intros. rewrite <- sumn_div. apply sumn_ext; intros. unfold es_dist. field. lra. }
  assert (T3 : sumn N (fun j => g j / B * sumn M (fun i => f i / A * eucl D (x i) (z j))) = C / (A * B)).
  { unfold C. rewrite <- sumn_div. apply sumn_ext; intros. rewrite <- sumn_scal, <- sumn_div. apply sumn_ext; intros. field. lra. }
  rewrite T1, T2, T3 in T. clear T1 T2 T3.
  assert (Q : sumn (M + N) (fun i => sumn (M + N) (fun j => v i * v j * es_dist D p i j)) = Q1 + 2 * C + Q2).
  { etransitivity; [exact EQ|]. unfold v, p, es_dist.
    replace (2 * C) with (sumn M (fun i => sumn N (fun j => g j * f i * eucl D (x i) (z j))) + C) by (rewrite sumn_swap; fold C; ring).
    unfold Q1, Q2, C. rewrite <- Rplus_assoc. f_equal; [f_equal; [f_equal|]|]; apply sumn_ext; intros i Hi; apply sumn_ext; intros j Hj; rewrite ?pool_r, ?pool_l by auto; unfold es_dist; try ring.
    rewrite eucl_sym. ring. }
  rewrite EE, Q. clear EQ.
  set (E1 := sumn M (fun i => f i * es_err D y x i)). set (E2 := sumn N (fun i => g i * es_err D y z i)).
  apply Rminus_le_0.
  assert (K : (A * (E1 / A - / 2 * (Q1 / (A * A))) + B * (E2 / B - / 2 * (Q2 / (B * B)))) / (A + B) - ((E1 + E2) / (A + B) - / 2 * ((Q1 + 2 * C + Q2) / ((A + B) * (A + B))))
    = A * B / (2 * (A + B) * (A + B)) * (2 * (C / (A * B)) - (Q1 / (A * A) + Q2 / (B * B)))).
  { field. lra. }
  rewrite K. apply Rmult_le_pos; [|lra]. apply Rdiv_le_0_compat; nra.
Qed.
