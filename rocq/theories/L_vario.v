(** Values of the variogram score functions on real data. *)
From Verif Require Export M_vario S_vario L_energy.
Open Scope R_scope.

(** ** arithmetic *)
Lemma npow_abs a p : 0 < p -> npow (Fin (Rabs a)) (Fin p) = Fin (vpow (Rabs a) p).
Proof.
  intros Hp. unfold npow, vpow. destruct (Req_EM_T p 0); [lra|].
  pose proof (Rabs_pos a). destruct (Req_EM_T (Rabs a) 0) as [E|E].
  - rewrite E. destruct (Rlt_dec 0 0); [lra|]. destruct (Rlt_dec 0 p); [reflexivity|lra].
  - destruct (Rlt_dec 0 (Rabs a)); [reflexivity|lra].
Qed.
Lemma fv_powabs a p r : 0 < p -> a = Fin r -> npow (nabs a) (Fin p) = Fin (vpow (Rabs r) p).
Proof. intros Hp ->. now apply npow_abs. Qed.
Lemma vgram_sym p u i j : vgram p u i j = vgram p u j i.
Proof. unfold vgram. now rewrite Rabs_minus_sym. Qed.
Lemma vdist_sym D h p u v : vdist D h p u v = vdist D h p v u.
Proof. unfold vdist. apply sumn_ext; intros; apply sumn_ext; intros; ring. Qed.
Lemma vdist_refl D h p u : vdist D h p u u = 0.
Proof.
  unfold vdist. rewrite (sumn_ext D _ (fun _ => 0)).
  - apply sumn_zero.
  - intros i _. rewrite (sumn_ext D _ (fun _ => 0)) by (intros; ring). apply sumn_zero.
Qed.
Lemma vs_dist_sym D h p x i j : vs_dist D h p x i j = vs_dist D h p x j i. Proof. apply vdist_sym. Qed.
Lemma vs_dist_refl D h p x i : vs_dist D h p x i i = 0. Proof. apply vdist_refl. Qed.
Lemma sumn2_scal D c g : sumn D (fun i => sumn D (fun j => c * g i j)) = c * sumn D (fun i => sumn D (g i)).
Proof. rewrite <- sumn_scal. apply sumn_ext; intros; apply sumn_scal. Qed.
Lemma nsumn2_Fin D f g : (forall i j, (i < D)%nat -> (j < D)%nat -> f i j = Fin (g i j)) ->
  nsumn D (fun i => nsumn D (f i)) = Fin (sumn D (fun i => sumn D (g i))).
Proof. intros H. apply nsumn_Fin; intros i Hi. apply nsumn_Fin; intros; auto. Qed.
Lemma nv_dist D f c h p u v :
  (forall i j, (i < D)%nat -> (j < D)%nat -> f i j = Fin (c * (h i j * (vgram p u i j - vgram p v i j) ^ 2))) ->
  nsumn D (fun i => nsumn D (f i)) = Fin (c * vdist D h p u v).
Proof. intros H. rewrite (nsumn2_Fin D f _ H). f_equal. apply sumn2_scal. Qed.
Lemma nv_norm D f c h p u :
  (forall i j, (i < D)%nat -> (j < D)%nat -> f i j = Fin (c * (h i j * vgram p u i j ^ 2))) ->
  nsumn D (fun i => nsumn D (f i)) = Fin (c * vnorm D h p u).
Proof. intros H. rewrite (nsumn2_Fin D f _ H). f_equal. apply sumn2_scal. Qed.

(** the score is the kernel form with the distance of the variograms *)
Lemma sq_expand M w a b : sumn M w = 1 ->
  (a - sumn M (fun m => w m * b m)) ^ 2 =
  sumn M (fun m => w m * (b m - a) ^ 2) - / 2 * sumn M (fun m => sumn M (fun k => w m * w k * (b m - b k) ^ 2)).
Proof.
  intros Hw. set (S1 := sumn M (fun m => w m * b m)). set (S2 := sumn M (fun m => w m * b m ^ 2)).
  assert (E1 : sumn M (fun m => w m * (b m - a) ^ 2) = S2 - 2 * a * S1 + a ^ 2).
  { rewrite (sumn_ext M _ (fun m => w m * b m ^ 2 - 2 * a * (w m * b m) + a ^ 2 * w m)) by (intros; ring).
    rewrite sumn_plus, sumn_minus, !sumn_scal, Hw. fold S1 S2. ring. }
  assert (E2 : sumn M (fun m => sumn M (fun k => w m * w k * (b m - b k) ^ 2)) = 2 * S2 - 2 * S1 ^ 2).
  { rewrite (sumn_ext M _ (fun m => w m * b m ^ 2 - 2 * S1 * (w m * b m) + S2 * w m)).
    - rewrite sumn_plus, sumn_minus, !sumn_scal, Hw. fold S1 S2. ring.
    - intros m _.
      rewrite (sumn_ext M _ (fun k => w m * b m ^ 2 * w k - 2 * (w m * b m) * (w k * b k) + w m * (w k * b k ^ 2)))
        by (intros; ring).
      rewrite sumn_plus, sumn_minus, !sumn_scal, Hw. fold S1 S2. ring. }
  rewrite E1, E2. field.
Qed.
Lemma vs_score_kernel D h p M w y x : sumn M w = 1 ->
  vs_score D h p M w y x = k_wexact M w (vs_err D h p y x) (vs_dist D h p x).
Proof.
  intros Hw. unfold vs_score, k_wexact, vs_err, vs_dist, vdist.
  rewrite (sumn_ext D _ (fun i =>
     sumn M (fun m => w m * sumn D (fun j => h i j * (vgram p (x m) i j - vgram p y i j) ^ 2))
     - / 2 * sumn M (fun m => sumn M (fun k => w m * w k * sumn D (fun j => h i j * (vgram p (x m) i j - vgram p (x k) i j) ^ 2))))).
  - rewrite sumn_minus, sumn_scal. f_equal; [|f_equal].
    + rewrite sumn_swap. apply sumn_ext; intros m _. now rewrite <- sumn_scal.
    + rewrite sumn_swap. apply sumn_ext; intros m _. rewrite sumn_swap. apply sumn_ext; intros k _.
      now rewrite <- sumn_scal.
  - intros i _.
    rewrite (sumn_ext D _ (fun j => sumn M (fun m => w m * (h i j * (vgram p (x m) i j - vgram p y i j) ^ 2))
      - / 2 * sumn M (fun m => sumn M (fun k => w m * w k * (h i j * (vgram p (x m) i j - vgram p (x k) i j) ^ 2))))).
    + rewrite sumn_minus, sumn_scal. f_equal; [|f_equal].
      * rewrite sumn_swap. apply sumn_ext; intros m _. now rewrite <- sumn_scal.
      * rewrite sumn_swap. apply sumn_ext; intros m _. rewrite sumn_swap. apply sumn_ext; intros k _.
        now rewrite <- sumn_scal.
    + intros j _. rewrite (sq_expand M w (vgram p y i j) (fun m => vgram p (x m) i j) Hw).
      rewrite Rmult_minus_distr_l. f_equal.
      * rewrite <- sumn_scal. apply sumn_ext; intros; ring.
      * rewrite <- Rmult_assoc, (Rmult_comm (h i j)), Rmult_assoc. f_equal.
        rewrite <- sumn_scal. apply sumn_ext; intros. rewrite <- sumn_scal. apply sumn_ext; intros; ring.
Qed.
Lemma vs_score_unif D h p M y x : (0 < M)%nat ->
  vs_score D h p M (fun _ => / INR M) y x =
  sumn D (fun i => sumn D (fun j => h i j * (vgram p y i j - sumn M (fun m => vgram p (x m) i j) / INR M) ^ 2)).
Proof.
  intros HM. unfold vs_score. apply sumn_ext; intros i _; apply sumn_ext; intros j _.
  rewrite sumn_scal. do 3 f_equal. unfold Rdiv. ring.
Qed.

(** ** numba kernels *)
Lemma loop2_sum D f a : loop2 D f a = a .+ nsumn D (fun i => nsumn D (f i)).
Proof.
  unfold loop2. transitivity (fold_left (fun a i => a .+ nsumn D (f i)) (seq 0 D) a).
  - apply fold_left_ext_in. intros b i _. apply fold_left_nadd.
  - apply fold_left_nadd.
Qed.
Lemma fold_loop2 D (f : nat -> nat -> nat -> num) l a :
  fold_left (fun e m => loop2 D (f m) e) l a = a .+ nsum (map (fun m => nsumn D (fun i => nsumn D (f m i))) l).
Proof.
  transitivity (fold_left (fun e m => e .+ nsumn D (fun i => nsumn D (f m i))) l a).
  - apply fold_left_ext_in. intros b m _. apply loop2_sum.
  - apply fold_left_nadd.
Qed.

Section kernels.
Variables (M D : nat) (yn : nat -> num) (xn hn : nat -> nat -> num) (y : nat -> R) (x h : nat -> nat -> R) (p : R).
Hypothesis HM : (0 < M)%nat.
Hypothesis Hp : 0 < p.
Hypothesis Hy : forall k, (k < D)%nat -> yn k = Fin (y k).
Hypothesis Hx : forall i k, (i < M)%nat -> (k < D)%nat -> xn i k = Fin (x i k).
Hypothesis Hh : forall i j, (i < D)%nat -> (j < D)%nat -> hn i j = Fin (h i j).
Let Y := rw D yn.
Let F := mrw M D xn.
Let H := mrw D D hn.
Let e := vs_err D h p y x.
Let d := vs_dist D h p x.
Lemma vY i j : (i < D)%nat -> (j < D)%nat -> rho Y p i j = Fin (vgram p y i j).
Proof. intros H1 H2. unfold rho, Y. rewrite !rw_ith, !Hy by auto. apply fv_powabs; auto. Qed.
Lemma vF k i j : (k < M)%nat -> (i < D)%nat -> (j < D)%nat -> rho (ithv F k) p i j = Fin (vgram p (x k) i j).
Proof. intros H0 H1 H2. unfold rho, F. rewrite mrw_ith, !rw_ith, !Hx by auto. apply fv_powabs; auto. Qed.
Lemma vH i j : (i < D)%nat -> (j < D)%nat -> ith2 H i j = Fin (h i j).
Proof. intros H1 H2. unfold ith2, H. rewrite mrw_ith, rw_ith, Hh by auto. reflexivity. Qed.
Lemma vF_len : length F = M. Proof. apply mrw_length. Qed.
Lemma vY_len : length Y = D. Proof. apply rw_length. Qed.
Ltac nz := solve [now apply INR_nz | rewrite ?mult_INR; pose proof (INR_nz M HM); try assumption;
  try (let E := fresh in intros E; repeat (apply Rmult_integral in E; destruct E as [E|E]); lra || tauto)].

Lemma vs_nrg_gen (c : num -> num) (vf : nat -> nat -> num) (g : nat -> nat -> R) : (forall a, c a = a) ->
  (forall i j, (i < D)%nat -> (j < D)%nat -> vf i j = Fin (g i j)) ->
  fold_left (fun out i => fold_left (fun out j => c (out .+ ith2 H i j .* nsq (rho Y p i j .- vf i j))) (seq 0 D) out)
    (seq 0 D) (c n0)
  = Fin (sumn D (fun i => sumn D (fun j => h i j * (vgram p y i j - g i j) ^ 2))).
Proof.
  intros Hc Hv. transitivity (loop2 D (fun i j => ith2 H i j .* nsq (rho Y p i j .- vf i j)) n0).
  - unfold loop2. rewrite Hc. apply fold_left_ext_in. intros a i _. apply fold_left_ext_in. intros b j _. apply Hc.
  - rewrite loop2_sum. unfold n0. rewrite nadd_0_l. apply nsumn2_Fin. intros i j Hi Hj.
    rewrite vH, vY, Hv by auto. simpl. f_equal. ring.
Qed.
Lemma vs_nrg_k_real c : (forall a, c a = a) -> vs_nrg_k c Y F H p = Fin (vs_score D h p M (fun _ => / INR M) y x).
Proof.
  intros Hc. unfold vs_nrg_k. rewrite vF_len, vY_len. cbv zeta. rewrite vs_score_unif by auto.
  apply (vs_nrg_gen c (fun i j => fold_left (fun vfct m => vfct .+ rho (ithv F m) p i j) (seq 0 M) n0 ./ nofnat M)); auto.
  intros i j Hi Hj. rewrite fold_left_nadd. unfold n0. rewrite nadd_0_l.
  change (nsum (map (fun m => rho (ithv F m) p i j) (seq 0 M))) with (nsumn M (fun m => rho (ithv F m) p i j)).
  rewrite (nsumn_Fin M _ (fun m => vgram p (x m) i j)) by (intros; now apply vF).
  unfold nofnat. rewrite ndiv_Fin by nz. reflexivity.
Qed.

(** the sums over members and pairs of members, with any factors *)
Lemma e1_gen f c : (forall k i j, (k < M)%nat -> (i < D)%nat -> (j < D)%nat ->
    f k i j = Fin (c k * (h i j * (vgram p (x k) i j - vgram p y i j) ^ 2))) ->
  nsumn M (fun k => nsumn D (fun i => nsumn D (f k i))) = Fin (sumn M (fun k => c k * e k)).
Proof. intros Hf. apply nsumn_Fin. intros k Hk. apply nv_dist. auto. Qed.
Lemma e3_gen f c : (forall k i j, (k < M)%nat -> (i < D)%nat -> (j < D)%nat ->
    f k i j = Fin (c k * (h i j * vgram p (x k) i j ^ 2))) ->
  nsumn M (fun k => nsumn D (fun i => nsumn D (f k i))) = Fin (sumn M (fun k => c k * vnorm D h p (x k))).
Proof. intros Hf. apply nsumn_Fin. intros k Hk. apply nv_norm. auto. Qed.
Lemma e2_gen f c : (forall k m, c k m = c m k) ->
  (forall k m i j, (k < M)%nat -> (m < M)%nat -> (i < D)%nat -> (j < D)%nat ->
    f k m i j = Fin (2 * c k m * (h i j * (vgram p (x k) i j - vgram p (x m) i j) ^ 2))) ->
  nsumn M (fun k => upper M k (fun m => nsumn D (fun i => nsumn D (f k m i)))) =
  Fin (sumn M (fun k => sumn M (fun m => c k m * d k m))).
Proof.
  intros Hc Hf. erewrite nsumn_Fin.
  2:{ intros k Hk. apply upper_Fin. intros m Hm.
      apply (nv_dist D (f k m) (2 * c k m) h p (x k) (x m)). intros; apply Hf; lia. }
  f_equal. rewrite <- (tri_gen M (fun k m => c k m * d k m)).
  - apply sumn_ext; intros k _. apply Rsum_map_ext; intros m _. unfold d, vs_dist. ring.
  - intros k m. unfold d. rewrite vs_dist_sym, Hc. reflexivity.
  - intros k. unfold d. rewrite vs_dist_refl. ring.
Qed.
Lemma fold_v2 (f : nat -> nat -> nat -> num) (g : nat -> nat -> nat -> nat -> num) :
  fold_left (fun '(e_1, e_2) k =>
      (loop2 D (f k) e_1,
       fold_left (fun e_2 m => loop2 D (g k m) e_2) (seq (k + 1) (M - (k + 1))) e_2)) (seq 0 M) (n0, n0)
  = (nsumn M (fun k => nsumn D (fun i => nsumn D (f k i))),
     nsumn M (fun k => upper M k (fun m => nsumn D (fun i => nsumn D (g k m i))))).
Proof.
  rewrite (fold2n _ (fun k => nsumn D (fun i => nsumn D (f k i)))
    (fun k => upper M k (fun m => nsumn D (fun i => nsumn D (g k m i))))).
  - unfold n0. now rewrite !nadd_0_l.
  - intros a b k _. now rewrite loop2_sum, fold_loop2.
Qed.
Lemma fold_v3 (f f3 : nat -> nat -> nat -> num) (g : nat -> nat -> nat -> nat -> num) :
  fold_left (fun '(e_1, e_2, e_3) k =>
      (loop2 D (f k) e_1,
       fold_left (fun e_2 m => loop2 D (g k m) e_2) (seq (k + 1) (M - (k + 1))) e_2,
       loop2 D (f3 k) e_3)) (seq 0 M) (n0, n0, n0)
  = (nsumn M (fun k => nsumn D (fun i => nsumn D (f k i))),
     nsumn M (fun k => upper M k (fun m => nsumn D (fun i => nsumn D (g k m i)))),
     nsumn M (fun k => nsumn D (fun i => nsumn D (f3 k i)))).
Proof.
  rewrite (fold3n _ (fun k => nsumn D (fun i => nsumn D (f k i)))
    (fun k => upper M k (fun m => nsumn D (fun i => nsumn D (g k m i))))
    (fun k => nsumn D (fun i => nsumn D (f3 k i)))).
  - unfold n0. now rewrite !nadd_0_l.
  - intros a b c k _. now rewrite !loop2_sum, fold_loop2.
Qed.
Ltac kv := intros; rewrite ?vH, ?vY, ?vF by auto; first [ring | simpl; f_equal; ring].
Lemma sum1 f : sumn M (fun k => 1 * f k) = sumn M f.
Proof. apply sumn_ext; intros; ring. Qed.
Lemma sum2_1 (f : nat -> nat -> R) : sumn M (fun k => sumn M (fun m => 1 * f k m)) = sumn M (fun k => sumn M (f k)).
Proof. apply sumn_ext; intros; apply sumn_ext; intros; ring. Qed.
Lemma vs_fair_k_real : (1 < M)%nat -> vs_fair_k Y F H p = Fin (k_fair M e d).
Proof.
  intros H2. pose proof (INR_ge2 M H2). unfold vs_fair_k. rewrite vF_len, vY_len, fold_v2.
  rewrite (e1_gen _ (fun _ => 1)) by kv. rewrite (e2_gen _ (fun _ _ => 1)) by kv.
  rewrite sum1, sum2_1. unfold nhalf.
  fin; try nz; try (rewrite mult_INR, INR_pred by lia; nz).
  unfold k_fair. rewrite mult_INR, INR_pred by lia. unfold half. field. lra.
Qed.

Section weighted.
Variables (wn : nat -> num) (w : nat -> R).
Hypothesis Hw : forall i, (i < M)%nat -> wn i = Fin (w i).
Let W := rw M wn.
Lemma vW i : (i < M)%nat -> ith W i = Fin (w i).
Proof. intros. unfold W. rewrite rw_ith; auto. Qed.
Lemma vs_nrg_w_k_real c : (forall a, c a = a) -> vs_nrg_w_k c Y F H W p = Fin (vs_score D h p M w y x).
Proof.
  intros Hc. unfold vs_nrg_w_k. rewrite vF_len, vY_len. cbv zeta.
  apply (vs_nrg_gen c (fun i j => fold_left (fun vfct m => vfct .+ ith W m .* rho (ithv F m) p i j) (seq 0 M) n0)); auto.
  intros i j Hi Hj. rewrite fold_left_nadd. unfold n0. rewrite nadd_0_l.
  apply nsumn_Fin. intros m Hm. rewrite vF, vW by auto. reflexivity.
Qed.
Ltac kw := intros; rewrite ?vH, ?vY, ?vF, ?vW by auto; first [ring | simpl; f_equal; ring].
Lemma vs_fair_w_k_real : sumn M (fun i => w i * w i) <> 1 -> vs_fair_w_k Y F H W p = Fin (k_wfair M w e d).
Proof.
  intros H1. unfold vs_fair_w_k. rewrite vF_len, vY_len, fold_v2.
  rewrite (e1_gen _ w) by kw. rewrite (e2_gen _ (fun k m => w k * w m)) by kw.
  assert (E : nsum (map nsq W) = Fin (sumn M (fun i => w i * w i))).
  { unfold W, rw. rewrite map_map. apply nsumn_Fin. intros i Hi. now rewrite Hw. }
  rewrite E. unfold nhalf, n1. fin; try lra. unfold k_wfair, half. field. lra.
Qed.
Lemma vmean_W : nmean W = Fin (sumn M w / INR M).
Proof.
  unfold nmean, W. rewrite rw_length. unfold rw.
  change (nsum (map wn (seq 0 M))) with (nsumn M wn). fin. nz. reflexivity.
Qed.
Lemma sum_mid (a : R) (g : nat -> R) : sumn M (fun k => a * w k * g k) = a * sumn M (fun k => w k * g k).
Proof. rewrite <- sumn_scal. apply sumn_ext; intros; ring. Qed.
Lemma sum2_mid (a : R) (u : nat -> R) (g : nat -> nat -> R) : sumn M (fun k => sumn M (fun m => a * (u k * u m) * g k m)) =
  a * sumn M (fun k => sumn M (fun m => u k * u m * g k m)).
Proof.
  rewrite <- sumn_scal. apply sumn_ext; intros. rewrite <- sumn_scal. apply sumn_ext; intros; ring.
Qed.
Lemma owvs_k_real a : sumn M w <> 0 -> owvs_k Y F H (Fin a) W p = Fin (a * k_wexact M (nw M w) e d).
Proof.
  intros H1. unfold owvs_k. rewrite vF_len, vY_len, fold_v2.
  rewrite (e1_gen _ (fun k => a * w k)) by kw. rewrite (e2_gen _ (fun k m => a * (w k * w m))) by kw.
  rewrite vmean_W, sum_mid, sum2_mid.
  pose proof (INR_nz M HM). unfold nhalf. fin.
  { intros E. apply Rmult_integral in E. destruct E as [E|E]; [auto|].
    unfold Rdiv in E. apply Rmult_integral in E. destruct E; [auto|].
    now apply Rinv_neq_0_compat in H2. }
  { rewrite mult_INR. intros E. unfold Rdiv in E.
    repeat (apply Rmult_integral in E; destruct E as [E|E]); auto; now apply Rinv_neq_0_compat in E. }
  rewrite k_wexact_nw by auto. rewrite mult_INR. unfold half. field. auto.
Qed.
Lemma vrvs_k_real a : vrvs_k Y F H (Fin a) W p =
  Fin (k_vr M a (fun i => w i / INR M) e d (vnorm D h p y) (fun i => vnorm D h p (x i))).
Proof.
  unfold vrvs_k. rewrite vF_len, vY_len, fold_v3.
  rewrite (e1_gen _ (fun k => a * w k)) by kw. rewrite (e2_gen _ (fun k m => w k * w m)) by kw.
  rewrite (e3_gen _ w) by kw.
  rewrite loop2_sum. rewrite (nv_norm D _ a h p y) by kw.
  rewrite vmean_W, sum_mid.
  pose proof (INR_nz M HM). unfold nhalf, n0, n1. fin; auto.
  { rewrite mult_INR. intros E. apply Rmult_integral in E. tauto. }
  rewrite k_vr_unif by auto. unfold half. rewrite mult_INR. field. auto.
Qed.

Section ens.
Variables (vn : nat -> num) (v : nat -> R).
Hypothesis Hv : forall i, (i < M)%nat -> vn i = Fin (v i).
Let V := rw M vn.
Let u k := w k * v k.
Lemma vV i : (i < M)%nat -> ith V i = Fin (v i).
Proof. intros. unfold V. rewrite rw_ith; auto. Qed.
Lemma vwbar : nsum (map (fun '(a, b) => a .* b) (combine W V)) = Fin (sumn M u).
Proof.
  assert (E : map (fun '(a, b) => a .* b) (combine W V) = map (fun k => wn k .* vn k) (seq 0 M)).
  { unfold W, V, rw. generalize (seq 0 M). induction l; simpl; congruence. }
  rewrite E. apply nsumn_Fin. intros k Hk. now rewrite Hw, Hv.
Qed.
Ltac ku := intros; unfold u; rewrite ?vH, ?vY, ?vF, ?vW, ?vV by auto; first [ring | simpl; f_equal; ring].
Lemma sum_mid' (a : R) (g : nat -> R) : sumn M (fun k => a * u k * g k) = a * sumn M (fun k => u k * g k).
Proof. rewrite <- sumn_scal. apply sumn_ext; intros; ring. Qed.
Lemma owvs_w_k_real a : sumn M u <> 0 -> owvs_w_k Y F H (Fin a) W V p = Fin (a * k_wexact M (nw M u) e d).
Proof.
  intros H1. unfold owvs_w_k. rewrite vF_len, vY_len, fold_v2.
  rewrite (e1_gen _ (fun k => a * u k)) by ku. rewrite (e2_gen _ (fun k m => a * (u k * u m))) by ku.
  rewrite vwbar, sum_mid', sum2_mid. unfold nhalf.
  fin; try (intros E; repeat (apply Rmult_integral in E; destruct E as [E|E]); tauto); auto.
  rewrite k_wexact_nw by auto. unfold half. field. auto.
Qed.
Lemma vrvs_w_k_real a : vrvs_w_k Y F H (Fin a) W V p =
  Fin (k_vr M a u e d (vnorm D h p y) (fun i => vnorm D h p (x i))).
Proof.
  unfold vrvs_w_k. rewrite vF_len, vY_len, fold_v3.
  rewrite (e1_gen _ (fun k => a * u k)) by ku. rewrite (e2_gen _ (fun k m => u k * u m)) by ku.
  rewrite (e3_gen _ u) by ku.
  rewrite loop2_sum. rewrite (nv_norm D _ a h p y) by ku.
  rewrite vwbar, sum_mid'. unfold nhalf, n0. fin.
  unfold k_vr, half. field.
Qed.
End ens.
End weighted.
End kernels.

(** ** array functions *)
Lemma ten_expand3 x d m n k s g : ten_is x d (m :: n :: k :: s) g ->
  ten_is (aexpand 3 x) d (m :: n :: k :: 1%nat :: s)
    (fun i => g (hd O i :: hd O (tl i) :: hd O (tl (tl i)) :: tl (tl (tl (tl i))))).
Proof.
  intros H. eapply ten_ext; [apply (ten_expand 3 x d (m :: n :: k :: s) g H); simpl; lia|].
  intros i Hi; simpl in Hi. idx. reflexivity.
Qed.
Lemma ten_sum_axis3 x d m n k s g : ten_is x d (m :: n :: k :: s) g ->
  ten_is (asum_axis (-3) x) d (m :: n :: s)
    (fun i => nsumn k (fun l => g (hd O i :: hd O (tl i) :: l :: tl (tl i)))).
Proof.
  intros H. unfold asum_axis.
  assert (T : ten_is (amove_last (-3) x) d (k :: m :: n :: s)
     (fun i => g (hd O (tl i) :: hd O (tl (tl i)) :: hd O i :: tl (tl (tl i))))).
  { eapply ten_ext; [apply (ten_move_last (-3) x d 2 k (m :: n :: s) g H); [simpl; lia|]|].
    - replace (-3)%Z with (Z.of_nat (length (m :: n :: s) - 2) - Z.of_nat (S (length (m :: n :: s))))%Z
        by (simpl length; lia). apply norm_axis_neg; simpl; lia.
    - intros i Hi. idx. reflexivity. }
  eapply ten_ext; [eapply ten_sum; exact T|]. intros i Hi. idx. reflexivity.
Qed.

Section arrays.
Variables (s sw : list nat) (D M : nat) (obs fct hw : arr) (d1 d2 d3 : dtype).
Variables (y : list nat -> nat -> R) (x : list nat -> nat -> nat -> R) (hf : list nat -> R)
  (h : list nat -> nat -> nat -> R) (p : R).
Hypothesis HM : (0 < M)%nat.
Hypothesis Hp : 0 < p.
Hypothesis Ho : arr_is obs d1 (D :: s) (fun i => Fin (y (tl i) (hd O i))).
Hypothesis Hf : arr_is fct d2 (D :: M :: s) (fun i => Fin (x (tl (tl i)) (hd O (tl i)) (hd O i))).
Hypothesis Hb1 : bshape s sw = Some s.
Hypothesis Hb2 : bshape sw s = Some s.
Hypothesis Hh : arr_is hw d3 (D :: D :: sw) (fun i => Fin (hf i)).
Hypothesis Hhv : forall r i j, inb s r -> (i < D)%nat -> (j < D)%nat -> hf (j :: i :: bidx sw r) = h r i j.
Let e r := vs_err D (h r) p (y r) (x r).
Let d r := vs_dist D (h r) p (x r).
Ltac bs := repeat first
    [ rewrite bshape_refl | rewrite Hb1 | rewrite Hb2 | rewrite bshape_nil_r | rewrite bshape_nil_l
    | progress cbn [bshape] | rewrite bdim_refl | rewrite bdim_1_l | rewrite bdim_1_r ];
  reflexivity.

Lemma vdiff_fct_is : ten_is (vdiff fct p) DFloat (D :: D :: M :: s)
  (fun i => Fin (vgram p (x (tl (tl (tl i))) (hd O (tl (tl i)))) (hd O (tl i)) (hd O i))).
Proof.
  unfold vdiff. eapply ten_conv; [ten|destruct d2; dtf|]. intros i Hi. idx. cbn [hd tl].
  bidx_simp. cbn [hd tl]. rewrite fv_powabs with (r := x r k1 k - x r k1 k0); auto.
  unfold vgram. now rewrite Rabs_minus_sym.
Qed.
Lemma vdiff_obs_is : ten_is (vdiff obs p) DFloat (D :: D :: s)
  (fun i => Fin (vgram p (y (tl (tl i))) (hd O (tl i)) (hd O i))).
Proof.
  unfold vdiff. eapply ten_conv; [ten|destruct d1; dtf|]. intros i Hi. idx. cbn [hd tl].
  bidx_simp. cbn [hd tl]. rewrite fv_powabs with (r := y r0 k - y r0 k0); auto.
  unfold vgram. now rewrite Rabs_minus_sym.
Qed.
Lemma expand34_is : ten_is (expand34 hw) d3 (D :: D :: 1%nat :: 1%nat :: sw)
  (fun i => Fin (hf (hd O i :: hd O (tl i) :: tl (tl (tl (tl i)))))).
Proof.
  unfold expand34. eapply ten_ext; [eapply ten_expand2, ten_expand2, ten_Ok, Hh|].
  intros i Hi; idx. reflexivity.
Qed.
Lemma expandm_is : ten_is (aexpand 2 (Ok hw)) d3 (D :: D :: 1%nat :: sw)
  (fun i => Fin (hf (hd O i :: hd O (tl i) :: tl (tl (tl i))))).
Proof. eapply ten_ext; [eapply ten_expand2, ten_Ok, Hh|]. intros i Hi; idx. reflexivity. Qed.

Lemma v_err_is : ten_is (v_err obs fct hw p) DFloat (M :: s) (fun i => Fin (e (tl i) (hd O i))).
Proof.
  unfold v_err. pose proof vdiff_fct_is as T1. pose proof vdiff_obs_is as T2. pose proof expandm_is as T3.
  eassert (T : ten_is (asq (vdiff fct p - aexpand 2 (vdiff obs p)))%A _ _ _).
  { eapply ten_map. eapply ten_bin; [exact T1|eapply ten_expand2; exact T2|bs|intros; reflexivity]. }
  eapply ten_conv; [eapply ten_sum2; eapply ten_bin; [exact T3|exact T|bs|intros; reflexivity]|destruct d3; dtf|].
  - intros i Hi. idx. cbn [hd tl].
    rewrite (nv_dist D _ 1 (h r) p (x r k) (y r)); [unfold e, vs_err; f_equal; ring|].
    intros i j Hi Hj. bidx_simp. cbn [hd tl]. rewrite Hhv by auto. simpl. f_equal. ring.
Qed.
Lemma v_spread_is : ten_is (v_spread fct hw p) DFloat (M :: M :: s)
  (fun i => Fin (d (tl (tl i)) (hd O i) (hd O (tl i)))).
Proof.
  unfold v_spread. pose proof vdiff_fct_is as T1. pose proof expand34_is as T3.
  eassert (T : ten_is (asq (aexpand 2 (vdiff fct p) - aexpand 3 (vdiff fct p)))%A _ _ _).
  { eapply ten_map. eapply ten_bin; [eapply ten_expand2; exact T1|eapply ten_expand3; exact T1|bs|intros; reflexivity]. }
  eapply ten_conv; [eapply ten_sum2; eapply ten_bin; [exact T3|exact T|bs|intros; reflexivity]|destruct d3; dtf|].
  - intros i Hi. idx. cbn [hd tl].
    rewrite (nv_dist D _ 1 (h r0) p (x r0 k) (x r0 k0)); [unfold d, vs_dist; f_equal; ring|].
    intros i j Hi Hj. bidx_simp. cbn [hd tl]. rewrite Hhv by auto. simpl. f_equal. ring.
Qed.
Lemma v_norm_is : ten_is (asum2 (aexpand 2 (Ok hw) * asq (vdiff fct p))%A) DFloat (M :: s)
  (fun i => Fin (vnorm D (h (tl i)) p (x (tl i) (hd O i)))).
Proof.
  pose proof vdiff_fct_is as T1. pose proof expandm_is as T3.
  eapply ten_conv; [eapply ten_sum2; eapply ten_bin; [exact T3|eapply ten_map; exact T1|bs|intros; reflexivity]|destruct d3; dtf|].
  intros i Hi. idx. cbn [hd tl].
  rewrite (nv_norm D _ 1 (h r) p (x r k)); [f_equal; ring|].
  intros i j Hi Hj. bidx_simp. cbn [hd tl]. rewrite Hhv by auto. simpl. f_equal. ring.
Qed.
Lemma vo_norm_is : ten_is (asum2 (Ok hw * asq (vdiff obs p))%A) DFloat s
  (fun i => Fin (vnorm D (h i) p (y i))).
Proof.
  pose proof vdiff_obs_is as T1.
  eapply ten_conv; [eapply ten_sum2; eapply ten_bin; [apply ten_Ok, Hh|eapply ten_map; exact T1|bs|intros; reflexivity]|destruct d3; dtf|].
  intros r Hi. cbn [hd tl].
  rewrite (nv_norm D _ 1 (h r) p (y r)); [f_equal; ring|].
  intros i j Hi' Hj. bidx_simp. cbn [hd tl]. rewrite Hhv by auto. simpl. f_equal. ring.
Qed.
Lemma v_nrg_is X g : ten_is X DFloat (D :: D :: s) (fun i => Fin (g (tl (tl i)) (hd O (tl i)) (hd O i))) ->
  ten_is (asum2 (Ok hw * asq (vdiff obs p - X))%A) DFloat s
   (fun r => Fin (sumn D (fun i => sumn D (fun j => h r i j * (vgram p (y r) i j - g r i j) ^ 2)))).
Proof.
  intros T2. pose proof vdiff_obs_is as T1.
  eassert (T : ten_is (asq (vdiff obs p - X))%A _ _ _).
  { eapply ten_map. eapply ten_bin; [exact T1|exact T2|bs|intros; reflexivity]. }
  eapply ten_conv; [eapply ten_sum2; eapply ten_bin; [apply ten_Ok, Hh|exact T|bs|intros; reflexivity]|destruct d3; dtf|].
  - intros r Hi. cbn [hd tl]. apply nsumn2_Fin.
    intros i j Hi' Hj. bidx_simp. cbn [hd tl]. rewrite Hhv by auto. simpl. f_equal. ring.
Qed.
Lemma vdim2_fct : dim2 fct = M.
Proof. destruct Hf as (_ & E & _). unfold dim2. now rewrite E. Qed.
Ltac nz := solve [now apply INR_nz | rewrite ?mult_INR; pose proof (INR_nz M HM); try assumption;
  try (let E := fresh in intros E; repeat (apply Rmult_integral in E; destruct E as [E|E]); lra || tauto)].
Ltac go := rewrite ?vdim2_fct; cbv zeta; pose proof v_err_is as Te; pose proof v_spread_is as Td;
  eapply ten_conv; [ten|dtf|]; intros i Hi; idx; bidx_simp; cbn [hd tl].
Lemma vdsum r : sumn M (fun i => sumn M (fun j => d r j i)) = sumn M (fun i => sumn M (d r i)).
Proof. apply sumn_ext; intros; apply sumn_ext; intros; apply vs_dist_sym. Qed.

Lemma vs_nrg_arr_is : ten_is (vs_arr obs fct hw p "nrg") DFloat s
  (fun r => Fin (vs_score D (h r) p M (fun _ => / INR M) (y r) (x r))).
Proof.
  unfold vs_arr. cbn [String.eqb Ascii.eqb Bool.eqb]. rewrite vdim2_fct. cbv zeta.
  eapply ten_ext.
  - apply (v_nrg_is _ (fun r i j => sumn M (fun m => vgram p (x r m) i j) / INR M)).
    eapply ten_conv; [eapply ten_bin_scr; eapply ten_sum_axis3, vdiff_fct_is|dtf|].
    intros i Hi. idx. cbn [hd tl]. rewrite (nsumn_Fin M _ (fun m => vgram p (x r0 m) k0 k)) by reflexivity.
    unfold nofnat. rewrite ndiv_Fin by nz. reflexivity.
  - intros r Hr. now rewrite vs_score_unif.
Qed.
Lemma vs_fair_arr_is : (1 < M)%nat ->
  ten_is (vs_arr obs fct hw p "fair") DFloat s (fun r => Fin (k_fair M (e r) (d r))).
Proof.
  intros H2. pose proof (INR_ge2 M H2). unfold vs_arr. cbn [String.eqb Ascii.eqb Bool.eqb]. go.
  fin; try nz; try (rewrite mult_INR, INR_pred by lia; nz).
  unfold k_fair. rewrite vdsum. rewrite mult_INR, INR_pred by lia. unfold half. field. lra.
Qed.
Section weighted.
Variables (wt : arr) (dw : dtype) (w : list nat -> nat -> R).
Hypothesis Hw : arr_is wt dw (M :: s) (fun i => Fin (w (tl i) (hd O i))).
Lemma vs_nrg_w_arr_is : ten_is (vs_w_arr obs fct hw wt p "nrg") DFloat s
  (fun r => Fin (vs_score D (h r) p M (w r) (y r) (x r))).
Proof.
  unfold vs_w_arr. cbn [String.eqb Ascii.eqb Bool.eqb]. cbv zeta. unfold vs_score.
  apply (v_nrg_is _ (fun r i j => sumn M (fun m => w r m * vgram p (x r m) i j))).
  pose proof vdiff_fct_is as T1.
  eassert (T : ten_is (expand12 wt)%A _ _ _).
  { unfold expand12. eapply ten_expand0, ten_expand0, ten_Ok, Hw. }
  eapply ten_conv; [eapply ten_sum_axis3; eapply ten_bin; [exact T1|exact T|bs|intros; reflexivity]|destruct dw; dtf|].
  - intros i Hi. idx. cbn [hd tl]. apply nsumn_Fin. intros m Hm. bidx_simp. cbn [hd tl].
    simpl. f_equal. ring.
Qed.
Lemma vesum r : sumn M (fun k => e r k * w r k) = sumn M (fun k => w r k * e r k).
Proof. apply sumn_ext; intros; ring. Qed.
Lemma vwdsum r : sumn M (fun k => sumn M (fun j => d r j k * w r j * w r k)) =
  sumn M (fun i => sumn M (fun j => w r i * w r j * d r i j)).
Proof. apply sumn_ext; intros; apply sumn_ext; intros. unfold d. rewrite vs_dist_sym. ring. Qed.
Lemma vs_fair_w_arr_is : (forall r, inb s r -> sumn M (fun i => w r i * w r i) <> 1) ->
  ten_is (vs_w_arr obs fct hw wt p "fair") DFloat s (fun r => Fin (k_wfair M (w r) (e r) (d r))).
Proof.
  intros H1. unfold vs_w_arr. cbn [String.eqb Ascii.eqb Bool.eqb]. go. specialize (H1 i Hi). unfold n1. fin; [simpl; lra|].
  unfold k_wfair. rewrite vesum, vwdsum. unfold half. simpl INR. field. lra.
Qed.
End weighted.

Section owvr.
Variables (ow fw : arr) (do df : dtype) (a : list nat -> R) (v : list nat -> nat -> R).
Hypothesis How : arr_is ow do s (fun r => Fin (a r)).
Hypothesis Hfw : arr_is fw df (M :: s) (fun i => Fin (v (tl i) (hd O i))).
Lemma expand12_is : ten_is (expand12 ow) do (1%nat :: 1%nat :: s) (fun i => Fin (a (tl (tl i)))).
Proof. unfold expand12. eapply ten_ext; [eapply ten_expand0, ten_expand0, ten_Ok, How|]. reflexivity. Qed.
Ltac go' := pose proof expand12_is as Ta; go.
Lemma vbar_nz r : sumn M (v r) <> 0 -> sumn M (v r) / INR M <> 0.
Proof.
  intros H E. unfold Rdiv in E. apply Rmult_integral in E. destruct E; [auto|].
  pose proof (INR_nz M HM). now apply Rinv_neq_0_compat in H1.
Qed.
Lemma owvs_arr_is : (forall r, inb s r -> sumn M (v r) <> 0) ->
  ten_is (owvs_arr obs fct hw ow fw p) DFloat s
    (fun r => Fin (a r * k_wexact M (nw M (v r)) (e r) (d r))).
Proof.
  intros H1. unfold owvs_arr. go'. specialize (H1 i Hi). pose proof (vbar_nz i H1).
  pose proof (INR_nz M HM). fin; try nz; try assumption.
  { intros E. apply Rmult_integral in E. tauto. }
  rewrite k_wexact_nw by auto.
  rewrite (sumn_ext M (fun k => e i k * v i k * a i) (fun k => a i * (v i k * e i k))) by (intros; ring).
  rewrite (sumn_ext M (fun k => sumn M _) (fun k => a i * sumn M (fun j => v i k * v i j * d i k j)))
    by (intros; rewrite <- sumn_scal; apply sumn_ext; intros; unfold d; rewrite vs_dist_sym; ring).
  rewrite !sumn_scal, mult_INR. unfold half. field. auto.
Qed.
Lemma vrvs_arr_is : ten_is (vrvs_arr obs fct hw ow fw p) DFloat s
    (fun r => Fin (k_vr M (a r) (fun k => v r k / INR M) (e r) (d r) (vnorm D (h r) p (y r)) (fun k => vnorm D (h r) p (x r k)))).
Proof.
  pose proof v_norm_is as Tx. pose proof vo_norm_is as Ty. unfold vrvs_arr. go'.
  pose proof (INR_nz M HM). fin; try nz; try assumption.
  rewrite k_vr_unif by auto.
  rewrite (sumn_ext M (fun k => e i k * v i k * a i) (fun k => a i * (v i k * e i k))) by (intros; ring).
  rewrite (sumn_ext M (fun k => vnorm D (h i) p (x i k) * v i k) (fun k => v i k * vnorm D (h i) p (x i k))) by (intros; ring).
  rewrite (sumn_ext M (fun k => sumn M _)
    (fun k => sumn M (fun j => v i k * v i j * d i k j)))
    by (intros; apply sumn_ext; intros; unfold d; rewrite vs_dist_sym; ring).
  rewrite !sumn_scal, mult_INR. unfold half. field. auto.
Qed.
Section weighted.
Variables (wt : arr) (dw : dtype) (w : list nat -> nat -> R).
Hypothesis Hw : arr_is wt dw (M :: s) (fun i => Fin (w (tl i) (hd O i))).
Let u r k := v r k * w r k.
Lemma owvs_w_arr_is : (forall r, inb s r -> sumn M (u r) <> 0) ->
  ten_is (owvs_w_arr obs fct hw ow fw wt p) DFloat s
    (fun r => Fin (a r * k_wexact M (nw M (u r)) (e r) (d r))).
Proof.
  intros H1. unfold owvs_w_arr. go'. specialize (H1 i Hi).
  change (fun k => v i k * w i k) with (u i) in *. fin; try assumption.
  { intros E. apply Rmult_integral in E. tauto. }
  rewrite k_wexact_nw by auto.
  rewrite (sumn_ext M (fun k => e i k * v i k * a i * w i k) (fun k => a i * (u i k * e i k)))
    by (intros; unfold u; ring).
  rewrite (sumn_ext M (fun k => sumn M _) (fun k => a i * sumn M (fun j => u i k * u i j * d i k j)))
    by (intros; rewrite <- sumn_scal; apply sumn_ext; intros; unfold u, d; rewrite vs_dist_sym; ring).
  change (sumn M (fun k => v i k * w i k)) with (sumn M (u i)).
  rewrite !sumn_scal. unfold half. field. auto.
Qed.
Lemma vrvs_w_arr_is : ten_is (vrvs_w_arr obs fct hw ow fw wt p) DFloat s
    (fun r => Fin (k_vr M (a r) (u r) (e r) (d r) (vnorm D (h r) p (y r)) (fun k => vnorm D (h r) p (x r k)))).
Proof.
  pose proof v_norm_is as Tx. pose proof vo_norm_is as Ty. unfold vrvs_w_arr. go'.
  fin. unfold k_vr.
  rewrite (sumn_ext M (fun k => e i k * v i k * a i * w i k) (fun k => a i * (u i k * e i k)))
    by (intros; unfold u; ring).
  rewrite (sumn_ext M (fun k => vnorm D (h i) p (x i k) * v i k * w i k) (fun k => u i k * vnorm D (h i) p (x i k)))
    by (intros; unfold u; ring).
  rewrite (sumn_ext M (fun k => sumn M _)
    (fun k => sumn M (fun j => u i k * u i j * d i k j)))
    by (intros; apply sumn_ext; intros; unfold u, d; rewrite vs_dist_sym; ring).
  change (sumn M (fun k => v i k * w i k)) with (sumn M (u i)).
  rewrite !sumn_scal. unfold half. field.
Qed.
End weighted.
End owvr.
End arrays.
