(** Gaussian kernel scores: the estimators on kernel values. *)
From Verif Require Export M_kernels S_kernels L_energy_api.
Open Scope R_scope.

Lemma offdiag_sub M B : offdiag M B = sumn M (fun i => sumn M (B i)) - sumn M (fun i => B i i).
Proof.
  unfold offdiag. rewrite <- sumn_minus. apply sumn_ext; intros i Hi.
  enough (sumn M (B i) = sumn M (fun j => if (i =? j)%nat then 0 else B i j) + B i i) by lra.
  rewrite <- (sumn_delta M i (B i i) Hi). rewrite <- sumn_plus.
  apply sumn_ext; intros j Hj. destruct (Nat.eqb_spec i j), (Nat.eq_dec j i); subst; try lia; lra.
Qed.
(** the loop over pairs i < j *)
Lemma offdiag_tri M B : (forall i j, B i j = B j i) ->
  offdiag M B = 2 * sumn M (fun i => Rsum (map (B i) (seq (i + 1) (M - (i + 1))))).
Proof.
  intros H. unfold offdiag. rewrite (sumn_triangle M (fun i j => if (i =? j)%nat then 0 else B i j)).
  - f_equal. apply sumn_ext; intros i Hi. f_equal. apply map_ext_in. intros j Hj. apply in_seq in Hj.
    destruct (Nat.eqb_spec i j); [lia|auto].
  - intros i j. destruct (Nat.eqb_spec i j), (Nat.eqb_spec j i); auto; lia.
  - intros i. now rewrite Nat.eqb_refl.
Qed.
Lemma offdiag_ext M B B' : (forall i j, (i < M)%nat -> (j < M)%nat -> B i j = B' i j) -> offdiag M B = offdiag M B'.
Proof.
  intros H. apply sumn_ext; intros i Hi. apply sumn_ext; intros j Hj. destruct (i =? j)%nat; auto.
Qed.
Lemma offdiag_scal M c B : offdiag M (fun i j => c * B i j) = c * offdiag M B.
Proof.
  unfold offdiag. rewrite <- sumn_scal. apply sumn_ext; intros i Hi. rewrite <- sumn_scal.
  apply sumn_ext; intros j Hj. destruct (i =? j)%nat; lra.
Qed.

(** the full double loop *)
Lemma fold_square M (f : nat -> num) (h : nat -> nat -> num) :
  fold_left (fun '(e_1, e_2) i =>
      (e_1 .+ f i, fold_left (fun e_2 j => e_2 .+ h i j) (seq 0 M) e_2))
    (seq 0 M) (n0, n0)
  = (nsumn M f, nsumn M (fun i => nsumn M (h i))).
Proof.
  transitivity (fold_left (fun '(e_1, e_2) i => (e_1 .+ f i, e_2 .+ nsumn M (h i))) (seq 0 M) (n0, n0)).
  - apply fold_left_ext_in. intros [e1 e2] i Hi. now rewrite fold_left_nadd.
  - rewrite fold2. unfold n0. now rewrite !nadd_0_l.
Qed.
Lemma gk_wexact_nw M v A B : sumn M v <> 0 -> gk_wexact M (nw M v) A B =
  / 2 - sumn M (fun i => v i * A i) / sumn M v
  + / 2 * sumn M (fun i => sumn M (fun j => v i * v j * B i j)) / (sumn M v * sumn M v).
Proof.
  intros H. unfold gk_wexact, nw.
  rewrite (sumn_ext M (fun i => v i / sumn M v * A i) (fun i => v i * A i / sumn M v)) by (intros; field; auto).
  rewrite sumn_div.
  rewrite (sumn_ext M (fun i => sumn M (fun j => v i / sumn M v * (v j / sumn M v) * B i j))
    (fun i => sumn M (fun j => v i * v j * B i j) / (sumn M v * sumn M v))).
  2:{ intros i Hi. rewrite <- sumn_div. apply sumn_ext; intros; field; auto. }
  rewrite sumn_div. field. auto.
Qed.
Lemma gk_vr_unif M a v A B : INR M <> 0 -> gk_vr M a (fun i => v i / INR M) A B =
  / 2 * (a * a) - a * sumn M (fun i => v i * A i) / INR M
  + / 2 * sumn M (fun i => sumn M (fun j => v i * v j * B i j)) / (INR M * INR M).
Proof.
  intros H. unfold gk_vr.
  rewrite (sumn_ext M (fun i => v i / INR M * A i) (fun i => v i * A i / INR M)) by (intros; field; auto).
  rewrite sumn_div.
  rewrite (sumn_ext M (fun i => sumn M (fun j => v i / INR M * (v j / INR M) * B i j))
    (fun i => sumn M (fun j => v i * v j * B i j) / (INR M * INR M))).
  2:{ intros i Hi. rewrite <- sumn_div. apply sumn_ext; intros; field; auto. }
  rewrite sumn_div. field. auto.
Qed.

(** ** numba kernels *)
Section kernels.
Variables (M : nat) (ky : nat -> num) (kx : nat -> nat -> num) (A : nat -> R) (B : nat -> nat -> R).
Hypothesis HM : (0 < M)%nat.
Hypothesis Hy : forall i, (i < M)%nat -> ky i = Fin (A i).
Hypothesis Hx : forall i j, (i < M)%nat -> (j < M)%nat -> kx i j = Fin (B i j).
Hypothesis Hsym : forall i j, B i j = B j i.
Ltac nz := solve [now apply INR_nz | rewrite ?mult_INR; pose proof (INR_nz M HM); try assumption;
  try (let E := fresh in intros E; repeat (apply Rmult_integral in E; destruct E as [E|E]); lra || tauto)].

Lemma ks_nrg_k_real : ks_nrg_k M ky kx (Fin 1) = Fin (gk_exact M A B).
Proof.
  unfold ks_nrg_k. rewrite fold_square.
  rewrite (nsumn_Fin M ky A) by auto.
  rewrite (nsumn_Fin M _ (fun i => sumn M (B i))) by (intros i Hi; apply nsumn_Fin; auto).
  unfold nhalf. fin; try nz. unfold gk_exact, half. rewrite mult_INR. field. nz.
Qed.
Lemma ks_fair_k_real : (1 < M)%nat -> ks_fair_k M ky kx (Fin 1) = Fin (gk_fair M A B).
Proof.
  intros H2. pose proof (INR_ge2 M H2). unfold ks_fair_k. rewrite fold_pairs.
  rewrite (nsumn_Fin M ky A) by auto.
  erewrite (nsumn_Fin M (fun i => upper M i _)).
  2:{ intros i Hi. apply upper_Fin. intros j Hj. rewrite Hx by lia. reflexivity. }
  unfold nhalf. fin; try nz; try (rewrite mult_INR, INR_pred by lia; nz).
  unfold gk_fair. rewrite offdiag_tri by auto. rewrite mult_INR, INR_pred by lia. unfold half. field. lra.
Qed.
Lemma ks_lag_gen g : (forall i, (i < M)%nat -> (g i < M)%nat) ->
  fold_left (fun '(e_1, e_2) i => (e_1 .+ ky i, e_2 .+ kx i (g i))) (seq 0 M) (n0, n0)
  = (Fin (sumn M A), Fin (sumn M (fun i => B i (g i)))).
Proof.
  intros Hg. erewrite fold2n by (intros; reflexivity). unfold n0. rewrite !nadd_0_l. f_equal.
  - apply nsumn_Fin; auto.
  - apply nsumn_Fin. intros i Hi. apply Hx; auto.
Qed.
Lemma ks_akr_k_real : ks_akr_k M ky kx (Fin 1) = Fin (gk_lag M (lag1 M) A B).
Proof.
  unfold ks_akr_k.
  rewrite (ks_lag_gen (fun i => if (i =? 0)%nat then (M - 1)%nat else (i - 1)%nat))
    by (intros i Hi; destruct (Nat.eqb_spec i 0); lia).
  unfold nhalf. fin; try nz.
  unfold gk_lag. rewrite (sumn_ext M (fun i => B i (lag1 M i)) (fun i => B i (if (i =? 0)%nat then (M - 1)%nat else (i - 1)%nat)))
    by (intros; now rewrite lag1_if).
  unfold half. field. nz.
Qed.
Lemma ks_akrc_k_real : ks_akr_circperm_k M ky kx (Fin 1) = Fin (gk_lag M (lagc M) A B).
Proof.
  unfold ks_akr_circperm_k. cbv zeta. rewrite (ks_lag_gen (circperm_idx M))
    by (intros i Hi; rewrite lagc_gu by auto; apply Nat.mod_upper_bound; lia).
  unfold nhalf. fin; try nz. unfold gk_lag.
  rewrite (sumn_ext M (fun i => B i (lagc M i)) (fun i => B i (circperm_idx M i))) by (intros; now rewrite lagc_gu).
  unfold half. field. nz.
Qed.

Section weighted.
Variables (wn : nat -> num) (w : nat -> R).
Hypothesis Hw : forall i, (i < M)%nat -> wn i = Fin (w i).
Let W := rw M wn.
Lemma kW_ith i : (i < M)%nat -> ith W i = Fin (w i).
Proof. intros. unfold W. rewrite rw_ith; auto. Qed.
Lemma kw1 : nsumn M (fun i => ky i .* ith W i) = Fin (sumn M (fun i => w i * A i)).
Proof. apply nsumn_Fin. intros i Hi. rewrite Hy, kW_ith by auto. simpl. f_equal; ring. Qed.
Lemma ks_nrg_w_k_real : ks_nrg_w_k M ky kx (Fin 1) W = Fin (gk_wexact M w A B).
Proof.
  unfold ks_nrg_w_k.
  rewrite (fold_square M (fun i => ky i .* ith W i) (fun i j => kx i j .* ith W i .* ith W j)). rewrite kw1.
  rewrite (nsumn_Fin M _ (fun i => sumn M (fun j => w i * w j * B i j))).
  2:{ intros i Hi; apply nsumn_Fin; intros j Hj. rewrite Hx, !kW_ith by auto. simpl. f_equal; ring. }
  unfold nhalf. fin. unfold gk_wexact, half. field.
Qed.
Lemma ks_fair_w_k_real : sumn M (fun i => w i * w i) <> 1 ->
  ks_fair_w_k M ky kx (Fin 1) W = Fin (gk_wfair M w A B).
Proof.
  intros H. unfold ks_fair_w_k.
  rewrite (fold_pairs M (fun i => ky i .* ith W i) (fun i j => kx i j .* ith W i .* ith W j)). rewrite kw1.
  erewrite (nsumn_Fin M (fun i => upper M i _)).
  2:{ intros i Hi. apply upper_Fin. intros j Hj. rewrite Hx, !kW_ith by lia. simpl. reflexivity. }
  assert (E : nsum (map nsq W) = Fin (sumn M (fun i => w i * w i))).
  { unfold W, rw. rewrite map_map. apply nsumn_Fin. intros i Hi. now rewrite Hw. }
  rewrite E. unfold nhalf, n1. fin; try lra. unfold gk_wfair.
  rewrite offdiag_tri by (intros; rewrite (Hsym i j); ring).
  rewrite (sumn_ext M (fun k => Rsum (map (fun j => B k j * w k * w j) _)) (fun i => Rsum (map (fun j => w i * w j * B i j) (seq (i + 1) (M - (i + 1)))))).
  2:{ intros i Hi. apply Rsum_map_ext; intros j _. ring. }
  unfold half. field. lra.
Qed.
Lemma ks_lag_w_gen g : (forall i, (i < M)%nat -> (g i < M)%nat) ->
  fold_left (fun '(e_1, e_2) i => (e_1 .+ ky i .* ith W i, e_2 .+ kx i (g i) .* ith W i)) (seq 0 M) (n0, n0)
  = (Fin (sumn M (fun i => w i * A i)), Fin (sumn M (fun i => w i * B i (g i)))).
Proof.
  intros Hg. erewrite fold2n by (intros; reflexivity). unfold n0. rewrite !nadd_0_l. f_equal.
  - apply kw1.
  - apply nsumn_Fin. intros i Hi. rewrite Hx, kW_ith by auto. simpl. f_equal; ring.
Qed.
Lemma ks_akr_w_k_real : ks_akr_w_k M ky kx (Fin 1) W = Fin (gk_wlag M (lag1 M) w A B).
Proof.
  unfold ks_akr_w_k.
  rewrite (ks_lag_w_gen (fun i => if (i =? 0)%nat then (M - 1)%nat else (i - 1)%nat))
    by (intros i Hi; destruct (Nat.eqb_spec i 0); lia).
  unfold nhalf. fin.
  unfold gk_wlag. rewrite (sumn_ext M (fun i => w i * B i (lag1 M i))
     (fun i => w i * B i (if (i =? 0)%nat then (M - 1)%nat else (i - 1)%nat)))
    by (intros; now rewrite lag1_if).
  unfold half. field.
Qed.
Lemma ks_akrc_w_k_real : ks_akr_circperm_w_k M ky kx (Fin 1) W = Fin (gk_wlag M (lagc M) w A B).
Proof.
  unfold ks_akr_circperm_w_k. cbv zeta. rewrite (ks_lag_w_gen (circperm_idx M))
    by (intros i Hi; rewrite lagc_gu by auto; apply Nat.mod_upper_bound; lia).
  unfold nhalf. fin. unfold gk_wlag.
  rewrite (sumn_ext M (fun i => w i * B i (lagc M i)) (fun i => w i * B i (circperm_idx M i))) by (intros; now rewrite lagc_gu).
  unfold half. field.
Qed.
Lemma kmean_W : nmean W = Fin (sumn M w / INR M).
Proof.
  unfold nmean, W. rewrite rw_length. unfold rw.
  change (nsum (map wn (seq 0 M))) with (nsumn M wn). fin. nz. reflexivity.
Qed.
Lemma owks_k_real a : sumn M w <> 0 -> owks_k M ky kx (Fin 1) (Fin a) W = Fin (a * gk_wexact M (nw M w) A B).
Proof.
  intros H. unfold owks_k.
  rewrite (fold_square M (fun i => ky i .* ith W i .* Fin a) (fun i j => kx i j .* ith W i .* ith W j .* Fin a)).
  rewrite kmean_W.
  rewrite (nsumn_Fin M _ (fun i => a * (w i * A i)))
    by (intros i Hi; rewrite Hy, kW_ith by auto; simpl; f_equal; ring).
  rewrite (nsumn_Fin M _ (fun i => a * sumn M (fun j => w i * w j * B i j))).
  2:{ intros i Hi. rewrite <- sumn_scal. apply nsumn_Fin; intros j Hj. rewrite Hx, !kW_ith by auto. simpl. f_equal; ring. }
  pose proof (INR_nz M HM). unfold nhalf. fin.
  { intros E. apply Rmult_integral in E. destruct E as [E|E]; [auto|].
    unfold Rdiv in E. apply Rmult_integral in E. destruct E; [auto|].
    now apply Rinv_neq_0_compat in H1. }
  { rewrite mult_INR. intros E. unfold Rdiv in E.
    repeat (apply Rmult_integral in E; destruct E as [E|E]); auto; now apply Rinv_neq_0_compat in E. }
  rewrite gk_wexact_nw by auto. rewrite !sumn_scal, mult_INR. unfold half. field. auto.
Qed.
Lemma vrks_k_real a : vrks_k M ky kx (Fin 1) (Fin a) W = Fin (gk_vr M a (fun i => w i / INR M) A B).
Proof.
  unfold vrks_k.
  rewrite (fold_square M (fun i => ky i .* ith W i .* Fin a) (fun i j => kx i j .* ith W i .* ith W j)).
  rewrite (nsumn_Fin M _ (fun i => a * (w i * A i)))
    by (intros i Hi; rewrite Hy, kW_ith by auto; simpl; f_equal; ring).
  rewrite (nsumn_Fin M _ (fun i => sumn M (fun j => w i * w j * B i j))).
  2:{ intros i Hi. apply nsumn_Fin; intros j Hj. rewrite Hx, !kW_ith by auto. simpl. f_equal; ring. }
  pose proof (INR_nz M HM). unfold nhalf. fin; try nz.
  rewrite gk_vr_unif by auto. rewrite !sumn_scal, mult_INR. unfold half. field. auto.
Qed.
Section owvr.
Variables (vn : nat -> num) (v : nat -> R).
Hypothesis Hv : forall i, (i < M)%nat -> vn i = Fin (v i).
Let V := rw M vn.
Lemma kV_ith i : (i < M)%nat -> ith V i = Fin (v i).
Proof. intros. unfold V. rewrite rw_ith; auto. Qed.
(** here [V] holds the weights of the members (fw) and [W] their probabilities *)
Let u i := v i * w i.
Lemma owks_w_k_real a : sumn M u <> 0 -> owks_w_k M ky kx (Fin 1) (Fin a) V W = Fin (a * gk_wexact M (nw M u) A B).
Proof.
  intros H. unfold owks_w_k.
  rewrite (fold_square M (fun i => ky i .* ith V i .* Fin a .* ith W i)
    (fun i j => kx i j .* ith V i .* ith V j .* Fin a .* ith W i .* ith W j)).
  rewrite (nsumn_Fin M _ (fun i => a * (u i * A i)))
    by (intros i Hi; rewrite Hy, kW_ith, kV_ith by auto; unfold u; simpl; f_equal; ring).
  rewrite (nsumn_Fin M _ (fun i => a * sumn M (fun j => u i * u j * B i j))).
  2:{ intros i Hi. rewrite <- sumn_scal. apply nsumn_Fin; intros j Hj. rewrite Hx, !kW_ith, !kV_ith by auto. unfold u; simpl. f_equal; ring. }
  assert (E : nsum (map (fun '(f, v) => f .* v) (combine V W)) = Fin (sumn M u)).
  { unfold V, W, rw. rewrite combine_rw, map_map. apply nsumn_Fin. intros i Hi. now rewrite Hv, Hw. }
  rewrite E. unfold nhalf. fin; auto.
  rewrite gk_wexact_nw by auto. rewrite !sumn_scal. unfold half. field. auto.
Qed.
Lemma vrks_w_k_real a : vrks_w_k M ky kx (Fin 1) (Fin a) V W = Fin (gk_vr M a u A B).
Proof.
  unfold vrks_w_k.
  rewrite (fold_square M (fun i => ky i .* ith V i .* Fin a .* ith W i)
    (fun i j => kx i j .* ith V i .* ith V j .* ith W i .* ith W j)).
  rewrite (nsumn_Fin M _ (fun i => a * (u i * A i)))
    by (intros i Hi; rewrite Hy, kW_ith, kV_ith by auto; unfold u; simpl; f_equal; ring).
  rewrite (nsumn_Fin M _ (fun i => sumn M (fun j => u i * u j * B i j))).
  2:{ intros i Hi. apply nsumn_Fin; intros j Hj. rewrite Hx, !kW_ith, !kV_ith by auto. unfold u; simpl. f_equal; ring. }
  unfold nhalf. fin. unfold gk_vr. rewrite !sumn_scal. unfold half. field.
Qed.
End owvr.
End weighted.
End kernels.

(** ** array functions *)
Section arrays.
Variables (s : list nat) (M : nat) (kobs kfct kself : tensor) (A : list nat -> nat -> R) (B : list nat -> nat -> nat -> R).
Hypothesis HM : (0 < M)%nat.
Hypothesis HO : ten_is kobs DFloat (M :: s) (fun i => Fin (A (tl i) (hd O i))).
Hypothesis HF : ten_is kfct DFloat (M :: M :: s) (fun i => Fin (B (tl (tl i)) (hd O i) (hd O (tl i)))).
Hypothesis HS : ten_is kself DFloat s (fun _ => Fin 1).
Hypothesis Hsym : forall r i j, B r i j = B r j i.
Hypothesis Hdiag : forall r i, B r i i = 1.
Ltac nz := solve [now apply INR_nz | rewrite ?mult_INR; pose proof (INR_nz M HM); try assumption;
  try (let E := fresh in intros E; repeat (apply Rmult_integral in E; destruct E as [E|E]); lra || tauto)].
Ltac go := cbv zeta; eapply ten_conv; [ten|dtf|]; intros i Hi; idx; bidx_simp; cbn [hd tl].
Lemma Bsum r : sumn M (fun i => sumn M (fun j => B r j i)) = sumn M (fun i => sumn M (B r i)).
Proof. apply sumn_ext; intros; apply sumn_ext; intros; apply Hsym. Qed.

Lemma ks_nrg_arr_is : ten_is (ks_nrg_arr M kobs kfct kself) DFloat s (fun r => Fin (gk_exact M (A r) (B r))).
Proof.
  unfold ks_nrg_arr. go. fin; try nz. unfold gk_exact. rewrite Bsum, mult_INR. unfold half. field. nz.
Qed.
Lemma ks_fair_arr_is kdiag : ten_is kdiag DFloat (M :: s) (fun _ => Fin 1) -> (1 < M)%nat ->
  ten_is (ks_fair_arr M kobs kfct kdiag kself) DFloat s (fun r => Fin (gk_fair M (A r) (B r))).
Proof.
  intros HK H2. pose proof (INR_ge2 M H2). unfold ks_fair_arr. go.
  fin; try nz; try (rewrite mult_INR, INR_pred by lia; nz).
  unfold gk_fair. rewrite offdiag_sub, Bsum. rewrite (sumn_ext M (fun k => B i k k) (fun _ => 1)) by auto.
  rewrite mult_INR, INR_pred by lia. unfold half. field. lra.
Qed.
Lemma ks_lag_arr_is klag g : ten_is klag DFloat (M :: s) (fun i => Fin (B (tl i) (hd O i) (g (hd O i)))) ->
  ten_is (ks_lag_arr M kobs klag kself) DFloat s (fun r => Fin (gk_lag M g (A r) (B r))).
Proof.
  intros HK. unfold ks_lag_arr. go. fin; try nz. unfold gk_lag, half. field. nz.
Qed.

Section weighted.
Variables (wt : arr) (dw : dtype) (w : list nat -> nat -> R).
Hypothesis Hw : arr_is wt dw (M :: s) (fun i => Fin (w (tl i) (hd O i))).
Lemma kesum r : sumn M (fun k => A r k * w r k) = sumn M (fun k => w r k * A r k).
Proof. apply sumn_ext; intros; ring. Qed.
Lemma kwsum r : sumn M (fun k => sumn M (fun j => B r j k * w r k * w r j)) =
  sumn M (fun i => sumn M (fun j => w r i * w r j * B r i j)).
Proof. apply sumn_ext; intros; apply sumn_ext; intros. rewrite Hsym. ring. Qed.
Lemma ks_nrg_w_arr_is : ten_is (ks_nrg_w_arr kobs kfct kself wt) DFloat s (fun r => Fin (gk_wexact M (w r) (A r) (B r))).
Proof.
  unfold ks_nrg_w_arr. go. fin. unfold gk_wexact. rewrite kesum, kwsum. unfold half. field.
Qed.
(** the diagonal is not removed: the value of the fair estimator plus a positive term *)
Lemma ks_fair_w_arr_is : (forall r, inb s r -> sumn M (fun i => w r i * w r i) <> 1) ->
  ten_is (ks_fair_w_arr kobs kfct kself wt) DFloat s
    (fun r => Fin (gk_wfair M (w r) (A r) (B r)
      + sumn M (fun i => w r i * w r i) / (2 * (1 - sumn M (fun i => w r i * w r i))))).
Proof.
  intros H1. unfold ks_fair_w_arr. go. specialize (H1 i Hi). unfold n1. fin; [simpl; lra|].
  unfold gk_wfair. rewrite kesum, kwsum, offdiag_sub.
  rewrite (sumn_ext M (fun k => w i k * w i k * B i k k) (fun k => w i k * w i k)) by (intros; rewrite Hdiag; ring).
  unfold half. simpl INR. field. lra.
Qed.
Lemma ks_lag_w_arr_is klag g : ten_is klag DFloat (M :: s) (fun i => Fin (B (tl i) (hd O i) (g (hd O i)))) ->
  ten_is (ks_lag_w_arr kobs klag kself wt) DFloat s (fun r => Fin (gk_wlag M g (w r) (A r) (B r))).
Proof.
  intros HK. unfold ks_lag_w_arr. go. fin; try nz. unfold gk_wlag. rewrite kesum.
  rewrite (sumn_ext M (fun k => B i k (g k) * w i k) (fun k => w i k * B i k (g k))) by (intros; ring).
  unfold half. field.
Qed.
End weighted.
End arrays.

(** ** the kernels *)
Lemma gauss1_sym u v : gauss1 u v = gauss1 v u.
Proof. unfold gauss1. f_equal. field. Qed.
Lemma gauss1_refl u : gauss1 u u = 1.
Proof. unfold gauss1. replace (- (u - u) ^ 2 / 2) with 0 by field. apply exp_0. Qed.
Lemma gaussD_sym D u v : gaussD D u v = gaussD D v u.
Proof. unfold gaussD. do 3 f_equal. apply sumn_ext; intros; ring. Qed.
Lemma gaussD_refl D u : gaussD D u u = 1.
Proof.
  unfold gaussD. rewrite (sumn_ext D _ (fun _ => 0)) by (intros; ring). rewrite sumn_zero by auto.
  replace (- 0 / 2) with 0 by field. apply exp_0.
Qed.
Lemma gkn_uv_real u v : gkn_uv (Fin u) (Fin v) = Fin (gauss1 u v).
Proof. unfold gkn_uv. simpl. unfold gauss1, half. do 2 f_equal. field. Qed.
Lemma eucl_sq D u v : eucl D u v * eucl D u v = sumn D (fun k => (u k - v k) ^ 2).
Proof. unfold eucl. apply sqrt_sqrt. apply sumn_nonneg. intros; apply pow2_ge_0. Qed.
Lemma gkn_mv_real D u v f g : (forall k, (k < D)%nat -> u k = Fin (f k)) -> (forall k, (k < D)%nat -> v k = Fin (g k)) ->
  gkn_mv (rw D u) (rw D v) = Fin (gaussD D f g).
Proof.
  intros Hu Hv. unfold gkn_mv. rewrite (nnorm_vsub D u v f g Hu Hv). simpl. rewrite eucl_sq.
  unfold gaussD, half. do 2 f_equal. field.
Qed.

Section kern_uv.
Variables (s : list nat) (M : nat) (obs fct : arr) (d1 d2 : dtype) (y : list nat -> R) (x : list nat -> nat -> R).
Hypothesis HM : (0 < M)%nat.
Hypothesis Ho : arr_is obs d1 s (fun r => Fin (y r)).
Hypothesis Hf : arr_is fct d2 (M :: s) (fun i => Fin (x (tl i) (hd O i))).
Lemma lastdim_fct : lastdim fct = M.
Proof. destruct Hf as (_ & E & _). unfold lastdim. now rewrite E. Qed.
Ltac gk := eapply ten_conv; [ten|dtf|]; intros i Hi; idx; bidx_simp; cbn [hd tl]; fin;
  unfold kobs1, kmem1, gauss1, half; f_equal; field.
Lemma kobs_uv_is : ten_is (kobs_uv obs fct) DFloat (M :: s) (fun i => Fin (kobs1 (y (tl i)) (x (tl i)) (hd O i))).
Proof. unfold kobs_uv, gk_uv. gk. Qed.
Lemma kfct_uv_is : ten_is (kfct_uv fct) DFloat (M :: M :: s)
  (fun i => Fin (kmem1 (x (tl (tl i))) (hd O i) (hd O (tl i)))).
Proof. unfold kfct_uv, gk_uv. gk. Qed.
Lemma klag_uv_is n g : (forall k, (k < M)%nat -> ((k + M - n mod M) mod M)%nat = g k) ->
  ten_is (klag_uv n fct) DFloat (M :: s) (fun i => Fin (kmem1 (x (tl i)) (hd O i) (g (hd O i)))).
Proof.
  intros Hg. unfold klag_uv, gk_uv. eapply ten_conv; [ten|dtf|]; intros i Hi; idx; bidx_simp; cbn [hd tl]; fin.
  rewrite Hg by auto. unfold kmem1, gauss1, half; f_equal; field.
Qed.
Lemma kself_obs_uv_is : ten_is (kself_uv obs) DFloat s (fun _ => Fin 1).
Proof.
  unfold kself_uv, gk_uv. eapply ten_conv; [ten|dtf|]; intros i Hi; idx; bidx_simp; cbn [hd tl]; fin.
  rewrite <- exp_0. f_equal. ring.
Qed.
Lemma kself_fct_uv_is : ten_is (kself_uv fct) DFloat (M :: s) (fun _ => Fin 1).
Proof.
  unfold kself_uv, gk_uv. eapply ten_conv; [ten|dtf|]; intros i Hi; idx; bidx_simp; cbn [hd tl]; fin.
  rewrite <- exp_0. f_equal. ring.
Qed.
End kern_uv.

Section kern_mv.
Variables (s : list nat) (D M : nat) (obs fct : arr) (d1 d2 : dtype).
Variables (y : list nat -> nat -> R) (x : list nat -> nat -> nat -> R).
Hypothesis HM : (0 < M)%nat.
Hypothesis Ho : arr_is obs d1 (D :: s) (fun i => Fin (y (tl i) (hd O i))).
Hypothesis Hf : arr_is fct d2 (D :: M :: s) (fun i => Fin (x (tl (tl i)) (hd O (tl i)) (hd O i))).
Lemma fv_gauss f u v : (forall j, (j < D)%nat -> f j = Fin (u j - v j)) ->
  nexp (Fin (- half) .* nsq (nsqrt (nsumn D (fun j => nsq (f j))))) = Fin (gaussD D u v).
Proof.
  intros H. rewrite (fv_norm D f (fun j => u j - v j)) by auto. rewrite sq_pow2.
  change (sqrt _) with (eucl D u v). simpl. rewrite eucl_sq. unfold gaussD, half. do 2 f_equal. field.
Qed.
Ltac gk := eapply ten_conv; [ten|dtf|]; intros i Hi; idx; cbn [hd tl];
  rewrite (fv_gauss _ _ _ (fun j Hj => eq_refl)).
Lemma kobs_mv_is : ten_is (kobs_mv obs fct) DFloat (M :: s) (fun i => Fin (kobsD D (y (tl i)) (x (tl i)) (hd O i))).
Proof.
  unfold kobs_mv, gk_mv. eapply ten_conv; [ten|dtf|]; intros i Hi; idx; cbn [hd tl].
  unfold kobsD. rewrite gaussD_sym. apply fv_gauss. intros j Hj. bidx_simp. reflexivity.
Qed.
Lemma kfct_mv_is : ten_is (kfct_mv fct) DFloat (M :: M :: s)
  (fun i => Fin (kmemD D (x (tl (tl i))) (hd O i) (hd O (tl i)))).
Proof.
  unfold kfct_mv, gk_mv. eapply ten_conv; [ten|dtf|]; intros i Hi; idx; cbn [hd tl].
  unfold kmemD. apply fv_gauss. intros j Hj. bidx_simp. reflexivity.
Qed.
Lemma klag_mv_is n g : (forall k, (k < M)%nat -> ((k + M - n mod M) mod M)%nat = g k) ->
  ten_is (klag_mv n fct) DFloat (M :: s) (fun i => Fin (kmemD D (x (tl i)) (hd O i) (g (hd O i)))).
Proof.
  intros Hg. unfold klag_mv, gk_mv. eapply ten_conv; [ten|dtf|]; intros i Hi; idx; cbn [hd tl].
  unfold kmemD. apply fv_gauss. intros j Hj. bidx_simp. rewrite Hg by auto. reflexivity.
Qed.
Lemma kself_obs_mv_is : ten_is (kself_mv obs) DFloat s (fun _ => Fin 1).
Proof.
  unfold kself_mv, gk_mv. eapply ten_conv; [ten|dtf|]; intros i Hi; idx; cbn [hd tl].
  rewrite <- (gaussD_refl D (y i)). apply fv_gauss. intros j Hj. bidx_simp. reflexivity.
Qed.
Lemma kself_fct_mv_is : ten_is (kself_mv fct) DFloat (M :: s) (fun _ => Fin 1).
Proof.
  unfold kself_mv, gk_mv. eapply ten_conv; [ten|dtf|]; intros i Hi; idx; cbn [hd tl].
  rewrite <- (gaussD_refl D (x r k)). apply fv_gauss. intros j Hj. bidx_simp. reflexivity.
Qed.
End kern_mv.

(** ** outcome-weighted and vertically re-scaled array functions *)
Section owvr.
Variables (s : list nat) (M : nat) (A : list nat -> nat -> R) (B : list nat -> nat -> nat -> R).
Hypothesis HM : (0 < M)%nat.
Hypothesis Hsym : forall r i j, B r i j = B r j i.
Variables (ow fw : arr) (do df : dtype) (a : list nat -> R) (v : list nat -> nat -> R).
Hypothesis How : arr_is ow do s (fun r => Fin (a r)).
Hypothesis Hfw : arr_is fw df (M :: s) (fun i => Fin (v (tl i) (hd O i))).
Ltac nz := solve [now apply INR_nz | rewrite ?mult_INR; pose proof (INR_nz M HM); try assumption;
  try (let E := fresh in intros E; repeat (apply Rmult_integral in E; destruct E as [E|E]); lra || tauto)].
Ltac go := cbv zeta; eapply ten_conv; [ten|dtf|]; intros i Hi; idx; bidx_simp; cbn [hd tl].
Lemma kwbar_nz r : sumn M (v r) <> 0 -> sumn M (v r) / INR M <> 0.
Proof.
  intros H E. unfold Rdiv in E. apply Rmult_integral in E. destruct E; [auto|].
  pose proof (INR_nz M HM). now apply Rinv_neq_0_compat in H1.
Qed.
Variables (obs fct : arr).
Section uv.
Hypothesis HO : ten_is (kobs_uv obs fct) DFloat (M :: s) (fun i => Fin (A (tl i) (hd O i))).
Hypothesis HF : ten_is (kfct_uv fct) DFloat (M :: M :: s) (fun i => Fin (B (tl (tl i)) (hd O i) (hd O (tl i)))).
Hypothesis HS : ten_is (kself_uv obs) DFloat s (fun _ => Fin 1).
Hypothesis HL : lastdim fct = M.
Lemma owks_uv_arr_is : (forall r, inb s r -> sumn M (v r) <> 0) ->
  ten_is (owks_uv_arr obs fct ow fw) DFloat s (fun r => Fin (a r * gk_wexact M (nw M (v r)) (A r) (B r))).
Proof.
  intros H1. unfold owks_uv_arr. rewrite HL. go. specialize (H1 i Hi). pose proof (kwbar_nz i H1).
  pose proof (INR_nz M HM). fin; try nz; try assumption.
  { intros E. apply Rmult_integral in E. tauto. }
  { rewrite mult_INR. intros E. apply Rmult_integral in E as [E|E]; apply Rmult_integral in E as [E|E]; tauto. }
  rewrite gk_wexact_nw by auto.
  rewrite (sumn_ext M (fun k => A i k * v i k) (fun k => v i k * A i k)) by (intros; ring).
  rewrite (sumn_ext M (fun k => sumn M (fun k0 => B i k0 k * v i k * v i k0))
    (fun k => sumn M (fun j => v i k * v i j * B i k j)))
    by (intros; apply sumn_ext; intros; rewrite Hsym; ring).
  rewrite mult_INR. unfold half. field. auto.
Qed.
Lemma vrks_uv_arr_is :
  ten_is (vrks_uv_arr obs fct ow fw) DFloat s (fun r => Fin (gk_vr M (a r) (fun i => v r i / INR M) (A r) (B r))).
Proof.
  unfold vrks_uv_arr. rewrite HL. go. pose proof (INR_nz M HM). fin; try nz; try assumption.
  rewrite gk_vr_unif by auto.
  rewrite (sumn_ext M (fun k => A i k * v i k) (fun k => v i k * A i k)) by (intros; ring).
  rewrite (sumn_ext M (fun k => sumn M (fun k0 => B i k0 k * (v i k * v i k0)))
    (fun k => sumn M (fun j => v i k * v i j * B i k j)))
    by (intros; apply sumn_ext; intros; rewrite Hsym; ring).
  rewrite mult_INR. unfold half. field. auto.
Qed.
End uv.
Section mv.
Hypothesis HO : ten_is (kobs_mv obs fct) DFloat (M :: s) (fun i => Fin (A (tl i) (hd O i))).
Hypothesis HF : ten_is (kfct_mv fct) DFloat (M :: M :: s) (fun i => Fin (B (tl (tl i)) (hd O i) (hd O (tl i)))).
Hypothesis HS : ten_is (kself_mv obs) DFloat s (fun _ => Fin 1).
Hypothesis HL : dim2 fct = M.
Lemma owks_mv_arr_is : (forall r, inb s r -> sumn M (v r) <> 0) ->
  ten_is (owks_mv_arr obs fct ow fw) DFloat s (fun r => Fin (a r * gk_wexact M (nw M (v r)) (A r) (B r))).
Proof.
  intros H1. unfold owks_mv_arr. rewrite HL. go. specialize (H1 i Hi). pose proof (kwbar_nz i H1).
  pose proof (INR_nz M HM). fin; try nz; try assumption.
  { intros E. apply Rmult_integral in E. tauto. }
  { rewrite mult_INR. intros E. apply Rmult_integral in E as [E|E]; apply Rmult_integral in E as [E|E]; tauto. }
  rewrite gk_wexact_nw by auto.
  rewrite (sumn_ext M (fun k => A i k * v i k * a i) (fun k => a i * (v i k * A i k))) by (intros; ring).
  rewrite (sumn_ext M (fun k => sumn M (fun k0 => B i k0 k * (v i k * v i k0 * a i)))
    (fun k => a i * sumn M (fun j => v i k * v i j * B i k j)))
    by (intros; rewrite <- sumn_scal; apply sumn_ext; intros; rewrite Hsym; ring).
  rewrite !sumn_scal, mult_INR. unfold half. field. auto.
Qed.
Lemma vrks_mv_arr_is :
  ten_is (vrks_mv_arr obs fct ow fw) DFloat s (fun r => Fin (gk_vr M (a r) (fun i => v r i / INR M) (A r) (B r))).
Proof.
  unfold vrks_mv_arr. rewrite HL. go. pose proof (INR_nz M HM). fin; try nz; try assumption.
  rewrite gk_vr_unif by auto.
  rewrite (sumn_ext M (fun k => A i k * v i k * a i) (fun k => a i * (v i k * A i k))) by (intros; ring).
  rewrite (sumn_ext M (fun k => sumn M (fun k0 => B i k0 k * (v i k * v i k0)))
    (fun k => sumn M (fun j => v i k * v i j * B i k j)))
    by (intros; apply sumn_ext; intros; rewrite Hsym; ring).
  rewrite !sumn_scal, mult_INR. unfold half. field. auto.
Qed.
End mv.
Section weighted.
Variables (wt : arr) (w : list nat -> nat -> R).
Hypothesis Hw : arr_is wt DFloat (M :: s) (fun i => Fin (w (tl i) (hd O i))).
Let u r k := v r k * w r k.
Section uv.
Hypothesis HO : ten_is (kobs_uv obs fct) DFloat (M :: s) (fun i => Fin (A (tl i) (hd O i))).
Hypothesis HF : ten_is (kfct_uv fct) DFloat (M :: M :: s) (fun i => Fin (B (tl (tl i)) (hd O i) (hd O (tl i)))).
Hypothesis HS : ten_is (kself_uv obs) DFloat s (fun _ => Fin 1).
Lemma owks_uv_w_arr_is : (forall r, inb s r -> sumn M (u r) <> 0) ->
  ten_is (owks_uv_w_arr obs fct ow fw wt) DFloat s (fun r => Fin (a r * gk_wexact M (nw M (u r)) (A r) (B r))).
Proof.
  intros H1. unfold owks_uv_w_arr. go. specialize (H1 i Hi).
  fin; rewrite ?(sumn_ext M (fun k => w i k * v i k) (u i)) by (intros; unfold u; ring); try assumption.
  { intros E. apply Rmult_integral in E. tauto. }
  rewrite gk_wexact_nw by auto.
  rewrite (sumn_ext M (fun k => w i k * A i k * v i k) (fun k => u i k * A i k)) by (intros; unfold u; ring).
  rewrite (sumn_ext M (fun k => sumn M (fun k0 => w i k * w i k0 * B i k0 k * v i k * v i k0))
    (fun k => sumn M (fun j => u i k * u i j * B i k j)))
    by (intros; apply sumn_ext; intros; rewrite Hsym; unfold u; ring).
  unfold half. field. auto.
Qed.
Lemma vrks_uv_w_arr_is :
  ten_is (vrks_uv_w_arr obs fct ow fw wt) DFloat s (fun r => Fin (gk_vr M (a r) (u r) (A r) (B r))).
Proof.
  unfold vrks_uv_w_arr. go. fin. unfold gk_vr.
  rewrite (sumn_ext M (fun k => w i k * A i k * v i k) (fun k => u i k * A i k)) by (intros; unfold u; ring).
  rewrite (sumn_ext M (fun k => sumn M (fun k0 => w i k * w i k0 * B i k0 k * v i k * v i k0))
    (fun k => sumn M (fun j => u i k * u i j * B i k j)))
    by (intros; apply sumn_ext; intros; rewrite Hsym; unfold u; ring).
  unfold half. field.
Qed.
End uv.
Section mv.
Hypothesis HO : ten_is (kobs_mv obs fct) DFloat (M :: s) (fun i => Fin (A (tl i) (hd O i))).
Hypothesis HF : ten_is (kfct_mv fct) DFloat (M :: M :: s) (fun i => Fin (B (tl (tl i)) (hd O i) (hd O (tl i)))).
Hypothesis HS : ten_is (kself_mv obs) DFloat s (fun _ => Fin 1).
Lemma owks_mv_w_arr_is : (forall r, inb s r -> sumn M (u r) <> 0) ->
  ten_is (owks_mv_w_arr obs fct ow fw wt) DFloat s (fun r => Fin (a r * gk_wexact M (nw M (u r)) (A r) (B r))).
Proof.
  intros H1. unfold owks_mv_w_arr. go. specialize (H1 i Hi).
  change (fun k => v i k * w i k) with (u i) in *. fin; try assumption.
  { intros E. apply Rmult_integral in E. tauto. }
  rewrite gk_wexact_nw by auto.
  rewrite (sumn_ext M (fun k => A i k * v i k * a i * w i k) (fun k => a i * (u i k * A i k))) by (intros; unfold u; ring).
  rewrite (sumn_ext M (fun k => sumn M (fun k0 => B i k0 k * (v i k * v i k0 * a i) * w i k * w i k0))
    (fun k => a i * sumn M (fun j => u i k * u i j * B i k j)))
    by (intros; rewrite <- sumn_scal; apply sumn_ext; intros; rewrite Hsym; unfold u; ring).
  change (sumn M (fun k => v i k * w i k)) with (sumn M (u i)).
  rewrite !sumn_scal. unfold half. field. auto.
Qed.
Lemma vrks_mv_w_arr_is :
  ten_is (vrks_mv_w_arr obs fct ow fw wt) DFloat s (fun r => Fin (gk_vr M (a r) (u r) (A r) (B r))).
Proof.
  unfold vrks_mv_w_arr. go. fin. unfold gk_vr.
  rewrite (sumn_ext M (fun k => A i k * v i k * a i * w i k) (fun k => a i * (u i k * A i k))) by (intros; unfold u; ring).
  rewrite (sumn_ext M (fun k => sumn M (fun k0 => B i k0 k * (v i k * v i k0) * w i k * w i k0))
    (fun k => sumn M (fun j => u i k * u i j * B i k j)))
    by (intros; apply sumn_ext; intros; rewrite Hsym; unfold u; ring).
  rewrite sumn_scal. unfold half. field.
Qed.
End mv.
End weighted.
End owvr.
