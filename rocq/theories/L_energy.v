(** Values of the energy score functions on real data. *)
From Verif Require Export M_energy L_mv.
Open Scope R_scope.

(** ** double sums over pairs *)
Lemma tri_gen M (d : nat -> nat -> R) : (forall i j, d i j = d j i) -> (forall i, d i i = 0) ->
  sumn M (fun i => Rsum (map (fun j => 2 * d i j) (seq (i + 1) (M - (i + 1))))) =
  sumn M (fun i => sumn M (d i)).
Proof.
  intros Hs Hz. change (sumn M (fun i => sumn M (d i))) with (sumn M (fun i => sumn M (fun j => d i j))).
  rewrite (sumn_triangle M d Hs Hz), <- sumn_scal. apply sumn_ext; intros i Hi.
  now rewrite <- Rsum_map_scal.
Qed.
Lemma es_dist_sym D x i j : es_dist D x i j = es_dist D x j i. Proof. apply eucl_sym. Qed.
Lemma es_dist_refl D x i : es_dist D x i i = 0. Proof. apply eucl_refl. Qed.

Lemma k_wexact_nw M v e d : sumn M v <> 0 -> k_wexact M (nw M v) e d =
  sumn M (fun i => v i * e i) / sumn M v
  - / 2 * (sumn M (fun i => sumn M (fun j => v i * v j * d i j)) / (sumn M v * sumn M v)).
Proof.
  intros H. unfold k_wexact, nw.
  rewrite (sumn_ext M (fun i => v i / sumn M v * e i) (fun i => / sumn M v * (v i * e i)))
    by (intros; field; auto).
  rewrite (sumn_ext M (fun i => sumn M (fun j => v i / sumn M v * (v j / sumn M v) * d i j))
    (fun i => / (sumn M v * sumn M v) * sumn M (fun j => v i * v j * d i j)))
    by (intros; rewrite <- sumn_scal; apply sumn_ext; intros; field; auto).
  rewrite !sumn_scal. field. auto.
Qed.
Lemma k_vr_unif M a v e d ny nx : INR M <> 0 -> k_vr M a (fun i => v i / INR M) e d ny nx =
  a * (sumn M (fun i => v i * e i) / INR M)
  - sumn M (fun i => sumn M (fun j => v i * v j * d i j)) / (2 * INR M * INR M)
  + (sumn M (fun i => v i * nx i) / INR M - a * ny) * (sumn M v / INR M - a).
Proof.
  intros H. unfold k_vr.
  rewrite (sumn_ext M (fun i => v i / INR M * e i) (fun i => / INR M * (v i * e i))) by (intros; field; auto).
  rewrite (sumn_ext M (fun i => v i / INR M * nx i) (fun i => / INR M * (v i * nx i))) by (intros; field; auto).
  rewrite (sumn_ext M (fun i => sumn M (fun j => v i / INR M * (v j / INR M) * d i j))
    (fun i => / (INR M * INR M) * sumn M (fun j => v i * v j * d i j)))
    by (intros; rewrite <- sumn_scal; apply sumn_ext; intros; field; auto).
  rewrite !sumn_scal. rewrite sumn_div. field. auto.
Qed.

(** ** numba kernels, any distance values *)
Section kernels.
Variables (M D : nat) (yn : nat -> num) (xn : nat -> nat -> num) (y : nat -> R) (x : nat -> nat -> R).
Hypothesis HM : (0 < M)%nat.
Hypothesis Hy : forall k, (k < D)%nat -> yn k = Fin (y k).
Hypothesis Hx : forall i k, (i < M)%nat -> (k < D)%nat -> xn i k = Fin (x i k).
Let Y := rw D yn.
Let F := mrw M D xn.
Let e := es_err D y x.
Let d := es_dist D x.
Lemma en_is i : (i < M)%nat -> nnorm (vsub (ithv F i) Y) = Fin (e i).
Proof. intros H. unfold F, Y. rewrite mrw_ith by auto. apply nnorm_vsub; auto. Qed.
Lemma dn_is i j : (i < M)%nat -> (j < M)%nat -> nnorm (vsub (ithv F i) (ithv F j)) = Fin (d i j).
Proof. intros H H'. unfold F. rewrite !mrw_ith by auto. apply nnorm_vsub; auto. Qed.
Lemma xn_is i : (i < M)%nat -> nnorm (ithv F i) = Fin (enorm D (x i)).
Proof. intros H. unfold F. rewrite mrw_ith by auto. apply nnorm_real; auto. Qed.
Lemma yn_is : nnorm Y = Fin (enorm D y).
Proof. apply nnorm_real; auto. Qed.
Lemma F_len : length F = M. Proof. apply mrw_length. Qed.

Ltac nz := solve [now apply INR_nz | rewrite ?mult_INR; pose proof (INR_nz M HM); try assumption;
  try (let E := fresh in intros E; repeat (apply Rmult_integral in E; destruct E as [E|E]); lra || tauto)].

Lemma es_e1e2_real : es_e1e2 Y F = (Fin (sumn M e), Fin (sumn M (fun i => sumn M (d i)))).
Proof.
  unfold es_e1e2. rewrite F_len.
  rewrite (fold_pairs M (fun i => nnorm (vsub (ithv F i) Y))
     (fun i j => n2 .* nnorm (vsub (ithv F i) (ithv F j)))).
  f_equal.
  - apply nsumn_Fin. apply en_is.
  - erewrite nsumn_Fin.
    2:{ intros i Hi. apply upper_Fin. intros j Hj. rewrite dn_is by lia. reflexivity. }
    f_equal. apply tri_gen; [apply es_dist_sym|apply es_dist_refl].
Qed.
Lemma es_nrg_k_real : es_nrg_k Y F = Fin (k_exact M e d).
Proof.
  unfold es_nrg_k. rewrite es_e1e2_real, F_len. unfold nhalf. fin; try nz.
  unfold k_exact. rewrite mult_INR. unfold half. field. nz.
Qed.
Lemma es_fair_k_real : (1 < M)%nat -> es_fair_k Y F = Fin (k_fair M e d).
Proof.
  intros H2. pose proof (INR_ge2 M H2). unfold es_fair_k. rewrite es_e1e2_real, F_len. unfold nhalf.
  fin; try nz; try (rewrite mult_INR, INR_pred by lia; nz).
  unfold k_fair. rewrite mult_INR, INR_pred by lia. unfold half. field. lra.
Qed.
Lemma es_lag_gen g : (forall i, (i < M)%nat -> (g i < M)%nat) ->
  fold_left (fun '(e_1, e_2) i =>
        (e_1 .+ nnorm (vsub (ithv F i) Y), e_2 .+ nnorm (vsub (ithv F i) (ithv F (g i)))))
      (seq 0 M) (n0, n0) = (Fin (sumn M e), Fin (sumn M (fun i => d i (g i)))).
Proof.
  intros Hg. erewrite fold2n by (intros; reflexivity). unfold n0. rewrite !nadd_0_l. f_equal.
  - apply nsumn_Fin, en_is.
  - apply nsumn_Fin. intros i Hi. apply dn_is; auto.
Qed.
Lemma lag1_if i : (i < M)%nat -> (if (i =? 0)%nat then (M - 1)%nat else (i - 1)%nat) = lag1 M i.
Proof.
  intros H. unfold lag1. destruct (Nat.eqb_spec i 0).
  - subst. rewrite Nat.mod_small; lia.
  - replace (i + M - 1)%nat with (i - 1 + 1 * M)%nat by lia.
    rewrite Nat.mod_add, Nat.mod_small; lia.
Qed.
Lemma es_akr_k_real : es_akr_k Y F = Fin (k_lag M (lag1 M) e d).
Proof.
  unfold es_akr_k. rewrite F_len.
  rewrite (es_lag_gen (fun i => if (i =? 0)%nat then (M - 1)%nat else (i - 1)%nat))
    by (intros i Hi; destruct (Nat.eqb_spec i 0); lia).
  unfold nhalf, n1. fin; try nz.
  unfold k_lag. rewrite (sumn_ext M (fun i => d i (lag1 M i)) (fun i => d i (if (i =? 0)%nat then (M - 1)%nat else (i - 1)%nat)))
    by (intros; now rewrite lag1_if).
  unfold half. field. nz.
Qed.
Lemma es_akrc_k_real : es_akr_circperm_k Y F = Fin (k_lag M (lagf M) e d).
Proof.
  unfold es_akr_circperm_k. rewrite F_len.
  cbv zeta. rewrite (es_lag_gen (fun i => ((i + M / 2) mod M)%nat)) by (intros i Hi; apply Nat.mod_upper_bound; lia).
  unfold nhalf, n1. fin; try nz. unfold k_lag, lagf, half. field. nz.
Qed.

Section weighted.
Variables (wn : nat -> num) (w : nat -> R).
Hypothesis Hw : forall i, (i < M)%nat -> wn i = Fin (w i).
Let W := rw M wn.
Lemma W_ith i : (i < M)%nat -> ith W i = Fin (w i).
Proof. intros. unfold W. rewrite rw_ith; auto. Qed.
Lemma es_e1e2_w_real : es_e1e2_w Y F W =
  (Fin (sumn M (fun i => w i * e i)), Fin (sumn M (fun i => sumn M (fun j => w i * w j * d i j)))).
Proof.
  unfold es_e1e2_w. rewrite F_len.
  rewrite (fold_pairs M (fun i => nnorm (vsub (ithv F i) Y) .* ith W i)
     (fun i j => n2 .* nnorm (vsub (ithv F i) (ithv F j)) .* ith W i .* ith W j)).
  f_equal.
  - apply nsumn_Fin. intros i Hi. rewrite en_is, W_ith by auto. simpl. f_equal; ring.
  - erewrite nsumn_Fin.
    2:{ intros i Hi. apply upper_Fin. intros j Hj. rewrite dn_is, !W_ith by lia. reflexivity. }
    f_equal. rewrite <- (tri_gen M (fun i j => w i * w j * d i j)).
    + apply sumn_ext; intros i Hi. apply Rsum_map_ext; intros j _. ring.
    + intros i j. unfold d. rewrite es_dist_sym. ring.
    + intros i. unfold d. rewrite es_dist_refl. ring.
Qed.
Lemma es_nrg_w_k_real : es_nrg_w_k Y F W = Fin (k_wexact M w e d).
Proof. unfold es_nrg_w_k. rewrite es_e1e2_w_real. unfold nhalf. fin. unfold k_wexact, half. field. Qed.
Lemma es_fair_w_k_real : sumn M (fun i => w i * w i) <> 1 -> es_fair_w_k Y F W = Fin (k_wfair M w e d).
Proof.
  intros H. unfold es_fair_w_k. rewrite es_e1e2_w_real.
  assert (E : nsum (map nsq W) = Fin (sumn M (fun i => w i * w i))).
  { unfold W, rw. rewrite map_map. apply nsumn_Fin. intros i Hi. now rewrite Hw. }
  rewrite E. unfold nhalf, n1. fin; try lra. unfold k_wfair, half. field. lra.
Qed.
Lemma es_lag_w_gen g : (forall i, (i < M)%nat -> (g i < M)%nat) ->
  fold_left (fun '(e_1, e_2) i =>
        (e_1 .+ nnorm (vsub (ithv F i) Y) .* ith W i,
         e_2 .+ nnorm (vsub (ithv F i) (ithv F (g i))) .* ith W i))
      (seq 0 M) (n0, n0) = (Fin (sumn M (fun i => w i * e i)), Fin (sumn M (fun i => w i * d i (g i)))).
Proof.
  intros Hg. erewrite fold2n by (intros; reflexivity). unfold n0. rewrite !nadd_0_l. f_equal.
  - apply nsumn_Fin. intros i Hi. rewrite en_is, W_ith by auto. simpl. f_equal; ring.
  - apply nsumn_Fin. intros i Hi. rewrite dn_is, W_ith by auto. simpl. f_equal; ring.
Qed.
Lemma es_akr_w_k_real : es_akr_w_k Y F W = Fin (k_wlag M (lag1 M) w e d).
Proof.
  unfold es_akr_w_k. rewrite F_len.
  rewrite (es_lag_w_gen (fun i => if (i =? 0)%nat then (M - 1)%nat else (i - 1)%nat))
    by (intros i Hi; destruct (Nat.eqb_spec i 0); lia).
  unfold nhalf. fin.
  unfold k_wlag. rewrite (sumn_ext M (fun i => w i * d i (lag1 M i))
     (fun i => w i * d i (if (i =? 0)%nat then (M - 1)%nat else (i - 1)%nat)))
    by (intros; now rewrite lag1_if).
  unfold half. field.
Qed.
Lemma es_akrc_w_k_real : es_akr_circperm_w_k Y F W = Fin (k_wlag M (lagf M) w e d).
Proof.
  unfold es_akr_circperm_w_k. rewrite F_len.
  cbv zeta. rewrite (es_lag_w_gen (fun i => ((i + M / 2) mod M)%nat)) by (intros i Hi; apply Nat.mod_upper_bound; lia).
  unfold nhalf. fin. unfold k_wlag, lagf, half. field.
Qed.
Lemma nmean_W : nmean W = Fin (sumn M w / INR M).
Proof.
  unfold nmean, W. rewrite rw_length. unfold rw.
  change (nsum (map wn (seq 0 M))) with (nsumn M wn). fin. nz. reflexivity.
Qed.
Lemma owes_k_real a : sumn M w <> 0 -> owes_k Y F (Fin a) W = Fin (a * k_wexact M (nw M w) e d).
Proof.
  intros H. unfold owes_k. rewrite F_len.
  rewrite (fold_pairs M (fun i => nnorm (vsub (ithv F i) Y) .* ith W i .* Fin a)
     (fun i j => n2 .* (nnorm (vsub (ithv F i) (ithv F j)) .* ith W i .* ith W j .* Fin a))).
  rewrite nmean_W.
  rewrite (nsumn_Fin M _ (fun i => a * (w i * e i)))
    by (intros i Hi; rewrite en_is, W_ith by auto; simpl; f_equal; ring).
  erewrite (nsumn_Fin M (fun i => upper M i _)).
  2:{ intros i Hi. apply upper_Fin. intros j Hj. rewrite dn_is, !W_ith by lia.
      simpl. reflexivity. }
  pose proof (INR_nz M HM). unfold nhalf. fin.
  { intros E. apply Rmult_integral in E. destruct E as [E|E]; [auto|].
    unfold Rdiv in E. apply Rmult_integral in E. destruct E; [auto|].
    now apply Rinv_neq_0_compat in H1. }
  { rewrite mult_INR. intros E. unfold Rdiv in E.
    repeat (apply Rmult_integral in E; destruct E as [E|E]); auto; now apply Rinv_neq_0_compat in E. }
  rewrite (sumn_ext M (fun k => Rsum _) (fun i => Rsum (map (fun j => 2 * (w i * w j * d i j * a)) (seq (i + 1) (M - (i + 1)))))).
  2:{ intros i Hi. apply Rsum_map_ext; intros j _. ring. }
  rewrite (tri_gen M (fun i j => w i * w j * d i j * a)).
  2:{ intros i j. unfold d. rewrite es_dist_sym. ring. }
  2:{ intros i. unfold d. rewrite es_dist_refl. ring. }
  rewrite k_wexact_nw by auto.
  rewrite (sumn_ext M (fun i => sumn M (fun j => w i * w j * d i j * a))
    (fun i => a * sumn M (fun j => w i * w j * d i j)))
    by (intros; rewrite <- sumn_scal; apply sumn_ext; intros; ring).
  rewrite !sumn_scal, mult_INR. unfold half. field. auto.
Qed.
Lemma vres_k_real a : vres_k Y F (Fin a) W = Fin (k_vr M a (fun i => w i / INR M) e d (enorm D y) (fun i => enorm D (x i))).
Proof.
  unfold vres_k. rewrite F_len.
  rewrite (fold3n _ (fun i => nnorm (vsub (ithv F i) Y) .* ith W i .* Fin a)
     (fun i => upper M i (fun j => n2 .* (nnorm (vsub (ithv F i) (ithv F j)) .* ith W i .* ith W j)))
     (fun i => nnorm (ithv F i) .* ith W i)).
  2:{ intros. now rewrite fold_left_nadd. }
  unfold n0. rewrite !nadd_0_l, nmean_W, yn_is.
  rewrite (nsumn_Fin M _ (fun i => a * (w i * e i)))
    by (intros i Hi; rewrite en_is, W_ith by auto; simpl; f_equal; ring).
  rewrite (nsumn_Fin M (fun i => nnorm (ithv F i) .* ith W i) (fun i => w i * enorm D (x i)))
    by (intros i Hi; rewrite xn_is, W_ith by auto; simpl; f_equal; ring).
  erewrite (nsumn_Fin M (fun i => upper M i _)).
  2:{ intros i Hi. apply upper_Fin. intros j Hj. rewrite dn_is, !W_ith by lia.
      simpl. reflexivity. }
  pose proof (INR_nz M HM). unfold nhalf. fin; auto.
  { rewrite mult_INR. intros E. apply Rmult_integral in E. tauto. }
  rewrite (sumn_ext M (fun k => Rsum _) (fun i => Rsum (map (fun j => 2 * (w i * w j * d i j)) (seq (i + 1) (M - (i + 1)))))).
  2:{ intros i Hi. apply Rsum_map_ext; intros j _. ring. }
  rewrite (tri_gen M (fun i j => w i * w j * d i j)).
  2:{ intros i j. unfold d. rewrite es_dist_sym. ring. }
  2:{ intros i. unfold d. rewrite es_dist_refl. ring. }
  rewrite sumn_scal. rewrite k_vr_unif by auto. unfold half. rewrite mult_INR. field. auto.
Qed.
End weighted.
End kernels.

(** ** array functions *)
Ltac dtf := solve [reflexivity | unfold dfloat1, dfloat2; reflexivity].
Section arrays.
Variables (s : list nat) (D M : nat) (obs fct : arr) (d1 d2 : dtype).
Variables (y : list nat -> nat -> R) (x : list nat -> nat -> nat -> R).
Hypothesis HM : (0 < M)%nat.
Hypothesis Ho : arr_is obs d1 (D :: s) (fun i => Fin (y (tl i) (hd O i))).
Hypothesis Hf : arr_is fct d2 (D :: M :: s) (fun i => Fin (x (tl (tl i)) (hd O (tl i)) (hd O i))).
Let e r := es_err D (y r) (x r).
Let d r := es_dist D (x r).

Lemma err_norm_is : ten_is (err_norm obs fct) DFloat (M :: s) (fun i => Fin (e (tl i) (hd O i))).
Proof.
  unfold err_norm. eapply ten_conv; [ten|dtf|]. intros i Hi. idx. cbn [hd tl].
  unfold e, es_err, eucl. rewrite <- sq_pow2. apply fv_norm. intros j Hj. bidx_simp. reflexivity.
Qed.
Lemma spread_norm_is : ten_is (spread_norm fct) DFloat (M :: M :: s)
  (fun i => Fin (d (tl (tl i)) (hd O i) (hd O (tl i)))).
Proof.
  unfold spread_norm. eapply ten_conv; [ten|dtf|]. intros i Hi. idx. cbn [hd tl].
  unfold d, es_dist, eucl. rewrite <- sq_pow2. apply fv_norm. intros j Hj. bidx_simp. reflexivity.
Qed.
Lemma spread_norm'_is : ten_is (spread_norm' fct) DFloat (M :: M :: s)
  (fun i => Fin (d (tl (tl i)) (hd O (tl i)) (hd O i))).
Proof.
  unfold spread_norm'. eapply ten_conv; [ten|dtf|]. intros i Hi. idx. cbn [hd tl].
  unfold d, es_dist, eucl. rewrite <- sq_pow2. apply fv_norm. intros j Hj. bidx_simp. reflexivity.
Qed.
Lemma roll_norm_is n : ten_is (anorm (Ok fct - aroll2 n (Ok fct))%A) DFloat (M :: s)
  (fun i => Fin (d (tl i) (hd O i) ((hd O i + M - n mod M) mod M)%nat)).
Proof.
  eapply ten_conv; [ten|dtf|]. intros i Hi. idx. cbn [hd tl].
  unfold d, es_dist, eucl. rewrite <- sq_pow2. apply fv_norm. intros j Hj. bidx_simp. reflexivity.
Qed.
Lemma fct_norm_is : ten_is (anorm (Ok fct)) DFloat (M :: s)
  (fun i => Fin (enorm D (x (tl i) (hd O i)))).
Proof.
  eapply ten_conv; [ten|dtf|]. intros i Hi. idx. cbn [hd tl].
  rewrite (fv_norm D _ (x r k)) by reflexivity.
  unfold enorm. do 2 f_equal. apply sumn_ext; intros; ring.
Qed.
Lemma obs_norm_is : ten_is (anorm (Ok obs)) DFloat s (fun i => Fin (enorm D (y i))).
Proof.
  eapply ten_conv; [ten|dtf|]. intros i Hi. cbn [hd tl].
  rewrite (fv_norm D _ (y i)) by reflexivity.
  unfold enorm. do 2 f_equal. apply sumn_ext; intros; ring.
Qed.
Lemma dim2_fct : dim2 fct = M.
Proof. destruct Hf as (_ & E & _). unfold dim2. now rewrite E. Qed.

Ltac nz := solve [now apply INR_nz | rewrite ?mult_INR; pose proof (INR_nz M HM); try assumption;
  try (let E := fresh in intros E; repeat (apply Rmult_integral in E; destruct E as [E|E]); lra || tauto)].
Ltac go := rewrite ?dim2_fct; cbv zeta; pose proof err_norm_is as Te; pose proof spread_norm_is as Td;
  pose proof spread_norm'_is as Td';
  eapply ten_conv; [ten|dtf|]; intros i Hi; idx; bidx_simp; cbn [hd tl].
Lemma dsum r : sumn M (fun i => sumn M (fun j => d r j i)) = sumn M (fun i => sumn M (d r i)).
Proof. apply sumn_ext; intros; apply sumn_ext; intros; apply es_dist_sym. Qed.
Lemma es_nrg_arr_is : ten_is (es_nrg_arr obs fct) DFloat s (fun r => Fin (k_exact M (e r) (d r))).
Proof.
  unfold es_nrg_arr. go. fin; try nz.
  unfold k_exact. rewrite dsum. rewrite mult_INR. unfold half. field. nz.
Qed.
Lemma es_fair_arr_is : (1 < M)%nat ->
  ten_is (es_fair_arr obs fct) DFloat s (fun r => Fin (k_fair M (e r) (d r))).
Proof.
  intros H2. pose proof (INR_ge2 M H2). unfold es_fair_arr. go.
  fin; try nz; try (rewrite mult_INR, INR_pred by lia; nz).
  unfold k_fair. rewrite dsum. rewrite mult_INR, INR_pred by lia. unfold half. field. lra.
Qed.
Lemma lag1_arr i : (i < M)%nat -> ((i + M - 1 mod M) mod M)%nat = lag1 M i.
Proof.
  intros H. unfold lag1. destruct (Nat.eq_dec M 1) as [->|].
  - now rewrite !Nat.mod_1_r.
  - rewrite (Nat.mod_small 1); lia.
Qed.
Lemma es_akr_arr_is : ten_is (es_akr_arr obs fct) DFloat s (fun r => Fin (k_lag M (lag1 M) (e r) (d r))).
Proof.
  pose proof (roll_norm_is 1) as Tr. unfold es_akr_arr. go. fin; try nz.
  unfold k_lag. rewrite (sumn_ext M (fun k => d i k (lag1 M k)) _ (fun k Hk => f_equal (d i k) (eq_sym (lag1_arr k Hk)))).
  unfold half. field. nz.
Qed.
Lemma es_akrc_arr_is : ten_is (es_akr_circperm_arr obs fct) DFloat s (fun r => Fin (k_lag M (lagc M) (e r) (d r))).
Proof.
  pose proof (roll_norm_is (M / 2)) as Tr. unfold es_akr_circperm_arr. go. fin; try nz.
  unfold k_lag. rewrite (sumn_ext M (fun k => d i k (lagc M k)) _ (fun k Hk => f_equal (d i k) (eq_sym (lagc_arr M k Hk)))).
  unfold half. field. nz.
Qed.

Section weighted.
Variables (wt : arr) (dw : dtype) (w : list nat -> nat -> R).
Hypothesis Hw : arr_is wt dw (M :: s) (fun i => Fin (w (tl i) (hd O i))).
Lemma esum r : sumn M (fun k => e r k * w r k) = sumn M (fun k => w r k * e r k).
Proof. apply sumn_ext; intros; ring. Qed.
Lemma wdsum r : sumn M (fun k => sumn M (fun j => d r j k * w r k * w r j)) =
  sumn M (fun i => sumn M (fun j => w r i * w r j * d r i j)).
Proof. apply sumn_ext; intros; apply sumn_ext; intros. unfold d. rewrite es_dist_sym. ring. Qed.
Lemma es_nrg_w_arr_is : ten_is (es_nrg_w_arr obs fct wt) DFloat s (fun r => Fin (k_wexact M (w r) (e r) (d r))).
Proof.
  unfold es_nrg_w_arr. go. fin.
  unfold k_wexact. rewrite esum, wdsum. unfold half. field.
Qed.
Lemma es_fair_w_arr_is : (forall r, inb s r -> sumn M (fun i => w r i * w r i) <> 1) ->
  ten_is (es_fair_w_arr obs fct wt) DFloat s (fun r => Fin (k_wfair M (w r) (e r) (d r))).
Proof.
  intros H1. unfold es_fair_w_arr. go. specialize (H1 i Hi). unfold n1. fin; [simpl; lra|].
  unfold k_wfair. rewrite esum, wdsum. unfold half. simpl INR. field. lra.
Qed.
Lemma es_akr_w_arr_is : ten_is (es_akr_w_arr obs fct wt) DFloat s (fun r => Fin (k_wlag M (lag1 M) (w r) (e r) (d r))).
Proof.
  pose proof (roll_norm_is 1) as Tr. unfold es_akr_w_arr. go. fin; try nz.
  unfold k_wlag. rewrite (sumn_ext M (fun k => w i k * d i k (lag1 M k)) _
    (fun k Hk => f_equal (fun j => w i k * d i k j) (eq_sym (lag1_arr k Hk)))).
  rewrite (sumn_ext M (fun k => e i k * w i k) (fun k => w i k * e i k)) by (intros; ring).
  unfold half. f_equal. f_equal; [field|]. apply sumn_ext; intros; ring.
Qed.
Lemma es_akrc_w_arr_is : ten_is (es_akr_circperm_w_arr obs fct wt) DFloat s
  (fun r => Fin (k_wlag M (lagc M) (w r) (e r) (d r))).
Proof.
  pose proof (roll_norm_is (M / 2)) as Tr. unfold es_akr_circperm_w_arr. go. fin; try nz.
  unfold k_wlag. rewrite (sumn_ext M (fun k => w i k * d i k (lagc M k)) _
    (fun k Hk => f_equal (fun j => w i k * d i k j) (eq_sym (lagc_arr M k Hk)))).
  rewrite (sumn_ext M (fun k => e i k * w i k) (fun k => w i k * e i k)) by (intros; ring).
  unfold half. f_equal. f_equal; [field|]. apply sumn_ext; intros; ring.
Qed.
End weighted.

(** outcome-weighted and vertically re-scaled; [a] and [v] are the weights of the observation
    and the members *)
Section owvr.
Variables (ow fw : arr) (do df : dtype) (a : list nat -> R) (v : list nat -> nat -> R).
Hypothesis How : arr_is ow do s (fun r => Fin (a r)).
Hypothesis Hfw : arr_is fw df (M :: s) (fun i => Fin (v (tl i) (hd O i))).
Lemma wbar_nz r : sumn M (v r) <> 0 -> sumn M (v r) / INR M <> 0.
Proof.
  intros H E. unfold Rdiv in E. apply Rmult_integral in E. destruct E; [auto|].
  pose proof (INR_nz M HM). now apply Rinv_neq_0_compat in H1.
Qed.
Lemma evs r : sumn M (fun k => e r k * v r k * a r) = a r * sumn M (fun k => v r k * e r k).
Proof. rewrite <- sumn_scal. apply sumn_ext; intros; ring. Qed.
Lemma owes_arr_is : (forall r, inb s r -> sumn M (v r) <> 0) ->
  ten_is (owes_arr obs fct ow fw) DFloat s
    (fun r => Fin (a r * k_wexact M (nw M (v r)) (e r) (d r))).
Proof.
  intros H1. unfold owes_arr. go. specialize (H1 i Hi). pose proof (wbar_nz i H1).
  pose proof (INR_nz M HM). fin; try nz; try assumption.
  { intros E. apply Rmult_integral in E. tauto. }
  rewrite k_wexact_nw by auto. rewrite evs.
  rewrite (sumn_ext M (fun k => sumn M (fun j => d i k j * (v i k * v i j * a i)))
    (fun k => a i * sumn M (fun j => v i k * v i j * d i k j)))
    by (intros; rewrite <- sumn_scal; apply sumn_ext; intros; ring).
  rewrite !sumn_scal, mult_INR. unfold half. field. auto.
Qed.
Lemma vres_arr_is : ten_is (vres_arr obs fct ow fw) DFloat s
    (fun r => Fin (k_vr M (a r) (fun k => v r k / INR M) (e r) (d r) (enorm D (y r)) (fun k => enorm D (x r k)))).
Proof.
  pose proof fct_norm_is as Tx. pose proof obs_norm_is as Ty. unfold vres_arr. go.
  pose proof (INR_nz M HM). fin; try nz; try assumption.
  rewrite k_vr_unif by auto.
  rewrite (sumn_ext M (fun k => e i k * (v i k * a i)) (fun k => a i * (v i k * e i k))) by (intros; ring).
  rewrite (sumn_ext M (fun k => enorm D (x i k) * v i k) (fun k => v i k * enorm D (x i k))) by (intros; ring).
  rewrite (sumn_ext M (fun k => sumn M (fun j => d i k j * (v i j * v i k)))
    (fun k => sumn M (fun j => v i k * v i j * d i k j)))
    by (intros; apply sumn_ext; intros; ring).
  rewrite !sumn_scal, mult_INR. unfold half. field. auto.
Qed.
Section weighted.
Variables (wt : arr) (dw : dtype) (w : list nat -> nat -> R).
Hypothesis Hw : arr_is wt dw (M :: s) (fun i => Fin (w (tl i) (hd O i))).
Let u r k := v r k * w r k.
Lemma owes_w_arr_is : (forall r, inb s r -> sumn M (u r) <> 0) ->
  ten_is (owes_w_arr obs fct ow fw wt) DFloat s
    (fun r => Fin (a r * k_wexact M (nw M (u r)) (e r) (d r))).
Proof.
  intros H1. unfold owes_w_arr. go. specialize (H1 i Hi).
  change (fun k => v i k * w i k) with (u i) in *. fin; try assumption.
  { intros E. apply Rmult_integral in E. tauto. }
  rewrite k_wexact_nw by auto.
  rewrite (sumn_ext M (fun k => e i k * v i k * a i * w i k) (fun k => a i * (u i k * e i k)))
    by (intros; unfold u; ring).
  rewrite (sumn_ext M (fun k => sumn M (fun j => d i k j * (v i k * v i j * a i) * w i k * w i j))
    (fun k => a i * sumn M (fun j => u i k * u i j * d i k j)))
    by (intros; rewrite <- sumn_scal; apply sumn_ext; intros; unfold u; ring).
  change (sumn M (fun k => v i k * w i k)) with (sumn M (u i)).
  rewrite !sumn_scal. unfold half. field. auto.
Qed.
Lemma vres_w_arr_is : ten_is (vres_w_arr obs fct ow fw wt) DFloat s
    (fun r => Fin (k_vr M (a r) (u r) (e r) (d r) (enorm D (y r)) (fun k => enorm D (x r k)))).
Proof.
  pose proof fct_norm_is as Tx. pose proof obs_norm_is as Ty. unfold vres_w_arr. go.
  fin. unfold k_vr.
  rewrite (sumn_ext M (fun k => e i k * (v i k * a i) * w i k) (fun k => a i * (u i k * e i k)))
    by (intros; unfold u; ring).
  rewrite (sumn_ext M (fun k => enorm D (x i k) * v i k * w i k) (fun k => u i k * enorm D (x i k)))
    by (intros; unfold u; ring).
  rewrite (sumn_ext M (fun k => sumn M (fun j => d i k j * (v i j * v i k) * w i k * w i j))
    (fun k => sumn M (fun j => u i k * u i j * d i k j)))
    by (intros; apply sumn_ext; intros; unfold u; ring).
  change (sumn M (fun k => v i k * w i k)) with (sumn M (u i)).
  rewrite !sumn_scal. unfold half. field.
Qed.
End weighted.
End owvr.
End arrays.
