(** Proofs of the Dawid-Sebastiani and error-spread score properties (statements in P_dss.v). *)
From Verif Require Export L_dss S_mv.
Open Scope R_scope.
Section calls.
Variables (obs fct : arr) (ax : Z) (s : list nat) (p M : nat) (y x : list nat -> num).
Hypothesis Ha : ens_nums obs fct ax s p M y x.
Hypothesis HM : (0 < M)%nat.
Lemma dss_call b bias : (b = Numba -> dt obs = DFloat) ->
  ten_is (dssuv_ensemble b obs fct ax bias) DFloat s (fun r => dssn (ddof bias) M (y r) (member p x r)).
Proof.
  intros Hd. pose proof (nums_inputs _ _ _ _ _ _ _ _ Ha) as Hin.
  destruct (check_in obs fct ax _ _ s p M _ _ Hin) as (f' & E & Hf). pose proof Hin as (Ho & _).
  unfold dssuv_ensemble. rewrite E. cbn [bind]. destruct b.
  - eapply ten_ext; [eapply ds_score_uv_is; [exact Ho|exact Hf]|]. intros r Hr. reflexivity.
  - rewrite (Hd eq_refl) in Ho.
    eapply ten_ext; [eapply (gu_sv_is _ (fun d => d)); [apply outs_lazy|exact Ho|exact Hf]|].
    intros r Hr. cbv beta. rewrite ncast_float, dss_uv_k_row by auto. reflexivity.
Qed.
Lemma ess_call_arr : ten_is (error_spread_score Array obs fct ax) DFloat (squeeze_shape s)
  (fun i => essn M (meann M (member p x (unsqueeze_idx s i)) .- y (unsqueeze_idx s i)) (member p x (unsqueeze_idx s i))).
Proof.
  pose proof (nums_inputs _ _ _ _ _ _ _ _ Ha) as Hin.
  destruct (check_in obs fct ax _ _ s p M _ _ Hin) as (f' & E & Hf). pose proof Hin as (Ho & _).
  unfold error_spread_score. rewrite E. cbn [bind]. rewrite ess_arr_core.
  destruct (ess_core_is obs f' _ _ s M _ _ Ho Hf) as (a & -> & Hd & Hs & Hv).
  unfold asqueeze. cbn [bind]. rewrite Hs. eexists; split; [reflexivity|]. repeat split; auto.
  intros i Hi. cbn [at_]. rewrite Hv by now apply inb_unsqueeze. reflexivity.
Qed.
Lemma ess_call_numba : dt obs = DFloat -> ten_is (error_spread_score Numba obs fct ax) DFloat s
  (fun r => essn M (nsumn M (fun k => member p x r k .- y r) ./ nofnat M) (member p x r)).
Proof.
  intros Hd. pose proof (nums_inputs _ _ _ _ _ _ _ _ Ha) as Hin.
  destruct (check_in obs fct ax _ _ s p M _ _ Hin) as (f' & E & Hf). pose proof Hin as (Ho & _).
  unfold error_spread_score. rewrite E. cbn [bind]. rewrite Hd in Ho.
  eapply ten_ext; [eapply (gu_sv_is _ (fun d => d)); [apply outs_lazy|exact Ho|exact Hf]|].
  intros r Hr. cbv beta. rewrite ncast_float, ess_k_row. reflexivity.
Qed.
End calls.
(** finite inputs, both implementations *)
Definition ess_real (M : nat) (Y : R) (X : nat -> R) : num := essn M (Fin (mean M X - Y)) (fun k => Fin (X k)).
Lemma ess_call b obs fct ax s p M y x : ens_args obs fct ax s p M y x -> (0 < M)%nat -> (b = Numba -> dt obs = DFloat) ->
  (b = Array -> no_unit s) ->
  ten_is (error_spread_score b obs fct ax) DFloat s (fun r => ess_real M (y r) (member p x r)).
Proof.
  intros Ha HM Hd Hs. pose proof (args_nums _ _ _ _ _ _ _ _ Ha) as Hn. destruct b.
  - pose proof (ess_call_arr _ _ _ _ _ _ _ _ Hn) as T. rewrite squeeze_no_unit in T by auto.
    eapply ten_ext; [exact T|]. intros r Hr. cbv beta. rewrite unsqueeze_no_unit by auto.
    unfold ess_real. f_equal. exact (f_equal (fun z => z .- Fin (y r)) (mean_real M (member p x r) HM)).
  - eapply ten_ext; [exact (ess_call_numba _ _ _ _ _ _ _ _ Hn (Hd eq_refl))|]. intros r Hr. cbv beta. unfold ess_real.
    f_equal. exact (err_mean M (member p x r) (y r) HM).
Qed.
Lemma dss_call_real b bias obs fct ax s p M y x : ens_args obs fct ax s p M y x -> (b = Numba -> dt obs = DFloat) ->
  (forall r, inb s r -> spread M (member p x r)) -> (0 < M)%nat ->
  ten_is (dssuv_ensemble b obs fct ax bias) DFloat s
    (fun r => Fin (ds_score (mean M (member p x r)) (variance bias M (member p x r)) (y r))).
Proof.
  intros Ha Hd Hs HM. eapply ten_ext; [exact (dss_call _ _ _ _ _ _ _ _ (args_nums _ _ _ _ _ _ _ _ Ha) HM b bias Hd)|].
  intros r Hr. cbv beta. exact (dssn_real M (member p x r) bias (y r) (Hs r Hr)).
Qed.
Lemma mean_ext M f g : (forall k, (k < M)%nat -> f k = g k) -> mean M f = mean M g.
Proof. intros H. unfold mean. now rewrite (sumn_ext M f g). Qed.
Lemma var_ext b M f g : (forall k, (k < M)%nat -> f k = g k) -> variance b M f = variance b M g.
Proof.
  intros H. unfold variance. rewrite (mean_ext M f g) by auto. f_equal. apply sumn_ext. intros; now rewrite H.
Qed.
Lemma cubes_ext M f g : (forall k, (k < M)%nat -> f k = g k) -> cubes M f = cubes M g.
Proof.
  intros H. unfold cubes. rewrite (mean_ext M f g), (var_ext false M f g) by auto. apply sumn_ext. intros; now rewrite H.
Qed.
Lemma spread_ext M f g : (forall k, (k < M)%nat -> f k = g k) -> spread M f -> spread M g.
Proof. intros H (i & j & Hi & Hj & N). exists i, j. rewrite <- !H; auto. Qed.
(** linear images of the members *)
Lemma mean_affine M x a c : (0 < M)%nat -> mean M (fun k => a + c * x k) = a + c * mean M x.
Proof. intros H. unfold mean. rewrite sumn_plus, sumn_const, sumn_scal. field. now apply INR_nz. Qed.
Lemma var_affine b M x a c : (0 < M)%nat -> variance b M (fun k => a + c * x k) = c² * variance b M x.
Proof.
  intros H. unfold variance. rewrite mean_affine by auto.
  rewrite (sumn_ext M (fun k => (a + c * x k - (a + c * mean M x))²) (fun k => c² * (x k - mean M x)²)).
  - rewrite sumn_scal. unfold Rdiv. ring.
  - intros k Hk. unfold Rsqr. ring.
Qed.
Lemma spread_affine M x a c : c <> 0 -> spread M x -> spread M (fun k => a + c * x k).
Proof.
  intros H (i & j & Hi & Hj & N). exists i, j. repeat split; auto. intros E. apply N.
  apply (Rmult_eq_reg_l c); auto. lra.
Qed.
Lemma sqrt_c2 c v : 0 < v -> sqrt (c² * v) = Rabs c * sqrt v.
Proof. intros H. rewrite sqrt_mult_alt by apply Rle_0_sqr. now rewrite sqrt_Rsqr_abs. Qed.
Lemma cubes_affine M x a c : (0 < M)%nat -> c <> 0 -> spread M x ->
  cubes M (fun k => a + c * x k) = c / Rabs c * cubes M x.
Proof.
  intros H Hc Hs. unfold cubes. rewrite mean_affine, var_affine by auto. pose proof (variance_pos M x false Hs) as P.
  rewrite sqrt_c2 by auto. rewrite <- sumn_scal. apply sumn_ext. intros k Hk.
  pose proof (sqrt_lt_R0 _ P). pose proof (Rabs_pos_lt c Hc). unfold Rabs in *. destruct (Rcase_abs c); field; repeat split; lra.
Qed.
(** reordering *)
Lemma reo_sum M g f : reorders M g -> sumn M (fun k => f (g k)) = sumn M f.
Proof.
  intros H. rewrite <- (sumn_perm M f (map g (seq 0 M)) H). unfold sumn. now rewrite map_map.
Qed.
Lemma reo_mean M g x : reorders M g -> mean M (fun k => x (g k)) = mean M x.
Proof. intros H. unfold mean. now rewrite (reo_sum M g x). Qed.
Lemma reo_var b M g x : reorders M g -> variance b M (fun k => x (g k)) = variance b M x.
Proof. intros H. unfold variance. rewrite (reo_mean M g x H). f_equal. exact (reo_sum M g (fun k => (x k - mean M x)²) H). Qed.
Lemma reo_cubes M g x : reorders M g -> cubes M (fun k => x (g k)) = cubes M x.
Proof.
  intros H. unfold cubes. rewrite (reo_mean M g x H), (reo_var false M g x H).
  exact (reo_sum M g (fun k => ((x k - mean M x) / sqrt (variance false M x)) ^ 3) H).
Qed.
Lemma reo_in M g k : reorders M g -> (k < M)%nat -> (g k < M)%nat /\ exists j, (j < M)%nat /\ g j = k.
Proof.
  intros H Hk. split.
  - assert (In (g k) (seq 0 M)) as I by (apply (Permutation.Permutation_in _ H), in_map, in_seq; lia). apply in_seq in I; lia.
  - assert (In k (map g (seq 0 M))) as I by (apply (Permutation.Permutation_in _ (Permutation.Permutation_sym H)), in_seq; lia).
    apply in_map_iff in I as (j & E & I). apply in_seq in I. exists j. split; [lia|auto].
Qed.
Lemma reo_spread M g x : reorders M g -> spread M x -> spread M (fun k => x (g k)).
Proof.
  intros H (i & j & Hi & Hj & N). destruct (reo_in M g i H Hi) as (_ & i' & Hi' & <-). destruct (reo_in M g j H Hj) as (_ & j' & Hj' & <-).
  exists i', j'. auto.
Qed.
(** the score as a function of a row of finite numbers, spread or not *)
Lemma ess_real_eq M Y X Y' X' : (0 < M)%nat ->
  (spread M X -> spread M X') -> (spread M X' -> spread M X) ->
  (spread M X -> (2 < M)%nat -> es_score (skew_code M X) M X Y = es_score (skew_code M X') M X' Y') ->
  ess_real M Y X = ess_real M Y' X'.
Proof.
  intros HM S1 S2 H. unfold ess_real. destruct (Classical_Prop.classic (spread M X)) as [S|S].
  - destruct (le_lt_dec M 2) as [L|L].
    + pose proof (spread_2 M X S). rewrite (essn_two M X), (essn_two M X') by lia. reflexivity.
    + rewrite (essn_real M X), (essn_real M X') by auto. f_equal. exact (H S L).
  - rewrite (essn_flat M X), (essn_flat M X') by auto. reflexivity.
Qed.
Lemma real0_dss y M x : ens_args (num0 (Fin y)) (real1 M x) (-1) [] 0 M (fun _ => y) (fun i => x (hd 0%nat i)).
Proof. repeat split; simpl; auto. now left. Qed.
Lemma rtrunc_small t : 0 <= t -> t < 1 -> rtrunc t = 0%Z.
Proof. intros H0 H1. unfold rtrunc. destruct (Rle_dec 0 t); [|lra]. unfold Int_part. rewrite <- (up_tech t 0); [reflexivity|simpl; lra|simpl; lra]. Qed.
Lemma ln_le_sub v : 0 < v -> ln v <= v - 1.
Proof. intros H. pose proof (exp_ineq1_le (ln v)) as E. rewrite exp_ln in E by auto. lra. Qed.
Lemma C38_dss_value_l :
  forall b obs fct ax s p M y x bias,
  ens_args obs fct ax s p M y x -> (b = Numba -> dt obs = DFloat) -> (0 < M)%nat ->
  (forall r, inb s r -> spread M (member p x r)) ->
  returns (dssuv_ensemble b obs fct ax bias) s
    (fun r => Fin (ds_score (mean M (member p x r)) (variance bias M (member p x r)) (y r))).
Proof.
  intros b obs fct ax s p M y x bias Ha Hd HM Hs. eapply returns_is, dss_call_real; eauto.
Qed.
Lemma C38_dss_agree_l :
  forall obs fct ax s p M y x bias,
  ens_nums obs fct ax s p M y x -> dt obs = DFloat -> (0 < M)%nat ->
  exists v, returns (dssuv_ensemble Array obs fct ax bias) s v /\ returns (dssuv_ensemble Numba obs fct ax bias) s v.
Proof.
  intros obs fct ax s p M y x bias Ha Hd HM. eexists. split; eapply returns_is; eapply (dss_call _ _ _ _ _ _ _ _ Ha HM); auto; discriminate.
Qed.
Lemma C38_dss_equal_members_l :
  forall b obs fct ax s p M y x bias r,
  ens_args obs fct ax s p M y x -> (b = Numba -> dt obs = DFloat) -> (0 < M)%nat ->
  inb s r -> ~ spread M (member p x r) ->
  exists v, returns (dssuv_ensemble b obs fct ax bias) s v /\ v r = NaN.
Proof.
  intros b obs fct ax s p M y x bias r Ha Hd HM Hr Hs. eexists.
  split; [eapply returns_is, (dss_call _ _ _ _ _ _ _ _ (args_nums _ _ _ _ _ _ _ _ Ha) HM); auto|].
  exact (dssn_flat M (member p x r) (ddof bias) (y r) HM Hs).
Qed.
Lemma C38_dss_permutation_l :
  forall b obs fct fct' ax s p M y x x' bias g,
  ens_args obs fct ax s p M y x -> ens_args obs fct' ax s p M y x' -> (b = Numba -> dt obs = DFloat) -> (0 < M)%nat ->
  (forall r, inb s r -> spread M (member p x r)) -> (forall r, inb s r -> reorders M (g r)) ->
  (forall r i, inb s r -> (i < M)%nat -> member p x' r i = member p x r (g r i)) ->
  exists u, returns (dssuv_ensemble b obs fct ax bias) s (fun r => Fin (u r)) /\
            returns (dssuv_ensemble b obs fct' ax bias) s (fun r => Fin (u r)).
Proof.
  intros b obs fct fct' ax s p M y x x' bias g Ha Ha' Hd HM Hs Hg Hx. eexists.
  split; [eapply returns_is, dss_call_real; eauto|].
  eapply returns_ext; [eapply returns_is, (dss_call_real b bias obs fct' ax s p M y x'); auto|].
  - intros r Hr. apply (spread_ext M (fun i => member p x r (g r i))); [intros; symmetry; auto|]. apply reo_spread; auto.
  - intros r Hr. cbv beta. rewrite (mean_ext M _ (fun i => member p x r (g r i))), (var_ext bias M _ (fun i => member p x r (g r i))) by auto.
    rewrite (reo_mean M (g r) (member p x r)), (reo_var bias M (g r) (member p x r)) by auto. reflexivity.
Qed.
Lemma C38_dss_affine_l :
  forall b obs fct obs' fct' ax s p M y x y' x' bias a c,
  ens_args obs fct ax s p M y x -> ens_args obs' fct' ax s p M y' x' ->
  (b = Numba -> dt obs = DFloat /\ dt obs' = DFloat) -> (0 < M)%nat ->
  (forall r, inb s r -> spread M (member p x r)) -> (forall r, inb s r -> c r <> 0) ->
  (forall r, inb s r -> y' r = a r + c r * y r) ->
  (forall r i, inb s r -> (i < M)%nat -> member p x' r i = a r + c r * member p x r i) ->
  exists u, returns (dssuv_ensemble b obs fct ax bias) s (fun r => Fin (u r)) /\
            returns (dssuv_ensemble b obs' fct' ax bias) s (fun r => Fin (u r + ln (c r)²)).
Proof.
  intros b obs fct obs' fct' ax s p M y x y' x' bias a c Ha Ha' Hd HM Hs Hc Hy Hx. eexists.
  split; [eapply returns_is, dss_call_real; eauto; intros; now apply Hd|].
  eapply returns_ext; [eapply returns_is, (dss_call_real b bias obs' fct' ax s p M y' x'); auto|].
  - intros; now apply Hd.
  - intros r Hr. apply (spread_ext M (fun i => a r + c r * member p x r i)); [intros; symmetry; auto|]. apply spread_affine; auto.
  - intros r Hr. cbv beta. rewrite (mean_ext M _ (fun i => a r + c r * member p x r i)), (var_ext bias M _ (fun i => a r + c r * member p x r i)) by auto.
    rewrite mean_affine, var_affine, Hy by auto. f_equal. unfold ds_score. pose proof (variance_pos M _ bias (Hs r Hr)) as P.
    pose proof (Rsqr_pos_lt _ (Hc r Hr)) as C. rewrite ln_mult by auto. unfold Rsqr in *. field. split; [lra|auto].
Qed.
Lemma C38_dss_proper_l :
  forall b M x N z,
  spread M x -> spread N z -> exists S T : nat -> R,
    (forall j, (j < N)%nat -> returns (dssuv_ensemble b (num0 (Fin (z j))) (real1 M x) (-1) true) [] (fun _ => Fin (S j))) /\
    (forall j, (j < N)%nat -> returns (dssuv_ensemble b (num0 (Fin (z j))) (real1 N z) (-1) true) [] (fun _ => Fin (T j))) /\
    sumn N T <= sumn N S.
Proof.
  intros b M x N z Hx Hz. pose proof (spread_2 M x Hx). pose proof (spread_2 N z Hz).
  exists (fun j => ds_score (mean M x) (variance true M x) (z j)), (fun j => ds_score (mean N z) (variance true N z) (z j)).
  split; [|split].
  - intros j Hj. eapply returns_is. eapply ten_ext; [eapply (dss_call_real b true _ _ _ _ _ _ _ _ (real0_dss (z j) M x)); auto; lia|]. reflexivity.
  - intros j Hj. eapply returns_is. eapply ten_ext; [eapply (dss_call_real b true _ _ _ _ _ _ _ _ (real0_dss (z j) N z)); auto; lia|]. reflexivity.
  - unfold ds_score. rewrite !sumn_plus, !sumn_const, !sumn_div.
    pose proof (variance_pos M x true Hx) as P1. pose proof (variance_pos N z true Hz) as P2.
    assert (PN : 0 < INR N) by (apply lt_0_INR; lia).
    assert (E2 : sumn N (fun k => (z k - mean N z)²) = INR N * variance true N z) by (unfold variance; field; lra).
    assert (E1 : sumn N (fun k => (z k - mean M x)²) = INR N * (variance true N z + (mean N z - mean M x)²)).
    { rewrite (sumn_ext N (fun k => (z k - mean M x)²)
        (fun k => (z k - mean N z)² + ((2 * (mean N z - mean M x)) * z k + ((mean M x)² - (mean N z)²)))) by (intros; unfold Rsqr; ring).
      rewrite sumn_plus, E2, sumn_plus, sumn_scal, sumn_const.
      assert (sumn N z = INR N * mean N z) as -> by (unfold mean; field; lra). unfold Rsqr; ring. }
    rewrite E1, E2. set (v := variance true M x) in *. set (w := variance true N z) in *. set (d2 := (mean N z - mean M x)²).
    assert (0 <= d2) by apply Rle_0_sqr.
    assert (L : ln (w / v) <= w / v - 1) by (apply ln_le_sub, Rdiv_lt_0_compat; auto).
    rewrite ln_div in L by auto.
    assert (D : 0 <= d2 / v) by (apply Rdiv_le_0_compat; auto).
    replace (INR N * w / w) with (INR N * 1) by (field; lra).
    replace (INR N * (w + d2) / v) with (INR N * (w / v + d2 / v)) by (field; lra).
    rewrite <- !Rmult_plus_distr_l. apply Rmult_le_compat_l; lra.
Qed.
Lemma C38_dss_unbiased_refuted_l :
  exists x z : nat -> R, spread 2 x /\ spread 2 z /\ forall b, exists S T : nat -> R,
    (forall j, (j < 2)%nat -> returns (dssuv_ensemble b (num0 (Fin (z j))) (real1 2 x) (-1) false) [] (fun _ => Fin (S j))) /\
    (forall j, (j < 2)%nat -> returns (dssuv_ensemble b (num0 (Fin (z j))) (real1 2 z) (-1) false) [] (fun _ => Fin (T j))) /\
    sumn 2 S < sumn 2 T.
Proof.
  set (d := sqrt (/ 8)). assert (D : d * d = / 8) by (apply sqrt_sqrt; lra). assert (0 < d) by (apply sqrt_lt_R0; lra).
  set (x := fun k : nat => / 2 + d * (1 - 2 * INR k)). set (z := fun k => INR k).
  assert (Hx : spread 2 x) by (exists 0%nat, 1%nat; unfold x; simpl; repeat split; auto; lra).
  assert (Hz : spread 2 z) by (exists 0%nat, 1%nat; unfold z; simpl; repeat split; auto; lra).
  exists x, z. split; [auto|]. split; [auto|]. intros b.
  exists (fun j => ds_score (mean 2 x) (variance false 2 x) (z j)), (fun j => ds_score (mean 2 z) (variance false 2 z) (z j)).
  split; [|split].
  - intros j Hj. eapply returns_is. eapply ten_ext; [eapply (dss_call_real b false _ _ _ _ _ _ _ _ (real0_dss (z j) 2 x)); auto; lia|]. reflexivity.
  - intros j Hj. eapply returns_is. eapply ten_ext; [eapply (dss_call_real b false _ _ _ _ _ _ _ _ (real0_dss (z j) 2 z)); auto; lia|]. reflexivity.
  - assert (M1 : mean 2 x = / 2) by (unfold mean, x, sumn, Rsum; simpl; field).
    assert (M2 : mean 2 z = / 2) by (unfold mean, z, sumn, Rsum; simpl; field).
    assert (V1 : variance false 2 x = / 4).
    { unfold variance. rewrite M1. unfold x, sumn, Rsum, Rsqr. simpl. replace (/ 4) with (2 * / 8) by field. rewrite <- D. field. }
    assert (V2 : variance false 2 z = / 2).
    { unfold variance. rewrite M2. unfold z, sumn, Rsum, Rsqr. simpl. field. }
    rewrite M1, M2, V1, V2. unfold ds_score, sumn, Rsum, z, Rsqr. simpl.
    replace (/ 4) with (/ 2 * / 2) by field. rewrite ln_mult by lra.
    assert (ln (/ 2) < - / 2).
    { rewrite ln_Rinv by lra. apply Ropp_lt_contravar. apply exp_lt_inv. rewrite exp_ln by lra.
      assert (E : exp (/ 2) * exp (/ 2) = exp 1) by (rewrite <- exp_plus; f_equal; field).
      pose proof exp_le_3. pose proof (exp_pos (/ 2)). nra. }
    lra.
Qed.
Lemma C38_dss_numba_integer_refuted_l :
  exists obs fct : arr, dt obs = DInt /\ ens_args obs fct (-1) [] 0 2 (fun _ => 1) (fun i => 2 * INR (hd 0%nat i)) /\
  returns (dssuv_ensemble Array obs fct (-1) false) [] (fun _ => Fin (ln 2)) /\
  returns (dssuv_ensemble Numba obs fct (-1) false) [] (fun _ => Fin 0) /\ ln 2 <> 0.
Proof.
  set (obs := mkArr DInt [] (fun _ => Fin 1)). set (fct := real1 2 (fun k => 2 * INR k)).
  assert (Ha : ens_args obs fct (-1) [] 0 2 (fun _ => 1) (fun i => 2 * INR (hd 0%nat i))) by (repeat split; simpl; auto; now left).
  assert (Hs : spread 2 (fun k => 2 * INR k)) by (exists 0%nat, 1%nat; simpl; repeat split; auto; lra).
  assert (V : ds_score (mean 2 (fun k => 2 * INR k)) (variance false 2 (fun k => 2 * INR k)) 1 = ln 2).
  { unfold ds_score, variance, mean, sumn, Rsum, Rsqr. simpl. replace ((_ + (_ + 0)) / (1 + 1 - 1)) with 2 by field.
    replace ((1 - _) * _) with 0 by field. lra. }
  assert (L : 0 < ln 2 < 1).
  { split; [rewrite <- ln_1; apply ln_increasing; lra|]. apply exp_lt_inv. rewrite exp_ln by lra. pose proof (exp_ineq1 1 ltac:(lra)). lra. }
  exists obs, fct. split; [reflexivity|]. split; [auto|]. split; [|split; [|lra]].
  - eapply returns_is, ten_ext; [eapply (dss_call_real Array false _ _ _ _ _ _ _ _ Ha); auto; discriminate|]. intros r Hr. cbv beta. f_equal. exact V.
  - pose proof (nums_inputs _ _ _ _ _ _ _ _ (args_nums _ _ _ _ _ _ _ _ Ha)) as Hin.
    destruct (check_in _ _ _ _ _ _ _ _ _ _ Hin) as (f' & E & Hf). pose proof Hin as (Ho & _).
    unfold dssuv_ensemble. rewrite E. cbn [bind].
    eapply returns_is, ten_ext; [eapply (gu_sv_is _ (fun d => d)); [apply outs_lazy|exact Ho|exact Hf]|].
    intros r Hr. cbv beta. rewrite dss_uv_k_row by lia.
    pose proof (dssn_real 2 (fun k => 2 * INR k) false 1 Hs) as D. cbn [ddof] in D.
    change (ncast DInt (dssn 1 2 (Fin 1) (fun k => Fin (2 * INR k))) = Fin 0). rewrite D, V. cbn [ncast]. do 2 f_equal.
    rewrite rtrunc_small; auto; lra.
Qed.
Lemma C38_ess_value_l :
  forall b obs fct ax s p M y x,
  ens_args obs fct ax s p M y x -> (b = Numba -> dt obs = DFloat) -> (2 < M)%nat -> (b = Array -> no_unit s) ->
  (forall r, inb s r -> spread M (member p x r)) ->
  returns (error_spread_score b obs fct ax) s
    (fun r => Fin (es_score (skew_code M (member p x r)) M (member p x r) (y r))).
Proof.
  intros b obs fct ax s p M y x Ha Hd HM Hu Hs. eapply returns_is, ten_ext; [eapply ess_call; eauto; lia|].
  intros r Hr. cbv beta. unfold ess_real. rewrite essn_real by auto. reflexivity.
Qed.
Lemma C38_ess_agree_l :
  forall obs fct ax s p M y x,
  ens_args obs fct ax s p M y x -> dt obs = DFloat -> (0 < M)%nat -> no_unit s ->
  exists v, returns (error_spread_score Array obs fct ax) s v /\ returns (error_spread_score Numba obs fct ax) s v.
Proof.
  intros obs fct ax s p M y x Ha Hd HM Hu. eexists. split; eapply returns_is, ess_call; eauto.
Qed.
Lemma C38_ess_unit_axis_l :
  forall obs fct M y x, ens_args obs fct (-1) (1%nat :: nil) 0 M y x -> dt obs = DFloat -> (0 < M)%nat ->
  exists u v, returns (error_spread_score Array obs fct (-1)) [] u /\ returns (error_spread_score Numba obs fct (-1)) (1%nat :: nil) v /\
    u [] = v (0%nat :: nil).
Proof.
  intros obs fct M y x Ha Hd HM. pose proof (args_nums _ _ _ _ _ _ _ _ Ha) as Hn.
  eexists. eexists. split; [eapply returns_is; exact (ess_call_arr _ _ _ _ _ _ _ _ Hn)|].
  split; [eapply returns_is, (ess_call Numba); eauto; discriminate|].
  cbn [unsqueeze_idx Nat.eqb]. unfold ess_real. f_equal.
  exact (f_equal (fun z => z .- Fin (y (0%nat :: nil))) (mean_real M (member 0 x (0%nat :: nil)) HM)).
Qed.
Lemma C38_ess_shape_refuted_l :
  exists obs fct M y x, ens_args obs fct (-1) (1%nat :: nil) 0 M y x /\ dt obs = DFloat /\ (2 < M)%nat /\
  forall s v, ~ (returns (error_spread_score Array obs fct (-1)) s v /\ returns (error_spread_score Numba obs fct (-1)) s v).
Proof.
  exists (real1 1 (fun _ => 0)), (real2 1 3 (fun _ k => INR k)), 3%nat, (fun _ => 0), (fun i => INR (hd 0%nat i)).
  assert (Ha : ens_args (real1 1 (fun _ => 0)) (real2 1 3 (fun _ k => INR k)) (-1) (1%nat :: nil) 0 3 (fun _ => 0) (fun i => INR (hd 0%nat i)))
    by (repeat split; simpl; auto; now left).
  split; [exact Ha|]. split; [reflexivity|]. split; [lia|]. intros s v (H1 & H2).
  destruct (C38_ess_unit_axis_l _ _ _ _ _ Ha eq_refl ltac:(lia)) as (u & w & U & W & _).
  destruct H1 as (d1 & a & E1 & _ & S1 & _), U as (d3 & a1 & E3 & _ & S3 & _), H2 as (d2 & c & E2 & _ & S2 & _), W as (d4 & c1 & E4 & _ & S4 & _).
  congruence.
Qed.
Lemma C38_ess_undefined_l :
  forall b obs fct ax s p M y x r,
  ens_args obs fct ax s p M y x -> (b = Numba -> dt obs = DFloat) -> (0 < M)%nat -> (b = Array -> no_unit s) ->
  inb s r -> ((M <= 2)%nat \/ ~ spread M (member p x r)) ->
  exists v, returns (error_spread_score b obs fct ax) s v /\ v r = NaN.
Proof.
  intros b obs fct ax s p M y x r Ha Hd HM Hu Hr Hs. eexists. split; [eapply returns_is, ess_call; eauto|].
  cbv beta. unfold ess_real. destruct (Classical_Prop.classic (spread M (member p x r))) as [S|S]; [|now apply essn_flat].
  destruct Hs as [H|H]; [|easy]. pose proof (spread_2 _ _ S). apply essn_two. lia.
Qed.
Lemma C38_ess_permutation_l :
  forall b obs fct fct' ax s p M y x x' g,
  ens_args obs fct ax s p M y x -> ens_args obs fct' ax s p M y x' -> (b = Numba -> dt obs = DFloat) -> (0 < M)%nat ->
  (b = Array -> no_unit s) -> (forall r, inb s r -> reorders M (g r)) ->
  (forall r i, inb s r -> (i < M)%nat -> member p x' r i = member p x r (g r i)) ->
  exists v, returns (error_spread_score b obs fct ax) s v /\ returns (error_spread_score b obs fct' ax) s v.
Proof.
  intros b obs fct fct' ax s p M y x x' g Ha Ha' Hd HM Hu Hg Hx. eexists. split; [eapply returns_is, ess_call; eauto|].
  eapply returns_ext; [eapply returns_is, (ess_call b obs fct'); eauto|]. intros r Hr. cbv beta. symmetry.
  assert (E : forall k, (k < M)%nat -> member p x r (g r k) = member p x' r k) by (intros; symmetry; auto).
  apply ess_real_eq; auto.
  - intros S. apply (spread_ext M _ _ E). apply reo_spread; auto.
  - intros (i & j & Hi & Hj & N). exists (g r i), (g r j). rewrite !E by auto. repeat split; auto; eapply reo_in; eauto.
  - intros S L. unfold es_score, skew_code.
    rewrite <- (mean_ext M _ _ E), <- (var_ext false M _ _ E), <- (cubes_ext M _ _ E).
    rewrite (reo_mean M (g r) (member p x r)), (reo_var false M (g r) (member p x r)), (reo_cubes M (g r) (member p x r)) by auto. reflexivity.
Qed.
Lemma C38_ess_affine_l :
  forall b obs fct obs' fct' ax s p M y x y' x' a c,
  ens_args obs fct ax s p M y x -> ens_args obs' fct' ax s p M y' x' ->
  (b = Numba -> dt obs = DFloat /\ dt obs' = DFloat) -> (2 < M)%nat -> (b = Array -> no_unit s) ->
  (forall r, inb s r -> spread M (member p x r)) -> (forall r, inb s r -> c r <> 0) ->
  (forall r, inb s r -> y' r = a r + c r * y r) ->
  (forall r i, inb s r -> (i < M)%nat -> member p x' r i = a r + c r * member p x r i) ->
  exists u, returns (error_spread_score b obs fct ax) s (fun r => Fin (u r)) /\
            returns (error_spread_score b obs' fct' ax) s (fun r => Fin (c r ^ 4 * u r)).
Proof.
  intros b obs fct obs' fct' ax s p M y x y' x' a c Ha Ha' Hd HM Hu Hs Hc Hy Hx. assert (HM0 : (0 < M)%nat) by lia. eexists.
  split; [eapply returns_is, ten_ext; [eapply (ess_call b obs fct); eauto; intros; now apply Hd|]|].
  { intros r Hr. cbv beta. unfold ess_real. rewrite essn_real by auto. reflexivity. }
  eapply returns_ext; [eapply returns_is, (ess_call b obs' fct'); eauto; intros; now apply Hd|].
  intros r Hr. cbv beta.
  assert (E : forall k, (k < M)%nat -> member p x' r k = a r + c r * member p x r k) by (intros; auto).
  assert (S : spread M (member p x' r)).
  { apply (spread_ext M (fun i => a r + c r * member p x r i)); [intros; symmetry; auto|]. apply spread_affine; auto. }
  unfold ess_real. rewrite essn_real by auto. f_equal. unfold skew_code.
  rewrite (mean_ext M _ _ E), (var_ext false M _ _ E), (cubes_ext M _ _ E), Hy by auto.
  rewrite mean_affine, var_affine, cubes_affine by auto.
  pose proof (variance_pos M _ false (Hs r Hr)) as P. rewrite sqrt_c2 by auto.
  assert (2 < INR M) by (change 2 with (INR 2); apply lt_INR; lia).
  pose proof (Rabs_pos_lt _ (Hc r Hr)) as C. set (cc := c r) in *. set (A := Rabs cc) in *.
  set (v := variance false M (member p x r)) in *. set (q := sqrt v). set (mm := mean M _). set (K := cubes M _).
  unfold Rsqr. field. repeat split; lra.
Qed.
Lemma C38_ess_nonnegative_l :
  forall b obs fct ax s p M y x,
  ens_args obs fct ax s p M y x -> (b = Numba -> dt obs = DFloat) -> (2 < M)%nat -> (b = Array -> no_unit s) ->
  (forall r, inb s r -> spread M (member p x r)) ->
  exists u, returns (error_spread_score b obs fct ax) s (fun r => Fin (u r)) /\ forall r, 0 <= u r.
Proof.
  intros b obs fct ax s p M y x Ha Hd HM Hu Hs. eexists. split.
  - eapply returns_is, ten_ext; [eapply ess_call; eauto; lia|]. intros r Hr. cbv beta. unfold ess_real. rewrite essn_real by auto. reflexivity.
  - intros r. apply Rle_0_sqr.
Qed.
Lemma C55_symmetric_l :
  forall b obs fct ax s p M y x,
  ens_args obs fct ax s p M y x -> (b = Numba -> dt obs = DFloat) -> (2 < M)%nat -> (b = Array -> no_unit s) ->
  (forall r, inb s r -> spread M (member p x r) /\ cubes M (member p x r) = 0) ->
  returns (error_spread_score b obs fct ax) s
    (fun r => Fin (es_score (skew_paper M (member p x r)) M (member p x r) (y r))).
Proof.
  intros b obs fct ax s p M y x Ha Hd HM Hu Hs. eapply returns_is, ten_ext; [eapply ess_call; eauto; lia|].
  intros r Hr. destruct (Hs r Hr) as (S & C). cbv beta. unfold ess_real. rewrite essn_real by auto. unfold es_score, skew_paper, skew_code.
  rewrite C. unfold Rdiv. rewrite !Rmult_0_l, !Rmult_0_r. reflexivity.
Qed.
Lemma C55_skewness_refuted_l :
  exists M x y, (2 < M)%nat /\ spread M x /\ forall b, exists u,
    returns (error_spread_score b (num0 (Fin y)) (real1 M x) (-1)) [] (fun _ => Fin u) /\
    u <> es_score (skew_paper M x) M x y.
Proof.
  set (x := fun k : nat => match k with 2%nat => 3 | _ => 0 end). exists 3%nat, x, (-1). split; [lia|].
  assert (S : spread 3 x) by (exists 0%nat, 2%nat; simpl; repeat split; auto; lra). split; [auto|]. intros b.
  exists (es_score (skew_code 3 x) 3 x (-1)). split.
  - eapply returns_is, ten_ext; [eapply (ess_call b _ _ _ _ _ _ _ _ (real0_dss (-1) 3 x)); auto; intros _ d []|].
    intros r Hr. cbv beta. unfold ess_real. change (member 0 _ r) with x. rewrite essn_real by (auto; lia). reflexivity.
  - assert (Mx : mean 3 x = 1) by (unfold mean, x, sumn, Rsum; simpl; field).
    assert (V : variance false 3 x = 3) by (unfold variance; rewrite Mx; unfold x, sumn, Rsum, Rsqr; simpl; field).
    assert (Q : sqrt 3 * sqrt 3 = 3) by (apply sqrt_sqrt; lra). assert (0 < sqrt 3) by (apply sqrt_lt_R0; lra).
    assert (C : cubes 3 x = 2 * / sqrt 3).
    { unfold cubes. rewrite Mx, V. unfold x, sumn, Rsum. simpl. set (q := sqrt 3) in *.
      replace (2 * / q) with (2 * 3 / (q * q * q)) by (rewrite Q; field; lra). field. lra. }
    unfold es_score, skew_code, skew_paper. rewrite Mx, V, C. set (q := sqrt 3) in *.
    replace (1 - -1) with 2 by ring. simpl INR.
    replace (2 * q * (2 * / q / ((1 + 1 + 1 - 1) * (1 + 1 + 1 - 2)))) with 2 by (field; lra).
    replace (2 * q * ((1 + 1 + 1) / ((1 + 1 + 1 - 1) * (1 + 1 + 1 - 2)) * (2 * / q))) with 6 by (field; lra).
    unfold Rsqr. lra.
Qed.
