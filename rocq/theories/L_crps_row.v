(** Each row score, on finite inputs, as a real formula. *)
From Verif Require Export L_fin.
Open Scope R_scope.

(** real formulas *)
Lemma INR_pos M : (0 < M)%nat -> 0 < INR M. Proof. intros; now apply lt_0_INR. Qed.
Lemma INR_nz M : (0 < M)%nat -> INR M <> 0. Proof. intros; apply not_0_INR; lia. Qed.
Lemma INR_ge2 M : (1 < M)%nat -> 1 < INR M. Proof. intros; now apply (lt_INR 1). Qed.
Lemma INR_pred M : (0 < M)%nat -> INR (M - 1) = INR M - 1.
Proof. intros; rewrite minus_INR by lia; reflexivity. Qed.
Lemma abs_mae M y x : sumn M (fun k => Rabs (y - x k)) = sumn M (fun k => Rabs (x k - y)).
Proof. apply sumn_ext; intros; apply Rabs_minus_sym. Qed.
Lemma abs_wmae M y x w : sumn M (fun k => Rabs (y - x k) * w k) = wmae M w y x.
Proof. apply sumn_ext; intros; rewrite Rabs_minus_sym; ring. Qed.

Section Rows.
Variables (M : nat) (yn : num) (xn : nat -> num) (y : R) (x : nat -> R).
Hypothesis HM : (0 < M)%nat.
Hypothesis Hy : yn = Fin y.
Hypothesis Hx : forall k, (k < M)%nat -> xn k = Fin (x k).

Ltac nz := solve [now apply INR_nz | rewrite ?mult_INR; pose proof (INR_nz M HM); try assumption;
  try (let E := fresh in intros E; repeat (apply Rmult_integral in E; destruct E as [E|E]); lra || tauto)].

Lemma row_nrg_real : row_nrg M yn xn = Fin (exact_crps M y x).
Proof.
  unfold row_nrg, e1n, e2n. fin; try nz.
  rewrite abs_mae. unfold exact_crps, mae, pairsum, half. rewrite mult_INR. field; nz.
Qed.
Lemma row_fair_real : (1 < M)%nat -> row_fair M yn xn = Fin (fair_crps M y x).
Proof.
  intros H2. pose proof (INR_ge2 M H2). unfold row_fair, e1n, e2n.
  fin; try nz; try (rewrite mult_INR, INR_pred by lia; nz).
  rewrite abs_mae. unfold fair_crps, mae, pairsum, half. rewrite mult_INR, INR_pred by lia. field. lra.
Qed.
Lemma row_fair_1 : M = 1%nat -> row_fair M yn xn = NaN.
Proof.
  intros E. unfold row_fair, e2n. replace (M * (M - 1))%nat with O by lia.
  assert (Z : nsumn M (fun i => nsumn M (fun j => nabs (xn i .- xn j))) = Fin 0).
  { fin. rewrite E. unfold sumn, Rsum; simpl. rewrite Rminus_eq_0, Rabs_R0. lra. }
  rewrite Z. unfold nofnat. simpl INR. rewrite ndiv_0. now rewrite nmul_NaN_r, nsub_NaN_r.
Qed.
Lemma row_pwm_real : (1 < M)%nat -> ascending M x -> row_pwm M yn xn = Fin (fair_crps M y x).
Proof.
  intros H2 Ha. pose proof (INR_ge2 M H2). unfold row_pwm, e1n. fin; try nz.
  rewrite abs_mae. unfold fair_crps, mae. rewrite (pwm_spread M x Ha). change (fun k => x k) with x. field. lra.
Qed.
Lemma row_lag_real g : (forall k, (k < M)%nat -> (g k < M)%nat) ->
  row_lag M g yn xn = Fin (lag_crps M g y x).
Proof.
  intros Hg. unfold row_lag, e1n. fin; try nz; auto.
  rewrite abs_mae. unfold lag_crps, mae, half. field. nz.
Qed.
Lemma uniform_sum : sumn M (fun _ => / INR M) = 1.
Proof. rewrite sumn_const. field; nz. Qed.
Lemma exact_uniform : exact_crps M y x = wexact_crps M (fun _ => / INR M) y x.
Proof.
  unfold exact_crps, wexact_crps, wmae, wpairsum, mae, pairsum.
  rewrite (sumn_ext M (fun i => sumn M (fun j => / INR M * / INR M * Rabs (x i - x j)))
      (fun i => (/ INR M * / INR M) * sumn M (fun j => Rabs (x i - x j)))) by (intros; apply sumn_scal).
  rewrite !sumn_scal. field; nz.
Qed.
Lemma row_qd_real : ascending M x -> row_qd M yn xn = Fin (exact_crps M y x).
Proof.
  intros Ha. unfold row_qd. fin; try nz.
  rewrite exact_uniform. unfold wexact_crps. rewrite <- (qd_kernel M _ x y Ha uniform_sum).
  unfold Rdiv. rewrite <- sumn_scal_r, <- !sumn_scal. apply sumn_ext; intros k Hk.
  rewrite sumn_const. rewrite mult_INR, !S_INR. simpl INR. unfold half.
  destruct (Rle_or_lt (x k) y).
  - rewrite ind_le_1, ind_lt_0 by lra. field; nz.
  - rewrite ind_le_0, ind_lt_1 by lra. field; nz.
Qed.
End Rows.

(** ** running sums *)
Lemma ncumsum_from_nth l acc k : (k < length l)%nat ->
  nth k (ncumsum_from acc l) NaN = nadd acc (nsum (firstn (S k) l)).
Proof.
  revert acc k; induction l as [|a l IH]; intros acc k H; [simpl in H; lia|].
  cbn [ncumsum_from]. destruct k.
  - simpl. unfold nsum; simpl. now rewrite nadd_0_r.
  - cbn [nth]. rewrite IH by (simpl in H; lia). cbn [firstn]. unfold nsum; cbn [fold_right].
    now rewrite nadd_assoc.
Qed.
Lemma firstn_seq n k : (k <= n)%nat -> firstn k (seq 0 n) = seq 0 k.
Proof.
  intros H. replace n with (k + (n - k))%nat by lia. rewrite seq_app, firstn_app, seq_length.
  replace (k - k)%nat with O by lia. simpl. rewrite app_nil_r.
  rewrite <- (seq_length k 0) at 1. apply firstn_all.
Qed.
Lemma ncumsum_real M wn w k : (forall k, (k < M)%nat -> wn k = Fin (w k)) -> (k < M)%nat ->
  nth k (ncumsum (rw M wn)) NaN = Fin (sumn (S k) w).
Proof.
  intros H Hk. unfold ncumsum. rewrite ncumsum_from_nth by (now rewrite rw_length).
  unfold rw. rewrite firstn_map, firstn_seq by lia. rewrite nadd_0_l.
  apply nsum_sumn. intros j Hj; apply H; lia.
Qed.

(** ** numba kernels *)
Lemma fold2n (step : num * num -> nat -> num * num) f g n a b :
  (forall a b i, (i < n)%nat -> step (a, b) i = (a .+ f i, b .+ g i)) ->
  fold_left step (seq 0 n) (a, b) = (a .+ nsumn n f, b .+ nsumn n g).
Proof.
  intros H. unfold nsumn. rewrite <- fold2. apply fold_left_ext_in. intros [a' b'] i Hi.
  apply in_seq in Hi. apply H; lia.
Qed.
Lemma fold3n (step : num * num * num -> nat -> num * num * num) f g h n a b c :
  (forall a b c i, (i < n)%nat -> step (a, b, c) i = (a .+ f i, b .+ g i, c .+ h i)) ->
  fold_left step (seq 0 n) (a, b, c) = (a .+ nsumn n f, b .+ nsumn n g, c .+ nsumn n h).
Proof.
  intros H. unfold nsumn. rewrite <- fold3. apply fold_left_ext_in. intros [[a' b'] c'] i Hi.
  apply in_seq in Hi. apply H; lia.
Qed.
Section Kernels.
Variables (M : nat) (yn : num) (xn : nat -> num) (y : R) (x : nat -> R).
Hypothesis HM : (0 < M)%nat.
Hypothesis Hy : yn = Fin y.
Hypothesis Hx : forall k, (k < M)%nat -> xn k = Fin (x k).
Lemma Hith : forall k, (k < M)%nat -> ith (rw M xn) k = Fin (x k).
Proof. intros; rewrite rw_ith; auto. Qed.
Ltac nz := solve [now apply INR_nz | rewrite ?mult_INR; pose proof (INR_nz M HM); try assumption;
  try (let E := fresh in intros E; repeat (apply Rmult_integral in E; destruct E as [E|E]); lra || tauto)].
Lemma tri : pairsum M x =
  sumn M (fun i => Rsum (map (fun j => 2 * Rabs (x j - x i)) (seq (i + 1) (M - (i + 1))))).
Proof.
  unfold pairsum. rewrite (sumn_triangle M (fun i j => Rabs (x i - x j))).
  - rewrite <- sumn_scal. apply sumn_ext; intros i Hi. rewrite <- Rsum_map_scal.
    apply Rsum_map_ext; intros; now rewrite Rabs_minus_sym.
  - intros; apply Rabs_minus_sym.
  - intros; now rewrite Rminus_eq_0, Rabs_R0.
Qed.

Lemma e1e2_real : crps_e1e2 yn (rw M xn) = (Fin (INR M * mae M y x), Fin (pairsum M x)).
Proof.
  pose proof Hith. unfold crps_e1e2. rewrite rw_length, Hy.
  rewrite (fold_pairs M (fun i => nabs (ith (rw M xn) i .- Fin y))
     (fun i j => n2 .* nabs (ith (rw M xn) j .- ith (rw M xn) i))).
  unfold n2. f_equal.
  - fin. unfold mae. field. nz.
  - fin. symmetry; apply tri.
Qed.
Lemma nrg_k_real : crps_nrg_k yn (rw M xn) = Fin (exact_crps M y x).
Proof.
  unfold crps_nrg_k. rewrite e1e2_real, rw_length, Hy. cbn [nisnan]. unfold nhalf. fin; try nz.
  unfold exact_crps, half. rewrite mult_INR. field. nz.
Qed.
Lemma fair_k_real : (1 < M)%nat -> crps_fair_k yn (rw M xn) = Fin (fair_crps M y x).
Proof.
  intros H2. pose proof (INR_ge2 M H2).
  unfold crps_fair_k. rewrite e1e2_real, rw_length, Hy. cbn [nisnan]. unfold nhalf.
  fin; try nz; rewrite ?mult_INR, ?INR_pred by lia; try nz.
  unfold fair_crps, half. field. lra.
Qed.
Lemma fair_k_1 : M = 1%nat -> crps_fair_k yn (rw M xn) = NaN.
Proof.
  intros E. unfold crps_fair_k. rewrite e1e2_real, rw_length, Hy. cbn [nisnan].
  replace (M * (M - 1))%nat with O by lia.
  replace (pairsum M x) with 0 by (rewrite E; unfold pairsum, sumn, Rsum; simpl; rewrite Rminus_eq_0, Rabs_R0; lra).
  unfold nhalf, nofnat. rewrite nmul_Fin, Rmult_0_r. simpl INR. now rewrite ndiv_0, nsub_NaN_r.
Qed.
Lemma pwm_k_real : (1 < M)%nat -> ascending M x -> crps_pwm_k yn (rw M xn) = Fin (fair_crps M y x).
Proof.
  intros H2 Ha. pose proof (INR_ge2 M H2).
  unfold crps_pwm_k. rewrite rw_length, Hy. cbn [nisnan]. rewrite combine_seq, fold_left_map.
  rewrite (fold3n _ (fun i => nabs (xn i .- Fin y)) xn (fun i => xn i .* nofnat i)) by reflexivity.
  unfold n0, n2. fin; try nz; rewrite ?mult_INR, ?INR_pred by lia; try nz.
  unfold fair_crps, mae. rewrite (pwm_spread M x Ha). change (fun k => x k) with x. field. lra.
Qed.
Lemma akr_k_real : crps_akr_k yn (rw M xn) =
  Fin (lag_crps M (fun k => (if (k =? 0)%nat then M else k) - 1)%nat y x).
Proof.
  pose proof Hith.
  unfold crps_akr_k. rewrite rw_length, Hy, combine_seq, fold_left_map.
  rewrite (fold2n _ (fun i => nabs (xn i .- Fin y))
    (fun i => nabs (xn i .- ith (rw M xn) ((if i =? 0 then M else i) - 1)%nat))) by reflexivity.
  unfold n0, n1, nhalf. fin; try nz.
  - destruct (Nat.eqb_spec k 0); lia.
  - unfold lag_crps, mae, half. field. nz.
Qed.
Lemma circperm_lt k : (k < M)%nat -> (circperm_idx M k < M)%nat.
Proof.
  intros Hk. unfold circperm_idx. apply Nat.div_lt_upper_bound; [lia|].
  apply Nat.mod_upper_bound; lia.
Qed.
Lemma akr_circperm_k_real : crps_akr_circperm_k yn (rw M xn) = Fin (lag_crps M (circperm_idx M) y x).
Proof.
  pose proof Hith.
  unfold crps_akr_circperm_k. rewrite rw_length, Hy, combine_seq, fold_left_map.
  rewrite (fold2n _ (fun i => nabs (xn i .- Fin y))
    (fun i => nabs (xn i .- ith (rw M xn) (circperm_idx M i)))) by reflexivity.
  unfold n0, n1, nhalf. fin; try nz.
  - now apply circperm_lt.
  - unfold lag_crps, mae, half. field. nz.
Qed.

(** the sorted loops *)
Lemma qd_loop n (c : nat -> num -> num) (cr : nat -> R -> R)
    (step : option (num * num) -> nat -> option (num * num)) :
  ascending M x -> (n <= M)%nat ->
  (forall i b, (i < M)%nat -> c i (Fin b) = Fin (cr i b)) ->
  (forall i ob I, (i < M)%nat -> step (Some (ob, I)) i =
     let ob := if nltb yn (xn i) then n1 else ob in Some (ob, I .+ c i ob)) ->
  exists ob, fold_left step (seq 0 n) (Some (n0, n0)) =
    Some (Fin ob, Fin (sumn n (fun i => cr i (ind_lt y (x i))))) /\
    ((0 < n)%nat -> ob = ind_lt y (x (n - 1)%nat)) /\ (n = O -> ob = 0).
Proof.
  intros Ha Hn Hc Hstep. induction n.
  - exists 0. simpl. split; [reflexivity|]. split; [lia|auto].
  - destruct IHn as (ob & E & H1 & H0); [lia|]. rewrite seq_S, fold_left_app, E. cbn [fold_left].
    rewrite Hstep by lia. rewrite Hy, (Hx (0 + n)%nat) by lia. cbn [Nat.add nltb].
    exists (ind_lt y (x n)). replace (S n - 1)%nat with n by lia.
    unfold rltb. destruct (Rlt_dec y (x n)) as [L|L].
    + unfold n1. cbv zeta. rewrite Hc by lia. rewrite sumn_S, ind_lt_1 by auto.
      split; [reflexivity|]. split; [auto|lia].
    + assert (ob = 0).
      { destruct n; [auto|]. rewrite H1 by lia. apply ind_lt_0.
        pose proof (Ha (S n - 1)%nat (S n) ltac:(lia)). lra. }
      subst ob. cbv zeta. rewrite Hc by lia. rewrite sumn_S, ind_lt_0 by lra.
      split; [reflexivity|]. split; [auto|lia].
Qed.
Lemma qd_k_real : ascending M x -> crps_qd_k yn (rw M xn) = Fin (exact_crps M y x).
Proof.
  intros Ha. unfold crps_qd_k. rewrite rw_length, combine_seq, fold_left_map.
  destruct (qd_loop M (fun i ob => (xn i .- yn) .* (nofnat M .* ob .- nofnat (i + 1) .+ nhalf))
    (fun i b => (x i - y) * (INR M * b - INR (i + 1) + half))
    (fun st i => crps_qd_step M yn st (i, xn i))) as (ob & E & _); auto.
  - intros i b Hi. unfold nhalf. rewrite Hy, Hx by auto. reflexivity.
  - intros i ob I Hi. cbn [crps_qd_step]. rewrite Hx by auto. reflexivity.
  - rewrite E, Hy. cbn [nisnan]. unfold n2. fin; try nz.
    rewrite exact_uniform by auto. unfold wexact_crps.
    rewrite <- (qd_kernel M _ x y Ha (uniform_sum M HM)).
    rewrite <- !sumn_scal. apply sumn_ext; intros k Hk.
    rewrite sumn_const, mult_INR, S_INR, plus_INR. unfold half. simpl INR. field. nz.
Qed.

Lemma int_loop n (wn : nat -> num) (w : nat -> R) :
  ascending M x -> (forall k, (k < M)%nat -> wn k = Fin (w k)) -> (n < M)%nat ->
  fold_left (fun st i => crps_int_step (wn i) yn st (xn i)) (seq 0 (S n)) (Some (false, n0, n0, n0)) =
  Some (rltb y (x n), Fin (sumn (S n) w), Fin (x n),
        Fin (maxint (S n) w x (x n) + if Rlt_dec y (x n) then obsint (S n) w x y (x n) else 0)).
Proof.
  intros Ha Hw. induction n; intros Hn.
  - cbn [seq fold_left]. unfold crps_int_step, n0, n1. rewrite Hy, Hx, Hw by lia. cbn [nisnan negb andb nltb].
    assert (E1 : sumn 1 w = w O) by (unfold sumn, Rsum; simpl; lra).
    assert (E2 : maxint 1 w x (x O) = 0).
    { rewrite maxint_S by (intros; lia). unfold maxint. apply sumn_0. }
    rewrite E1, E2. unfold rltb. destruct (Rlt_dec y (x O)) as [L|L].
    + rewrite obsint_S by lra. unfold obsint. rewrite sumn_0. cbn.
      f_equal. f_equal; [f_equal; f_equal; f_equal; ring|f_equal; ring].
    + cbn. f_equal. f_equal; [f_equal; f_equal; f_equal; ring|f_equal; ring].
  - rewrite seq_S, fold_left_app, IHn by lia. cbn [fold_left]. clear IHn.
    pose proof (Ha n (S n) ltac:(lia)) as Hs. cbn [Nat.add].
    assert (Hsn : forall i, (i < S n)%nat -> x i <= x (S n)) by (intros; apply Ha; lia).
    rewrite (maxint_S (S n)) by auto. rewrite (maxint_step (S n) w x (x n) (x (S n))).
    unfold crps_int_step. rewrite Hy, Hx, Hw by lia. cbn [nisnan nltb]. unfold n1, rltb.
    rewrite (sumn_S (S n) w). set (W := sumn (S n) w).
    destruct (Rlt_dec y (x n)) as [L|L]; destruct (Rlt_dec y (x (S n))) as [L'|L']; try lra; cbn.
    + rewrite (obsint_S (S n)) by lra. rewrite (obsint_step (S n) w x y (x n) (x (S n))). fold W.
      f_equal. f_equal. f_equal. ring.
    + rewrite (obsint_S (S n)) by lra. rewrite (obsint_step (S n) w x y y (x (S n))).
      rewrite (obsint_start (S n)).
      2:{ intros i Hi. pose proof (Ha i n ltac:(lia)). lra. }
      fold W. f_equal. f_equal. f_equal. ring.
    + f_equal. f_equal. f_equal. ring.
Qed.
Lemma int_finish (wn : nat -> num) (w : nat -> R) :
  ascending M x -> (forall k, (k < M)%nat -> wn k = Fin (w k)) -> sumn M w = 1 ->
  match fold_left (fun st i => crps_int_step (wn i) yn st (xn i)) (seq 0 M) (Some (false, n0, n0, n0)) with
  | None => NaN
  | Some (obs_cdf, _, forecast, integral) => if obs_cdf then integral else integral .+ (yn .- forecast)
  end = Fin (wexact_crps M w y x).
Proof.
  intros Ha Hw H1. destruct M as [|n] eqn:EM; [lia|]. rewrite <- EM in *.
  rewrite EM at 1. rewrite (int_loop n wn w) by (auto; lia). rewrite <- EM. unfold rltb.
  unfold wexact_crps. rewrite maxint_kernel by auto.
  destruct (Rlt_dec y (x n)).
  - rewrite obsint_kernel by auto. f_equal. ring.
  - rewrite Hy. cbn. f_equal. rewrite (wmae_above M w x y) by
      (auto; intros i Hi; pose proof (Ha i n ltac:(lia)); lra). ring.
Qed.
Lemma int_k_real : ascending M x -> crps_int_k yn (rw M xn) = Fin (exact_crps M y x).
Proof.
  intros Ha. unfold crps_int_k. rewrite rw_length. replace (nisnan yn) with false by now rewrite Hy.
  unfold rw. rewrite fold_left_map. rewrite exact_uniform by auto.
  apply (int_finish (fun _ => n1 ./ nofnat M)); auto; [|now apply uniform_sum].
  intros k Hk. unfold n1. fin; try nz. field. nz.
Qed.
End Kernels.
