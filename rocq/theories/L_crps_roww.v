(** Weighted row scores and the "int" rows, on finite inputs. *)
From Verif Require Export L_crps_row.
Open Scope R_scope.

(** ** inserting a value in a sorted row *)
Definition ins (p : nat) (f : nat -> R) (v : R) (k : nat) : R :=
  if (k <? p)%nat then f k else if (k =? p)%nat then v else f (k - 1)%nat.
Lemma ins_list M f v p : (p <= M)%nat ->
  map (ins p f v) (seq 0 (M + 1)) = map f (seq 0 p) ++ v :: map f (seq p (M - p)).
Proof.
  intros H. replace (M + 1)%nat with (p + S (M - p))%nat by lia. rewrite seq_app, map_app. f_equal.
  - apply map_ext_in. intros k Hk; apply in_seq in Hk. unfold ins.
    destruct (Nat.ltb_spec k p); auto; lia.
  - cbn [seq map Nat.add]. f_equal.
    + unfold ins. rewrite Nat.ltb_irrefl, Nat.eqb_refl. reflexivity.
    + rewrite <- seq_shift, map_map. apply map_ext_in. intros k Hk; apply in_seq in Hk. unfold ins.
      destruct (Nat.ltb_spec (S k) p); [lia|]. destruct (Nat.eqb_spec (S k) p); [lia|].
      f_equal; lia.
Qed.
Lemma app_list M (f : nat -> R) v :
  map (fun k => if (k <? M)%nat then f k else v) (seq 0 (M + 1)) = map f (seq 0 M) ++ [v].
Proof.
  rewrite seq_app, map_app. f_equal.
  - apply map_ext_in. intros k Hk; apply in_seq in Hk. destruct (Nat.ltb_spec k M); auto; lia.
  - simpl. now rewrite Nat.ltb_irrefl.
Qed.
Lemma ins_sorted M f v p : ascending M f -> (p <= M)%nat ->
  (forall k, (k < p)%nat -> f k <= v) -> (forall k, (p <= k < M)%nat -> v <= f k) ->
  ascending (M + 1) (ins p f v).
Proof.
  intros Ha Hp H1 H2 i j Hij. unfold ins.
  destruct (Nat.ltb_spec i p), (Nat.ltb_spec j p); try lia.
  - apply Ha; lia.
  - destruct (Nat.eqb_spec j p); [now apply H1|]. apply Ha; lia.
  - destruct (Nat.eqb_spec i p), (Nat.eqb_spec j p); try lia; try lra.
    + apply H2; lia.
    + apply Ha; lia.
Qed.
Lemma nsort_ins M fn f vn v p : ascending M f -> (p <= M)%nat ->
  (forall k, (k < p)%nat -> f k <= v) -> (forall k, (p <= k < M)%nat -> v <= f k) ->
  (forall k, (k < M)%nat -> fn k = Fin (f k)) -> vn = Fin v ->
  forall k, (k < M + 1)%nat ->
  nth k (nsort (map (fun k => if (k <? M)%nat then fn k else vn) (seq 0 (M + 1)))) NaN
  = Fin (ins p f v k).
Proof.
  intros Ha Hp H1 H2 Hf Hv k Hk.
  replace (map (fun k => if (k <? M)%nat then fn k else vn) (seq 0 (M + 1)))
    with (map Fin (map (fun k => if (k <? M)%nat then f k else v) (seq 0 (M + 1)))).
  2:{ rewrite map_map. apply map_ext. intros j. destruct (Nat.ltb_spec j M); symmetry; auto. }
  rewrite (nsort_unique _ (map (ins p f v) (seq 0 (M + 1)))).
  - rewrite map_map. fold (rw (M + 1) (fun k => Fin (ins p f v k))). now rewrite rw_nth.
  - apply ascending_SS. now apply ins_sorted.
  - rewrite app_list, ins_list by auto. replace (seq 0 M) with (seq 0 p ++ seq p (M - p)).
    + rewrite map_app, <- app_assoc. apply Permutation_app_head. symmetry.
      rewrite Permutation_cons_append. reflexivity.
    + replace M with (p + (M - p))%nat at 2 by lia. symmetry. apply seq_app.
Qed.
(** number of members at or below the observation *)
Lemma split_at M x y : ascending M x -> exists p, (p <= M)%nat /\
  (forall k, (k < p)%nat -> x k <= y) /\ (forall k, (p <= k < M)%nat -> y < x k).
Proof.
  induction M; intros Ha.
  - exists O. split; [lia|]. split; intros; lia.
  - destruct IHM as (p & Hp & H1 & H2); [intros i j H; apply Ha; lia|].
    destruct (Rle_or_lt (x M) y).
    + exists (S M). split; [lia|]. split; intros; [|lia].
      pose proof (Ha k M ltac:(lia)). lra.
    + exists p. split; [lia|]. split; auto. intros k Hk.
      destruct (Nat.eq_dec k M) as [->|]; auto. apply H2; lia.
Qed.
Lemma sumn_mono n m w : (n <= m)%nat -> (forall k, (k < m)%nat -> 0 <= w k) -> sumn n w <= sumn m w.
Proof.
  intros H Hw. replace m with (n + (m - n))%nat by lia. rewrite sumn_plus_idx.
  pose proof (sumn_nonneg (m - n) (fun k => w (n + k)%nat) ltac:(intros; apply Hw; lia)). lra.
Qed.
Lemma sumn_cut p M (f : nat -> R) w : (p <= M)%nat ->
  (forall k, (k < p)%nat -> f k = 1) -> (forall k, (p <= k < M)%nat -> f k = 0) ->
  sumn M (fun k => f k * w k) = sumn p w.
Proof.
  intros H H1 H2. replace M with (p + (M - p))%nat by lia. rewrite sumn_plus_idx.
  rewrite (sumn_ext p _ w) by (intros; rewrite H1 by auto; ring).
  rewrite (sumn_ext (M - p) _ (fun _ => 0)) by (intros; rewrite H2 by lia; ring).
  rewrite sumn_zero; ring.
Qed.

(** the step sum of the array version of "int" *)
Lemma int_sum M w x y p : ascending M x -> (p <= M)%nat ->
  (forall k, (k < p)%nat -> x k <= y) -> (forall k, (p <= k < M)%nat -> y < x k) ->
  sumn M w = 1 ->
  sumn M (fun k => (ins p x y (1 + k) - ins p x y k)
     * ((ins p (fun k => sumn (S k) w) (sumn p w) k - ind_le y (ins p x y k) * 1)
        * (ins p (fun k => sumn (S k) w) (sumn p w) k - ind_le y (ins p x y k) * 1)))
  = wexact_crps M w y x.
Proof.
  intros Ha Hp H1 H2 Hw.
  set (E := ins p x y). set (T := fun k => (E (1 + k)%nat - E k) * _).
  assert (HE : ascending (M + 1) E).
  { apply ins_sorted; auto. intros k Hk; specialize (H2 k Hk); lra. }
  assert (A : forall n, (n <= p)%nat -> sumn n T = maxint n w x (E n)).
  { induction n; intros Hn; [rewrite sumn_0; unfold maxint; now rewrite sumn_0|].
    rewrite sumn_S, IHn by lia.
    assert (En : E n = x n) by (unfold E, ins; destruct (Nat.ltb_spec n p); auto; lia).
    rewrite (maxint_step (S n) w x (x n) (E (S n))), maxint_S by (intros; apply Ha; lia).
    rewrite En. f_equal. unfold T. rewrite En. unfold ins at 1 2.
    destruct (Nat.ltb_spec n p); [|lia]. cbn [Nat.add].
    destruct (Rlt_or_le (x n) y).
    - rewrite ind_le_0 by auto. ring.
    - assert (x n = y) by (specialize (H1 n ltac:(lia)); lra).
      replace (E (S n)) with (x n); [ring|].
      unfold E, ins. destruct (Nat.ltb_spec (S n) p).
      + pose proof (Ha n (S n) ltac:(lia)). specialize (H1 (S n) ltac:(lia)). lra.
      + destruct (Nat.eqb_spec (S n) p); [auto|lia]. }
  assert (Ep : E p = y) by (unfold E, ins; rewrite Nat.ltb_irrefl, Nat.eqb_refl; auto).
  assert (B : forall n, (p + S n <= M)%nat -> sumn (p + S n)%nat T =
     maxint (p + S n)%nat w x (E (p + S n)%nat) + obsint (p + S n)%nat w x y (E (p + S n)%nat)).
  { assert (EE : forall k, E (p + S k)%nat = x (p + k)%nat).
    { intros k. unfold E, ins. destruct (Nat.ltb_spec (p + S k) p); [lia|].
      destruct (Nat.eqb_spec (p + S k) p); [lia|]. f_equal; lia. }
    assert (CC : forall k, ins p (fun k => sumn (S k) w) (sumn p w) (p + k)%nat = sumn (p + k)%nat w).
    { intros k. unfold ins. destruct (Nat.ltb_spec (p + k)%nat p); [lia|].
      destruct (Nat.eqb_spec (p + k)%nat p); f_equal; lia. }
    induction n; intros Hn.
    - rewrite Nat.add_succ_r, sumn_S, Nat.add_0_r, A by lia. rewrite Ep.
      replace (S p) with (p + 1)%nat by lia. rewrite EE, Nat.add_0_r.
      replace (p + 1)%nat with (S p) by lia.
      rewrite maxint_S by (intros; apply Ha; lia). rewrite obsint_S by (left; apply H2; lia).
      rewrite (maxint_step p w x y (x p)), (obsint_step p w x y y (x p)), obsint_start by auto.
      unfold T. rewrite Ep, ind_le_1 by lra. pose proof (CC O) as C0. rewrite Nat.add_0_r in C0. rewrite C0.
      replace (E (1 + p)%nat) with (x p); [ring|].
      pose proof (EE O) as E0. rewrite Nat.add_0_r in E0. rewrite <- E0. f_equal; lia.
    - replace (p + S (S n))%nat with (S (p + S n)) by lia. rewrite sumn_S, IHn by lia.
      replace (S (p + S n)) with (p + S (S n))%nat at 2 4 by lia. rewrite !EE.
      rewrite maxint_S by (intros; apply Ha; lia). rewrite obsint_S by (left; apply H2; lia).
      rewrite (maxint_step (p + S n)%nat w x (x (p + n)%nat) (x (p + S n)%nat)),
        (obsint_step (p + S n)%nat w x y (x (p + n)%nat) (x (p + S n)%nat)).
      unfold T. rewrite CC. replace (1 + (p + S n))%nat with (p + S (S n))%nat by lia.
      rewrite !EE, ind_le_1 by (left; apply H2; lia). ring. }
  destruct (Nat.eq_dec p M) as [->|].
  - rewrite A by lia. rewrite Ep, maxint_kernel by auto. unfold wexact_crps.
    rewrite (wmae_above M w x y) by auto. ring.
  - replace M with (p + S (M - p - 1))%nat at 1 by lia. rewrite B by lia.
    replace (p + S (M - p - 1))%nat with M by lia. rewrite maxint_kernel, obsint_kernel by auto.
    unfold wexact_crps. ring.
Qed.

Section Int.
Variables (M : nat) (yn : num) (xn : nat -> num) (y : R) (x : nat -> R).
Hypothesis HM : (0 < M)%nat.
Hypothesis Hy : yn = Fin y.
Hypothesis Hx : forall k, (k < M)%nat -> xn k = Fin (x k).
Hypothesis Ha : ascending M x.
Lemma row_int_real cdf ypos w : (forall k, (k < M)%nat -> 0 <= w k) -> sumn M w = 1 ->
  (forall k, (k < M)%nat -> cdf k = Fin (sumn (S k) w)) ->
  ypos = Fin (sumn M (fun k => ind_le (x k) y * w k)) ->
  row_int M cdf ypos yn xn = Fin (wexact_crps M w y x).
Proof.
  intros Hw H1 Hc Hp. destruct (split_at M x y Ha) as (p & Hp1 & Hp2 & Hp3).
  rewrite (sumn_cut p M (fun k => ind_le (x k) y)) in Hp.
  2: auto. 2:{ intros; apply ind_le_1; auto. } 2:{ intros; apply ind_le_0; auto. }
  unfold row_int. rewrite <- (int_sum M w x y p) by auto. apply nsumn_Fin. intros k Hk.
  rewrite !(nsort_ins M xn x yn y p) by (auto; try lia; intros j Hj; specialize (Hp3 j Hj); lra).
  rewrite (nsort_ins M cdf (fun k => sumn (S k) w) ypos (sumn p w) p); auto; try lia.
  - rewrite Hy. fin. reflexivity.
  - intros i j Hij. apply sumn_mono; [lia|intros; apply Hw; lia].
  - intros j Hj. apply sumn_mono; [lia|intros; apply Hw; lia].
  - intros j Hj. apply sumn_mono; [lia|intros; apply Hw; lia].
Qed.
End Int.

Lemma cumn_real M wn w k : (forall k, (k < M)%nat -> wn k = Fin (w k)) -> (k < M)%nat ->
  cumn M wn k = Fin (sumn (S k) w).
Proof. intros; now apply ncumsum_real. Qed.
(** spread normaliser of the weighted fair estimators *)
Definition fairc (M : nat) (w : nat -> R) : R := 1 - sumn M (fun k => w k * w k).
Lemma wpairsum_diag M w x : sumn M (fun i => sumn M (fun j => Rabs (x i - x j) * w i * w j)) = wpairsum M w x.
Proof. apply sumn_ext; intros; apply sumn_ext; intros; ring. Qed.
Lemma wtri M w x : / 2 * wpairsum M w x =
  sumn M (fun i => Rsum (map (fun j => Rabs (x j - x i) * w j * w i) (seq (i + 1) (M - (i + 1))))).
Proof.
  unfold wpairsum. rewrite (sumn_triangle M (fun i j => w i * w j * Rabs (x i - x j))).
  - rewrite <- Rmult_assoc. replace (/ 2 * 2) with 1 by field. rewrite Rmult_1_l.
    apply sumn_ext; intros i Hi.
    apply Rsum_map_ext; intros; rewrite Rabs_minus_sym; ring.
  - intros; rewrite Rabs_minus_sym; ring.
  - intros; rewrite Rminus_eq_0, Rabs_R0; ring.
Qed.

Section WRows.
Variables (M : nat) (yn : num) (xn wn : nat -> num) (y : R) (x w : nat -> R).
Hypothesis Hy : yn = Fin y.
Hypothesis Hx : forall k, (k < M)%nat -> xn k = Fin (x k).
Hypothesis Hw : forall k, (k < M)%nat -> wn k = Fin (w k).

Lemma row_nrg_w_real : row_nrg_w M yn xn wn = Fin (wexact_crps M w y x).
Proof.
  unfold row_nrg_w, e1wn, e2wn. fin. rewrite abs_wmae, wpairsum_diag. unfold wexact_crps, half. lra.
Qed.
Lemma fair_c_real : L_crps_arr.fair_c M wn = Fin (fairc M w).
Proof. unfold L_crps_arr.fair_c. fin. reflexivity. Qed.
Lemma row_fair_w_real : fairc M w <> 0 -> row_fair_w M yn xn wn = Fin (wfair_crps M w y x).
Proof.
  intros Hc. unfold row_fair_w, e1wn, e2wn. rewrite fair_c_real. fin; auto.
  rewrite abs_wmae, wpairsum_diag. unfold wfair_crps, half. fold (fairc M w). field. auto.
Qed.
Lemma row_pwm_w_real : fairc M w <> 0 -> row_pwm_w M yn xn wn = Fin (wpwm_crps M w y x).
Proof.
  intros Hc. unfold row_pwm_w, e1wn. rewrite fair_c_real.
  rewrite (nsumn_Fin M (fun k => xn k .* wn k .* (cumn M wn k .- wn k))
     (fun k => x k * w k * (sumn (S k) w - w k))).
  2:{ intros k Hk. rewrite (cumn_real M wn w) by auto. fin. reflexivity. }
  fin; auto. rewrite abs_wmae. unfold wpwm_crps. fold (fairc M w). reflexivity.
Qed.
Lemma row_qd_w_real : ascending M x -> sumn M w = 1 ->
  row_qd_w M yn xn wn = Fin (wexact_crps M w y x).
Proof.
  intros Ha H1. unfold row_qd_w.
  rewrite (nsumn_Fin M _ (fun k => w k * (ind_lt y (x k) - (sumn (S k) w - / 2 * w k)) * (x k - y))).
  2:{ intros k Hk. rewrite neqb_b2n. cbv zeta. rewrite (cumn_real M wn w) by auto.
      rewrite Hx, Hw, Hy by auto. rewrite nsub_Fin. unfold nofnat. simpl INR. rewrite nltb_Fin.
      unfold rltb, ind_lt, half. destruct (Rlt_dec 0 (x k - y)), (Rlt_dec y (x k)); try lra; simpl;
      f_equal; field. }
  unfold nofnat. rewrite nmul_Fin. f_equal. unfold wexact_crps.
  rewrite <- (qd_kernel M w x y Ha H1). reflexivity.
Qed.
Lemma row_lag_w_real g : (forall k, (k < M)%nat -> (g k < M)%nat) ->
  row_lag_w M g yn xn wn =
  Fin (wmae M w y x - / 2 * sumn M (fun k => w (g k) * Rabs (x (g k) - x k))).
Proof.
  intros Hg. unfold row_lag_w, e1wn. fin; auto. rewrite abs_wmae. unfold half.
  rewrite (sumn_ext M (fun k => Rabs (x (g k) - x k) * w (g k)) (fun k => w (g k) * Rabs (x (g k) - x k)))
    by (intros; ring). lra.
Qed.

(** kernels *)
Lemma Hithx : forall k, (k < M)%nat -> ith (rw M xn) k = Fin (x k).
Proof. intros; rewrite rw_ith; auto. Qed.
Lemma Hithw : forall k, (k < M)%nat -> ith (rw M wn) k = Fin (w k).
Proof. intros; rewrite rw_ith; auto. Qed.
Lemma nsumsq_rw : nsum (map nsq (rw M wn)) = Fin (sumn M (fun k => w k * w k)).
Proof. unfold rw. rewrite map_map. apply nsum_sumn. intros k Hk. rewrite Hw by auto. reflexivity. Qed.
Lemma e1e2_w_real : crps_e1e2_w yn (rw M xn) (rw M wn) = (Fin (wmae M w y x), Fin (/ 2 * wpairsum M w x)).
Proof.
  pose proof Hithx; pose proof Hithw. unfold crps_e1e2_w. rewrite rw_length, Hy.
  rewrite (fold_pairs M (fun i => nabs (ith (rw M xn) i .- Fin y) .* ith (rw M wn) i)
     (fun i j => nabs (ith (rw M xn) j .- ith (rw M xn) i) .* ith (rw M wn) j .* ith (rw M wn) i)).
  f_equal.
  - fin. apply sumn_ext; intros; ring.
  - fin. symmetry; apply wtri.
Qed.
Lemma nrg_w_k_real : crps_nrg_w_k yn (rw M xn) (rw M wn) = Fin (wexact_crps M w y x).
Proof. unfold crps_nrg_w_k. rewrite e1e2_w_real, Hy. reflexivity. Qed.
Lemma fair_w_k_real : fairc M w <> 0 -> crps_fair_w_k yn (rw M xn) (rw M wn) = Fin (wfair_crps M w y x).
Proof.
  intros Hc. unfold crps_fair_w_k. rewrite e1e2_w_real, nsumsq_rw, Hy. cbn [nisnan]. unfold n1, n0.
  rewrite nsub_Fin. fold (fairc M w). cbn [neqb]. unfold reqb.
  destruct (Req_EM_T (fairc M w) 0); [easy|]. fin; auto.
  unfold wfair_crps. fold (fairc M w). field. auto.
Qed.
Lemma fair_w_k_0 : fairc M w = 0 -> crps_fair_w_k yn (rw M xn) (rw M wn) = NaN.
Proof.
  intros Hc. unfold crps_fair_w_k. rewrite e1e2_w_real, nsumsq_rw, Hy. cbn [nisnan]. unfold n1, n0.
  rewrite nsub_Fin. fold (fairc M w). cbn [neqb]. unfold reqb. destruct (Req_EM_T (fairc M w) 0); easy.
Qed.
Lemma pwm_w_k_real : fairc M w <> 0 -> crps_pwm_w_k yn (rw M xn) (rw M wn) = Fin (wpwm_crps M w y x).
Proof.
  intros Hc. pose proof Hithw. unfold crps_pwm_w_k. rewrite rw_length, combine_seq, fold_left_map.
  rewrite (fold3n _ (fun i => nabs (xn i .- yn) .* ith (rw M wn) i) (fun i => xn i .* ith (rw M wn) i)
    (fun i => xn i .* ith (rw M wn) i .* (ith (ncumsum (rw M wn)) i .- ith (rw M wn) i))) by reflexivity.
  rewrite (nsumn_Fin M (fun i => xn i .* ith (rw M wn) i .* (ith (ncumsum (rw M wn)) i .- ith (rw M wn) i))
     (fun k => x k * w k * (sumn (S k) w - w k))).
  2:{ intros k Hk. unfold ith at 2. rewrite (ncumsum_real M wn w) by auto. fin. reflexivity. }
  rewrite nsumsq_rw, Hy. cbn [nisnan]. unfold n0, n1, n2. fin; auto.
  unfold wpwm_crps, wmae.
  rewrite (sumn_ext M (fun k => Rabs (x k - y) * w k) (fun i => w i * Rabs (x i - y))) by (intros; ring).
  fold (fairc M w). field. auto.
Qed.
Lemma qd_w_k_real : ascending M x -> sumn M w = 1 ->
  crps_qd_w_k yn (rw M xn) (rw M wn) = Fin (wexact_crps M w y x).
Proof.
  intros Ha H1. destruct M as [|n] eqn:EM; [rewrite sumn_0 in H1; lra|]. rewrite <- EM in *.
  unfold crps_qd_w_k. rewrite rw_length, combine_seq, fold_left_map.
  set (a := map _ _).
  assert (Ha' : forall k, (k < M)%nat -> ith a k = Fin (sumn (S k) w - w k / 2)).
  { intros k Hk. unfold a, ith.
    assert (L : length (ncumsum (rw M wn)) = M).
    { unfold ncumsum. transitivity (length (rw M wn)); [|apply rw_length].
      generalize (Fin 0). generalize (rw M wn). induction l; intros; simpl; auto. }
    set (h := fun '(c, x) => c .- x ./ n2).
    change NaN with (h (NaN, NaN)). rewrite (map_nth h), combine_nth by (now rewrite rw_length).
    unfold h.
    rewrite (ncumsum_real M wn w) by auto. rewrite rw_nth, Hw by auto. unfold n2. fin; [lra|]. reflexivity. }
  destruct (qd_loop M yn xn y x ltac:(lia) Hy Hx M
    (fun i ob => ith (rw M wn) i .* (ob .- ith a i) .* (xn i .- yn))
    (fun i b => w i * (b - (sumn (S i) w - w i / 2)) * (x i - y))
    (fun st i => crps_qd_w_step yn (rw M wn) a st (i, xn i))) as (ob & E & _); auto.
  - intros i b Hi. rewrite Ha', Hithw, Hx, Hy by auto. reflexivity.
  - intros i ob I Hi. cbn [crps_qd_w_step]. rewrite Hx by auto. reflexivity.
  - rewrite E, Hy. cbn [nisnan]. unfold n2. rewrite nmul_Fin. f_equal. unfold wexact_crps.
    rewrite <- (qd_kernel M w x y Ha H1). f_equal. apply sumn_ext; intros k Hk. field.
Qed.
Lemma int_w_k_real : (0 < M)%nat -> ascending M x -> sumn M w = 1 ->
  crps_int_w_k yn (rw M xn) (rw M wn) = Fin (wexact_crps M w y x).
Proof.
  intros HM Ha H1. unfold crps_int_w_k. rewrite rw_length, combine_seq, fold_left_map.
  replace (nisnan yn) with false by now rewrite Hy.
  apply (int_finish M yn xn y x HM Hy Hx (fun i => ith (rw M wn) i) w); auto. apply Hithw.
Qed.
Lemma row_int_w_real : (0 < M)%nat -> ascending M x -> (forall k, (k < M)%nat -> 0 <= w k) -> sumn M w = 1 ->
  row_int M (cumn M wn) (nsumn M (fun k => b2n (nleb (xn k) yn) .* wn k)) yn xn = Fin (wexact_crps M w y x).
Proof.
  intros HM Ha H0 H1. apply row_int_real; auto.
  - intros; now apply cumn_real.
  - fin. reflexivity.
Qed.
Lemma akr_w_k_real : (0 < M)%nat -> crps_akr_w_k yn (rw M xn) (rw M wn) =
  Fin (wlag_crps M (fun k => if (0 <? k)%nat then k - 1 else M - 1)%nat w y x).
Proof.
  intros HM. pose proof Hithx; pose proof Hithw.
  unfold crps_akr_w_k. rewrite rw_length, Hy, combine_seq, fold_left_map.
  rewrite (fold2n _ (fun i => nabs (xn i .- Fin y) .* ith (rw M wn) i)
    (fun i => nabs (xn i .- ith (rw M xn) (if 0 <? i then i - 1 else M - 1)%nat) .* ith (rw M wn) i)) by reflexivity.
  unfold n0, nhalf. fin.
  - destruct (Nat.ltb_spec 0 k); lia.
  - unfold wlag_crps, wmae, half.
    rewrite (sumn_ext M (fun k => Rabs (x k - y) * w k) (fun i => w i * Rabs (x i - y))) by (intros; ring).
    rewrite (sumn_ext M (fun k => Rabs (x k - x (if 0 <? k then k - 1 else M - 1)%nat) * w k)
       (fun k => w k * Rabs (x k - x (if 0 <? k then k - 1 else M - 1)%nat))) by (intros; ring). lra.
Qed.
Lemma akr_circperm_w_k_real : (0 < M)%nat -> crps_akr_circperm_w_k yn (rw M xn) (rw M wn) =
  Fin (wlag_crps M (circperm_idx M) w y x).
Proof.
  intros HM. pose proof Hithx; pose proof Hithw.
  unfold crps_akr_circperm_w_k. rewrite rw_length, Hy, combine_seq, fold_left_map.
  rewrite (fold2n _ (fun i => nabs (xn i .- Fin y) .* ith (rw M wn) i)
    (fun i => nabs (xn i .- ith (rw M xn) (circperm_idx M i)) .* ith (rw M wn) i)) by reflexivity.
  unfold n0, nhalf. fin.
  - now apply circperm_lt.
  - unfold wlag_crps, wmae, half.
    rewrite (sumn_ext M (fun k => Rabs (x k - y) * w k) (fun i => w i * Rabs (x i - y))) by (intros; ring).
    rewrite (sumn_ext M (fun k => Rabs (x k - x (circperm_idx M k)) * w k)
       (fun k => w k * Rabs (x k - x (circperm_idx M k)))) by (intros; ring). lra.
Qed.
End WRows.
