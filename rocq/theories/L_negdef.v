(** Positive definiteness of the Gaussian kernel and conditional negative definiteness of the
    Euclidean distance in R^D, by elementary means. *)
From Verif Require Export S_mv L_num.
From Coq Require Import Lra Lia Psatz.
Open Scope R_scope.

(** quadratic form of a kernel matrix *)
Definition qf (n : nat) (a : nat -> R) (K : nat -> nat -> R) : R :=
  sumn n (fun i => sumn n (fun j => a i * a j * K i j)).
Lemma qf_ext n a K K' : (forall i j, (i < n)%nat -> (j < n)%nat -> K i j = K' i j) -> qf n a K = qf n a K'.
Proof. intros H. apply sumn_ext; intros; apply sumn_ext; intros; now rewrite H. Qed.
Lemma qf_plus n a K K' : qf n a (fun i j => K i j + K' i j) = qf n a K + qf n a K'.
Proof.
  unfold qf. rewrite <- sumn_plus. apply sumn_ext; intros. rewrite <- sumn_plus. apply sumn_ext; intros; ring.
Qed.
Lemma qf_scal n a c K : qf n a (fun i j => c * K i j) = c * qf n a K.
Proof.
  unfold qf. rewrite <- sumn_scal. apply sumn_ext; intros. rewrite <- sumn_scal. apply sumn_ext; intros; ring.
Qed.
Lemma qf_rank1 n a f : qf n a (fun i j => f i * f j) = (sumn n (fun i => a i * f i)) ^ 2.
Proof.
  simpl. rewrite Rmult_1_r, sumn_mul. apply sumn_ext; intros; apply sumn_ext; intros; ring.
Qed.
Lemma qf_absorb n a f K : qf n a (fun i j => f i * f j * K i j) = qf n (fun i => a i * f i) K.
Proof. apply sumn_ext; intros; apply sumn_ext; intros; ring. Qed.

Definition dot (D : nat) (u v : nat -> R) : R := sumn D (fun k => u k * v k).
Lemma qf_dot_pow n D x m : forall a, 0 <= qf n a (fun i j => dot D (x i) (x j) ^ m).
Proof.
  induction m as [|m IH]; intros a.
  - rewrite (qf_ext n a _ (fun i j => 1 * 1)) by (intros; simpl; ring).
    rewrite (qf_rank1 n a (fun _ => 1)). apply pow2_ge_0.
  - replace (qf n a (fun i j => dot D (x i) (x j) ^ S m))
      with (sumn D (fun k => qf n (fun i => a i * x i k) (fun i j => dot D (x i) (x j) ^ m))).
    + apply sumn_nonneg. intros; apply IH.
    + unfold qf. rewrite sumn_swap. apply sumn_ext; intros i _. rewrite sumn_swap. apply sumn_ext; intros j _.
      simpl. unfold dot at 2. rewrite (Rmult_comm (sumn D _)), <- Rmult_assoc, <- sumn_scal.
      apply sumn_ext; intros; ring.
Qed.

Lemma lim_sumn n (f : nat -> nat -> R) (l : nat -> R) :
  (forall i, (i < n)%nat -> is_lim_seq (fun N => f N i) (l i)) ->
  is_lim_seq (fun N => sumn n (f N)) (sumn n l).
Proof.
  induction n as [|n IH]; intros H.
  - apply is_lim_seq_const.
  - rewrite sumn_S. apply (is_lim_seq_ext (fun N => sumn n (f N) + f N n)); [intros; now rewrite sumn_S|].
    apply (is_lim_seq_plus' _ _ (sumn n l) (l n)); auto.
Qed.
Lemma exp_lim z : is_lim_seq (fun N => sumn (S N) (fun m => z ^ m / INR (fact m))) (exp z).
Proof.
  pose proof (is_exp_Reals z) as H. unfold is_pseries in H.
  apply (is_lim_seq_ext (fun N => sum_n (fun m => scal (pow_n z m) (/ INR (fact m))) N)).
  - intros N. rewrite sum_n_Reals. induction N as [|N IH].
    + rewrite sumn_S, sumn_0. simpl. unfold scal; simpl. unfold mult; simpl. unfold one; simpl. field.
    + rewrite tech5, sumn_S, <- IH. f_equal.
  - exact H.
Qed.
Lemma qf_exp_dot n D x c a : 0 <= c -> 0 <= qf n a (fun i j => exp (c * dot D (x i) (x j))).
Proof.
  intros Hc.
  assert (L : is_lim_seq (fun N => qf n a (fun i j => sumn (S N) (fun m => (c * dot D (x i) (x j)) ^ m / INR (fact m))))
     (qf n a (fun i j => exp (c * dot D (x i) (x j))))).
  { unfold qf. apply (lim_sumn n (fun N i => sumn n (fun j => a i * a j * sumn (S N) _))). intros i _.
    apply (lim_sumn n (fun N j => a i * a j * sumn (S N) _)). intros j _.
    apply (is_lim_seq_scal_l _ (a i * a j) (exp _)), exp_lim. }
  apply (is_lim_seq_le (fun _ => 0) _ 0 _ ) with (2 := is_lim_seq_const 0) (3 := L).
  intros N. induction N as [|N IH].
  - rewrite (qf_ext n a _ (fun i j => 1 * 1)).
    + rewrite (qf_rank1 n a (fun _ => 1)). apply pow2_ge_0.
    + intros. rewrite sumn_S, sumn_0. simpl. field.
  - rewrite (qf_ext n a _ (fun i j => sumn (S N) (fun m => (c * dot D (x i) (x j)) ^ m / INR (fact m))
       + c ^ S N / INR (fact (S N)) * dot D (x i) (x j) ^ S N)).
    + rewrite qf_plus, qf_scal. pose proof (qf_dot_pow n D x (S N) a).
      assert (0 <= c ^ S N / INR (fact (S N))).
      { apply Rmult_le_pos; [now apply pow_le|]. left; apply Rinv_0_lt_compat, INR_fact_lt_0. }
      nra.
    + intros. rewrite (sumn_S (S N)). f_equal. rewrite Rpow_mult_distr. unfold Rdiv. ring.
Qed.

(** squared distance *)
Definition sqd (D : nat) (u v : nat -> R) : R := sumn D (fun k => (u k - v k) ^ 2).
Lemma sqd_dot D u v : sqd D u v = dot D u u + dot D v v - 2 * dot D u v.
Proof.
  unfold sqd, dot. rewrite <- sumn_scal, <- sumn_plus, <- sumn_minus. apply sumn_ext; intros; ring.
Qed.
Lemma sqd_nonneg D u v : 0 <= sqd D u v.
Proof. apply sumn_nonneg; intros; apply pow2_ge_0. Qed.

(** the Gaussian kernel is positive definite *)
Lemma qf_gauss n D x c a : 0 <= c -> 0 <= qf n a (fun i j => exp (- (c * sqd D (x i) (x j)))).
Proof.
  intros Hc.
  rewrite (qf_ext n a _ (fun i j => exp (- (c * dot D (x i) (x i))) * exp (- (c * dot D (x j) (x j)))
     * exp ((2 * c) * dot D (x i) (x j)))).
  - rewrite (qf_absorb n a (fun i => exp (- (c * dot D (x i) (x i))))). apply qf_exp_dot; lra.
  - intros. rewrite sqd_dot, <- !exp_plus. f_equal. ring.
Qed.

(** ** the square root of the squared distance *)
Definition bump (v : R) : R := (1 - exp (- (v * v))) / (v * v).
Lemma bump_cont v : v <> 0 -> continuous bump v.
Proof.
  intros H. apply (ex_derive_continuous (V := R_NormedModule)). unfold bump. auto_derive. nra.
Qed.
Lemma exp_neg_le t : 0 <= t -> 1 - t <= exp (- t) <= 1.
Proof.
  intros H. split.
  - pose proof (exp_ineq1_le (- t)). lra.
  - rewrite <- exp_0. destruct H as [H| <-]; [left; apply exp_increasing; lra|rewrite Ropp_0; lra].
Qed.
Lemma bump_bounds v : 0 < v -> 0 <= bump v <= 1 /\ bump v <= / (v * v).
Proof.
  intros H. assert (0 < v * v) by nra. destruct (exp_neg_le (v * v)) as [A B]; [lra|].
  pose proof (exp_pos (- (v * v))). pose proof (Rinv_0_lt_compat _ H0). unfold bump, Rdiv.
  repeat split.
  - apply Rmult_le_pos; lra.
  - apply Rmult_le_reg_r with (v * v); auto. rewrite Rmult_assoc, Rinv_l by lra. lra.
  - rewrite <- (Rmult_1_l (/ (v * v))) at 2. apply Rmult_le_compat_r; lra.
Qed.
Lemma bump_ex a b : 0 < a -> 0 < b -> ex_RInt bump a b.
Proof.
  intros Ha Hb. apply (ex_RInt_continuous (V := R_CompleteNormedModule)). intros z Hz. apply bump_cont.
  pose proof (Rmin_Rgt_r a b 0). assert (0 < Rmin a b) by (apply Rmin_glb_lt; auto). lra.
Qed.
(** integral over an interval is at most its length times a bound *)
Lemma bump_abs a b C : 0 < a -> 0 < b -> (forall v, Rmin a b <= v <= Rmax a b -> bump v <= C) ->
  Rabs (RInt bump a b) <= Rabs (b - a) * C.
Proof.
  intros Ha Hb H. pose proof (bump_ex a b Ha Hb) as He.
  assert (P : forall v, Rmin a b <= v -> 0 < v).
  { intros v Hv. assert (0 < Rmin a b) by (apply Rmin_glb_lt; auto). lra. }
  destruct (Rle_or_lt a b) as [L|L].
  - rewrite (Rabs_right (b - a)) by lra. rewrite Rmin_left, Rmax_right in H by lra. rewrite Rmin_left in P by lra.
    apply (abs_RInt_le_const bump a b C L He). intros t Ht. rewrite Rabs_right; auto.
    apply Rle_ge. apply bump_bounds. apply P; lra.
  - rewrite <- (opp_RInt_swap (V := R_CompleteNormedModule)) by now apply ex_RInt_swap.
    unfold opp; simpl. rewrite Rabs_Ropp. rewrite <- (Rabs_Ropp (b - a)), (Rabs_right (- (b - a))) by lra.
    rewrite Rmin_right, Rmax_left in H by lra. rewrite Rmin_right in P by lra.
    replace (- (b - a)) with (a - b) by ring.
    apply (abs_RInt_le_const bump b a C); [lra|now apply bump_ex|]. intros t Ht. rewrite Rabs_right; auto.
    apply Rle_ge. apply bump_bounds. apply P; lra.
Qed.
Definition Hn (n : nat) : R := RInt bump (/ INR n) (INR n).
Definition Kof (k : R) : R := k * (Rabs (k - 1) + Rabs (k - 1) / (Rmin 1 k * Rmin 1 k)).
Lemma bump_scaled n k : (0 < n)%nat -> 0 < k ->
  Rabs (RInt bump (k * / INR n) (k * INR n) - Hn n) * k <= Kof k * / INR n.
Proof.
  intros Hn0 Hk. assert (HN : 0 < INR n) by now apply lt_0_INR. pose proof (Rinv_0_lt_compat _ HN) as HI.
  assert (P1 : 0 < k * / INR n) by nra. assert (P2 : 0 < k * INR n) by nra.
  assert (N1 : 1 <= INR n) by (apply (le_INR 1); lia).
  assert (C : RInt bump (k * / INR n) (k * INR n) - Hn n
    = RInt bump (k * / INR n) (/ INR n) + RInt bump (INR n) (k * INR n)).
  { unfold Hn.
    rewrite <- (RInt_Chasles bump (k * / INR n) (/ INR n) (k * INR n)) by now apply bump_ex.
    rewrite <- (RInt_Chasles bump (/ INR n) (INR n) (k * INR n)) by now apply bump_ex.
    unfold plus; simpl. ring. }
  rewrite C. eapply Rle_trans.
  { apply Rmult_le_compat_r; [lra|]. apply Rabs_triang. }
  assert (M0 : 0 < Rmin 1 k) by (apply Rmin_glb_lt; lra).
  assert (B1 : Rabs (RInt bump (k * / INR n) (/ INR n)) <= Rabs (k - 1) * / INR n).
  { eapply Rle_trans; [apply (bump_abs _ _ 1 P1 HI)|].
    - intros v Hv. apply bump_bounds. assert (0 < Rmin (k * / INR n) (/ INR n)) by now apply Rmin_glb_lt. lra.
    - replace (/ INR n - k * / INR n) with (- ((k - 1) * / INR n)) by ring.
      rewrite Rabs_Ropp, Rabs_mult, (Rabs_right (/ INR n)) by lra. lra. }
  assert (B2 : Rabs (RInt bump (INR n) (k * INR n)) <= Rabs (k - 1) / (Rmin 1 k * Rmin 1 k) * / INR n).
  { eapply Rle_trans; [apply (bump_abs _ _ (/ (Rmin 1 k * INR n * (Rmin 1 k * INR n))) HN P2)|].
    - intros v Hv. assert (L : Rmin 1 k * INR n <= v).
      { destruct Hv as [Hv _]. unfold Rmin in Hv |- *. destruct (Rle_dec 1 k); destruct (Rle_dec (INR n) (k * INR n)); nra. }
      assert (0 < Rmin 1 k * INR n) by nra.
      destruct (bump_bounds v) as [_ B]; [lra|]. eapply Rle_trans; [exact B|].
      apply Rinv_le_contravar; nra.
    - replace (k * INR n - INR n) with ((k - 1) * INR n) by ring.
      rewrite Rabs_mult, (Rabs_right (INR n)) by lra. right. field. lra. }
  unfold Kof. assert (0 <= Rabs (k - 1)) by apply Rabs_pos. nra.
Qed.
Lemma Hn_lower n : (2 <= n)%nat -> 1 / 8 <= Hn n.
Proof.
  intros Hn2. assert (2 <= INR n) by (apply (le_INR 2); lia).
  assert (HI : 0 < / INR n) by (apply Rinv_0_lt_compat; lra).
  assert (HI1 : / INR n <= 1). { rewrite <- Rinv_1. apply Rinv_le_contravar; lra. }
  unfold Hn.
  rewrite <- (RInt_Chasles bump (/ INR n) 1 (INR n)) by (apply bump_ex; lra).
  rewrite <- (RInt_Chasles bump 1 2 (INR n)) by (apply bump_ex; lra). unfold plus; simpl.
  assert (0 <= RInt bump (/ INR n) 1).
  { apply RInt_ge_0; [lra|apply bump_ex; lra|]. intros; apply bump_bounds; lra. }
  assert (0 <= RInt bump 2 (INR n)).
  { apply RInt_ge_0; [lra|apply bump_ex; lra|]. intros; apply bump_bounds; lra. }
  assert (1 / 8 <= RInt bump 1 2).
  { apply Rle_trans with (RInt (fun _ => 1 / 8) 1 2).
    - rewrite RInt_const. unfold scal; simpl. unfold mult; simpl. lra.
    - apply RInt_le; [lra|apply ex_RInt_const|apply bump_ex; lra|]. intros v Hv. unfold bump.
      assert (E : exp (- (v * v)) <= 1 / 2).
      { assert (H3 : exp (- (v * v)) < exp (- 1)) by (apply exp_increasing; nra).
        assert (exp (- 1) <= 1 / 2).
        { replace (exp (- 1)) with (/ exp 1) by (rewrite <- exp_Ropp; f_equal; lra). pose proof (exp_ineq1_le 1). replace (1 / 2) with (/ 2) by field.
          apply Rinv_le_contravar; lra. }
        lra. }
      apply Rmult_le_reg_r with (v * v); [nra|]. unfold Rdiv. rewrite !Rmult_assoc, Rinv_l by nra. nra. }
  lra.
Qed.

(** the integrand for squared distance t *)
Definition jf (t u : R) : R := (1 - exp (- (u * u * t))) / (u * u).
Lemma jf_cont t u : u <> 0 -> continuous (jf t) u.
Proof.
  intros H. apply (ex_derive_continuous (V := R_NormedModule)). unfold jf. auto_derive. nra.
Qed.
Lemma jf_ex t a b : 0 < a -> 0 < b -> ex_RInt (jf t) a b.
Proof.
  intros Ha Hb. apply (ex_RInt_continuous (V := R_CompleteNormedModule)). intros z Hz. apply jf_cont.
  assert (0 < Rmin a b) by (apply Rmin_glb_lt; auto). lra.
Qed.
Lemma jf_sqrt t a b : 0 < t -> 0 < a -> 0 < b ->
  RInt (jf t) a b = sqrt t * RInt bump (sqrt t * a) (sqrt t * b).
Proof.
  intros Ht Ha Hb. set (k := sqrt t). assert (Hk : 0 < k) by now apply sqrt_lt_R0.
  assert (Hkk : k * k = t) by (apply sqrt_sqrt; lra).
  pose proof (RInt_comp_lin bump k 0 a b) as H. rewrite !Rplus_0_r in H. rewrite <- H by (apply bump_ex; nra).
  rewrite <- (RInt_scal (V := R_CompleteNormedModule) _ a b k).
  - apply RInt_ext. intros u Hu. unfold scal; simpl. unfold mult; simpl.
    assert (0 < Rmin a b) by (apply Rmin_glb_lt; auto). unfold jf, bump. rewrite Rplus_0_r.
    replace (k * u * (k * u)) with (u * u * (k * k)) by ring. rewrite Hkk.
    replace (k * (k * ((1 - exp (- (u * u * t))) / (u * u * t)))) with
      (k * k * ((1 - exp (- (u * u * t))) / (u * u * t))) by ring. rewrite Hkk. field. nra.
  - apply (ex_RInt_continuous (V := R_CompleteNormedModule)). intros z Hz.
    assert (0 < Rmin a b) by (apply Rmin_glb_lt; auto).
    apply (ex_derive_continuous (V := R_NormedModule)). unfold bump, scal; simpl. unfold mult; simpl.
    auto_derive. assert (0 < k * z) by (apply Rmult_lt_0_compat; lra). rewrite Rplus_0_r. nra.
Qed.
Lemma jf_close t n : 0 <= t -> (0 < n)%nat ->
  Rabs (RInt (jf t) (/ INR n) (INR n) - sqrt t * Hn n) <= Kof (sqrt t) * / INR n.
Proof.
  intros Ht Hn0. assert (HN : 0 < INR n) by now apply lt_0_INR. pose proof (Rinv_0_lt_compat _ HN) as HI.
  destruct Ht as [Ht| <-].
  - rewrite jf_sqrt by auto. rewrite <- Rmult_minus_distr_l, Rabs_mult.
    pose proof (sqrt_lt_R0 t Ht). rewrite (Rabs_right (sqrt t)) by lra. rewrite Rmult_comm.
    now apply bump_scaled.
  - rewrite sqrt_0. unfold Kof. rewrite !Rmult_0_l.
    rewrite (RInt_ext _ (fun _ => 0)).
    + rewrite RInt_const. unfold scal; simpl. unfold mult; simpl. rewrite Rmult_0_r, Rminus_0_r, Rabs_R0. lra.
    + intros u _. unfold jf. rewrite Rmult_0_r, Ropp_0, exp_0, Rminus_eq_0. apply Rmult_0_l.
Qed.

Lemma is_RInt_sumn n (f : nat -> R -> R) (l : nat -> R) a b :
  (forall i, (i < n)%nat -> is_RInt (f i) a b (l i)) ->
  is_RInt (fun u => sumn n (fun i => f i u)) a b (sumn n l).
Proof.
  induction n as [|n IH]; intros H.
  - apply (is_RInt_ext (fun _ => 0)); [reflexivity|].
    replace (sumn 0 l) with (scal (b - a) 0) by (unfold scal; simpl; unfold mult; simpl; rewrite sumn_0; ring).
    apply (is_RInt_const (V := R_NormedModule)).
  - rewrite sumn_S. apply (is_RInt_ext (fun u => sumn n (fun i => f i u) + f n u)).
    + intros; now rewrite sumn_S.
    + apply (is_RInt_plus (V := R_NormedModule)); auto.
Qed.

(** conditional negative definiteness of the Euclidean distance *)
Theorem eucl_cnd n D x a : sumn n a = 0 -> qf n a (fun i j => eucl D (x i) (x j)) <= 0.
Proof.
  intros Ha.
  set (S := qf n a (fun i j => eucl D (x i) (x j))).
  set (B := sumn n (fun i => sumn n (fun j => Rabs (a i * a j) * Kof (eucl D (x i) (x j))))).
  assert (Main : forall N, (2 <= N)%nat -> S * Hn N <= B * / INR N).
  { intros N HN. assert (H2 : 2 <= INR N) by (apply (le_INR 2); lia).
    assert (HI : 0 < / INR N) by (apply Rinv_0_lt_compat; lra).
    assert (HNN : / INR N <= INR N).
    { apply Rle_trans with 1; [|lra]. rewrite <- Rinv_1. apply Rinv_le_contravar; lra. }
    set (J i j := RInt (jf (sqd D (x i) (x j))) (/ INR N) (INR N)).
    assert (Neg : qf n a J <= 0).
    { assert (I : is_RInt (fun u => qf n a (fun i j => jf (sqd D (x i) (x j)) u)) (/ INR N) (INR N) (qf n a J)).
      { unfold qf. apply (is_RInt_sumn n (fun i u => sumn n (fun j => a i * a j * jf (sqd D (x i) (x j)) u))).
        intros i _. apply (is_RInt_sumn n (fun j u => a i * a j * jf (sqd D (x i) (x j)) u)). intros j _.
        apply (is_RInt_scal (V := R_NormedModule)). apply (RInt_correct (V := R_CompleteNormedModule)).
        apply jf_ex; lra. }
      assert (Z : is_RInt (fun _ : R => 0) (/ INR N) (INR N) 0).
      { pose proof (is_RInt_const (V := R_NormedModule) (/ INR N) (INR N) 0) as Z.
        unfold scal in Z; simpl in Z. unfold mult in Z; simpl in Z. now rewrite Rmult_0_r in Z. }
      apply (is_RInt_le _ _ _ _ _ _ HNN I Z).
      intros u Hu. assert (0 < u) by lra.
      rewrite (qf_ext n a _ (fun i j => / (u * u) * (1 * 1) + (- / (u * u)) * exp (- (u * u * sqd D (x i) (x j)))))
        by (intros; unfold jf; field; lra).
      rewrite qf_plus, (qf_scal n a (/ (u * u)) (fun _ _ => 1 * 1)).
      rewrite (qf_scal n a (- / (u * u)) (fun i j => exp (- (u * u * sqd D (x i) (x j))))).
      rewrite (qf_rank1 n a (fun _ => 1)).
      replace (sumn n (fun i => a i * 1)) with 0 by (rewrite <- Ha; apply sumn_ext; intros; ring).
      pose proof (qf_gauss n D x (u * u) a ltac:(nra)).
      assert (0 < / (u * u)) by (apply Rinv_0_lt_compat; nra). simpl. nra. }
    assert (D1 : Rabs (qf n a J - S * Hn N) <= B * / INR N).
    { replace (qf n a J - S * Hn N) with (qf n a (fun i j => J i j - eucl D (x i) (x j) * Hn N)).
      - unfold qf at 1, B. rewrite <- sumn_scal_r. eapply Rle_trans; [apply sumn_Rabs|]. apply sumn_le. intros i _.
        rewrite <- sumn_scal_r. eapply Rle_trans; [apply sumn_Rabs|]. apply sumn_le. intros j _.
        rewrite Rabs_mult, Rmult_assoc. apply Rmult_le_compat_l; [apply Rabs_pos|].
        apply (jf_close (sqd D (x i) (x j))); [apply sqd_nonneg|lia].
      - unfold S. rewrite Rmult_comm, <- qf_scal.
        replace (qf n a J - qf n a (fun i j => Hn N * eucl D (x i) (x j)))
          with (qf n a J + (-1) * qf n a (fun i j => Hn N * eucl D (x i) (x j))) by ring.
        rewrite <- qf_scal, <- qf_plus. apply qf_ext; intros; ring. }
    apply Rabs_le_between in D1. lra. }
  destruct (Rle_or_lt S 0) as [L|L]; auto. exfalso.
  destruct (archimed_cor1 (S / 8 / (Rabs B + 1))) as (N & N1 & N2).
  { apply Rdiv_lt_0_compat; [lra|]. pose proof (Rabs_pos B). lra. }
  set (N' := (N + 2)%nat). specialize (Main N' ltac:(lia)). pose proof (Hn_lower N' ltac:(lia)) as HL.
  assert (HN : 0 < INR N) by now apply lt_0_INR.
  assert (/ INR N' <= / INR N). { apply Rinv_le_contravar; auto. apply le_INR; lia. }
  assert (0 < / INR N') by (apply Rinv_0_lt_compat, lt_0_INR; lia).
  pose proof (Rabs_pos B). pose proof (Rle_abs B).
  assert (S / 8 <= (Rabs B + 1) * / INR N') by nra.
  assert ((Rabs B + 1) * / INR N' < S / 8).
  { apply Rle_lt_trans with ((Rabs B + 1) * / INR N); [apply Rmult_le_compat_l; lra|].
    apply (Rmult_lt_compat_l (Rabs B + 1)) in N1; [|lra].
    replace ((Rabs B + 1) * (S / 8 / (Rabs B + 1))) with (S / 8) in N1 by (field; lra). exact N1. }
  lra.
Qed.
