(** Discrete families: the probabilities sum to one; special functions at integers. *)
From Verif Require Export S_disc L_nev M_logs L_mix.
From Verif Require Import L_interval.
From Coq Require Import Psatz.
From Coquelicot Require Import Coquelicot.
Open Scope R_scope.

Lemma sum_n_sumn (a : nat -> R) n : sum_n a n = sumn (S n) a.
Proof. induction n as [|n IH]; [rewrite sum_O, sumn_S, sumn_0; symmetry; apply Rplus_0_l|]. rewrite sum_Sn, IH, (sumn_S (S n)). reflexivity. Qed.
Lemma series_fin (a : nat -> R) n : (forall k, (n <= k)%nat -> a k = 0) -> is_series a (sumn n a).
Proof.
  intros H. apply (is_lim_seq_ext_loc (fun _ => sumn n a) (sum_n a) (sumn n a)); [|apply is_lim_seq_const].
  exists n. intros m Hm. rewrite sum_n_sumn. replace (S m) with (n + (S m - n))%nat by lia. rewrite sumn_plus_idx.
  rewrite (sumn_ext (S m - n) _ (fun _ => 0)); [rewrite sumn_zero; ring|]. intros k _. apply H. lia.
Qed.
(** * binomial coefficients *)
Lemma choose_0 n : choose n 0 = 1%nat. Proof. now destruct n. Qed.
Lemma choose_out n k : (n < k)%nat -> choose n k = 0%nat.
Proof. revert k; induction n as [|n IH]; intros [|k] H; try lia; [reflexivity|]. cbn [choose]. rewrite !IH by lia. reflexivity. Qed.
Lemma choose_pos n k : (k <= n)%nat -> (0 < choose n k)%nat.
Proof. revert k; induction n as [|n IH]; intros [|k] H; try lia; cbn [choose]; [lia|lia|]. specialize (IH k ltac:(lia)). lia. Qed.
Lemma choose_step n k : INR (S k) * INR (choose n (S k)) = (INR n - INR k) * INR (choose n k).
Proof.
  revert k; induction n as [|n IH]; intros k.
  - destruct k as [|k]; cbn [choose]; simpl; ring.
  - destruct k as [|k].
    + pose proof (IH 0%nat) as E. cbn [choose] in *. rewrite !choose_0 in *. rewrite plus_INR, !S_INR in *. simpl in *. lra.
    + pose proof (IH k) as E1. pose proof (IH (S k)) as E2. cbn [choose]. rewrite !plus_INR, !S_INR in *. lra.
Qed.
Lemma Rchoose_choose n k : Rchoose (INR n) k = INR (choose n k).
Proof.
  induction k as [|k IH]; [now rewrite choose_0|]. cbn [Rchoose]. rewrite IH. pose proof (choose_step n k) as E.
  assert (INR (S k) <> 0) by (apply not_0_INR; lia). apply (Rmult_eq_reg_l (INR (S k))); auto. rewrite E. field. auto.
Qed.
Lemma binomial_thm (a b : R) n N : (n < N)%nat -> sumn N (fun k => INR (choose n k) * a ^ k * b ^ (n - k)) = (a + b) ^ n.
Proof.
  revert N; induction n as [|n IH]; intros N HN.
  - destruct N as [|N]; [lia|]. rewrite sumn_S_l. rewrite (sumn_ext N _ (fun _ => 0)); [rewrite sumn_zero; simpl; ring|]. intros k _. simpl. ring.
  - destruct N as [|N]; [lia|]. rewrite sumn_S_l. set (T := fun k => INR (choose n k) * a ^ k * b ^ (n - k)).
    rewrite (sumn_ext N _ (fun k => a * T k + b * T (S k))).
    + rewrite sumn_plus, !sumn_scal. assert (sumn N T = (a + b) ^ n) as E1 by (apply IH; lia). assert (sumn (S N) T = (a + b) ^ n) as E2 by (apply IH; lia).
      rewrite sumn_S_l in E2. replace (T 0%nat) with (b ^ n) in E2 by (unfold T; rewrite choose_0, Nat.sub_0_r; simpl; ring).
      rewrite choose_0, Nat.sub_0_r, E1. replace (sumn N (fun k => T (S k))) with ((a + b) ^ n - b ^ n) by lra. simpl. ring.
    + intros k _. unfold T. cbn [choose]. rewrite plus_INR. replace (S n - S k)%nat with (n - k)%nat by lia. destruct (le_lt_dec (S k) n) as [L|L].
      * replace (n - k)%nat with (S (n - S k)) by lia. simpl pow. ring.
      * rewrite (choose_out n (S k)) by lia. simpl. ring.
Qed.

Lemma vandermonde m n k N : (k < N)%nat ->
  sumn N (fun j => if le_dec j k then INR (choose m j) * INR (choose n (k - j)) else 0) = INR (choose (m + n) k).
Proof.
  revert k N; induction m as [|m IH]; intros k N HN.
  - destruct N as [|N]; [lia|]. rewrite sumn_S_l. destruct (le_dec 0 k); [|lia]. rewrite (sumn_ext N _ (fun _ => 0)).
    + rewrite sumn_zero, Nat.sub_0_r. simpl. ring.
    + intros j _. destruct (le_dec (S j) k); simpl; ring.
  - destruct N as [|N]; [lia|]. rewrite sumn_S_l. destruct (le_dec 0 k); [|lia]. destruct k as [|k].
    + rewrite (sumn_ext N _ (fun _ => 0)); [rewrite sumn_zero, !choose_0; simpl; ring|]. intros j _. destruct (le_dec (S j) 0); [lia|reflexivity].
    + pose proof (IH k N ltac:(lia)) as E1. pose proof (IH (S k) (S N) ltac:(lia)) as E2. rewrite sumn_S_l in E2. destruct (le_dec 0 (S k)); [|lia].
      rewrite choose_0 in *. replace (S m + n)%nat with (S (m + n)) by lia. cbn [choose]. rewrite plus_INR, <- E1, <- E2. rewrite (Rplus_comm (sumn _ _)), Rplus_assoc.
      f_equal. rewrite <- sumn_plus. apply sumn_ext. intros j _. destruct (le_dec (S j) (S k)), (le_dec j k); try lia; [|ring].
      cbn [Nat.sub]. rewrite plus_INR. ring.
Qed.
(** * the families *)
Lemma poisson_sum l : 0 <= l -> pmf (poisson_pmf l).
Proof.
  intros Hl. split.
  - intros k. unfold poisson_pmf. apply Rmult_le_pos; [|left; apply Rinv_0_lt_compat, lt_0_INR, lt_O_fact].
    apply Rmult_le_pos; [now apply pow_le|left; apply exp_pos].
  - pose proof (is_exp_Reals l) as E. apply is_pseries_R in E. apply (is_series_scal_r (exp (- l))) in E.
    replace (exp l * exp (- l)) with 1 in E by (rewrite <- exp_plus, Rplus_opp_r, exp_0; ring).
    eapply is_series_ext; [|exact E]. intros k. unfold poisson_pmf, Rdiv. simpl. ring.
Qed.
Lemma binomial_sum n p : 0 <= p <= 1 -> pmf (binomial_pmf n p).
Proof.
  intros Hp. split.
  - intros k. unfold binomial_pmf. repeat apply Rmult_le_pos; [apply pos_INR|apply pow_le; lra|apply pow_le; lra].
  - pose proof (series_fin (binomial_pmf n p) (S n)) as E. unfold binomial_pmf at 3 in E. rewrite (binomial_thm p (1 - p) n (S n)) in E by lia.
    replace (p + (1 - p)) with 1 in E by ring. rewrite pow1 in E. apply E. intros k Hk. unfold binomial_pmf. rewrite choose_out by lia. simpl. ring.
Qed.
Lemma hypergeometric_sum m n k : (k <= m + n)%nat -> pmf (hypergeometric_pmf m n k).
Proof.
  intros Hk. assert (0 < INR (choose (m + n) k)) as Hc by (apply lt_0_INR, choose_pos; auto). split.
  - intros j. unfold hypergeometric_pmf. destruct (le_dec j k); [|lra]. apply Rmult_le_pos; [apply Rmult_le_pos; apply pos_INR|left; now apply Rinv_0_lt_compat].
  - assert (is_series (hypergeometric_pmf m n k) (sumn (S k) (hypergeometric_pmf m n k))) as E.
    { apply series_fin. intros j Hj. unfold hypergeometric_pmf. destruct (le_dec j k); [lia|reflexivity]. }
    replace (sumn (S k) (hypergeometric_pmf m n k)) with 1 in E; [exact E|].
    rewrite (sumn_ext _ _ (fun j => (if le_dec j k then INR (choose m j) * INR (choose n (k - j)) else 0) / INR (choose (m + n) k))).
    + rewrite sumn_div, vandermonde by lia. field. lra.
    + intros j _. unfold hypergeometric_pmf. destruct (le_dec j k); [reflexivity|]. unfold Rdiv. ring.
Qed.
Lemma rising_pos n k : 0 < n -> 0 < rising n k.
Proof.
  intros Hn. induction k as [|k IH]; cbn [rising]; [lra|]. apply Rdiv_lt_0_compat; [|apply lt_0_INR; lia]. apply Rmult_lt_0_compat; auto.
  pose proof (pos_INR k). lra.
Qed.
Lemma rising_radius n : 0 < n -> CV_radius (rising n) = 1.
Proof.
  intros Hn. replace (Finite 1) with (Finite (/ 1)) by (f_equal; field). apply CV_radius_finite_DAlembert.
  - intros k. pose proof (rising_pos n k Hn). lra.
  - lra.
  - apply (is_lim_seq_ext (fun k => 1 + (n - 1) * / INR (S k))).
    + intros k. pose proof (rising_pos n k Hn). pose proof (lt_0_INR (S k) ltac:(lia)). pose proof (pos_INR k). cbn [rising].
      replace (rising n k * (n + INR k) / INR (S k) / rising n k) with ((n + INR k) / INR (S k)) by (field; split; lra).
      rewrite Rabs_right; [rewrite S_INR in *; field; lra|]. left. apply Rdiv_lt_0_compat; lra.
    + replace (Finite 1) with (Finite (1 + (n - 1) * 0)) by (f_equal; ring). apply is_lim_seq_plus'; [apply is_lim_seq_const|].
      apply (is_lim_seq_scal_l _ (n - 1) 0). apply (is_lim_seq_incr_1 (fun k => / INR k)). replace (Finite 0) with (Rbar_inv p_infty) by reflexivity.
      apply is_lim_seq_inv; [apply is_lim_seq_INR|easy].
Qed.
Lemma rising_series n x : 0 < n -> 0 <= x < 1 -> is_series (fun k => rising n k * x ^ k) (Rpower (1 - x) (- n)).
Proof.
  intros Hn Hx. pose proof (rising_radius n Hn) as Rad. set (f := PSeries (rising n)).
  assert (forall t, Rabs t < 1 -> ex_pseries (rising n) t) as Ex by (intros t Ht; apply CV_radius_inside; rewrite Rad; exact Ht).
  assert (forall t, Rabs t < 1 -> ex_pseries (PS_derive (rising n)) t) as Ex' by (intros t Ht; apply CV_radius_inside; rewrite CV_radius_derive, Rad; exact Ht).
  assert (forall t, Rabs t < 1 -> is_derive f t (n * f t / (1 - t))) as D.
  { intros t Ht. evar_last; [apply is_derive_PSeries; rewrite Rad; exact Ht|]. apply Rabs_def2 in Ht as Ht'.
    assert ((1 - t) * PSeries (PS_derive (rising n)) t = n * f t) as E; [|rewrite <- E; field; lra].
    replace ((1 - t) * PSeries (PS_derive (rising n)) t) with (PSeries (PS_derive (rising n)) t - PSeries (PS_incr_1 (PS_derive (rising n))) t) by (rewrite PSeries_incr_1; ring).
    rewrite <- PSeries_minus; [|now apply Ex'|now apply (ex_pseries_incr_1 (PS_derive (rising n))), Ex']. unfold f. rewrite <- PSeries_scal. apply PSeries_ext.
    intros k. destruct k as [|k]; [change (INR 1 * rising n 1 + - 0 = n * rising n 0); cbn [rising]; simpl; field|].
    change (INR (S (S k)) * rising n (S (S k)) + - (INR (S k) * rising n (S k)) = n * rising n (S k)).
    cbn [rising]. pose proof (lt_0_INR (S k) ltac:(lia)). pose proof (lt_0_INR (S (S k)) ltac:(lia)). set (a := INR (S k)) in *. replace (INR (S (S k))) with (a + 1) in * by (now rewrite (S_INR (S k))).
    field. split; lra. }
  set (g := fun t => f t * Rpower (1 - t) n).
  assert (forall t, Rabs t < 1 -> is_derive g t 0) as Dg.
  { intros t Ht. apply Rabs_def2 in Ht as Ht'. unfold g. evar_last.
    - apply (is_derive_mult f (fun t => Rpower (1 - t) n)); [now apply D| |intros; apply Rmult_comm].
      unfold Rpower. instantiate (1 := - (n / (1 - t)) * exp (n * ln (1 - t))). auto_derive; [lra|]. replace (1 + - t) with (1 - t) by ring. field; lra.
    - unfold plus, mult; simpl. unfold Rpower. field. lra. }
  assert (g x = 1) as G.
  { replace 1 with (g 0).
    - destruct (Req_dec x 0) as [->|N]; [reflexivity|]. assert (0 < x) as Hx0 by lra.
      destruct (MVT_gen g 0 x (fun _ => 0)) as (c & _ & E).
      + intros t Ht. apply Dg. rewrite Rmin_left, Rmax_right in Ht by lra. rewrite Rabs_right; lra.
      + intros t Ht. rewrite Rmin_left, Rmax_right in Ht by lra. apply derivable_continuous_pt. exists 0. apply is_derive_Reals, Dg. rewrite Rabs_right; lra.
      + lra.
    - unfold g, f. rewrite PSeries_0. simpl. rewrite Rminus_0_r. unfold Rpower. rewrite ln_1, Rmult_0_r, exp_0. ring. }
  assert (is_series (fun k => rising n k * x ^ k) (f x)) as S.
  { assert (ex_pseries (rising n) x) as K by (apply Ex; rewrite Rabs_right; lra). apply PSeries_correct, is_pseries_R in K. exact K. }
  replace (Rpower (1 - x) (- n)) with (f x); [exact S|]. unfold g in G. rewrite Rpower_Ropp. pose proof (exp_pos (n * ln (1 - x))) as P. fold (Rpower (1 - x) n) in P.
  apply (Rmult_eq_reg_r (Rpower (1 - x) n)); [rewrite G; field|]; lra.
Qed.
Lemma negbinom_sum n p : 0 < n -> 0 < p <= 1 -> pmf (negbinom_pmf n p).
Proof.
  intros Hn Hp. split.
  - intros k. unfold negbinom_pmf. pose proof (rising_pos n k Hn). repeat apply Rmult_le_pos; [lra|left; apply exp_pos|apply pow_le; lra].
  - pose proof (rising_series n (1 - p) Hn ltac:(lra)) as E. replace (1 - (1 - p)) with p in E by ring. apply (is_series_scal_r (Rpower p n)) in E.
    rewrite Rpower_Ropp, Rinv_l in E by (pose proof (exp_pos (n * ln p)); unfold Rpower; lra).
    eapply is_series_ext; [|exact E]. intros k. unfold negbinom_pmf. simpl. ring.
Qed.
Lemma Rchoose_up x k : Rchoose (x + 1) (S k) = Rchoose x k * (x + 1) / INR (S k).
Proof.
  induction k as [|k IH]; [simpl; field|]. change (Rchoose (x + 1) (S (S k))) with (Rchoose (x + 1) (S k) * (x + 1 - INR (S k)) / INR (S (S k))).
  rewrite IH. cbn [Rchoose]. pose proof (lt_0_INR (S k) ltac:(lia)). pose proof (lt_0_INR (S (S k)) ltac:(lia)). rewrite (S_INR k) in *. field. split; lra.
Qed.
Lemma Rchoose_rising n k : Rchoose (n + INR k - 1) k = rising n k.
Proof.
  induction k as [|k IH]; [reflexivity|]. replace (n + INR (S k) - 1) with (n + INR k - 1 + 1) by (rewrite S_INR; ring). rewrite Rchoose_up, IH. cbn [rising].
  f_equal. f_equal. ring.
Qed.
(** * numbers *)
Lemma Int_part_INR n : Int_part (INR n) = Z.of_nat n.
Proof. rewrite INR_IZR_INZ. apply Int_part_IZR'. Qed.
Lemma is_intR_INR n : is_intR (INR n) = true.
Proof. unfold is_intR, reqb. rewrite Int_part_INR, <- INR_IZR_INZ. destruct (Req_EM_T (INR n) (INR n)); congruence. Qed.
Lemma outcome_INR p n : outcome p (INR n) = p n.
Proof. unfold outcome. rewrite Int_part_INR, Nat2Z.id. destruct (Req_EM_T (INR n) (INR n)); congruence. Qed.
Lemma outcome_neg p y : y < 0 -> outcome p y = 0.
Proof. intros H. unfold outcome. destruct (Req_EM_T y _) as [E|E]; auto. pose proof (pos_INR (Z.to_nat (Int_part y))). lra. Qed.
Lemma outcome_frac p y : IZR (Int_part y) < y -> outcome p y = 0.
Proof. intros H. unfold outcome. destruct (Req_EM_T y _) as [E|E]; auto. rewrite E, Int_part_INR, <- INR_IZR_INZ in H. lra. Qed.
Lemma count_cases y : (exists n, y = INR n) \/ y < 0 \/ (0 <= y /\ IZR (Int_part y) < y).
Proof.
  destruct (Rlt_le_dec y 0); [auto|]. pose proof (base_Int_part y) as [B1 B2]. destruct (Req_dec (IZR (Int_part y)) y) as [E|E]; [left|right; right; lra].
  exists (Z.to_nat (Int_part y)). rewrite INR_IZR_INZ, Z2Nat.id; auto. apply le_IZR. lra.
Qed.
Lemma pow_nat a n : 0 <= a -> npow (Fin a) (Fin (INR n)) = Fin (a ^ n).
Proof.
  intros Ha. destruct (Req_dec a 0) as [->|N].
  - destruct n as [|n]; [simpl; destruct (Req_EM_T 0 0); congruence|]. rewrite pow_0 by (apply lt_0_INR; lia). f_equal. simpl. ring.
  - rewrite pow_f by lra. f_equal. apply Rpower_pow. lra.
Qed.
Lemma factorial_nat n : nfactorial (Fin (INR n)) = Fin (INR (fact n)).
Proof.
  unfold nfactorial, Rfactorial. pose proof (pos_INR n). destruct (Rlt_dec (INR n) 0); [lra|]. rewrite is_intR_INR, Int_part_INR, Nat2Z.id. reflexivity.
Qed.
Lemma floor_nat n : Num.nfloor (Fin (INR n)) = Fin (INR n).
Proof. simpl. now rewrite Int_part_INR, <- INR_IZR_INZ. Qed.
Lemma comb_in x k : INR k <= x -> ncomb (Fin x) (Fin (INR k)) = Fin (Rchoose x k).
Proof.
  intros H. unfold ncomb, Rcomb. pose proof (pos_INR k). destruct (Rle_dec 0 (INR k)); [|lra]. destruct (Rle_dec (INR k) x); [|lra].
  rewrite is_intR_INR, Int_part_INR, Nat2Z.id. reflexivity.
Qed.
Lemma comb_nat n k : ncomb (Fin (INR n)) (Fin (INR k)) = Fin (INR (choose n k)).
Proof.
  destruct (le_lt_dec k n) as [H|H]; [rewrite comb_in by (now apply le_INR); now rewrite Rchoose_choose|].
  rewrite choose_out by auto. apply lt_INR in H. unfold ncomb. destruct (Rle_dec 0 (INR k)); [|reflexivity]. destruct (Rle_dec (INR k) (INR n)); [lra|reflexivity].
Qed.
Lemma comb_fin x k : ncomb (Fin x) (Fin k) = Fin (if Rle_dec 0 k then if Rle_dec k x then Rcomb x k else 0 else 0).
Proof. unfold ncomb. destruct (Rle_dec 0 k); [|reflexivity]. destruct (Rle_dec k x); reflexivity. Qed.
Lemma logp_nn p q : 0 <= q -> p = q -> nopp (nlog (Fin p)) = logp q.
Proof.
  intros H ->. unfold logp. simpl. destruct (Rlt_dec 0 q); [reflexivity|]. destruct (Rlt_dec q 0); [lra|reflexivity].
Qed.
