(** crps_ensemble on finite inputs: real formulas for every estimator, both implementations. *)
From Coq Require Import FunctionalExtensionality.
From Verif Require Export L_crps_api.
Open Scope R_scope.

(** ** index arithmetic of the lagged estimators *)
Lemma lag1_arr M k : (k < M)%nat -> ((k + M - 1 mod M) mod M = lag1 M k)%nat.
Proof.
  intros H. unfold lag1. destruct (Nat.eq_dec M 1) as [->|].
  - rewrite !Nat.mod_1_r. reflexivity.
  - rewrite (Nat.mod_small 1 M) by lia. reflexivity.
Qed.
Lemma lag1_gu M k : (k < M)%nat -> ((if k =? 0 then M else k) - 1 = lag1 M k)%nat.
Proof.
  intros H. unfold lag1. destruct (Nat.eqb_spec k 0) as [->|].
  - rewrite Nat.mod_small; lia.
  - replace (k + M - 1)%nat with (k - 1 + 1 * M)%nat by lia. rewrite Nat.mod_add by lia.
    rewrite Nat.mod_small; lia.
Qed.
Lemma lag1_gu' M k : (k < M)%nat -> ((if 0 <? k then k - 1 else M - 1) = lag1 M k)%nat.
Proof.
  intros H. rewrite <- lag1_gu by auto. destruct k; reflexivity.
Qed.
Lemma lagc_arr M k : (k < M)%nat -> ((k + M - (M / 2) mod M) mod M = lagc M k)%nat.
Proof.
  intros H. unfold lagc. rewrite (Nat.mod_small (M / 2) M); auto. apply Nat.div_lt; lia.
Qed.
Lemma half_cases M : (exists m, M = 2 * m /\ M / 2 = m /\ (M - 1) / 2 = m - 1)%nat
  \/ (exists m, M = 2 * m + 1 /\ M / 2 = m /\ (M - 1) / 2 = m)%nat.
Proof.
  destruct (Nat.Even_or_Odd M) as [[m E]|[m E]]; [left|right]; exists m; repeat split; auto; subst.
  - rewrite Nat.mul_comm. now rewrite Nat.div_mul.
  - destruct m; [reflexivity|]. replace (2 * S m - 1)%nat with (1 + m * 2)%nat by lia.
    rewrite Nat.div_add by lia. simpl. lia.
  - replace (2 * m + 1)%nat with (1 + m * 2)%nat by lia. rewrite Nat.div_add by lia. reflexivity.
  - replace (2 * m + 1 - 1)%nat with (m * 2)%nat by lia. now rewrite Nat.div_mul.
Qed.
Lemma lagc_gu M k : (k < M)%nat -> circperm_idx M k = lagc M k.
Proof.
  intros H. unfold circperm_idx, lagc.
  destruct (half_cases M) as [(m & E & -> & _)|(m & E & -> & _)]; subst M.
  - assert (Hd : forall q, ((1 + 2 * q) / 2 = q)%nat).
    { intros q. replace (1 + 2 * q)%nat with (1 + q * 2)%nat by lia. rewrite Nat.div_add by lia. reflexivity. }
    destruct (Nat.lt_ge_cases k m) as [L|L].
    + replace (2 * (k + 1) + (2 * m - 1))%nat with (1 + 2 * (k + m))%nat by lia.
      rewrite Nat.mod_small by lia. rewrite Hd.
      replace (k + 2 * m - m)%nat with (k + m)%nat by lia. rewrite Nat.mod_small; lia.
    + replace (2 * (k + 1) + (2 * m - 1))%nat with (1 + 2 * (k - m) + 1 * (2 * (2 * m)))%nat by lia.
      rewrite Nat.mod_add by lia. rewrite Nat.mod_small by lia. rewrite Hd.
      replace (k + 2 * m - m)%nat with (k - m + 1 * (2 * m))%nat by lia.
      rewrite Nat.mod_add by lia. rewrite Nat.mod_small; lia.
  - assert (Hd : forall q, ((2 * q) / 2 = q)%nat).
    { intros q. rewrite Nat.mul_comm. now rewrite Nat.div_mul. }
    destruct (Nat.lt_ge_cases k m) as [L|L].
    + replace (2 * (k + 1) + (2 * m + 1 - 1))%nat with (2 * (k + m + 1))%nat by lia.
      rewrite Nat.mod_small by lia. rewrite Hd.
      replace (k + (2 * m + 1) - m)%nat with (k + m + 1)%nat by lia. rewrite Nat.mod_small; lia.
    + replace (2 * (k + 1) + (2 * m + 1 - 1))%nat with (2 * (k - m) + 1 * (2 * (2 * m + 1)))%nat by lia.
      rewrite Nat.mod_add by lia. rewrite Nat.mod_small by lia. rewrite Hd.
      replace (k + (2 * m + 1) - m)%nat with (k - m + 1 * (2 * m + 1))%nat by lia.
      rewrite Nat.mod_add by lia. rewrite Nat.mod_small; lia.
Qed.
Lemma lag1_lt M k : (k < M)%nat -> (lag1 M k < M)%nat. Proof. intros; apply Nat.mod_upper_bound; lia. Qed.
Lemma lagc_lt M k : (k < M)%nat -> (lagc M k < M)%nat. Proof. intros; apply Nat.mod_upper_bound; lia. Qed.

(** ** sums over a permuted index *)
Definition permutes (M : nat) (g : nat -> nat) : Prop := Permutation (map g (seq 0 M)) (seq 0 M).
Lemma sumn_permutes M g f : permutes M g -> sumn M (fun k => f (g k)) = sumn M f.
Proof. intros H. unfold sumn at 1. rewrite <- map_map. now apply sumn_perm. Qed.
Lemma permutes_lt M g k : permutes M g -> (k < M)%nat -> (g k < M)%nat.
Proof.
  intros H Hk. assert (I : In (g k) (seq 0 M)); [|apply in_seq in I; lia].
  eapply Permutation_in; [exact H|]. apply in_map, in_seq; lia.
Qed.
Lemma permutes_onto M g j : permutes M g -> (j < M)%nat -> exists k, (k < M)%nat /\ g k = j.
Proof.
  intros H Hj. assert (I : In j (map g (seq 0 M))).
  { eapply Permutation_in; [symmetry; exact H|]. apply in_seq; lia. }
  apply in_map_iff in I. destruct I as (k & E & Hk). apply in_seq in Hk. exists k; split; auto; lia.
Qed.
Lemma permutes_inj M g : (forall k, (k < M)%nat -> (g k < M)%nat) ->
  (forall i j, (i < M)%nat -> (j < M)%nat -> g i = g j -> i = j) -> permutes M g.
Proof.
  intros H1 H2. apply NoDup_Permutation_bis.
  - apply NoDup_nth with (d := O). rewrite map_length, seq_length. intros i j Hi Hj E.
    rewrite !(nth_indep _ O (g O)) in E by (rewrite map_length, seq_length; auto).
    rewrite !map_nth, !seq_nth in E by auto. now apply H2 in E.
  - rewrite map_length. auto.
  - intros a Ha. apply in_map_iff in Ha. destruct Ha as (k & <- & Hk). apply in_seq in Hk.
    apply in_seq. specialize (H1 k). lia.
Qed.
Lemma shift_permutes M c : permutes M (fun k => (k + c) mod M)%nat.
Proof.
  destruct M; [constructor|]. apply permutes_inj.
  - intros; apply Nat.mod_upper_bound; lia.
  - intros i j Hi Hj E.
    assert (A : forall a, (a < S M)%nat -> ((a + c) mod S M + (S M * c - c)) mod S M = a).
    { intros a Ha. rewrite Nat.add_mod_idemp_l by lia.
      replace (a + c + (S M * c - c))%nat with (a + c * S M)%nat by nia.
      rewrite Nat.mod_add by lia. now apply Nat.mod_small. }
    rewrite <- (A i Hi), E. now apply A.
Qed.
Lemma pairsum_permutes M g x : permutes M g -> pairsum M (fun k => x (g k)) = pairsum M x.
Proof.
  intros H. unfold pairsum.
  rewrite (sumn_ext M _ (fun i => sumn M (fun j => Rabs (x (g i) - x j)))).
  - apply (sumn_permutes M g (fun i => sumn M (fun j => Rabs (x i - x j))) H).
  - intros k Hk. apply (sumn_permutes M g (fun j => Rabs (x (g k) - x j)) H).
Qed.
Lemma mae_permutes M g y x : permutes M g -> mae M y (fun k => x (g k)) = mae M y x.
Proof. intros H. unfold mae. f_equal. apply (sumn_permutes M g (fun k => Rabs (x k - y)) H). Qed.
Lemma exact_permutes M g y x : permutes M g -> exact_crps M y (fun k => x (g k)) = exact_crps M y x.
Proof. intros H. unfold exact_crps. now rewrite mae_permutes, pairsum_permutes. Qed.
Lemma fair_permutes M g y x : permutes M g -> fair_crps M y (fun k => x (g k)) = fair_crps M y x.
Proof. intros H. unfold fair_crps. now rewrite mae_permutes, pairsum_permutes. Qed.
Lemma wmae_permutes M g w y x : permutes M g -> wmae M (fun k => w (g k)) y (fun k => x (g k)) = wmae M w y x.
Proof. intros H. unfold wmae. apply (sumn_permutes M g (fun k => w k * Rabs (x k - y)) H). Qed.
Lemma wpair_permutes (F : R -> R -> R) M g w x : permutes M g ->
  sumn M (fun i => sumn M (fun j => w (g i) * w (g j) * F (x (g i)) (x (g j)))) =
  sumn M (fun i => sumn M (fun j => w i * w j * F (x i) (x j))).
Proof.
  intros H.
  rewrite (sumn_ext M _ (fun i => sumn M (fun j => w (g i) * w j * F (x (g i)) (x j)))).
  - apply (sumn_permutes M g (fun i => sumn M (fun j => w i * w j * F (x i) (x j))) H).
  - intros k Hk. apply (sumn_permutes M g (fun j => w (g k) * w j * F (x (g k)) (x j)) H).
Qed.
Lemma wpairsum_permutes M g w x : permutes M g ->
  wpairsum M (fun k => w (g k)) (fun k => x (g k)) = wpairsum M w x.
Proof. intros H. apply (wpair_permutes (fun a b => Rabs (a - b)) M g w x H). Qed.
Lemma sumsq_permutes M g w : permutes M g -> sumn M (fun k => w (g k) * w (g k)) = sumn M (fun k => w k * w k).
Proof. intros H. apply (sumn_permutes M g (fun k => w k * w k) H). Qed.
Lemma wexact_permutes M g w y x : permutes M g ->
  wexact_crps M (fun k => w (g k)) y (fun k => x (g k)) = wexact_crps M w y x.
Proof. intros H. unfold wexact_crps. now rewrite wmae_permutes, wpairsum_permutes. Qed.
Lemma wfair_permutes M g w y x : permutes M g ->
  wfair_crps M (fun k => w (g k)) y (fun k => x (g k)) = wfair_crps M w y x.
Proof. intros H. unfold wfair_crps. now rewrite wmae_permutes, wpairsum_permutes, sumsq_permutes. Qed.
Lemma wpwm_free_permutes M g w y x : permutes M g ->
  wpwm_free M (fun k => w (g k)) y (fun k => x (g k)) = wpwm_free M w y x.
Proof.
  intros H. unfold wpwm_free. rewrite wmae_permutes, sumsq_permutes by auto.
  rewrite (wpair_permutes Rmax M g w x H).
  rewrite (sumn_permutes M g (fun k => w k * x k) H).
  now rewrite (sumn_permutes M g (fun k => w k * w k * x k) H).
Qed.
(** on sorted rows the cumulative form is the order-free one *)
Lemma wpwm_sorted M w y x : ascending M x -> wpwm_crps M w y x = wpwm_free M w y x.
Proof.
  intros Ha. unfold wpwm_crps, wpwm_free.
  assert (A : 2 * sumn M (fun k => x k * w k * (sumn (S k) w - w k)) =
    sumn M (fun i => sumn M (fun j => w i * w j * Rmax (x i) (x j))) - sumn M (fun k => w k * w k * x k)).
  { clear y. induction M as [|M IH]; [rewrite !sumn_0; lra|].
    rewrite !(sumn_S M). rewrite Rmult_plus_distr_l, IH by (intros i j H; apply Ha; lia).
    rewrite (sumn_ext M (fun i => sumn (S M) (fun j => w i * w j * Rmax (x i) (x j)))
       (fun i => sumn M (fun j => w i * w j * Rmax (x i) (x j)) + w i * (w M * x M))).
    2:{ intros i Hi. rewrite sumn_S. rewrite Rmax_right by (apply Ha; lia). ring. }
    rewrite (sumn_ext M (fun j => w M * w j * Rmax (x M) (x j)) (fun i => w i * (w M * x M))).
    2:{ intros i Hi. rewrite Rmax_left by (apply Ha; lia). ring. }
    rewrite !sumn_plus, !sumn_scal_r. rewrite Rmax_left by lra. rewrite ?sumn_S. ring. }
  rewrite <- A. rewrite (sumn_ext M (fun k => x k * w k) (fun k => w k * x k)) by (intros; ring).
  unfold Rdiv. ring.
Qed.

(** ** unweighted rows *)
Definition real_un (e : est) (M : nat) (y : R) (x : nat -> R) : R :=
  match e with
  | Nrg | Qd | EInt => exact_crps M y x
  | Fair | Pwm => fair_crps M y x
  | Akr => lag_crps M (lag1 M) y x
  | Circ => lag_crps M (lagc M) y x
  end.
Definition need2 (e : est) : bool := match e with Fair | Pwm => true | _ => false end.

Lemma lag_ext M g h y x : (forall k, (k < M)%nat -> g k = h k) -> lag_crps M g y x = lag_crps M h y x.
Proof. intros H. unfold lag_crps. do 2 f_equal. f_equal. apply sumn_ext; intros; now rewrite H. Qed.
Lemma row_int_un M yn xn y x : (0 < M)%nat -> yn = Fin y -> (forall k, (k < M)%nat -> xn k = Fin (x k)) ->
  ascending M x ->
  row_int M (fun k => Fin 0 .+ nofnat (1 + k) ./ nofnat M)
      (nsumn M (fun k => b2n (nleb (xn k) yn) .* Fin 1) ./ nofnat M) yn xn = Fin (exact_crps M y x).
Proof.
  intros HM Hy Hx Ha. rewrite (exact_uniform M y x HM). pose proof (INR_pos M HM).
  apply row_int_real; auto.
  - intros; left; now apply Rinv_0_lt_compat.
  - now apply uniform_sum.
  - intros k Hk. fin; try lra. rewrite sumn_const. change (1 + k)%nat with (S k). unfold Rdiv. ring.
  - fin; try lra. unfold Rdiv. rewrite <- sumn_scal_r. apply sumn_ext; intros; ring.
Qed.
Lemma row_un_real b e M yn xn y x : (0 < M)%nat -> yn = Fin y -> (forall k, (k < M)%nat -> xn k = Fin (x k)) ->
  (need2 e = true -> (1 < M)%nat) -> (esorts e = true -> ascending M x) ->
  row_un b e M yn xn = Fin (real_un e M y x).
Proof.
  intros HM Hy Hx H2 Ha. destruct b, e; cbn [row_un row_arr row_gu real_un need2 esorts] in *.
  - now apply row_nrg_real.
  - apply row_fair_real; auto.
  - apply row_pwm_real; auto.
  - apply row_qd_real; auto.
  - rewrite (row_lag_real M yn xn y x HM Hy Hx).
    + f_equal. apply lag_ext. intros; now apply lag1_arr.
    + intros; apply Nat.mod_upper_bound; lia.
  - rewrite (row_lag_real M yn xn y x HM Hy Hx).
    + f_equal. apply lag_ext. intros; now apply lagc_arr.
    + intros; apply Nat.mod_upper_bound; lia.
  - apply row_int_un; auto.
  - now apply nrg_k_real.
  - apply fair_k_real; auto.
  - apply pwm_k_real; auto.
  - apply qd_k_real; auto.
  - rewrite (akr_k_real M yn xn y x HM Hy Hx). f_equal. apply lag_ext. intros; now apply lag1_gu.
  - rewrite (akr_circperm_k_real M yn xn y x HM Hy Hx). f_equal. apply lag_ext. intros; now apply lagc_gu.
  - apply int_k_real; auto.
Qed.
Lemma real_un_permutes e M g y x : permutes M g -> e <> Akr -> e <> Circ ->
  real_un e M y (fun k => x (g k)) = real_un e M y x.
Proof.
  intros H H1 H2. destruct e; cbn; try easy; first [now apply exact_permutes | now apply fair_permutes].
Qed.

(** ** weighted rows *)
Definition real_w (b : impl) (e : est) (M : nat) (w : nat -> R) (y : R) (x : nat -> R) : R :=
  match e with
  | Nrg | Qd | EInt => wexact_crps M w y x
  | Fair => wfair_crps M w y x
  | Pwm => wpwm_free M w y x
  | Akr => wlag_crps M (lag1 M) w y x
  | Circ => wlag_crps M (match b with Array => fun k => ((k + M - (M - 1) / 2) mod M)%nat | Numba => lagc M end) w y x
  end.
Lemma wlag_ext M g h w y x : (forall k, (k < M)%nat -> g k = h k) -> wlag_crps M g w y x = wlag_crps M h w y x.
Proof. intros H. unfold wlag_crps. do 2 f_equal. apply sumn_ext; intros; now rewrite H. Qed.
Lemma lag_inv M c k : (c <= M)%nat -> (k < M)%nat -> (((k + c) mod M + M - c) mod M = k)%nat.
Proof.
  intros Hc Hk. destruct (Nat.lt_ge_cases (k + c) M).
  - rewrite (Nat.mod_small (k + c)) by auto. replace (k + c + M - c)%nat with (k + 1 * M)%nat by lia.
    rewrite Nat.mod_add by lia. now apply Nat.mod_small.
  - replace (k + c)%nat with (k + c - M + 1 * M)%nat at 1 by lia. rewrite Nat.mod_add by lia.
    destruct (Nat.eq_dec c M) as [->|].
    + replace (k + M - M)%nat with k by lia. rewrite (Nat.mod_small k M) by auto.
      replace (k + M - M)%nat with k by lia. now apply Nat.mod_small.
    + rewrite (Nat.mod_small (k + c - M)) by lia. replace (k + c - M + M - c)%nat with k by lia. now apply Nat.mod_small.
Qed.
(** the array code pairs forwards with the weight of the partner; re-indexing gives the
    backward lag *)
Lemma wlag_shift M c w y x : (c <= M)%nat ->
  wmae M w y x - / 2 * sumn M (fun k => w ((k + c) mod M)%nat * Rabs (x ((k + c) mod M)%nat - x k))
  = wlag_crps M (fun k => ((k + M - c) mod M)%nat) w y x.
Proof.
  intros Hc. unfold wlag_crps. do 2 f_equal.
  rewrite <- (sumn_permutes M _ (fun k => w k * Rabs (x k - x ((k + M - c) mod M)%nat)) (shift_permutes M c)).
  apply sumn_ext; intros k Hk. now rewrite lag_inv.
Qed.
Lemma row_w_real b e M yn xn wn y x w : (0 < M)%nat -> yn = Fin y ->
  (forall k, (k < M)%nat -> xn k = Fin (x k)) -> (forall k, (k < M)%nat -> wn k = Fin (w k)) ->
  (forall k, (k < M)%nat -> 0 <= w k) -> sumn M w = 1 ->
  (need2 e = true -> fairc M w <> 0) -> (esorts e = true -> ascending M x) ->
  row_w b e M yn xn wn = Fin (real_w b e M w y x).
Proof.
  intros HM Hy Hx Hw Hw0 Hw1 H2 Ha. destruct b, e; cbn [row_w row_arr_w row_gu_w real_w need2 esorts] in *.
  - now apply row_nrg_w_real.
  - apply row_fair_w_real; auto.
  - rewrite <- wpwm_sorted by auto. apply row_pwm_w_real; auto.
  - apply row_qd_w_real; auto.
  - rewrite (row_lag_w_real M yn xn wn y x w Hy Hx Hw).
    + f_equal. now apply wlag_shift.
    + intros; apply Nat.mod_upper_bound; lia.
  - rewrite (row_lag_w_real M yn xn wn y x w Hy Hx Hw).
    + f_equal. apply wlag_shift. apply Nat.div_le_upper_bound; lia.
    + intros; apply Nat.mod_upper_bound; lia.
  - apply row_int_w_real; auto.
  - now apply nrg_w_k_real.
  - apply fair_w_k_real; auto.
  - rewrite <- wpwm_sorted by auto. apply pwm_w_k_real; auto.
  - apply qd_w_k_real; auto.
  - rewrite (akr_w_k_real M yn xn wn y x w); auto. f_equal. apply wlag_ext. intros; now apply lag1_gu'.
  - rewrite (akr_circperm_w_k_real M yn xn wn y x w); auto. f_equal. apply wlag_ext. intros; now apply lagc_gu.
  - apply int_w_k_real; auto.
Qed.
Lemma real_w_permutes b e M g w y x : permutes M g -> e <> Akr -> e <> Circ ->
  real_w b e M (fun k => w (g k)) y (fun k => x (g k)) = real_w b e M w y x.
Proof.
  intros H H1 H2. destruct e; cbn; try easy;
    first [now apply wexact_permutes | now apply wfair_permutes | now apply wpwm_free_permutes].
Qed.
Lemma sumn_pos_ex M w : (forall k, (k < M)%nat -> 0 <= w k) -> 0 < sumn M w -> (0 < M)%nat.
Proof. intros H H1. destruct M; [rewrite sumn_0 in H1; lra|lia]. Qed.
Lemma normn_real M wn w k : (forall k, (k < M)%nat -> wn k = Fin (w k)) -> sumn M w <> 0 -> (k < M)%nat ->
  normn M wn k = Fin (nw M w k).
Proof. intros H Hs Hk. unfold normn. fin; auto. Qed.
Lemma nw_sum1 M w : sumn M w <> 0 -> sumn M (nw M w) = 1.
Proof. intros H. unfold nw. rewrite sumn_div. now field. Qed.
Lemma nw_nonneg M w k : (forall k, (k < M)%nat -> 0 <= w k) -> 0 < sumn M w -> (k < M)%nat -> 0 <= nw M w k.
Proof. intros H H1 Hk. unfold nw. apply Rmult_le_pos; auto. left; now apply Rinv_0_lt_compat. Qed.

Section Ens.
Variable srt : list num -> list nat.
Hypothesis Hsrt : argsort_ok srt.
Lemma ord_ascending e sf M xn x : (forall k, (k < M)%nat -> xn k = Fin (x k)) ->
  (sf = true -> esorts e = true -> ascending M x) -> esorts e = true ->
  ascending M (fun k => x (ord srt e sf M xn k)).
Proof.
  intros Hx Ha He. unfold ord. rewrite He. destruct sf; cbn [negb andb].
  - now apply Ha.
  - now apply sorted_by_ascending.
Qed.
Lemma ord_permutes e sf M xn : permutes M (ord srt e sf M xn).
Proof. apply ord_perm; auto. Qed.
Lemma ord_id e sf M xn k : esorts e = false -> ord srt e sf M xn k = k.
Proof. intros E. unfold ord. now rewrite E, Bool.andb_false_r. Qed.
Lemma row_ord b e sf M yn xn y x : (0 < M)%nat -> yn = Fin y -> (forall k, (k < M)%nat -> xn k = Fin (x k)) ->
  (need2 e = true -> (1 < M)%nat) -> (sf = true -> esorts e = true -> ascending M x) ->
  row_un b e M yn (fun k => xn (ord srt e sf M xn k)) = Fin (real_un e M y x).
Proof.
  intros HM Hy Hx H2 Ha.
  rewrite (row_un_real b e M yn _ y (fun k => x (ord srt e sf M xn k))); auto.
  - f_equal. destruct (esorts e) eqn:E.
    + apply real_un_permutes; [apply ord_permutes| |]; intros ->; discriminate.
    + replace (fun k => x (ord srt e sf M xn k)) with x; [reflexivity|].
      apply functional_extensionality; intros k. now rewrite ord_id.
  - intros k Hk. apply Hx. now apply ord_lt.
  - now apply ord_ascending.
Qed.
Lemma row_ord_w b e sf M yn xn wn y x w : yn = Fin y -> (forall k, (k < M)%nat -> xn k = Fin (x k)) ->
  (forall k, (k < M)%nat -> wn k = Fin (w k)) ->
  (forall k, (k < M)%nat -> 0 <= w k) -> 0 < sumn M w ->
  (need2 e = true -> fairc M (nw M w) <> 0) -> (sf = true -> esorts e = true -> ascending M x) ->
  row_w b e M yn (fun k => xn (ord srt e sf M xn k)) (effw srt e sf M xn wn)
  = Fin (real_w b e M (nw M w) y x).
Proof.
  intros Hy Hx Hw Hw0 Hw1 H2 Ha. pose proof (sumn_pos_ex M w Hw0 Hw1) as HM.
  assert (P := ord_permutes e sf M xn).
  assert (S1 : sumn M (fun k => nw M w (ord srt e sf M xn k)) = 1).
  { rewrite (sumn_permutes M _ (nw M w) P). apply nw_sum1; lra. }
  rewrite (row_w_real b e M yn _ _ y (fun k => x (ord srt e sf M xn k)) (fun k => nw M w (ord srt e sf M xn k))); auto.
  - f_equal. destruct (esorts e) eqn:E.
    + apply real_w_permutes; auto; intros ->; discriminate.
    + replace (fun k => x (ord srt e sf M xn k)) with x;
        [replace (fun k => nw M w (ord srt e sf M xn k)) with (nw M w); [reflexivity|]|];
        apply functional_extensionality; intros k; now rewrite ord_id.
  - intros k Hk. apply Hx. now apply ord_lt.
  - intros k Hk. unfold effw.
    rewrite (normn_real M _ (fun k => nw M w (ord srt e sf M xn k))); auto.
    + unfold nw at 1. rewrite S1. f_equal. field.
    + intros j Hj. apply normn_real; auto; [lra|now apply ord_lt].
    + rewrite S1; lra.
  - intros k Hk. apply nw_nonneg; auto. now apply ord_lt.
  - intros E. specialize (H2 E). unfold fairc in *. now rewrite sumsq_permutes.
  - now apply ord_ascending.
Qed.

Variables (b : impl) (obs fct : arr) (ax : Z) (d1 d2 : dtype) (s : list nat) (p M : nat) (yn xn : list nat -> num)
  (y x : list nat -> R).
Hypothesis Hin : inputs obs fct ax d1 d2 s p M yn xn.
Hypothesis HM : (0 < M)%nat.
Hypothesis Hy : forall r, inb s r -> yn r = Fin (y r).
Hypothesis Hx : forall r k, inb s r -> (k < M)%nat -> xn (insert_at p k r) = Fin (x (insert_at p k r)).
Let xr r k := x (insert_at p k r).
Lemma ens_real e sf pol : pol = "propagate"%string \/ pol = "raise"%string ->
  (need2 e = true -> (1 < M)%nat) ->
  (sf = true -> esorts e = true -> forall r, inb s r -> ascending M (xr r)) ->
  ten_is (crps_ensemble srt b obs fct ax None (ename e) sf pol) (odt b e d1) s
    (fun r => ncast (odt b e d1) (Fin (real_un e M (y r) (xr r)))).
Proof.
  intros Hp H2 Ha.
  assert (E : crps_ensemble srt b obs fct ax None (ename e) sf pol =
              crps_ensemble srt b obs fct ax None (ename e) sf "propagate").
  { destruct Hp as [->| ->]; auto.
    apply (api_raise_ok srt b obs fct ax d1 d2 s p M yn xn Hin None); [exact I| |].
    - intros r Hr. rewrite Hy; easy.
    - intros r k Hr Hk. split; [rewrite Hx|]; easy. }
  rewrite E. eapply ten_ext; [eapply (api_un srt Hsrt b obs fct ax d1 d2 s p M yn xn Hin e sf)|].
  intros r Hr. cbv beta. f_equal. apply (row_ord b e sf M (yn r) (fun k => xn (insert_at p k r))); auto. intros k Hk; now apply Hx.
Qed.
(** weights: non-negative, with a positive sum in every row *)
Lemma ens_w_real wt d3 wn w e sf pol : pol = "propagate"%string \/ pol = "raise"%string ->
  arr_is wt d3 (insert_at p M s) wn ->
  (forall r k, inb s r -> (k < M)%nat -> ncast d2 (wn (insert_at p k r)) = Fin (w (insert_at p k r)) /\ 0 <= w (insert_at p k r)) ->
  (forall r, inb s r -> 0 < sumn M (fun k => w (insert_at p k r))) ->
  (need2 e = true -> forall r, inb s r -> fairc M (nw M (fun k => w (insert_at p k r))) <> 0) ->
  (sf = true -> esorts e = true -> forall r, inb s r -> ascending M (xr r)) ->
  ten_is (crps_ensemble srt b obs fct ax (Some wt) (ename e) sf pol) (odt_w b d1) s
    (fun r => ncast (odt_w b d1) (Fin (real_w b e M (nw M (fun k => w (insert_at p k r))) (y r) (xr r)))).
Proof.
  intros Hp Hwt Hw Hpos H2 Ha.
  assert (E : crps_ensemble srt b obs fct ax (Some wt) (ename e) sf pol =
              crps_ensemble srt b obs fct ax (Some wt) (ename e) sf "propagate").
  { destruct Hp as [->| ->]; auto.
    apply (api_raise_ok srt b obs fct ax d1 d2 s p M yn xn Hin (Some (wt, d3, wn))); [exact Hwt| |].
    - intros r Hr. rewrite Hy; easy.
    - intros r k Hr Hk. rewrite Hx by auto. destruct (Hw r k Hr Hk) as [-> _]. easy. }
  rewrite E. eapply ten_ext; [eapply (api_w srt Hsrt b obs fct ax d1 d2 s p M yn xn Hin wt d3 wn Hwt e sf)|].
  - intros r k Hr Hk. destruct (Hw r k Hr Hk) as [-> H0]. simpl. now apply rltb_false.
  - intros r Hr. cbv beta. f_equal. apply (row_ord_w b e sf M (yn r) (fun k => xn (insert_at p k r)) (fun k => ncast d2 (wn (insert_at p k r)))); auto.
    + intros k Hk; now apply Hx.
    + intros k Hk. now apply Hw.
    + intros k Hk. now apply Hw.
Qed.
End Ens.
