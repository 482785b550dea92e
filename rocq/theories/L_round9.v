(** Rounding errors of the energy score. *)
From Coq Require Import Reals List ZArith Permutation Lia Lra Psatz.
From Flocq Require Import Core.
From Verif Require Import L_crps_row L_crps_omit.
From Verif Require Export L_round3 S_round4 L_round2 S_round.
Open Scope R_scope.

Local Notation fmt := (generic_format radix2 (FLT_exp (-1074) 53)).
Local Notation bp := (bpow radix2).

Lemma within_trans k l x X Y : within k x X -> within l X Y -> within (k + l) x Y.
Proof.
  intros [H1 H2] [H3 H4]. unfold within. rewrite !pow_add. pose proof (pow_lo k). pose proof (pow_hi k). split.
  - eapply Rle_trans; [|exact H1]. replace (Y * ((1 - u64) ^ k * (1 - u64) ^ l)) with (Y * (1 - u64) ^ l * (1 - u64) ^ k) by ring. apply Rmult_le_compat_r; lra.
  - eapply Rle_trans; [exact H2|]. replace (Y * ((1 + u64) ^ k * (1 + u64) ^ l)) with (Y * (1 + u64) ^ l * (1 + u64) ^ k) by ring. apply Rmult_le_compat_r; lra.
Qed.
Lemma within_sqrt n x X : 0 <= X -> within (2 * n) x X -> within n (sqrt x) (sqrt X).
Proof.
  intros HX W. pose proof (within_ge0 _ _ _ HX W) as Hx. destruct W as [H1 H2]. pose proof u64_pos as U. pose proof (pow_lo n). pose proof (pow_hi n).
  rewrite Nat.mul_comm, !pow_mult in *. split.
  - rewrite <- (sqrt_pow2 ((1 - u64) ^ n)) by lra. rewrite <- sqrt_mult; [now apply sqrt_le_1_alt|exact HX|apply pow2_ge_0].
  - rewrite <- (sqrt_pow2 ((1 + u64) ^ n)) by lra. rewrite <- sqrt_mult; [now apply sqrt_le_1_alt|exact HX|apply pow2_ge_0].
Qed.
Lemma big_sumn p n f : (forall i, (i < n)%nat -> big p (f i)) -> big p (sumn n f).
Proof.
  induction n as [|n IH]; intros H; [left; apply sumn_0|]. rewrite sumn_S. apply big_add; [apply IH; intros; apply H; lia|apply H; lia].
Qed.
Lemma big_sqrt p x : big (2 * p) x -> big p (sqrt x).
Proof.
  intros [->|H]; [left; apply sqrt_0|right]. rewrite <- (sqrt_pow2 (bp (- p))) by apply bpow_ge_0. apply sqrt_le_1_alt.
  eapply Rle_trans; [|exact H]. right. replace (- (2 * p))%Z with (- p + - p)%Z by lia. rewrite bpow_plus. ring.
Qed.
Lemma big_sq p x : big p (Rabs x) -> big (2 * p) (x ^ 2).
Proof.
  intros H. rewrite <- (pow2_abs x). replace (Rabs x ^ 2) with (Rabs x * Rabs x) by ring. replace (2 * p)%Z with (p + p)%Z by lia.
  destruct H as [E|H]; [left; rewrite E; ring|]. apply big_scal; [exact H|now right].
Qed.
Lemma apart_big e a b : apart e a b -> big (Z.of_nat e) (Rabs (a - b)).
Proof. intros [->|H]; [left; rewrite Rminus_eq_0; apply Rabs_R0|right; rewrite <- bp_inv; exact H]. Qed.
Lemma big_apart e a : big (Z.of_nat e) (Rabs a) -> apart e a 0.
Proof.
  intros [H|H]; [left; destruct (Req_dec a 0); auto; now apply Rabs_no_R0 in H|right; rewrite Rminus_0_r, bp_inv; exact H].
Qed.
Lemma calc_double k p x X : calc k p x X -> calc k p (b64 (2 * x)) (2 * X).
Proof.
  intros (F & P & W & B). rewrite b64_id by now apply fmt_double. split; [now apply fmt_double|]. split; [lra|]. split; [apply within_scal; [lra|exact W]|].
  destruct B as [->|B]; [left; ring|right]. pose proof (bpow_ge_0 radix2 (- p)). lra.
Qed.
(** the norm of a rounded difference *)
Lemma vnorm_big D v : (forall k, (k < D)%nat -> apart 400 (v k) 0) -> big 400 (enorm D v).
Proof.
  intros H. unfold enorm. apply big_sqrt. apply big_sumn. intros k Hk. apply (big_sq 400).
  pose proof (apart_big _ _ _ (H k Hk)) as B. rewrite Rminus_0_r in B. exact B.
Qed.
Lemma vsub_norm D a b : (forall k, (k < D)%nat -> fmt (a k) /\ fmt (b k)) -> within 1 (enorm D (rvsub b64 a b)) (eucl D a b).
Proof.
  intros H. unfold enorm, eucl. apply within_sqrt; [apply sumn_nonneg; intros; apply pow2_ge_0|]. pose proof u64_pos as U.
  assert (forall k, (k < D)%nat -> within 2 (rvsub b64 a b k ^ 2) ((a k - b k) ^ 2)) as W.
  { intros k Hk. destruct (H k Hk) as [Fa Fb]. pose proof (b64_minus _ _ Fa Fb) as E. unfold rvsub, rsub.
    assert (within 1 (Rabs (b64 (a k - b k))) (Rabs (a k - b k))) as W1.
    { unfold within. rewrite !pow_1. pose proof (Rabs_triang_inv2 (b64 (a k - b k)) (a k - b k)) as T. apply Rabs_le_inv in T. lra. }
    pose proof (within_mul 1 1 _ _ _ _ (Rabs_pos _) (Rabs_pos _) W1 W1) as W2. rewrite <- (pow2_abs (b64 _)), <- (pow2_abs (a k - b k)).
    replace (Rabs (b64 (a k - b k)) ^ 2) with (Rabs (b64 (a k - b k)) * Rabs (b64 (a k - b k))) by ring. replace (Rabs (a k - b k) ^ 2) with (Rabs (a k - b k) * Rabs (a k - b k)) by ring. exact W2. }
  clear H. simpl Nat.mul. induction D as [|D IH]; [rewrite !sumn_0; unfold within; lra|]. rewrite !sumn_S. apply within_add; [apply IH; intros; apply W; lia|apply W; lia].
Qed.
Lemma nrm_calc n D nrm a b : norm64 n D nrm -> (Z.of_nat n <= 2 ^ 52)%Z -> (forall k, (k < D)%nat -> fmt (a k) /\ fmt (b k) /\ apart 400 (a k) (b k)) ->
  calc (n + 1) 401 (nrm (rvsub b64 a b)) (eucl D a b).
Proof.
  intros HN Hn H. assert (forall k, (k < D)%nat -> apart 400 (rvsub b64 a b k) 0) as A.
  { intros k Hk. apply big_apart. unfold rvsub, rsub. rewrite <- b64_abs. apply big_rnd; [lia|]. apply apart_big. now apply H. }
  destruct (HN (rvsub b64 a b)) as [F W]; [intros k Hk; split; [apply is64_fmt, b64_fmt|now apply A]|].
  assert (0 <= eucl D a b) as P by apply sqrt_pos. split; [now apply is64_fmt|]. split; [exact P|].
  split; [eapply within_trans; [exact W|apply vsub_norm; intros; split; now apply H]|].
  destruct (vnorm_big D _ A) as [E|B].
  - left. destruct W as [W1 W2]. rewrite E, !Rmult_0_l in *. lra.
  - right. destruct W as [W1 _]. eapply Rle_trans; [|exact W1].
    assert (/ 2 <= (1 - u64) ^ n) as Q.
    { eapply Rle_trans; [|apply bern]. assert (INR n * u64 <= / 2); [|lra]. rewrite u64_bp, INR_IZR.
      apply Rle_trans with (bp 52 * bp (-53)); [|rewrite <- bpow_plus; right; reflexivity]. apply Rmult_le_compat_r; [apply bpow_ge_0|].
      rewrite <- (IZR_Zpower radix2) by lia. apply IZR_le. exact Hn. }
    replace (bp (- (401))) with (bp (- (400)) * / 2); [apply Rmult_le_compat; [apply bpow_ge_0|lra|exact B|exact Q]|].
    change (/ 2) with (bp (-1)). rewrite <- bpow_plus. reflexivity.
Qed.
(** np.linalg.norm along an axis *)
Lemma norm_arr_64 D t : adds t D -> norm64 (height t / 2 + 2) D (norm_arr_r b64 t).
Proof.
  intros Ht v Hv. unfold norm_arr_r.
  assert (calc (1 + height t) 800 (tsum b64 t (fun k => rmul b64 (v k) (v k))) (sumn D (fun k => v k ^ 2))) as (F & P & W & B).
  { apply tsum_n; [lia|exact Ht|]. intros k Hk. destruct (Hv k Hk) as [F A]. apply is64_fmt in F. apply apart_big in A. rewrite Rminus_0_r in A. unfold rmul.
    replace (v k * v k) with (Rabs (v k) * Rabs (v k)) by (unfold Rabs; destruct (Rcase_abs (v k)); ring).
    replace (v k ^ 2) with (Rabs (v k) * Rabs (v k)) by (unfold Rabs; destruct (Rcase_abs (v k)); ring).
    apply (calc_mul 0 0 400 400 800); [lia|lia| |]; (apply calc_exact; [now apply fmt_abs|exact A]). }
  split; [apply is64_fmt, b64_fmt|]. unfold enorm. pose proof (big_ge0 _ _ B) as Hx. pose proof (big_sqrt 400 _ B) as B'.
  replace (height t / 2 + 2)%nat with (S (height t / 2 + 1)) by lia. apply within_rnd; [apply sqrt_pos|apply sqrt_pos| |apply (big_err 400); [lia|exact B']].
  apply within_sqrt; [exact P|]. apply (within_le (1 + height t)); auto. pose proof (Nat.div_mod (height t) 2 ltac:(lia)). pose proof (Nat.mod_upper_bound (height t) 2 ltac:(lia)). lia.
Qed.
Lemma norm64_le n l D nrm : (n <= l)%nat -> norm64 n D nrm -> norm64 l D nrm.
Proof. intros L H v Hv. destruct (H v Hv) as [F W]. split; [exact F|]. apply (within_le n); auto. apply sqrt_pos. Qed.
Lemma norm_sym rnd t a b : (forall x, rnd (- x) = - rnd x) -> norm_arr_r rnd t (rvsub rnd a b) = norm_arr_r rnd t (rvsub rnd b a).
Proof.
  intros Ho. unfold norm_arr_r. f_equal. f_equal. induction t as [i|t1 IH1 t2 IH2]; simpl; [|now rewrite IH1, IH2].
  unfold rmul, rvsub, rsub. f_equal. replace (b i - a i) with (- (a i - b i)) by ring. rewrite Ho. ring.
Qed.

(** ** scores from computed distances: [e i], [d i j] computed, [E i], [F i j] exact *)
Section Dist.
Variables (M k : nat) (e E : nat -> R) (d F : nat -> nat -> R).
Hypothesis HM : (0 < M)%nat.
Hypothesis HB : (Z.of_nat M <= 2 ^ 26)%Z.
Hypothesis He : forall i, (i < M)%nat -> calc k 401 (e i) (E i).
Hypothesis Hd : forall i j, (i < M)%nat -> (j < M)%nat -> calc k 401 (d i j) (F i j).
Lemma d1_arr t : adds t M -> calc (height t + k + 1) 427 (rdiv b64 (tsum b64 t e) (INR M)) (sumn M E / INR M).
Proof.
  intros Ht. replace (height t + k + 1)%nat with (S (k + height t)) by lia. apply (calc_div _ 401 26 427); auto; try lia. apply (tsum_n t M k 401); auto. lia.
Qed.
Lemma half_calc l p x X : (p <= 1000)%Z -> calc l p x X -> calc (S l) (p + 1) (rmul b64 (1 / 2) x) (/ 2 * X).
Proof. intros L H. unfold rmul. replace (1 / 2) with (/ 2) by lra. apply (calc_scal _ p 1); [right; reflexivity|lia|lia|exact H]. Qed.
Lemma d2_arr t c f : adds t (M * M) -> (0 < c)%nat -> (Z.of_nat c <= 2 ^ 52)%Z -> (forall n, (n < M * M)%nat -> calc k 401 (f n) (F (n / M)%nat (n mod M)%nat)) ->
  calc (height t + k + 2) 454 (rmul b64 (1 / 2) (rdiv b64 (tsum b64 t f) (INR c))) (/ 2 * (sumn M (fun i => sumn M (F i)) / INR c)).
Proof.
  intros Ht Hc Hb Hf. replace (height t + k + 2)%nat with (S (S (k + height t))) by lia. apply (half_calc _ 453); [lia|]. apply (calc_div _ 401 52 453); auto; try lia.
  rewrite <- sumn_grid by exact HM. apply (tsum_n t (M * M) k 401); [lia|exact Ht|exact Hf].
Qed.
Lemma d2_lag_arr t g f : adds t M -> (forall i, (i < M)%nat -> calc k 401 (f i) (F i (g i))) ->
  calc (height t + k + 2) 428 (rmul b64 (1 / 2) (rdiv b64 (tsum b64 t f) (INR M))) (/ 2 * (sumn M (fun i => F i (g i)) / INR M)).
Proof.
  intros Ht Hf. replace (height t + k + 2)%nat with (S (S (k + height t))) by lia. apply (half_calc _ 427); [lia|]. apply (calc_div _ 401 26 427); auto; try lia.
  apply (tsum_n t M k 401); [lia|exact Ht|exact Hf].
Qed.
Lemma d1_k : calc (M + k + 1) 427 (rdiv b64 (lsum b64 (map e (seq 0 M))) (INR M)) (sumn M E / INR M).
Proof.
  replace (M + k + 1)%nat with (S (k + length (map e (seq 0 M)))) by (rewrite map_length, seq_length; lia).
  apply (calc_div _ 401 26 427); auto; try lia. apply lsum_calc; [lia|]. apply F2_map. intros i Hi. apply in_seq in Hi. apply He. lia.
Qed.
Lemma coef_calc c q : (0 < c)%nat -> (Z.of_nat c <= 2 ^ q)%Z -> (0 <= q <= 100)%Z -> calc 1 (q + 1) (rdiv b64 (1 / 2) (INR c)) (/ 2 / INR c).
Proof.
  intros Hc Hq Q. replace (1 / 2) with (/ 2) by lra. apply (calc_div 0 1 q (q + 1)); auto; try lia. apply calc_exact; [|right; simpl; lra].
  replace (/ 2) with (IZR 1 / 2) by lra. apply fmt_half. lia.
Qed.
Lemma d2_k c : (0 < c)%nat -> (Z.of_nat c <= 2 ^ 52)%Z -> (forall i j, F i j = F j i) -> (forall i, F i i = 0) ->
  calc (M * (M - 1) / 2 + k + 2) 454 (rmul b64 (rdiv b64 (1 / 2) (INR c)) (lsum b64 (flat_map (fun i => map (fun j => rmul b64 2 (d i j)) (seq (i + 1) (M - (i + 1)))) (seq 0 M))))
    (/ 2 * (sumn M (fun i => sumn M (F i)) / INR c)).
Proof.
  intros Hc Hb Fs F0.
  assert (M * (M - 1) / 2 = length (flat_map (fun i => map (fun j => rmul b64 2 (d i j)) (seq (i + 1) (M - (i + 1)))) (seq 0 M)))%nat as ->.
  { symmetry. apply Nat.div_unique with (r := O); [lia|]. rewrite (tri_len M (fun i j => rmul b64 2 (d i j)) M) by lia. nia. }
  set (l := flat_map _ _). replace (length l + k + 2)%nat with (S (1 + (k + length l))) by lia.
  replace (/ 2 * (sumn M (fun i => sumn M (F i)) / INR c)) with (/ 2 / INR c * sumn M (fun i => sumn M (F i))) by (unfold Rdiv; ring).
  apply (calc_mul 1 _ 53 401 454); [lia|lia|apply (coef_calc c 52); auto; lia|].
  assert (sumn M (fun i => sumn M (F i)) = Rsum (flat_map (fun i => map (fun j => 2 * F i j) (seq (i + 1) (M - (i + 1)))) (seq 0 M))) as ->.
  { rewrite Rsum_flat_map. change (sumn M (fun i => sumn M (F i)) = sumn M (fun i => Rsum (map (fun j => 2 * F i j) (seq (i + 1) (M - (i + 1)))))).
    etransitivity; [exact (sumn_triangle M F Fs F0)|]. rewrite <- sumn_scal. apply sumn_ext; intros i Hi. now rewrite <- Rsum_map_scal. }
  apply lsum_calc; [lia|]. apply F2_flat. intros i Hi. apply in_seq in Hi. apply F2_map. intros j Hj. apply in_seq in Hj. apply calc_double, Hd; lia.
Qed.
Lemma d2_lag_k g f : (forall i, (i < M)%nat -> calc k 401 (f i) (F i (g i))) ->
  calc (M + k + 2) 428 (rmul b64 (rdiv b64 (rmul b64 (1 / 2) 1) (INR M)) (lsum b64 (map f (seq 0 M)))) (/ 2 * (sumn M (fun i => F i (g i)) / INR M)).
Proof.
  intros Hf. assert (rmul b64 (1 / 2) 1 = 1 / 2) as ->. { unfold rmul. rewrite Rmult_1_r. apply b64_id. apply (fmt_half 1). lia. }
  replace (M + k + 2)%nat with (S (1 + (k + length (map f (seq 0 M))))) by (rewrite map_length, seq_length; lia).
  replace (/ 2 * (sumn M (fun i => F i (g i)) / INR M)) with (/ 2 / INR M * sumn M (fun i => F i (g i))) by (unfold Rdiv; ring).
  apply (calc_mul 1 _ 27 401 428); [lia|lia|apply (coef_calc M 26); auto; lia|]. apply lsum_calc; [lia|]. apply F2_map. intros i Hi. apply in_seq in Hi. apply Hf. lia.
Qed.
(** the spread is at most the share 1 - 1/M of the mean error *)
Lemma share : (forall i, (i < M)%nat -> 0 <= E i) -> (forall i j, (i < M)%nat -> (j < M)%nat -> F i j <= E i + E j) -> (forall i, F i i = 0) ->
  / 2 * (sumn M (fun i => sumn M (F i)) / INR (M * M)) <= sumn M E / INR M * (1 - / INR M).
Proof.
  intros E0 Ft F0. pose proof (lt_0_INR M HM) as H0. assert (sumn M (fun i => sumn M (F i)) <= 2 * (INR M - 1) * sumn M E) as H.
  { apply Rle_trans with (sumn M (fun i => sumn M (fun j => E i + E j) - 2 * E i)).
    - apply sumn_le. intros i Hi. replace (2 * E i) with (sumn M (fun j => if Nat.eq_dec j i then 2 * E i else 0)) by now apply sumn_delta.
      rewrite <- sumn_minus. apply sumn_le. intros j Hj. destruct (Nat.eq_dec j i) as [->|Hn]; [rewrite F0; lra|rewrite Rminus_0_r; now apply Ft].
    - rewrite sumn_minus, sumn_scal. rewrite (sumn_ext M _ (fun i => INR M * E i + sumn M E)) by (intros; rewrite sumn_plus, sumn_const; ring).
      rewrite sumn_plus, sumn_scal, sumn_const. fold (sumn M E). lra. }
  rewrite mult_INR. apply (Rmult_le_reg_r (2 * INR M * INR M)); [nra|].
  replace (/ 2 * (sumn M (fun i => sumn M (F i)) / (INR M * INR M)) * (2 * INR M * INR M)) with (sumn M (fun i => sumn M (F i))) by (field; lra).
  replace (sumn M E / INR M * (1 - / INR M) * (2 * INR M * INR M)) with (2 * (INR M - 1) * sumn M E) by (field; lra).
  exact H.
Qed.
Lemma ge_calc i j p q a A b B : calc i p a A -> calc j q b B -> B <= A * (1 - / INR M) -> INR M * INR (i + j) <= 2 ^ 53 -> b <= a.
Proof.
  intros (_ & P & [W _] & _) (_ & P' & [_ W'] & _) S0 L. pose proof (lt_0_INR M HM) as H0. pose proof u64_pos as U.
  assert (INR (i + j) * u64 <= / INR M) as Bd.
  { unfold u64. apply (Rmult_le_reg_r (INR M * 2 ^ 53)); [apply Rmult_lt_0_compat; [exact H0|apply pow_lt; lra]|].
    assert (2 ^ 53 <> 0) by (apply pow_nonzero; lra). replace (INR (i + j) * / 2 ^ 53 * (INR M * 2 ^ 53)) with (INR M * INR (i + j)) by (field; auto).
    replace (/ INR M * (INR M * 2 ^ 53)) with (2 ^ 53) by (field; lra). exact L. }
  pose proof (bern (i + j)) as BE. rewrite pow_add in BE.
  pose proof (pow_lo i) as PK. pose proof (pow_lo j) as PL. pose proof (pow_hi j) as PH.
  assert ((1 - u64) ^ j * (1 + u64) ^ j <= 1) as C. { rewrite <- Rpow_mult_distr. pose proof (pow_incr ((1 - u64) * (1 + u64)) 1 j) as Q. rewrite pow1 in Q. apply Q. nra. }
  apply Rle_trans with (A * (1 - u64) ^ i); [|exact W]. eapply Rle_trans; [exact W'|].
  apply Rle_trans with (A * (1 - / INR M) * (1 + u64) ^ j); [apply Rmult_le_compat_r; lra|].
  rewrite Rmult_assoc. apply Rmult_le_compat_l; [exact P|].
  apply Rle_trans with ((1 - u64) ^ i * (1 - u64) ^ j * (1 + u64) ^ j); [apply Rmult_le_compat_r; lra|].
  rewrite Rmult_assoc. pose proof (Rmult_le_compat_l ((1 - u64) ^ i) _ _ ltac:(lra) C). lra.
Qed.
End Dist.
