(** Rounding errors of the ranked probability score and the log score. *)
From Coq Require Import Reals List ZArith Permutation Lia Lra Psatz.
From Flocq Require Import Core Sterbenz.
From Verif Require Import L_crps_row L_quant L_interval L_prob.
From Verif Require Export L_round10 S_round5 S_round.
Open Scope R_scope.

Local Notation fmt := (generic_format radix2 (FLT_exp (-1074) 53)).
Local Notation bp := (bpow radix2).
Local Instance prec53 : Prec_gt_0 53. Proof. reflexivity. Qed.

(** ** sums of integers are exact *)
Lemma list_sum_app' l l' : list_sum (l ++ l') = (list_sum l + list_sum l')%nat.
Proof. induction l; simpl; lia. Qed.
Lemma tsum_nat t (n : nat -> nat) : (Z.of_nat (list_sum (map n (leaves t))) <= 2 ^ 53)%Z -> tsum b64 t (fun i => INR (n i)) = INR (list_sum (map n (leaves t))).
Proof.
  induction t as [i|l IHl r IHr]; intros H; simpl in *; [now rewrite Nat.add_0_r|]. rewrite map_app, list_sum_app' in *.
  rewrite IHl, IHr by lia. unfold radd. rewrite <- plus_INR, INR_IZR. apply b64_id, fmt_int. lia.
Qed.
Lemma INR_list_sum l : INR (list_sum l) = Rsum (map INR l).
Proof. unfold Rsum. induction l; simpl; [reflexivity|]. rewrite plus_INR, IHl. reflexivity. Qed.
Definition oh (c k : nat) : nat := if (k + 1 =? c)%nat then 1%nat else 0%nat.
Lemma oh_INR c k : INR (oh c k) = onehot c k. Proof. unfold oh, onehot. destruct (k + 1 =? c)%nat; reflexivity. Qed.
Lemma oh_sum c n : (list_sum (map (oh c) (seq 0 n)) <= 1)%nat.
Proof.
  assert (forall s n, list_sum (map (oh c) (seq s n)) <= (if (c <=? s)%nat then 0 else 1))%nat as H.
  { intros s m. revert s. induction m as [|m IH]; intros s; simpl; [destruct (c <=? s)%nat; lia|]. specialize (IH (S s)). revert IH. unfold oh at 2.
    destruct (Nat.eqb_spec (s + 1) c), (Nat.leb_spec c (S s)), (Nat.leb_spec c s); lia. }
  specialize (H 0%nat n). destruct (c <=? 0)%nat; lia.
Qed.
Lemma cum_onehot t c k : (0 < c)%nat -> adds t (S k) -> tsum b64 t (onehot c) = ind_cat c k.
Proof.
  intros Hc Ht. pose proof (list_sum_perm _ _ (Permutation_map (oh c) Ht)) as P. pose proof (oh_sum c (S k)) as L.
  transitivity (tsum b64 t (fun i => INR (oh c i))); [apply tsum_ext; intros; symmetry; apply oh_INR|]. rewrite tsum_nat by lia. rewrite P, INR_list_sum, map_map.
  rewrite <- (onehot_le c k Hc). unfold sumn. f_equal. apply map_ext. intros. apply oh_INR.
Qed.
(** ** ranked probability score *)
Lemma ind_cat_01 c k : ind_cat c k = 0 \/ ind_cat c k = 1. Proof. unfold ind_cat. destruct (c <=? k + 1)%nat; auto. Qed.
Lemma cum_calc K p tf h k : probs64 K p -> cumorders K h tf -> (k < K)%nat -> calc h 400 (tsum b64 (tf k) p) (cum p k).
Proof.
  intros (HK & HB & H) Ht Hk. destruct (Ht k Hk) as [A L]. apply (calc_le (0 + height (tf k)) h 400 400); [lia|lia|]. apply tsum_n; [lia|exact A|].
  intros i Hi. destruct (H i ltac:(lia)) as (F & P & Ap). apply is64_fmt in F. apply calc_exact; [exact F|]. apply apart_bigp in Ap. now rewrite Rminus_0_r, Rabs_pos_eq in Ap.
Qed.
Lemma rps_eq K c p t tf ty : (0 < c)%nat -> adds t K -> (forall k, (k < K)%nat -> adds (ty k) (S k)) ->
  rps_score_r b64 t tf ty (onehot c) p = tsum b64 t (fun k => b64 (b64 (tsum b64 (tf k) p - ind_cat c k) * b64 (tsum b64 (tf k) p - ind_cat c k))).
Proof.
  intros Hc Ht Hy. unfold rps_score_r, rmul, rsub. apply tsum_ext. intros k Hk. apply (Permutation_in k Ht) in Hk. apply in_seq in Hk. rewrite (cum_onehot (ty k) c k Hc); [reflexivity|apply Hy; lia].
Qed.
Lemma sq_term f o : fmt f -> o = 0 \/ o = 1 -> big 400 f -> calc 3 800 (b64 (b64 (f - o) * b64 (f - o))) ((f - o) ^ 2).
Proof.
  intros F Ho B. assert (fmt o) as Fo by (destruct Ho as [-> | ->]; [apply fmt_0|apply fmt1]).
  assert (apart 400 f o) as A.
  { destruct Ho as [-> | ->]; [|apply (apart_le 53); [lia|now apply near_one]]. pose proof (big_ge0 _ _ B). destruct B as [->|B]; [now left|right]. rewrite Rminus_0_r, Rabs_pos_eq by auto. rewrite bp_inv. exact B. }
  pose proof (calc_sub 400 f o ltac:(lia) F Fo A) as C. replace ((f - o) ^ 2) with (Rabs (f - o) * Rabs (f - o)) by (rewrite <- Rabs_mult; rewrite Rabs_pos_eq; [ring|apply Rle_0_sqr]).
  replace (b64 (f - o) * b64 (f - o)) with (Rabs (b64 (f - o)) * Rabs (b64 (f - o))) by (rewrite <- Rabs_mult; apply Rabs_pos_eq, Rle_0_sqr).
  apply (calc_mul 1 1 400 400 800); auto; lia.
Qed.
Lemma rps_calc K c p t tf ty h : probs64 K p -> (0 < c)%nat -> adds t K -> cumorders K h tf -> (forall k, (k < K)%nat -> adds (ty k) (S k)) ->
  calc (3 + height t) 800 (rps_score_r b64 t tf ty (onehot c) p) (sumn K (fun k => (tsum b64 (tf k) p - ind_cat c k) ^ 2)).
Proof.
  intros Hp Hc Ht Hf Hy. rewrite (rps_eq K) by assumption. apply (tsum_n t K 3 800); [lia|exact Ht|]. intros k Hk.
  destruct (cum_calc K p tf h k Hp Hf Hk) as (F & _ & _ & B). apply sq_term; [exact F|apply ind_cat_01|exact B].
Qed.
Lemma within_factor k x X : 0 <= X -> within k x X -> exists th, within k th 1 /\ x = th * X.
Proof.
  intros P [H1 H2]. destruct (Req_dec X 0) as [->|N].
  - exists 1. pose proof (pow_lo k). pose proof (pow_hi k). split; [unfold within; lra|lra].
  - exists (x / X). assert (0 < X) by lra. split; [|field; lra]. unfold within. rewrite !Rmult_1_l. split; apply (Rmult_le_reg_r X); auto; unfold Rdiv; rewrite Rmult_assoc, Rinv_l by lra; lra.
Qed.
Lemma sumn_absle n (f g : nat -> R) : (forall k, (k < n)%nat -> Rabs (f k) <= g k) -> Rabs (sumn n f) <= sumn n g.
Proof.
  induction n as [|n IH]; intros H; [rewrite !sumn_0, Rabs_R0; lra|]. rewrite !sumn_S. eapply Rle_trans; [apply Rabs_triang|]. apply Rplus_le_compat; [apply IH; intros; apply H; lia|apply H; lia].
Qed.
Lemma within_1 k x : within k x 1 -> Rabs (x - 1) <= (1 + u64) ^ k - 1.
Proof. intros H. pose proof (within_abs k x 1 ltac:(lra) H). lra. Qed.
Lemma sq_pert T k n f F o : 0 <= F -> 0 <= o -> within n T 1 -> within k f F -> Rabs (T * (f - o) ^ 2 - (F - o) ^ 2) <= ((1 + u64) ^ (2 * k + n) - 1) * (F + o) ^ 2.
Proof.
  intros HF Ho HT Hf. apply within_factor in Hf; [|exact HF]. destruct Hf as (th & W & ->).
  assert (within (2 * k + n) (th * th * T) 1) as W1.
  { replace 1 with (1 * 1 * 1) by ring. replace (2 * k + n)%nat with (k + k + n)%nat by lia. repeat apply within_mul; auto; lra. }
  assert (within (2 * k + n) (th * T) 1) as W2.
  { apply (within_le (k + n)); [lia|lra|]. replace 1 with (1 * 1) by ring. apply within_mul; auto; lra. }
  assert (within (2 * k + n) T 1) as W3 by (apply (within_le n); [lia|lra|exact HT]).
  apply within_1 in W1, W2, W3. set (B := (1 + u64) ^ (2 * k + n) - 1) in *.
  replace (T * (th * F - o) ^ 2 - (F - o) ^ 2) with ((th * th * T - 1) * (F * F) + (th * T - 1) * (- (2 * F * o)) + (T - 1) * (o * o)) by ring.
  replace (B * (F + o) ^ 2) with (B * (F * F) + B * (2 * F * o) + B * (o * o)) by ring.
  assert (0 <= F * F) by (apply Rle_0_sqr). assert (0 <= o * o) by (apply Rle_0_sqr). assert (0 <= 2 * F * o) by nra.
  eapply Rle_trans; [apply Rabs_triang|]. apply Rplus_le_compat; [eapply Rle_trans; [apply Rabs_triang|]; apply Rplus_le_compat|].
  - rewrite Rabs_mult, (Rabs_pos_eq (F * F)) by auto. now apply Rmult_le_compat_r.
  - rewrite Rabs_mult, Rabs_Ropp, (Rabs_pos_eq (2 * F * o)) by auto. now apply Rmult_le_compat_r.
  - rewrite Rabs_mult, (Rabs_pos_eq (o * o)) by auto. now apply Rmult_le_compat_r.
Qed.
Lemma rps_err K c p t tf ty h : probs64 K p -> (0 < c)%nat -> adds t K -> cumorders K h tf -> (forall k, (k < K)%nat -> adds (ty k) (S k)) ->
  Rabs (rps_score_r b64 t tf ty (onehot c) p - rps K p c) <= ((1 + u64) ^ (2 * h + height t + 3) - 1) * sumn K (fun k => (cum p k + ind_cat c k) ^ 2).
Proof.
  intros Hp Hc Ht Hf Hy. destruct (rps_calc K c p t tf ty h Hp Hc Ht Hf Hy) as (_ & P0 & W & _). apply within_factor in W; [|exact P0]. destruct W as (T & WT & ->).
  unfold rps. rewrite <- !sumn_scal. rewrite <- sumn_minus. apply sumn_absle. intros k Hk.
  destruct (cum_calc K p tf h k Hp Hf Hk) as (_ & P & W & _). replace (2 * h + height t + 3)%nat with (2 * h + (3 + height t))%nat by lia.
  apply sq_pert; auto. destruct (ind_cat_01 c k) as [-> | ->]; lra.
Qed.
(** ** log score *)
Lemma sterbenz_one f : 0 <= f <= 1 -> b64 (b64 (f + 1) - 1) = b64 (f + 1) - 1.
Proof.
  intros H. apply b64_id. apply (@sterbenz radix2 (FLT_exp (-1074) 53)); [typeclasses eauto|typeclasses eauto|apply b64_fmt|apply fmt1|].
  assert (1 <= b64 (f + 1)) by (apply b64_ge_fmt; [apply fmt1|lra]). assert (b64 (f + 1) <= 2) by (apply b64_le_fmt; [apply (fmt_int 2); lia|lra]). lra.
Qed.
Lemma plus_one_err f : 0 <= f <= 1 -> Rabs (b64 (f + 1) - (f + 1)) <= u64.
Proof.
  intros H. set (x := f + 1). set (n := ZnearestE (x * bp 52)). assert (bp 52 * bp (-52) = 1) as E by (rewrite <- bpow_plus; reflexivity).
  assert (Rabs (IZR n * bp (-52) - x) <= u64) as Hz.
  { replace (IZR n * bp (-52) - x) with (- ((x * bp 52 - IZR n) * bp (-52))) by (rewrite Rmult_minus_distr_r, Rmult_assoc, E; ring).
    rewrite Rabs_Ropp, Rabs_mult, (Rabs_pos_eq (bp (-52))) by apply bpow_ge_0. rewrite u64_bp. change (-53)%Z with (-1 + -52)%Z. rewrite bpow_plus.
    apply Rmult_le_compat_r; [apply bpow_ge_0|]. change (bp (-1)) with (/ 2). apply Znearest_half. }
  eapply Rle_trans; [|exact Hz]. apply b64_nearest.
  assert (0 <= n <= 2 ^ 53)%Z as Hn.
  { assert (0 < bp 52) by apply bpow_gt_0. split.
    - rewrite <- (@Zrnd_IZR ZnearestE _ 0). apply (@Zrnd_le ZnearestE _). unfold x. nra.
    - rewrite <- (@Zrnd_IZR ZnearestE _ (2 ^ 53)). apply (@Zrnd_le ZnearestE _). change (2 ^ 53)%Z with (Zpower radix2 (1 + 52)). rewrite IZR_Zpower, bpow_plus by lia. change (bp 1) with 2. unfold x. nra. }
  destruct (Z.eq_dec n (2 ^ 53)) as [->|N].
  - change (2 ^ 53)%Z with (Zpower radix2 53). rewrite IZR_Zpower, <- bpow_plus by lia. apply fmt_bp. lia.
  - apply is64_fmt. exists n, (-52)%Z. rewrite <- bp_pow. split; [reflexivity|]. lia.
Qed.
Lemma ln_near x d : Rabs (x - 1) <= d -> d <= / 2 -> Rabs (ln x) <= 2 * d.
Proof.
  intros H Hd. apply Rabs_le_between in H. assert (0 < x) as P by lra. apply Rabs_le. split; [|pose proof (L_prob.ln_le x P); lra].
  pose proof (L_prob.ln_le (/ x) (Rinv_0_lt_compat x P)) as L. rewrite ln_Rinv in L by exact P.
  assert (/ x - 1 <= 2 * d); [|lra]. apply (Rmult_le_reg_r x); [exact P|]. rewrite Rmult_minus_distr_r, Rinv_l by lra. nra.
Qed.
Lemma log_arg_1 f : 0 <= f <= 1 -> Rabs (rsub b64 (radd b64 f 1) 1) = b64 (f + 1) - 1.
Proof. intros H. unfold rsub, radd. rewrite sterbenz_one by exact H. apply Rabs_pos_eq. pose proof (b64_ge_fmt (f + 1) 1 fmt1 ltac:(lra)). lra. Qed.
Lemma log_arg_0 f : fmt f -> 0 <= f <= 1 -> Rabs (rsub b64 (radd b64 f 0) 1) = b64 (1 - f).
Proof.
  intros F H. unfold rsub, radd. rewrite Rplus_0_r, (b64_id f F). rewrite <- b64_abs. f_equal. rewrite Rabs_left1 by lra. ring.
Qed.
Lemma log_arg_tiny f : 0 <= f < / 2 ^ 54 -> b64 (f + 1) = 1.
Proof.
  intros H. assert (/ 2 ^ 54 = u64 / 2) as E by (unfold u64; rewrite <- tech_pow_Rmult; field; apply pow_nonzero; lra).
  pose proof u64_pos. pose proof (b64_nearest (f + 1) 1 fmt1) as N. replace (1 - (f + 1)) with (- f) in N by ring. rewrite Rabs_Ropp, (Rabs_pos_eq f) in N by lra.
  destruct (near_one (b64 (f + 1)) (b64_fmt _)) as [A|A]; [exact A|]. exfalso. fold u64 in A.
  replace (b64 (f + 1) - 1) with (b64 (f + 1) - (f + 1) + f) in A by ring. pose proof (Rabs_triang (b64 (f + 1) - (f + 1)) f) as T. rewrite (Rabs_pos_eq f) in T by lra. lra.
Qed.
Lemma log_score_pos o f a : Rabs (rsub b64 (radd b64 f o) 1) = a -> 0 < a -> log_score_r b64 o f = Fin (- ln a).
Proof. intros E P. unfold log_score_r. rewrite E. unfold nlog. destruct (Rlt_dec 0 a); [reflexivity|lra]. Qed.
Lemma log_score_zero o f : Rabs (rsub b64 (radd b64 f o) 1) = 0 -> log_score_r b64 o f = PInf.
Proof. intros E. unfold log_score_r. rewrite E. unfold nlog. destruct (Rlt_dec 0 0); [lra|]. reflexivity. Qed.
Lemma log_1 f : / 2 ^ 51 <= f <= 1 -> exists s, log_score_r b64 1 f = Fin s /\ Rabs (s - - ln f) <= 2 * u64 / f.
Proof.
  intros H. assert (0 < / 2 ^ 51) by (apply Rinv_0_lt_compat, pow_lt; lra). assert (u64 = / 2 ^ 51 / 4) as E.
  { unfold u64. replace (2 ^ 53) with (2 ^ 51 * 4) by (simpl; lra). field; try (apply pow_nonzero; lra). }
  set (a := b64 (f + 1) - 1). pose proof (plus_one_err f ltac:(lra)) as N. replace (b64 (f + 1) - (f + 1)) with (a - f) in N by (unfold a; ring).
  assert (Rabs (a / f - 1) <= u64 / f) as Q.
  { replace (a / f - 1) with ((a - f) * / f) by (field; lra). rewrite Rabs_mult, (Rabs_pos_eq (/ f)) by (left; apply Rinv_0_lt_compat; lra). apply Rmult_le_compat_r; [left; apply Rinv_0_lt_compat; lra|exact N]. }
  assert (u64 / f <= / 4) as D. { apply (Rmult_le_reg_r f); [lra|]. unfold Rdiv. rewrite Rmult_assoc, Rinv_l by lra. lra. }
  assert (0 < a). { apply Rabs_le_between in N. lra. }
  exists (- ln a). split; [apply log_score_pos; [apply log_arg_1; lra|assumption]|]. replace (- ln a - - ln f) with (- ln (a / f)) by (rewrite ln_div by lra; ring).
  rewrite Rabs_Ropp. eapply Rle_trans; [apply (ln_near (a / f) (u64 / f)); lra|]. right. field. lra.
Qed.
Lemma log_0 f : fmt f -> 0 <= f < 1 -> exists s, log_score_r b64 0 f = Fin s /\ Rabs (s - - ln (1 - f)) <= 2 * u64.
Proof.
  intros F H. pose proof (calc_sub 53 1 f ltac:(lia) fmt1 F (apart_sym _ _ _ (near_one f F))) as (_ & _ & W & _).
  rewrite (Rabs_pos_eq (1 - f)) in W by lra. rewrite Rabs_pos_eq in W by (apply b64_ge0; lra). set (a := b64 (1 - f)) in *. pose proof u64_pos as U.
  assert (0 < a) as P. { destruct W as [W _]. simpl in W. nra. }
  exists (- ln a). split; [apply log_score_pos; [apply log_arg_0; [exact F|lra]|exact P]|].
  replace (- ln a - - ln (1 - f)) with (- ln (a / (1 - f))) by (rewrite ln_div by lra; ring). rewrite Rabs_Ropp. apply ln_near; [|lra].
  apply within_abs in W; [|lra]. replace (a / (1 - f) - 1) with ((a - (1 - f)) * / (1 - f)) by (field; lra).
  rewrite Rabs_mult, (Rabs_pos_eq (/ (1 - f))) by (left; apply Rinv_0_lt_compat; lra). apply (Rmult_le_reg_r (1 - f)); [lra|]. rewrite Rmult_assoc, Rinv_l by lra. simpl in W. lra.
Qed.
