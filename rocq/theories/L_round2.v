(** Rounding errors of the ensemble CRPS. *)
From Coq Require Import Reals List ZArith Permutation Lia Lra Psatz.
From Flocq Require Import Core.
From Verif Require Import L_crps_row L_crps_omit.
From Verif Require Export L_round.
Open Scope R_scope.

Local Notation fmt := (generic_format radix2 (FLT_exp (-1074) 53)).
Local Notation bp := (bpow radix2).

Lemma sumn_grid n M (f : nat -> nat -> R) : (0 < M)%nat ->
  sumn (n * M) (fun k => f (k / M)%nat (k mod M)%nat) = sumn n (fun i => sumn M (f i)).
Proof.
  intros HM. induction n as [|n IH]; [reflexivity|]. replace (S n * M)%nat with (n * M + M)%nat by lia.
  rewrite sumn_plus_idx, IH, sumn_S. f_equal. apply sumn_ext. intros k Hk.
  rewrite (Nat.add_comm (n * M) k). rewrite Nat.div_add, Nat.mod_add by lia. rewrite Nat.div_small, Nat.mod_small by lia. reflexivity.
Qed.
Lemma two53 n : (n <= 2 ^ 26)%nat -> (Z.of_nat n <= 2 ^ 26)%Z.
Proof. intros H. apply Nat2Z.inj_le in H. rewrite Nat2Z.inj_pow in H. exact H. Qed.
Lemma two53' n : (n <= 2 ^ 52)%nat -> (Z.of_nat n <= 2 ^ 52)%Z.
Proof. intros H. apply Nat2Z.inj_le in H. rewrite Nat2Z.inj_pow in H. exact H. Qed.
Lemma sq52 M : (Z.of_nat M <= 2 ^ 26)%Z -> (Z.of_nat (M * M) <= 2 ^ 52)%Z /\ (Z.of_nat (M * (M - 1)) <= 2 ^ 52)%Z.
Proof. intros H. rewrite !Nat2Z.inj_mul. change (2 ^ 52)%Z with (2 ^ 26 * 2 ^ 26)%Z. split; apply Z.mul_le_mono_nonneg; lia. Qed.
Lemma INR_IZR n : INR n = IZR (Z.of_nat n). Proof. apply INR_IZR_INZ. Qed.

(** members and observation are numbers of the format, far from underflow *)
Definition good (M : nat) (y : R) (x : nat -> R) : Prop :=
  fmt y /\ (forall i, (i < M)%nat -> fmt (x i) /\ apart 900 (x i) y) /\ (0 < M)%nat /\ (Z.of_nat M <= 2 ^ 26)%Z.
Definition goodp (M : nat) (x : nat -> R) : Prop := forall i j, (i < M)%nat -> (j < M)%nat -> apart 900 (x i) (x j).
Lemma apart_sym e a b : apart e a b -> apart e b a.
Proof. intros [->|H]; [now left|right; now rewrite Rabs_minus_sym]. Qed.

Section Ens.
Variables (M : nat) (y : R) (x : nat -> R).
Hypothesis G : good M y x.
Lemma INRM : 0 < INR M. Proof. destruct G as (_ & _ & H & _). now apply lt_0_INR. Qed.
Lemma e1_arr t : adds t M -> calc (height t + 2) 926 (rdiv b64 (tsum b64 t (fun i => Rabs (rsub b64 y (x i)))) (INR M)) (mae M y x).
Proof.
  intros Ht. destruct G as (Fy & Fx & HM & HB). unfold rdiv, mae. replace (height t + 2)%nat with (S (1 + height t)) by lia.
  apply (calc_div _ 900 26 926); auto; try lia. apply (tsum_n t M 1 900); [lia|exact Ht|]. intros i Hi. rewrite Rabs_minus_sym.
  apply (calc_sub 900); [lia|exact Fy|apply Fx, Hi|apply apart_sym, Fx, Hi].
Qed.
Lemma e2_arr t c : adds t (M * M) -> goodp M x -> (0 < c)%nat -> (Z.of_nat c <= 2 ^ 52)%Z ->
  calc (height t + 3) 953 (rmul b64 (1 / 2) (rdiv b64 (tsum b64 t (fun k => Rabs (rsub b64 (x (k / M)%nat) (x (k mod M)%nat)))) (INR c))) (/ 2 * (pairsum M x / INR c)).
Proof.
  intros Ht Hp Hc Hb. destruct G as (Fy & Fx & HM & HB). replace (height t + 3)%nat with (S (S (1 + height t))) by lia.
  replace (1 / 2) with (/ 2) by lra. apply (calc_scal _ 952 1 953); [right; reflexivity|lia|lia|].
  apply (calc_div _ 900 52 952); auto; try lia. unfold pairsum. rewrite <- sumn_grid by exact HM.
  apply (tsum_n t (M * M) 1 900); [lia|exact Ht|]. intros k Hk.
  assert (k / M < M)%nat as K1 by (apply Nat.div_lt_upper_bound; lia). assert (k mod M < M)%nat as K2 by (apply Nat.mod_upper_bound; lia).
  apply (calc_sub 900); [lia|now apply Fx|now apply Fx|now apply Hp].
Qed.
Lemma F2_map {A} (P : R -> R -> Prop) (f g : A -> R) l : (forall a, In a l -> P (f a) (g a)) -> Forall2 P (map f l) (map g l).
Proof. induction l; simpl; constructor; auto. Qed.
Lemma F2_flat {A} (P : R -> R -> Prop) (f g : A -> list R) l : (forall a, In a l -> Forall2 P (f a) (g a)) -> Forall2 P (flat_map f l) (flat_map g l).
Proof. induction l; simpl; intros H; [constructor|]. apply Forall2_app; auto. Qed.
Lemma e1_k : calc (M + 2) 926 (rdiv b64 (lsum b64 (map (fun i => Rabs (rsub b64 (x i) y)) (seq 0 M))) (INR M)) (mae M y x).
Proof.
  destruct G as (Fy & Fx & HM & HB). unfold rdiv, mae. replace (M + 2)%nat with (S (1 + length (map (fun i => Rabs (rsub b64 (x i) y)) (seq 0 M)))) by (rewrite map_length, seq_length; lia).
  apply (calc_div _ 900 26 926); auto; try lia. apply lsum_calc; [lia|]. apply F2_map. intros i Hi. apply in_seq in Hi.
  apply (calc_sub 900); [lia|apply Fx; lia|exact Fy|apply Fx; lia].
Qed.
Lemma tri_len (f : nat -> nat -> R) n : (n <= M)%nat ->
  (2 * length (flat_map (fun i => map (f i) (seq (i + 1) (M - (i + 1)))) (seq 0 n)) = n * (2 * M - n - 1))%nat.
Proof.
  induction n as [|n IH]; intros L; [reflexivity|]. rewrite seq_S, flat_map_app, app_length. cbn [flat_map Nat.add].
  rewrite app_nil_r, map_length, seq_length, Nat.mul_add_distr_l, IH by lia. nia.
Qed.
Lemma e2_k c : goodp M x -> (0 < c)%nat -> (Z.of_nat c <= 2 ^ 52)%Z ->
  calc (M * (M - 1) / 2 + 4) 953 (rdiv b64 (rmul b64 (1 / 2) (lsum b64 (flat_map (fun i => map (fun j => rmul b64 2 (Rabs (rsub b64 (x j) (x i)))) (seq (i + 1) (M - (i + 1)))) (seq 0 M)))) (INR c)) (/ 2 * (pairsum M x / INR c)).
Proof.
  intros Hp Hc Hb. destruct G as (Fy & Fx & HM & HB).
  assert (M * (M - 1) / 2 = length (flat_map (fun i => map (fun j => rmul b64 2 (Rabs (rsub b64 (x j) (x i)))) (seq (i + 1) (M - (i + 1)))) (seq 0 M)))%nat as ->.
  { symmetry. apply Nat.div_unique with (r := O); [lia|]. rewrite (tri_len (fun i j => rmul b64 2 (Rabs (rsub b64 (x j) (x i)))) M) by lia. nia. }
  set (l := flat_map _ _). replace (length l + 4)%nat with (S (S (2 + length l))) by lia.
  replace (/ 2 * (pairsum M x / INR c)) with (/ 2 * pairsum M x / INR c) by (unfold Rdiv; ring).
  replace (1 / 2) with (/ 2) by lra.
  apply (calc_div _ 901 52 953); auto; try lia. apply (calc_scal _ 900 1 901); [right; reflexivity|lia|lia|].
  rewrite (tri M x). unfold sumn. rewrite <- Rsum_flat_map. apply lsum_calc; [lia|]. apply F2_flat. intros i Hi. apply in_seq in Hi.
  apply F2_map. intros j Hj. apply in_seq in Hj. apply (calc_scal 1 900 (-1) 900); [right; reflexivity|lia|lia|].
  apply (calc_sub 900); [lia|apply Fx; lia|apply Fx; lia|apply Hp; lia].
Qed.
Lemma energy_arr_err t1 t2 c : adds t1 M -> adds t2 (M * M) -> goodp M x -> (0 < c)%nat -> (Z.of_nat c <= 2 ^ 52)%Z ->
  Rabs (crps_energy_arr_r b64 t1 t2 M c y x - (mae M y x - / 2 * (pairsum M x / INR c)))
  <= ((1 + u64) ^ (height t1 + 3) - 1) * mae M y x + ((1 + u64) ^ (height t2 + 4) - 1) * (/ 2 * (pairsum M x / INR c)).
Proof.
  intros H1 H2 Hp Hc Hb. pose proof (diff_err _ _ _ _ _ _ _ _ (e1_arr t1 H1) (e2_arr t2 c H2 Hp Hc Hb)) as H.
  rewrite <- !Nat.add_succ_r in H. exact H.
Qed.
Lemma energy_k_err c : goodp M x -> (0 < c)%nat -> (Z.of_nat c <= 2 ^ 52)%Z ->
  Rabs (crps_energy_k_r b64 M c y x - (mae M y x - / 2 * (pairsum M x / INR c)))
  <= ((1 + u64) ^ (M + 3) - 1) * mae M y x + ((1 + u64) ^ (M * (M - 1) / 2 + 5) - 1) * (/ 2 * (pairsum M x / INR c)).
Proof.
  intros Hp Hc Hb. pose proof (diff_err _ _ _ _ _ _ _ _ e1_k (e2_k c Hp Hc Hb)) as H.
  rewrite <- !Nat.add_succ_r in H. exact H.
Qed.
(** the spread is at most the share 1 - 1/M of the mean absolute error *)
Lemma spread_share : / 2 * (pairsum M x / INR (M * M)) <= mae M y x * (1 - / INR M).
Proof.
  pose proof INRM as H0. assert (pairsum M x <= 2 * (INR M - 1) * sumn M (fun i => Rabs (x i - y))) as H.
  { unfold pairsum. set (a i := Rabs (x i - y)).
    apply Rle_trans with (sumn M (fun i => sumn M (fun j => a i + a j) - 2 * a i)).
    - apply sumn_le. intros i Hi. replace (2 * a i) with (sumn M (fun j => if Nat.eq_dec j i then 2 * a i else 0)) by now apply sumn_delta.
      rewrite <- sumn_minus. apply sumn_le. intros j Hj. destruct (Nat.eq_dec j i) as [->|Hn].
      + rewrite Rminus_eq_0, Rabs_R0. lra.
      + unfold a. rewrite Rminus_0_r. replace (x i - x j) with ((x i - y) + (y - x j)) by ring. eapply Rle_trans; [apply Rabs_triang|]. rewrite (Rabs_minus_sym y). lra.
    - rewrite sumn_minus, sumn_scal. rewrite (sumn_ext M _ (fun i => INR M * a i + sumn M a)) by (intros; rewrite sumn_plus, sumn_const; ring).
      rewrite sumn_plus, sumn_scal, sumn_const. fold a. lra. }
  unfold mae. rewrite mult_INR. apply (Rmult_le_reg_r (2 * INR M * INR M)); [nra|].
  replace (/ 2 * (pairsum M x / (INR M * INR M)) * (2 * INR M * INR M)) with (pairsum M x) by (field; lra).
  replace (sumn M (fun i => Rabs (x i - y)) / INR M * (1 - / INR M) * (2 * INR M * INR M)) with (2 * (INR M - 1) * sumn M (fun i => Rabs (x i - y))) by (field; lra).
  exact H.
Qed.
Lemma ge_from_calc k l p q a b : calc k p a (mae M y x) -> calc l q b (/ 2 * (pairsum M x / INR (M * M))) -> (INR M * INR (k + l) <= 2 ^ 53) -> b <= a.
Proof.
  intros (_ & P & [W _] & _) (_ & P' & [_ W'] & _) L. pose proof INRM as H0. pose proof u64_pos as U. pose proof spread_share as S0.
  assert (INR (k + l) * u64 <= / INR M) as B.
  { unfold u64. apply (Rmult_le_reg_r (INR M * 2 ^ 53)); [apply Rmult_lt_0_compat; [exact H0|apply pow_lt; lra]|].
    assert (2 ^ 53 <> 0) by (apply pow_nonzero; lra). replace (INR (k + l) * / 2 ^ 53 * (INR M * 2 ^ 53)) with (INR M * INR (k + l)) by (field; auto).
    replace (/ INR M * (INR M * 2 ^ 53)) with (2 ^ 53) by (field; lra). exact L. }
  pose proof (bern (k + l)) as BE. rewrite pow_add in BE.
  pose proof (pow_lo k) as PK. pose proof (pow_lo l) as PL. pose proof (pow_hi l) as PH.
  assert ((1 - u64) ^ l * (1 + u64) ^ l <= 1) as C. { rewrite <- Rpow_mult_distr. pose proof (pow_incr ((1 - u64) * (1 + u64)) 1 l) as Q. rewrite pow1 in Q. apply Q. nra. }
  apply Rle_trans with (mae M y x * (1 - u64) ^ k); [|exact W]. eapply Rle_trans; [exact W'|].
  apply Rle_trans with (mae M y x * (1 - / INR M) * (1 + u64) ^ l); [apply Rmult_le_compat_r; lra|].
  rewrite Rmult_assoc. apply Rmult_le_compat_l; [exact P|].
  apply Rle_trans with ((1 - u64) ^ k * (1 - u64) ^ l * (1 + u64) ^ l); [apply Rmult_le_compat_r; lra|].
  rewrite Rmult_assoc. pose proof (Rmult_le_compat_l ((1 - u64) ^ k) _ _ ltac:(lra) C). lra.
Qed.
End Ens.

(** ** quantile decomposition *)
Definition qcoef (M i : nat) (y a : R) : R := if Rle_dec a y then INR (i + 1) - / 2 else INR M - (INR (i + 1) - / 2).
Lemma qd_value M y x : (0 < M)%nat -> ascending M x ->
  2 * (sumn M (fun i => qcoef M i y (x i) * Rabs (x i - y)) / INR (M * M)) = exact_crps M y x.
Proof.
  intros HM Ha. pose proof (lt_0_INR M HM) as H0. rewrite exact_uniform by exact HM. unfold wexact_crps.
  rewrite <- (qd_kernel M _ x y Ha (uniform_sum M HM)). f_equal. rewrite <- sumn_div. apply sumn_ext. intros k Hk.
  unfold qcoef. rewrite sumn_const, mult_INR, S_INR, plus_INR. simpl INR. destruct (Rle_dec (x k) y).
  - rewrite ind_lt_0 by lra. rewrite Rabs_left1 by lra. field. lra.
  - rewrite ind_lt_1 by lra. rewrite Rabs_right by lra. field. lra.
Qed.
Lemma qcoef_fmt M i y a : (i < M)%nat -> (Z.of_nat M <= 2 ^ 26)%Z -> fmt (qcoef M i y a) /\ big 1 (qcoef M i y a).
Proof.
  intros Hi HB. change (2 ^ 26)%Z with 67108864%Z in HB.
  assert (INR (i + 1) - / 2 = IZR (2 * Z.of_nat i + 1) / 2) as E1 by (rewrite plus_INR, INR_IZR, plus_IZR, mult_IZR; simpl INR; lra).
  assert (INR M - (INR (i + 1) - / 2) = IZR (2 * Z.of_nat M - (2 * Z.of_nat i + 1)) / 2) as E2 by (rewrite E1, (INR_IZR M), minus_IZR, !plus_IZR, !mult_IZR; lra).
  assert (forall z, (1 <= z)%Z -> big 1 (IZR z / 2)) as B by (intros z Hz; right; change (/ 2 <= IZR z / 2); apply IZR_le in Hz; lra).
  unfold qcoef. destruct (Rle_dec a y); [rewrite E1|rewrite E2]; (split; [apply fmt_half; lia|apply B; lia]).
Qed.
Lemma qterm M i y a z : (i < M)%nat -> (Z.of_nat M <= 2 ^ 26)%Z -> fmt y -> fmt a -> apart 900 a y -> Rabs z = Rabs (b64 (a - y)) ->
  calc 2 901 (b64 (qcoef M i y a * Rabs z)) (qcoef M i y a * Rabs (a - y)).
Proof.
  intros Hi HB Fy Fa Ha ->. destruct (qcoef_fmt M i y a Hi HB) as [F B]. apply (calc_mul 0 1 1 900 901); [lia|lia|now apply calc_exact|]. apply (calc_sub 900); auto. lia.
Qed.
Lemma qd_arr_calc t M y x : good M y x -> adds t M -> ascending M x -> calc (height t + 3) 953 (crps_qd_arr_r b64 t M y x) (exact_crps M y x).
Proof.
  intros (Fy & Fx & HM & HB) Ht Ha. rewrite <- (qd_value M y x HM Ha). unfold crps_qd_arr_r, rmul at 1.
  assert (calc (height t + 3) 953 (b64 (tsum b64 t (fun i => radd b64 (rmul b64 (rmul b64 (rbool (rle (x i) y)) (rsub b64 (INR (i + 1)) (1 / 2))) (rsub b64 y (x i)))
      (rmul b64 (rmul b64 (rbool (rlt y (x i))) (rsub b64 (INR M) (rsub b64 (INR (i + 1)) (1 / 2)))) (rsub b64 (x i) y))) / INR (M * M)))
    (sumn M (fun i => qcoef M i y (x i) * Rabs (x i - y)) / INR (M * M))) as C.
  { replace (height t + 3)%nat with (S (2 + height t)) by lia. apply (calc_div _ 901 52 953); try lia; [apply sq52, HB|].
    apply (tsum_n t M 2 901); [lia|exact Ht|]. intros i Hi. destruct (Fx i Hi) as [Fi Ai]. destruct (qcoef_fmt M i y (x i) Hi HB) as [Fq Bq]. pose proof (big_ge0 _ _ Bq) as Q0.
    pose proof (fun z E => qterm M i y (x i) z Hi HB Fy Fi Ai E) as T. unfold qcoef in *. unfold radd, rmul, rsub, rle, rlt, rbool.
    assert (fmt (INR (i + 1) - 1 / 2)) as Fa. { destruct (qcoef_fmt M i (x i) (x i) Hi HB) as [F' _]. unfold qcoef in F'. destruct (Rle_dec (x i) (x i)); [|lra]. replace (1 / 2) with (/ 2) by lra. exact F'. }
    rewrite !(b64_id _ Fa). destruct (Rle_dec (x i) y) as [L|L].
    - destruct (Rlt_dec y (x i)); [lra|]. rewrite !Rmult_0_l, b64_0, !Rmult_0_l, b64_0, Rmult_1_l, (b64_id _ Fa), Rplus_0_r.
      replace (1 / 2) with (/ 2) in * by lra. rewrite <- (Rabs_pos_eq (b64 (y - x i))) by (apply b64_ge0; lra).
      pose proof (T (b64 (y - x i))) as T'. rewrite (b64_id _ (b64_fmt _)). apply T'. rewrite <- !b64_abs. f_equal. apply Rabs_minus_sym.
    - destruct (Rlt_dec y (x i)); [|lra]. rewrite !Rmult_0_l, b64_0, !Rmult_0_l, b64_0, Rmult_1_l, Rplus_0_l.
      replace (1 / 2) with (/ 2) in * by lra. rewrite !(b64_id _ Fq). rewrite <- (Rabs_pos_eq (b64 (x i - y))) by (apply b64_ge0; lra).
      rewrite (b64_id _ (b64_fmt _)). now apply T. }
  destruct C as (F & P & W & B). split; [apply b64_fmt|]. split; [lra|].
  unfold rdiv in *. rewrite (b64_id (2 * _)) by (apply fmt_double; exact F). split; [apply within_scal; [lra|exact W]|].
  destruct B as [B|B]; [left; rewrite B; ring|right]. pose proof (bpow_ge_0 radix2 (- (953))). lra.
Qed.
Lemma qd_k_calc M y x : good M y x -> ascending M x -> calc (M + 4) 953 (crps_qd_k_r b64 M y x) (exact_crps M y x).
Proof.
  intros (Fy & Fx & HM & HB) Ha. rewrite <- (qd_value M y x HM Ha). unfold crps_qd_k_r.
  set (step := fun '(obs_cdf, integral) i => _).
  assert (forall n, (n <= M)%nat -> exists ob I, fold_left step (seq 0 n) (0, 0) = (ob, I) /\ calc (2 + n) 901 I (sumn n (fun i => qcoef M i y (x i) * Rabs (x i - y))) /\
    ob = (if Nat.eq_dec n 0 then 0 else ind_lt y (x (n - 1)%nat))) as L.
  { induction n as [|n IH]; intros Hn.
    - exists 0, 0. split; [reflexivity|]. split; [|reflexivity]. rewrite sumn_0. apply (calc_le 0 _ 901 901); [lia|lia|]. apply calc_exact; [apply fmt_0|now left].
    - destruct IH as (ob & I & E & C & Eo); [lia|]. rewrite seq_S, fold_left_app, E. cbn [fold_left Nat.add]. unfold step at 1. unfold rlt.
      assert ((if (if Rlt_dec y (x n) then true else false) then 1 else ob) = ind_lt y (x n)) as E1.
      { unfold ind_lt. destruct (Rlt_dec y (x n)) as [l|l]; [reflexivity|]. rewrite Eo. destruct (Nat.eq_dec n 0) as [|Hn0]; [reflexivity|].
        apply ind_lt_0. pose proof (Ha (n - 1)%nat n ltac:(lia)). lra. }
      rewrite E1. eexists _, _. split; [reflexivity|]. split; [|simpl; now rewrite Nat.sub_0_r].
      rewrite sumn_S. replace (2 + S n)%nat with (S (2 + n)) by lia. apply calc_add; [lia|exact C|]. apply (calc_le 2 _ 901 901); [lia|lia|].
      destruct (Fx n ltac:(lia)) as [Fn An]. destruct (qcoef_fmt M n y (x n) ltac:(lia) HB) as [Fq Bq]. pose proof (big_ge0 _ _ Bq) as Q0.
      pose proof (fun z E => qterm M n y (x n) z ltac:(lia) HB Fy Fn An E) as T. unfold qcoef in *. unfold radd, rmul, rsub. change (2 ^ 26)%Z with 67108864%Z in HB.
      assert (fmt (INR M)) as FM by (rewrite INR_IZR; apply fmt_int; lia).
      unfold ind_lt. destruct (Rle_dec (x n) y) as [l|l].
      + destruct (Rlt_dec y (x n)); [lra|]. rewrite Rmult_0_r, b64_0. rewrite (b64_id (0 - INR (n + 1))) by (rewrite Rminus_0_l; apply fmt_opp; rewrite INR_IZR; apply fmt_int; lia).
        replace (0 - INR (n + 1) + 1 / 2) with (- (INR (n + 1) - / 2)) by lra. rewrite b64_opp, (b64_id _ Fq).
        replace (b64 (x n - y) * - (INR (n + 1) - / 2)) with ((INR (n + 1) - / 2) * Rabs (b64 (x n - y))); [now apply T|].
        rewrite (Rabs_left1 (b64 (x n - y))); [ring|]. rewrite <- b64_0. apply b64_le. lra.
      + destruct (Rlt_dec y (x n)); [|lra]. rewrite Rmult_1_r, (b64_id _ FM). rewrite (b64_id (INR M - INR (n + 1))) by (rewrite !INR_IZR, <- minus_IZR; apply fmt_int; lia).
        replace (INR M - INR (n + 1) + 1 / 2) with (INR M - (INR (n + 1) - / 2)) by lra. rewrite (b64_id _ Fq), Rmult_comm.
        rewrite <- (Rabs_pos_eq (b64 (x n - y))) by (apply b64_ge0; lra). now apply T. }
  destruct (L M (le_n M)) as (ob & I & -> & C & _). unfold rmul, rdiv.
  replace (2 * (sumn M (fun i => qcoef M i y (x i) * Rabs (x i - y)) / INR (M * M))) with (2 / INR (M * M) * sumn M (fun i => qcoef M i y (x i) * Rabs (x i - y))) by (unfold Rdiv; ring).
  replace (M + 4)%nat with (S (1 + (2 + M))) by lia. apply (calc_mul 1 (2 + M) 52 901 953); [lia|lia| |exact C].
  apply (calc_div 0 0 52 52); try lia; [apply sq52, HB|]. apply calc_exact; [apply (fmt_int 2); lia|right; simpl; lra].
Qed.
