(** Rounding errors of the quantile, interval, ranked probability and log scores. *)
From Coq Require Import Reals List ZArith Permutation Lia Lra Psatz.
From Flocq Require Import Core.
From Verif Require Import L_crps_row L_quant L_interval L_prob.
From Verif Require Export T_round S_round5 S_round.
Open Scope R_scope.

Local Notation fmt := (generic_format radix2 (FLT_exp (-1074) 53)).
Local Notation bp := (bpow radix2).

(** ** numbers of the format near 1 *)
Lemma near_one x : fmt x -> apart 53 x 1.
Proof.
  intros H. apply is64_fmt in H. destruct H as (m & e & -> & Hm & He). unfold apart. rewrite bp_inv. change (- Z.of_nat 53)%Z with (-53)%Z.
  rewrite <- bp_pow. destruct (Z.le_gt_cases e (-54)) as [L|L].
  - right. assert (Rabs (IZR m * bp e) <= / 2) as S.
    { rewrite Rabs_mult, (Rabs_pos_eq (bp e)) by apply bpow_ge_0. rewrite <- abs_IZR. apply Rle_trans with (bp 53 * bp (-54)).
      - apply Rmult_le_compat; [apply IZR_le; lia|apply bpow_ge_0| |now apply bpow_le].
        rewrite <- (IZR_Zpower radix2) by lia. apply IZR_le. change (Zpower radix2 53) with (2 ^ 53)%Z. lia.
      - rewrite <- bpow_plus. change (bp (53 + -54)) with (/ 2). lra. }
    apply Rle_trans with (/ 2); [change (/ 2) with (bp (-1)); apply bpow_le; lia|].
    pose proof (Rabs_def2 (IZR m * bp e) 1 ltac:(lra)) as [? ?]. rewrite Rabs_left by lra. pose proof (Rle_abs (IZR m * bp e)). lra.
  - assert (IZR m * bp e = IZR (m * 2 ^ (e + 53)) * bp (-53)) as ->.
    { rewrite mult_IZR. change (2 ^ (e + 53))%Z with (Zpower radix2 (e + 53)). rewrite IZR_Zpower by lia. rewrite Rmult_assoc, <- bpow_plus. f_equal. f_equal. lia. }
    set (n := (m * 2 ^ (e + 53))%Z). assert (IZR (2 ^ 53) * bp (-53) = 1) as E1.
    { change (2 ^ 53)%Z with (Zpower radix2 53). rewrite IZR_Zpower by lia. rewrite <- bpow_plus. reflexivity. }
    destruct (Z.eq_dec n (2 ^ 53)) as [->|N]; [left; exact E1|right].
    replace (IZR n * bp (-53) - 1) with (IZR (n - 2 ^ 53) * bp (-53)) by (rewrite minus_IZR, Rmult_minus_distr_r, E1; reflexivity).
    rewrite Rabs_mult, (Rabs_pos_eq (bp (-53))) by apply bpow_ge_0. rewrite <- (Rmult_1_l (bp (-53))) at 1. apply Rmult_le_compat_r; [apply bpow_ge_0|].
    rewrite <- abs_IZR. apply IZR_le. lia.
Qed.
Lemma apart_le e f a b : (e <= f)%nat -> apart e a b -> apart f a b.
Proof. intros L [H|H]; [now left|right]. rewrite bp_inv in *. eapply Rle_trans; [apply bpow_le|exact H]. lia. Qed.
Lemma within_big k p x X : (k <= 100)%nat -> within k x X -> big p X -> big (p + 1) x.
Proof.
  intros Hk [H1 H2] [->|H]; [left; lra|right]. eapply Rle_trans; [|exact H1]. replace (- (p + 1))%Z with (- p + -1)%Z by lia. rewrite bpow_plus. change (bp (-1)) with (/ 2).
  pose proof (bpow_ge_0 radix2 (- p)). assert (/ 2 <= (1 - u64) ^ k); [|nra].
  eapply Rle_trans; [|apply bern]. apply le_INR in Hk. assert (INR 100 * u64 <= / 2).
  { unfold u64. apply (Rmult_le_reg_r (2 ^ 53)); [apply pow_lt; lra|]. rewrite Rmult_assoc, Rinv_l by (apply pow_nonzero; lra). simpl; lra. }
  pose proof u64_pos. nra.
Qed.
Lemma calc_of k p x X : (k <= 100)%nat -> fmt x -> big p X -> within k x X -> calc k (p + 1) x X.
Proof. intros Hk F B W. split; [exact F|]. split; [now apply (big_ge0 p)|]. split; [exact W|]. now apply (within_big k p x X). Qed.
Lemma calc_twice k p x X : calc k p x X -> calc k p (b64 (2 * x)) (2 * X).
Proof.
  intros (F & P & W & B). split; [apply b64_fmt|]. split; [lra|]. rewrite (b64_id (2 * _)) by (apply fmt_double; exact F). split; [apply within_scal; [lra|exact W]|].
  destruct B as [B|B]; [left; rewrite B; ring|right]. pose proof (bpow_ge_0 radix2 (- p)). lra.
Qed.
(** ** monotone sums *)
Lemma tsum_mono t a b : (forall i, In i (leaves t) -> a i <= b i) -> tsum b64 t a <= tsum b64 t b.
Proof.
  induction t as [i|l IHl r IHr]; intros H; simpl; [apply H; now left|]. apply b64_le, Rplus_le_compat; [apply IHl|apply IHr]; intros; apply H; simpl; apply in_or_app; auto.
Qed.
Lemma lsum_mono {A} (f g : A -> R) l : (forall i, In i l -> f i <= g i) -> lsum b64 (map f l) <= lsum b64 (map g l).
Proof.
  unfold lsum. assert (forall a b, a <= b -> (forall i, In i l -> f i <= g i) -> fold_left (radd b64) (map f l) a <= fold_left (radd b64) (map g l) b); [|intros; apply H; [lra|auto]].
  induction l as [|i l IH]; intros a b Hab H; simpl; [exact Hab|]. apply IH; [|intros; apply H; now right]. apply b64_le, Rplus_le_compat; [exact Hab|apply H; now left].
Qed.
(** ** quantile forecasts *)
Definition pb64 (y x a : R) : R := if Rle_dec x y then b64 (a * b64 (y - x)) else b64 (b64 (1 - a) * b64 (x - y)).
Lemma pb_arr y x a : fmt a -> radd b64 (rmul b64 (rmul b64 (rbool (rle x y)) a) (rsub b64 y x)) (rmul b64 (rmul b64 (rbool (rlt y x)) (rsub b64 1 a)) (rsub b64 x y)) = pb64 y x a.
Proof.
  intros Fa. unfold pb64, radd, rmul, rsub, rle, rlt, rbool. destruct (Rle_dec x y) as [L|L].
  - destruct (Rlt_dec y x); [lra|]. rewrite !Rmult_0_l, b64_0, Rmult_0_l, b64_0, Rmult_1_l, (b64_id a Fa), Rplus_0_r. apply b64_id, b64_fmt.
  - destruct (Rlt_dec y x); [|lra]. rewrite !Rmult_0_l, b64_0, Rmult_0_l, b64_0, Rmult_1_l, Rplus_0_l, (b64_id (b64 (1 - a)) (b64_fmt _)). apply b64_id, b64_fmt.
Qed.
Lemma pb_k y x a : fmt a -> radd b64 (rmul b64 (rmul b64 (rbool (rlt x y)) a) (rsub b64 y x)) (rmul b64 (rmul b64 (rbool (rle y x)) (rsub b64 1 a)) (rsub b64 x y)) = pb64 y x a.
Proof.
  intros Fa. unfold pb64, radd, rmul, rsub, rle, rlt, rbool. destruct (Rlt_dec x y) as [L|L].
  - destruct (Rle_dec y x); [lra|]. destruct (Rle_dec x y); [|lra]. rewrite !Rmult_0_l, b64_0, Rmult_0_l, b64_0, Rmult_1_l, (b64_id a Fa), Rplus_0_r. apply b64_id, b64_fmt.
  - destruct (Rle_dec y x); [|lra]. rewrite !Rmult_0_l, b64_0, Rmult_0_l, b64_0, Rmult_1_l, Rplus_0_l, (b64_id (b64 (1 - a)) (b64_fmt _)), (b64_id (b64 _) (b64_fmt _)).
    destruct (Rle_dec x y); [|reflexivity]. assert (x = y) as -> by lra. now rewrite Rminus_eq_0, b64_0, !Rmult_0_r.
Qed.
Lemma pb_calc y x a : fmt y -> fmt x -> fmt a -> 0 <= a <= 1 -> apart 800 x y -> apart 100 a 0 -> calc 3 900 (pb64 y x a) (pinball a x y).
Proof.
  intros Fy Fx Fa Ha Hd H0. rewrite pinball_score. unfold pb64, ind_lt. destruct (Rle_dec x y).
  - destruct (Rlt_dec y x); [lra|]. pose proof (calc_sub 800 y x ltac:(lia) Fy Fx (apart_sym _ _ _ Hd)) as C1.
    rewrite (Rabs_pos_eq (y - x)) in C1 by lra. rewrite Rabs_pos_eq in C1 by (apply b64_ge0; lra).
    replace ((0 - a) * (x - y)) with (a * (y - x)) by ring. apply (calc_le 2 3 900 900); [lia|lia|]. apply (calc_mul 0 1 100 800 900); [lia|lia| |exact C1].
    apply calc_exact; [exact Fa|]. destruct H0 as [->|H0]; [now left|right]. rewrite Rminus_0_r, Rabs_pos_eq, bp_inv in H0 by lra. exact H0.
  - destruct (Rlt_dec y x); [|lra]. pose proof (calc_sub 800 x y ltac:(lia) Fx Fy Hd) as C1. pose proof (calc_sub 100 1 a ltac:(lia) fmt1 Fa (apart_sym _ _ _ (apart_le 53 100 _ _ ltac:(lia) (near_one a Fa)))) as C2.
    rewrite (Rabs_pos_eq (x - y)) in C1 by lra. rewrite (Rabs_pos_eq (1 - a)) in C2 by lra. rewrite Rabs_pos_eq in C1, C2 by (apply b64_ge0; lra).
    apply (calc_mul 1 1 100 800 900); auto; lia.
Qed.
Lemma pb_ge0 y x a : 0 <= a <= 1 -> 0 <= pb64 y x a.
Proof. intros Ha. unfold pb64. destruct (Rle_dec x y); apply b64_ge0, Rmult_le_pos; try apply b64_ge0; lra. Qed.
Lemma pb_eq y a : pb64 y y a = 0.
Proof. unfold pb64. destruct (Rle_dec y y); [|lra]. now rewrite Rminus_eq_0, b64_0, Rmult_0_r, b64_0. Qed.
Lemma pb_mono y x z a : 0 <= a <= 1 -> y <= x <= z \/ z <= x <= y -> pb64 y x a <= pb64 y z a.
Proof.
  intros Ha [H|H].
  - destruct (Req_dec y x) as [<-|E]; [rewrite pb_eq; now apply pb_ge0|]. unfold pb64. destruct (Rle_dec x y), (Rle_dec z y); try lra.
    apply b64_le, Rmult_le_compat_l; [apply b64_ge0; lra|apply b64_le; lra].
  - unfold pb64. destruct (Rle_dec x y), (Rle_dec z y); try lra. apply b64_le, Rmult_le_compat_l; [lra|apply b64_le; lra].
Qed.
Section Quantiles.
Variables (Q : nat) (y : R) (x a : nat -> R).
Hypothesis G : forall k, (k < Q)%nat -> fmt (a k).
Lemma qp_arr_eq t : adds t Q -> quantile_pinball_arr_r b64 t Q y x a = b64 (2 * b64 (tsum b64 t (fun k => pb64 y (x k) (a k)) / INR Q)).
Proof.
  intros Ht. unfold quantile_pinball_arr_r, rmul at 1, rdiv. do 4 f_equal. apply tsum_ext. intros k Hk. apply pb_arr, G.
  apply (Permutation_in k Ht) in Hk. apply in_seq in Hk. lia.
Qed.
Lemma qp_k_eq : quantile_pinball_k_r b64 Q y x a = b64 (2 * b64 (lsum b64 (map (fun k => pb64 y (x k) (a k)) (seq 0 Q)) / INR Q)).
Proof.
  unfold quantile_pinball_k_r, rmul at 1, rdiv. do 5 f_equal. apply map_ext_in. intros k Hk. apply pb_k, G. apply in_seq in Hk. lia.
Qed.
End Quantiles.
Lemma qp_arr_calc t Q y x a : quant64 Q y x a -> adds t Q -> calc (height t + 4) 926 (quantile_pinball_arr_r b64 t Q y x a) (2 / INR Q * sumn Q (fun k => pinball (a k) (x k) y)).
Proof.
  intros (HQ & HB & Fy & H) Ht. apply is64_fmt in Fy. rewrite qp_arr_eq; [|intros k Hk; apply is64_fmt; apply (H k Hk)|exact Ht].
  replace (2 / INR Q * sumn Q (fun k => pinball (a k) (x k) y)) with (2 * (sumn Q (fun k => pinball (a k) (x k) y) / INR Q)) by (unfold Rdiv; ring).
  apply calc_twice. replace (height t + 4)%nat with (S (3 + height t)) by lia. apply (calc_div _ 900 26 926); try lia.
  apply (tsum_n t Q 3 900); [lia|exact Ht|]. intros k Hk. destruct (H k Hk) as (F1 & A1 & F2 & H2 & A2). apply is64_fmt in F1, F2. now apply pb_calc.
Qed.
Lemma qp_k_calc Q y x a : quant64 Q y x a -> calc (Q + 4) 926 (quantile_pinball_k_r b64 Q y x a) (2 / INR Q * sumn Q (fun k => pinball (a k) (x k) y)).
Proof.
  intros (HQ & HB & Fy & H). apply is64_fmt in Fy. rewrite qp_k_eq; [|intros k Hk; apply is64_fmt; apply (H k Hk)].
  replace (2 / INR Q * sumn Q (fun k => pinball (a k) (x k) y)) with (2 * (sumn Q (fun k => pinball (a k) (x k) y) / INR Q)) by (unfold Rdiv; ring).
  apply calc_twice. replace (Q + 4)%nat with (S (3 + Q)) by lia. apply (calc_div _ 900 26 926); try lia.
  pose proof (lsum_calc (map (fun k => pb64 y (x k) (a k)) (seq 0 Q)) (map (fun k => pinball (a k) (x k) y) (seq 0 Q)) 3 900 ltac:(lia)) as C.
  rewrite map_length, seq_length in C. apply C. apply F2_map. intros k Hk. apply in_seq in Hk. destruct (H k ltac:(lia)) as (F1 & A1 & F2 & H2 & A2). apply is64_fmt in F1, F2. now apply pb_calc.
Qed.
(** ** interval scores *)
Lemma winkler_max al l u y : winkler al l u y = u - l + 2 / al * Rmax 0 (l - y) + 2 / al * Rmax 0 (y - u).
Proof.
  unfold winkler, Rmax. destruct (Rlt_dec y l), (Rlt_dec u y), (Rle_dec 0 (l - y)), (Rle_dec 0 (y - u)); try lra; try ring.
  all: try (replace (l - y) with 0 by lra); try (replace (y - u) with 0 by lra); ring.
Qed.
Lemma is_fmt y l u a : fmt (interval_score_r b64 y l u a). Proof. apply b64_fmt. Qed.
Lemma big_mul_ge p c x : 1 <= c -> big p x -> big p (c * x).
Proof. intros Hc [->|H]; [left; ring|right]. pose proof (bpow_ge_0 radix2 (- p)). nra. Qed.
Lemma big_max p x : big p (Rabs x) -> big p (Rmax 0 x).
Proof. intros H. unfold Rmax. destruct (Rle_dec 0 x); [|now left]. now rewrite Rabs_pos_eq in H. Qed.
Lemma apart_bigp e a b : apart e a b -> big (Z.of_nat e) (Rabs (a - b)).
Proof. intros [->|H]; [left; rewrite Rminus_eq_0; apply Rabs_R0|right; rewrite <- bp_inv; exact H]. Qed.
Lemma is_calc y l u a : fmt y -> fmt l -> fmt u -> fmt a -> l <= u -> 0 < a <= 1 -> apart 800 u l -> apart 800 y l -> apart 800 y u ->
  calc 4 801 (interval_score_r b64 y l u a) (winkler a l u y).
Proof.
  intros Fy Fl Fu Fa Hlu Ha A1 A2 A3. rewrite winkler_max. apply (calc_of 4 800); [lia|apply is_fmt| |].
  - assert (1 <= 2 / a). { apply (Rmult_le_reg_r a); [lra|]. unfold Rdiv. rewrite Rmult_assoc, Rinv_l by lra. lra. }
    apply big_add; [apply big_add|].
    + rewrite <- (Rabs_pos_eq (u - l)) by lra. apply (apart_bigp 800 u l A1).
    + apply big_mul_ge; [auto|]. apply big_max, (apart_bigp 800 l y). now apply apart_sym.
    + apply big_mul_ge; [auto|]. apply big_max, (apart_bigp 800 y u A3).
  - apply C81_interval_l; try (apply is64_fmt; assumption); auto; eapply apart_le; try eassumption; lia.
Qed.
Lemma fmt_K K : (Z.of_nat K <= 2 ^ 26)%Z -> fmt (INR K + 1 / 2).
Proof.
  intros H. rewrite INR_IZR. replace (IZR (Z.of_nat K) + 1 / 2) with (IZR (2 * Z.of_nat K + 1) / 2) by (rewrite plus_IZR, mult_IZR; lra).
  apply fmt_half. change (2 ^ 26)%Z with 67108864%Z in H. change (2 ^ 53)%Z with 9007199254740992%Z. lia.
Qed.
Lemma div_K k p K x X : (Z.of_nat K <= 2 ^ 26)%Z -> (p <= 900)%Z -> calc k p x X -> calc (S k) (p + 27) (rdiv b64 x (radd b64 (INR K) (1 / 2))) (X / (INR K + 1 / 2)).
Proof.
  intros HK Hp C. unfold radd. rewrite (b64_id _ (fmt_K K HK)). unfold rdiv, Rdiv. rewrite (Rmult_comm x), (Rmult_comm X). apply (calc_scal k p 27); auto; try lia.
  pose proof (pos_INR K). rewrite bpow_opp. apply Rinv_le; [lra|]. apply Rle_trans with (IZR (2 ^ 26) + 1 / 2).
  - apply Rplus_le_compat_r. rewrite INR_IZR. now apply IZR_le.
  - change (2 ^ 26)%Z with 67108864%Z. change (bp 27) with 134217728. lra.
Qed.
Lemma wt_calc w : fmt w -> 0 <= w -> apart 50 w 0 -> calc 0 50 w w.
Proof. intros F P A. apply calc_exact; [exact F|]. apply apart_bigp in A. now rewrite Rminus_0_r, Rabs_pos_eq in A. Qed.
Lemma wis_k_calc K y l u a w m wm : wis64 K y l u a w -> is64 m -> apart 800 y m -> is64 wm -> 0 <= wm -> apart 50 wm 0 ->
  calc (K + 7) 878 (wis_k_r b64 K y m l u a wm w) ((wissum K y l u a w + wm * Rabs (y - m)) / (INR K + 1 / 2)).
Proof.
  intros (HK & Fy & H) Fm Am Fw Pw Aw. apply is64_fmt in Fy, Fm, Fw. unfold wis_k_r. replace (K + 7)%nat with (S (K + 6)) by lia.
  apply (div_K _ 851); [exact HK|lia|]. replace (K + 6)%nat with (S (5 + K)) by lia. apply calc_add; [lia| |].
  - pose proof (lsum_calc (map (fun k => rmul b64 (w k) (interval_score_r b64 y (l k) (u k) (a k))) (seq 0 K)) (map (fun k => w k * winkler (a k) (l k) (u k) y) (seq 0 K)) 5 851 ltac:(lia)) as C.
    rewrite map_length, seq_length in C. apply C. apply F2_map. intros k Hk. apply in_seq in Hk.
    destruct (H k ltac:(lia)) as (F1 & F2 & Hlu & A1 & A2 & A3 & F3 & Ha & F4 & P4 & A4). apply is64_fmt in F1, F2, F3, F4.
    apply (calc_mul 0 4 50 801 851); [lia|lia|now apply wt_calc|now apply is_calc].
  - apply (calc_le 2 _ 850 851); [lia|lia|]. apply (calc_mul 0 1 50 800 850); [lia|lia|now apply wt_calc|]. apply (calc_sub 800); auto. lia.
Qed.
Lemma wis_arr_sum t K y l u a w : wis64 K y l u a w -> adds t K ->
  calc (5 + height t) 851 (tsum b64 t (fun k => rmul b64 (interval_score_r b64 y (l k) (u k) (a k)) (w k))) (wissum K y l u a w).
Proof.
  intros (HK & Fy & H) Ht. apply is64_fmt in Fy. apply (tsum_n t K 5 851); [lia|exact Ht|]. intros k Hk.
  destruct (H k Hk) as (F1 & F2 & Hlu & A1 & A2 & A3 & F3 & Ha & F4 & P4 & A4). apply is64_fmt in F1, F2, F3, F4.
  rewrite (Rmult_comm (w k)). apply (calc_mul 4 0 801 50 851); [lia|lia|now apply is_calc|now apply wt_calc].
Qed.
