(** Rounding errors of the estimator int of the ensemble CRPS. *)
From Coq Require Import Reals List ZArith Permutation Lia Lra Psatz Bool.
From Flocq Require Import Core Relative.
From Verif Require Import M_crps L_crps_real L_crps_row L_crps_roww L_crps_arr.
From Verif Require Export M_round3 L_round3.
Import ListNotations.
Open Scope R_scope.

Local Notation fmt := (generic_format radix2 (FLT_exp (-1074) 53)).
Local Notation bp := (bpow radix2).

(** * the deviation of a computed frequency from 1 *)
Lemma hi_le m : INR m * u64 <= / 2 -> (1 + u64) ^ m <= 1 + 2 * INR m * u64.
Proof.
  intros H. pose proof (bern m) as B. pose proof (pow_lo m) as L. pose proof (pow_hi m) as Hi. pose proof u64_pos as U.
  assert ((1 + u64) ^ m * (1 - u64) ^ m <= 1) as P.
  { rewrite <- Rpow_mult_distr. eapply Rle_trans; [apply (pow_incr _ 1); split; nra|rewrite pow1; lra]. }
  set (a := INR m * u64) in *. replace (2 * INR m * u64) with (2 * a) by (unfold a; ring). assert (0 <= a) by (unfold a; apply Rmult_le_pos; [apply pos_INR|lra]). nra.
Qed.
Lemma lo_le N : INR N * u64 <= / 2 -> (1 - u64) ^ (2 * N) <= 1 - INR N * u64.
Proof.
  intros H. pose proof (bern2 (2 * N)) as B. pose proof (pow_lo (2 * N)) as L. pose proof u64_pos as U.
  assert ((1 + u64) ^ (2 * N) * (1 - u64) ^ (2 * N) <= 1) as P.
  { rewrite <- Rpow_mult_distr. eapply Rle_trans; [apply (pow_incr _ 1); split; nra|rewrite pow1; lra]. }
  rewrite mult_INR in B. simpl (INR 2) in B. set (a := INR N * u64) in *. replace ((1 + 1) * INR N * u64) with (2 * a) in B by (unfold a; ring).
  assert (0 <= a) by (unfold a; apply Rmult_le_pos; [apply pos_INR|lra]). nra.
Qed.
Lemma dev_calc m q fc (k M : nat) : (k < M)%nat -> (Z.of_nat M <= 2 ^ 26)%Z -> INR (2 * m * k) * u64 <= / 2 -> INR m * u64 <= / 2 ->
  calc m q fc (INR k / INR M) -> calc (2 * (2 * m * k) + 1) 27 (Rabs (b64 (fc - 1))) (1 - INR k / INR M).
Proof.
  intros Hk HM HN Hm (F & P & W & B). pose proof (lt_0_INR M ltac:(lia)) as PM. pose proof u64_pos as U. pose proof (pos_INR k) as Pk.
  assert (INR k + 1 <= INR M) as KM by (rewrite <- S_INR; apply le_INR; lia).
  set (X := 1 - INR k / INR M). assert (INR M * X = INR M - INR k) as EX by (unfold X; field; lra). assert (0 < X) as PX by nra.
  pose proof (within_abs _ _ _ P W) as E. pose proof (hi_le m Hm) as Hi. set (N := (2 * m * k)%nat) in *.
  assert (Rabs (fc - INR k / INR M) <= INR N * u64 * X) as E'.
  { eapply Rle_trans; [exact E|]. eapply Rle_trans; [apply Rmult_le_compat_r; [exact P|]; apply Rplus_le_compat_r, Hi|].
    unfold N. rewrite !mult_INR. simpl (INR 2). assert (INR k / INR M <= INR k * X) as Q.
    { apply (Rmult_le_reg_l (INR M)); [exact PM|]. replace (INR M * (INR k / INR M)) with (INR k) by (field; lra). replace (INR M * (INR k * X)) with (INR k * (INR M * X)) by ring. rewrite EX. nra. }
    pose proof (pos_INR m). assert (0 <= INR m * u64) by (apply Rmult_le_pos; lra). nra. }
  assert (Rabs (Rabs (fc - 1) - X) <= INR N * u64 * X) as D.
  { rewrite (Rabs_minus_sym fc 1). replace X with (Rabs (1 - INR k / INR M)) at 1 by (apply Rabs_pos_eq; fold X; lra). eapply Rle_trans; [apply Rabs_triang_inv2|].
    replace (1 - fc - (1 - INR k / INR M)) with (- (fc - INR k / INR M)) by ring. rewrite Rabs_Ropp. exact E'. }
  set (z := Rabs (fc - 1)) in *. apply Rabs_le_between in D.
  assert (within (2 * N) z X) as Wz.
  { pose proof (lo_le N HN) as Lo. pose proof (bern2 (2 * N)) as Up. rewrite mult_INR in Up. simpl (INR 2) in Up. pose proof (pos_INR N).
    assert (0 <= INR N * u64) by (apply Rmult_le_pos; lra). split; nra. }
  assert (big 27 z) as Bz.
  { right. apply Rle_trans with (X / 2); [|pose proof (pos_INR N); assert (0 <= INR N * u64) by (apply Rmult_le_pos; lra); nra].
    apply Rmult_le_reg_r with (2 * INR M); [lra|]. replace (X / 2 * (2 * INR M)) with (INR M * X) by field. rewrite EX.
    apply Rle_trans with 1; [|lra]. rewrite INR_IZR. assert (IZR (Z.of_nat M) <= IZR (2 ^ 26)) as L by now apply IZR_le.
    change (bp (- (27))) with (/ 134217728). change (IZR (2 ^ 26)) with 67108864 in L. lra. }
  rewrite <- b64_abs. split; [apply b64_fmt|]. split; [lra|]. split; [|apply big_rnd; [lia|exact Bz]]. rewrite Nat.add_1_r.
  apply within_rnd; [apply Rabs_pos|lra|exact Wz|]. apply (big_err 27); [lia|exact Bz].
Qed.
Lemma sq_abs z : z * z = Rabs z * Rabs z.
Proof. unfold Rabs. destruct Rcase_abs; ring. Qed.
Lemma calc_sq k p z Z0 : (2 * p <= 1022)%Z -> calc k p (Rabs z) Z0 -> calc (2 * k + 1) (2 * p) (b64 (z * z)) (Z0 * Z0).
Proof. intros L H. rewrite sq_abs. replace (2 * k + 1)%nat with (S (k + k)) by lia. apply (calc_mul k k p p); auto. lia. Qed.
(** * sorted rows *)
Lemma rsort_ins M f v p k : ascending M f -> (p <= M)%nat -> (forall k, (k < p)%nat -> f k <= v) -> (forall k, (p <= k < M)%nat -> v <= f k) -> (k < M + 1)%nat ->
  nth k (rsort (map f (seq 0 M) ++ (v :: nil))) 0 = ins p f v k.
Proof.
  intros Ha Hp H1 H2 Hk. unfold rsort. rewrite <- app_list, map_map. set (g := fun v => match v with Fin r => r | _ => 0 end).
  rewrite (map_ext _ (fun k => if (k <? M)%nat then Fin (f k) else Fin v)) by (intros j; destruct (j <? M)%nat; auto).
  pose proof (map_nth g (nsort (map (fun k => if (k <? M)%nat then Fin (f k) else Fin v) (seq 0 (M + 1)))) NaN k) as E. change (g NaN) with 0 in E. rewrite E.
  now rewrite (nsort_ins M (fun k => Fin (f k)) f (Fin v) v p).
Qed.
Lemma tsum_nat t (n : nat -> nat) : (Z.of_nat (list_sum (map n (leaves t))) <= 2 ^ 53)%Z -> tsum b64 t (fun i => INR (n i)) = INR (list_sum (map n (leaves t))).
Proof.
  induction t as [i|t1 IH1 t2 IH2]; intros H; simpl in *; [now rewrite Nat.add_0_r|]. rewrite map_app, list_sum_app in *. rewrite IH1, IH2 by lia.
  unfold radd. rewrite <- plus_INR, INR_IZR. apply b64_id, fmt_int. lia.
Qed.
Definition cnt (x : nat -> R) (y : R) (i : nat) : nat := if Rle_dec (x i) y then 1%nat else 0%nat.
Lemma cnt_sum M x y p : (p <= M)%nat -> (forall k, (k < p)%nat -> x k <= y) -> (forall k, (p <= k < M)%nat -> y < x k) -> list_sum (map (cnt x y) (seq 0 M)) = p.
Proof.
  intros Hp H1 H2. replace M with (p + (M - p))%nat by lia. rewrite seq_app, map_app, list_sum_app.
  assert (forall n s, (forall k, (s <= k < s + n)%nat -> x k <= y) -> list_sum (map (cnt x y) (seq s n)) = n) as A.
  { induction n; intros s H; [reflexivity|]. simpl. rewrite IHn by (intros; apply H; lia). unfold cnt. destruct Rle_dec as [|N]; [lia|]. exfalso. apply N, H. lia. }
  assert (forall n s, (forall k, (s <= k < s + n)%nat -> y < x k) -> list_sum (map (cnt x y) (seq s n)) = 0%nat) as B.
  { induction n; intros s H; [reflexivity|]. simpl. rewrite IHn by (intros; apply H; lia). unfold cnt. destruct Rle_dec as [L|N]; [|lia]. specialize (H s ltac:(lia)). lra. }
  rewrite A by (intros; apply H1; lia). rewrite B by (intros; apply H2; lia). lia.
Qed.
Lemma ypos_rnd M x y p t : (0 < M)%nat -> (Z.of_nat M <= 2 ^ 26)%Z -> adds t M -> (p <= M)%nat -> (forall k, (k < p)%nat -> x k <= y) -> (forall k, (p <= k < M)%nat -> y < x k) ->
  tsum b64 t (fun i => rmul b64 (rbool (rle (x i) y)) 1) = INR p.
Proof.
  intros HM HB Ht Hp H1 H2. rewrite (tsum_ext t _ (fun i => INR (cnt x y i))).
  - pose proof (list_sum_perm _ _ (Permutation_map (cnt x y) Ht)) as E. rewrite (cnt_sum M x y p) in E by auto. rewrite tsum_nat, E; [reflexivity|]. rewrite E. change (2 ^ 53)%Z with 9007199254740992%Z. change (2 ^ 26)%Z with 67108864%Z in HB. lia.
  - intros i _. unfold rmul, rbool, rle, cnt. destruct Rle_dec; rewrite ?Rmult_1_r; simpl; apply b64_id; [apply (fmt_int 1); lia|apply fmt_0].
Qed.
(** what the rows look like after sorting *)
Section Rows.
Variables (M p : nat) (y : R) (x : nat -> R).
Hypothesis HM : (0 < M)%nat.
Hypothesis HB : (Z.of_nat M <= 2 ^ 26)%Z.
Hypothesis Ha : ascending M x.
Hypothesis Hp : (p <= M)%nat.
Hypothesis H1 : forall k, (k < p)%nat -> x k <= y.
Hypothesis H2 : forall k, (p <= k < M)%nat -> y < x k.
Definition freq (rnd : R -> R) (n : nat) : R := rnd (INR n / INR M).
Definition eterm (rnd : R -> R) (i : nat) : R :=
  let C := ins p (fun i => freq rnd (S i)) (freq rnd p) i in let E := ins p x y in
  let dev := rsub rnd C (rmul rnd (rbool (rle y (E i))) 1) in rmul rnd (rsub rnd (E (i + 1)%nat) (E i)) (rmul rnd dev dev).
Lemma freq_le n m : (n <= m)%nat -> INR n / INR M <= INR m / INR M.
Proof. intros L. unfold Rdiv. apply Rmult_le_compat_r; [left; apply Rinv_0_lt_compat, lt_0_INR, HM|now apply le_INR]. Qed.
Lemma int_arr_gen rnd t1 t2 : (forall a b, a <= b -> rnd a <= rnd b) -> (forall n, rnd (0 + freq rnd n) = freq rnd n) -> adds t2 M ->
  tsum rnd t1 (fun i => rmul rnd (rbool (rle (x i) y)) 1) = INR p ->
  crps_int_arr_r rnd t1 t2 M y x = tsum rnd t2 (eterm rnd).
Proof.
  intros Mo Id Ht Hy. unfold crps_int_arr_r. rewrite Hy.
  assert (forall t a b, (forall i, In i (leaves t) -> a i = b i) -> tsum rnd t a = tsum rnd t b) as Ext.
  { induction t as [i|u IHu v IHv]; intros a b H; simpl; [apply H; now left|]. f_equal; [apply IHu|apply IHv]; intros; apply H; apply in_or_app; auto. }
  apply Ext. intros i Hi. apply (Permutation_in i Ht) in Hi. apply in_seq in Hi. unfold eterm. cbv zeta.
  rewrite !(rsort_ins M x y p) by (auto; try lia; intros k Hk; left; auto).
  rewrite (map_ext (fun i => radd rnd 0 (rdiv rnd (INR (i + 1)) (INR M))) (fun i => freq rnd (S i))) by (intros j; unfold radd, rdiv; rewrite Nat.add_1_r; apply Id).
  change (rdiv rnd (INR p) (INR M)) with (freq rnd p).
  rewrite (rsort_ins M (fun i => freq rnd (S i)) (freq rnd p) p i); [reflexivity| |exact Hp| | |lia].
  - intros a b L. apply Mo, freq_le. lia.
  - intros a L. apply Mo, freq_le. lia.
  - intros a L. apply Mo, freq_le. lia.
Qed.
Lemma E_asc : ascending (M + 1) (ins p x y).
Proof. apply ins_sorted; auto. intros k Hk. left. auto. Qed.
(** either the step is empty or the frequency has a simple form *)
Lemma step_cases i : (i < M)%nat -> ins p x y (i + 1)%nat = ins p x y i \/
  ((i < p)%nat /\ ins p x y i < y) \/ ((p <= i)%nat /\ y <= ins p x y i).
Proof.
  intros Hi. destruct (Nat.lt_ge_cases i p) as [L|L].
  - assert (ins p x y i = x i) as E by (unfold ins; destruct (Nat.ltb_spec i p); [auto|lia]).
    destruct (Rlt_dec (x i) y) as [Ly|Ly]; [right; left; rewrite E; auto|]. left. rewrite E.
    pose proof (H1 i L). assert (x i = y) as -> by lra. unfold ins. destruct (Nat.ltb_spec (i + 1) p).
    + pose proof (H1 (i + 1)%nat ltac:(lia)). pose proof (Ha i (i + 1)%nat ltac:(lia)). lra.
    + destruct (Nat.eqb_spec (i + 1) p); [auto|lia].
  - right. right. split; [exact L|]. unfold ins. destruct (Nat.ltb_spec i p); [lia|]. destruct (Nat.eqb_spec i p); [lra|]. left. apply H2. lia.
Qed.
Lemma C_lo rnd i : (i < p)%nat -> ins p (fun i => freq rnd (S i)) (freq rnd p) i = freq rnd (S i).
Proof. intros L. unfold ins. destruct (Nat.ltb_spec i p); [auto|lia]. Qed.
Lemma C_hi rnd i : (p <= i)%nat -> ins p (fun i => freq rnd (S i)) (freq rnd p) i = freq rnd i.
Proof. intros L. unfold ins. destruct (Nat.ltb_spec i p); [lia|]. destruct (Nat.eqb_spec i p); [now subst|]. f_equal. lia. Qed.
Lemma rle_true a b : a <= b -> rbool (rle a b) = 1. Proof. intros. unfold rle. destruct Rle_dec; [auto|lra]. Qed.
Lemma rle_false a b : b < a -> rbool (rle a b) = 0. Proof. intros. unfold rle. destruct Rle_dec; [lra|auto]. Qed.
Lemma freq_calc n : calc 1 26 (freq b64 n) (INR n / INR M).
Proof.
  unfold freq. assert (big 0 (INR n)) as B. { destruct n; [now left|]. right. rewrite S_INR. pose proof (pos_INR n). simpl. lra. }
  assert (big 26 (INR n / INR M)) as B'.
  { unfold Rdiv. rewrite Rmult_comm. apply (big_le (0 + 26)); [lia|]. apply big_scal; [|exact B]. rewrite bpow_opp. apply Rinv_le; [now apply lt_0_INR|]. rewrite <- (IZR_Zpower radix2) by lia. rewrite INR_IZR. apply IZR_le. exact HB. }
  pose proof (big_ge0 _ _ B') as P. split; [apply b64_fmt|]. split; [exact P|]. split; [|apply big_rnd; [lia|exact B']].
  apply within_rnd; [exact P|exact P|apply within_0|]. apply (big_err 26); [lia|exact B'].
Qed.
Lemma b01 : b64 0 = 0 /\ b64 1 = 1. Proof. split; [apply b64_0|apply b64_id, (fmt_int 1); lia]. Qed.
Lemma small26 : INR (2 * 1 * M) * u64 <= / 2 /\ INR 1 * u64 <= / 2.
Proof.
  rewrite mult_INR. simpl (INR (2 * 1)). simpl (INR 1). rewrite INR_IZR. assert (IZR (Z.of_nat M) <= IZR (2 ^ 26)) as L by now apply IZR_le. change (IZR (2 ^ 26)) with 67108864 in L.
  assert (0 <= IZR (Z.of_nat M)) by (apply IZR_le; lia). rewrite u64_bp. change (bp (-53)) with (/ 9007199254740992). split; lra.
Qed.
Hypothesis Fy : fmt y.
Hypothesis Fx : forall i, (i < M)%nat -> fmt (x i).
Lemma E_fmt i : (i < M + 1)%nat -> fmt (ins p x y i).
Proof. intros Hi. unfold ins. destruct (Nat.ltb_spec i p); [apply Fx; lia|]. destruct (Nat.eqb_spec i p); [exact Fy|apply Fx; lia]. Qed.
Hypothesis Ap : forall i, (i < M)%nat -> apart 900 (x i) y.
Hypothesis App : forall i j, (i < M)%nat -> (j < M)%nat -> apart 900 (x i) (x j).
Lemma E_apart i : (i < M)%nat -> apart 900 (ins p x y (i + 1)%nat) (ins p x y i).
Proof.
  intros Hi. unfold ins. destruct (Nat.ltb_spec (i + 1) p), (Nat.ltb_spec i p); try lia; [apply App; lia| |].
  - destruct (Nat.eqb_spec (i + 1) p); [|lia]. apply apart_sym, Ap. lia.
  - destruct (Nat.eqb_spec (i + 1) p), (Nat.eqb_spec i p); try lia; [apply Ap; lia|apply App; lia].
Qed.
Lemma eterm_calc i : (i < M)%nat -> calc (8 * (M - 1) + 5) 954 (eterm b64 i) (eterm idr i).
Proof.
  intros Hi. unfold eterm. cbv zeta. destruct b01 as [Z0 Z1]. destruct small26 as [S1 S2]. pose proof (E_asc i (i + 1)%nat ltac:(lia)) as As. pose proof (lt_0_INR M HM) as PM.
  destruct (step_cases i Hi) as [E|C].
  - rewrite !E. assert (forall a, rsub b64 a a = 0) as Q1 by (intros a; unfold rsub; now rewrite Rminus_eq_0). assert (forall a, rsub idr a a = 0) as Q2 by (intros a; unfold rsub, idr; ring).
    assert (forall a, rmul b64 0 a = 0) as Q3 by (intros a; unfold rmul; now rewrite Rmult_0_l). assert (forall a, rmul idr 0 a = 0) as Q4 by (intros a; unfold rmul, idr; ring).
    rewrite (Q1 (ins p x y i)), (Q2 (ins p x y i)), Q3, Q4. apply (calc_le 0 _ 954 954); [lia|lia|]. apply calc_exact; [apply fmt_0|now left].
  - pose proof (calc_sub 900 _ _ ltac:(lia) (E_fmt (i + 1) ltac:(lia)) (E_fmt i ltac:(lia)) (E_apart i Hi)) as D. rewrite (Rabs_pos_eq (b64 (_ - _))), (Rabs_pos_eq (_ - _)) in D by (try apply b64_ge0; lra).
    assert (forall dv DV, calc (4 * (M - 1) + 1) 27 (Rabs dv) DV -> calc (8 * (M - 1) + 5) 954 (rmul b64 (rsub b64 (ins p x y (i + 1)%nat) (ins p x y i)) (rmul b64 dv dv)) ((ins p x y (i + 1)%nat - ins p x y i) * (DV * DV))) as K.
    { intros dv DV Hd. pose proof (calc_sq (4 * (M - 1) + 1) 27 dv DV ltac:(lia) Hd) as Q. replace (8 * (M - 1) + 5)%nat with (S (1 + (2 * (4 * (M - 1) + 1) + 1))) by lia.
      apply (calc_mul 1 (2 * (4 * (M - 1) + 1) + 1) 900 54 954); auto; lia. }
    destruct C as [[L Ly]|[L Ly]].
    + rewrite (rle_false _ _ Ly), !(C_lo _ _ L). assert (rsub b64 (freq b64 (S i)) (rmul b64 0 1) = freq b64 (S i)) as -> by (unfold rsub, rmul; rewrite Rmult_0_l, Z0, Rminus_0_r; apply b64_id, b64_fmt).
      assert (rsub idr (freq idr (S i)) (rmul idr 0 1) = INR (S i) / INR M) as -> by (unfold rsub, rmul, freq, idr; ring).
      change (calc (8 * (M - 1) + 5) 954 (rmul b64 (rsub b64 (ins p x y (i + 1)%nat) (ins p x y i)) (rmul b64 (freq b64 (S i)) (freq b64 (S i)))) ((ins p x y (i + 1)%nat - ins p x y i) * (INR (S i) / INR M * (INR (S i) / INR M)))).
      apply K. pose proof (freq_calc (S i)) as Q. rewrite Rabs_pos_eq by (destruct Q as (_ & _ & _ & Q); exact (big_ge0 _ _ Q)). eapply calc_le; [| |exact Q]; lia.
    + rewrite (rle_true _ _ Ly), !(C_hi _ _ L). assert (rsub b64 (freq b64 i) (rmul b64 1 1) = b64 (freq b64 i - 1)) as -> by (unfold rsub, rmul; now rewrite Rmult_1_r, Z1).
      assert (rsub idr (freq idr i) (rmul idr 1 1) = INR i / INR M - 1) as -> by (unfold rsub, rmul, freq, idr; ring).
      change (calc (8 * (M - 1) + 5) 954 (rmul b64 (rsub b64 (ins p x y (i + 1)%nat) (ins p x y i)) (rmul b64 (b64 (freq b64 i - 1)) (b64 (freq b64 i - 1)))) ((ins p x y (i + 1)%nat - ins p x y i) * ((INR i / INR M - 1) * (INR i / INR M - 1)))).
      replace ((INR i / INR M - 1) * (INR i / INR M - 1)) with ((1 - INR i / INR M) * (1 - INR i / INR M)) by ring. apply K.
      eapply calc_le; [| |apply (dev_calc 1 26 _ i M Hi HB)]; [lia|lia| |exact S2|apply freq_calc].
      eapply Rle_trans; [|exact S1]. apply Rmult_le_compat_r; [pose proof u64_pos; lra|]. apply le_INR. lia.
Qed.
Lemma eterm_ge0 i : (i < M)%nat -> 0 <= eterm b64 i.
Proof.
  intros Hi. unfold eterm. cbv zeta. pose proof (E_asc i (i + 1)%nat ltac:(lia)). apply b64_ge0, Rmult_le_pos; [apply b64_ge0; lra|]. apply b64_ge0. apply Rle_0_sqr.
Qed.
End Rows.
