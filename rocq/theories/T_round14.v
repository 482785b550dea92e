(** Proofs of the rounding properties of the variogram score (statements in P_round14.v). *)
From Coq Require Import Reals List ZArith Permutation Lia Lra Psatz Bool.
From Flocq Require Import Core.
From Verif Require Import Num M_vario L_crps_real L_crps_math L_crps_row L_crps_omit L_crps_ens L_vario L_round6.
From Verif Require Export T_round13 L_round20 S_round9 S_round8 S_round7 S_round5 S_round.
Open Scope R_scope.

Local Notation bp := (bpow radix2).
Lemma appr0_err k x X A : appr k 0 x X A -> Rabs (x - X) <= ((1 + u64) ^ k - 1) * A.
Proof. intros (_ & _ & _ & E). rewrite Rmult_0_l, Rplus_0_r in E. lra. Qed.
Lemma vp0 p : vpow 0 p = 0. Proof. unfold vpow. destruct (Req_EM_T 0 0); [reflexivity|tauto]. Qed.
Lemma vpp v p : 0 < v -> vpow v p = Rpower v p. Proof. intros H. unfold vpow. destruct (Req_EM_T v 0); [lra|reflexivity]. Qed.
Lemma vpow_1 v : 0 <= v -> vpow v 1 = v.
Proof. intros H. destruct (Rle_lt_or_eq_dec 0 v H) as [P|<-]; [rewrite vpp by lra; now apply Rpower_1|apply vp0]. Qed.
Lemma vpow_half v : 0 <= v -> vpow v (1 / 2) = sqrt v.
Proof. intros H. replace (1 / 2) with (/ 2) by field. destruct (Rle_lt_or_eq_dec 0 v H) as [P|<-]; [rewrite vpp by lra; now apply Rpower_sqrt|rewrite vp0, sqrt_0; reflexivity]. Qed.
Lemma vpow_2 v : 0 <= v -> vpow v 2 = v * v.
Proof. intros H. destruct (Rle_lt_or_eq_dec 0 v H) as [P|<-]; [rewrite vpp by lra; change 2 with (INR 2); rewrite Rpower_pow by lra; ring|rewrite vp0; ring]. Qed.
Lemma ex_vg : vgens64 100 3 2 ex_y ex_x.
Proof.
  assert (forall n, (Z.of_nat n < 2 ^ 53)%Z -> is64 (INR n)) as F by (intros n Hn; rewrite INR_IZR_INZ; exists (Z.of_nat n), 0%Z; simpl; split; [ring|split; lia]).
  assert (forall i j, apart 100 (INR i) (INR j)) as A.
  { intros i j. destruct (Nat.eq_dec i j) as [->|N]; [now left|right]. apply Rle_trans with 1.
    - rewrite <- Rinv_1. apply Rinv_le_contravar; [lra|]. apply pow_R1_Rle. lra.
    - rewrite !INR_IZR_INZ, <- minus_IZR, <- abs_IZR. apply (IZR_le 1). lia. }
  unfold ex_y, ex_x. repeat split; try lia; intros; first [apply A|apply F; nia].
Qed.
(** instance: observation and three members equal to (0, 7319843605468574), order 1 *)
Local Notation vw := 7319843605468574.
Definition ex_v (i : nat) : R := if (i =? 0)%nat then 0 else vw.
Lemma ex_vd a b : Rabs (b64 (ex_v a - ex_v b)) = Rabs (ex_v a - ex_v b).
Proof.
  rewrite <- b64_abs. apply b64_id, fmt_abs. unfold ex_v. destruct (a =? 0)%nat, (b =? 0)%nat; rewrite ?Rminus_0_r, ?Rminus_0_l, ?Rminus_eq_0; try apply fmt_0; [apply fmt_opp|]; apply (fmt_int 7319843605468574); lia.
Qed.
Lemma ex_vv00 : Rabs (ex_v 0 - ex_v 0) = 0. Proof. rewrite Rminus_eq_0. apply Rabs_R0. Qed.
Lemma ex_vv11 : Rabs (ex_v 1 - ex_v 1) = 0. Proof. rewrite Rminus_eq_0. apply Rabs_R0. Qed.
Lemma ex_vv10 : Rabs (ex_v 1 - ex_v 0) = vw. Proof. unfold ex_v. simpl. rewrite Rminus_0_r. apply Rabs_pos_eq. lra. Qed.
Lemma ex_vv01 : Rabs (ex_v 0 - ex_v 1) = vw. Proof. rewrite Rabs_minus_sym. apply ex_vv10. Qed.
Lemma ex_vgv : vgens64 340 3 2 ex_v (fun _ => ex_v).
Proof.
  assert (forall i, is64 (ex_v i)) as F. { intros i. unfold ex_v. destruct (i =? 0)%nat; [exists 0%Z, 0%Z|exists 7319843605468574%Z, 0%Z]; (split; [simpl; ring|split; lia]). }
  assert (/ 2 ^ 340 <= 1) as L by (rewrite <- Rinv_1; apply Rinv_le_contravar; [lra|apply pow_R1_Rle; lra]).
  assert (forall i j, apart 340 (ex_v i) (ex_v j)) as A.
  { intros i j. unfold apart, ex_v. destruct (i =? 0)%nat, (j =? 0)%nat; try (now left); right; rewrite ?Rminus_0_r, ?Rminus_0_l, ?Rabs_Ropp, Rabs_pos_eq; lra. }
  split; [lia|]. split; [lia|]. auto.
Qed.
Lemma ex_pid : pow64 340 0 1 (fun v => v).
Proof. intros v F P _. split; [exact F|]. rewrite vpow_1 by exact P. apply within_0. Qed.
Lemma ex_three : b64 (b64 (b64 (vw + vw) + vw) / INR 3) = 7319843605468573.
Proof. rewrite ex_w2, ex_w3. apply ex_w4. Qed.
Lemma ex_d1 : b64 (1 * b64 (b64 (vw - 7319843605468573) * b64 (vw - 7319843605468573))) = 1.
Proof. replace (vw - 7319843605468573) with 1 by lra. now rewrite !ex_o1, !Rmult_1_l, !ex_o1. Qed.
Lemma ex_d0 : b64 (1 * b64 (b64 (0 - b64 (b64 (b64 (0 + 0) + 0) / INR 3)) * b64 (0 - b64 (b64 (b64 (0 + 0) + 0) / INR 3)))) = 0.
Proof. unfold Rdiv. now rewrite Rplus_0_l, b64_0, Rplus_0_l, b64_0, Rmult_0_l, b64_0, Rminus_0_r, b64_0, Rmult_0_l, b64_0, Rmult_0_r, b64_0. Qed.
Lemma ex_dsum : b64 (b64 (b64 (0 + 1) + 1) + 0) = 2.
Proof. rewrite Rplus_0_l, ex_o1. replace (1 + 1) with 2 by ring. now rewrite ex_o2, Rplus_0_r, ex_o2. Qed.
Lemma ex_varr : vs_nrg_arr_r b64 (fun v => v) (fun _ => comb 2) (comb 3) 3 2 ex_v (fun _ => ex_v) (fun _ _ => 1) = 2.
Proof.
  unfold vs_nrg_arr_r. change (tsum b64 (comb 3) ?a) with (b64 (b64 (b64 (a 0%nat + a 1%nat) + a 2%nat) + a 3%nat)). change (tsum b64 (comb 2) ?a) with (b64 (b64 (a 0%nat + a 1%nat) + a 2%nat)). cbv beta zeta.
  change (0 / 2)%nat with 0%nat. change (1 / 2)%nat with 0%nat. change (2 / 2)%nat with 1%nat. change (3 / 2)%nat with 1%nat. change (0 mod 2)%nat with 0%nat. change (1 mod 2)%nat with 1%nat. change (2 mod 2)%nat with 0%nat. change (3 mod 2)%nat with 1%nat.
  unfold rmul, rsub, rdiv, radd. rewrite !ex_vd, ex_vv00, ex_vv11, ex_vv10, ex_vv01, ex_three, ex_d1, ex_d0. apply ex_dsum.
Qed.
Lemma ex_vk : vs_nrg_k_r b64 (fun v => v) 3 2 ex_v (fun _ => ex_v) (fun _ _ => 1) = 2.
Proof.
  unfold vs_nrg_k_r. cbn [seq map flat_map app]. unfold lsum. cbn [fold_left]. unfold rmul, rsub, rdiv, radd. rewrite !ex_vd, ex_vv00, ex_vv11, ex_vv10, ex_vv01.
  assert (b64 (b64 (b64 (0 + 0) + 0) + 0) = 0) as Z by now rewrite !Rplus_0_r, !b64_0.
  assert (b64 (0 + vw) = vw) as W by (rewrite Rplus_0_l; apply b64_id, (fmt_int 7319843605468574); lia).
  assert (b64 (1 * b64 (b64 (0 - b64 (0 / INR 3)) * b64 (0 - b64 (0 / INR 3)))) = 0) as D0 by (unfold Rdiv; now rewrite Rmult_0_l, b64_0, Rminus_0_r, b64_0, Rmult_0_l, b64_0, Rmult_0_r, b64_0).
  rewrite Z, W, ex_three, ex_d1, D0. replace (b64 (0 + 0)) with 0 by now rewrite Rplus_0_l, b64_0. apply ex_dsum.
Qed.
Lemma C101_powers_l :
forall e, (e <= 400)%nat -> pow64 e 1 (1 / 2) (fun v => b64 (sqrt v)) /\ pow64 e 0 1 (fun v => v) /\ pow64 e 1 2 (fun v => b64 (v * v)).
Proof.
intros e He. split; [|split]; intros v F P A.
- split; [apply is64_fmt, b64_fmt|]. rewrite vpow_half by exact P. apply apart_bigp in A. rewrite Rminus_0_r, Rabs_pos_eq in A by exact P. apply within_rnd; [apply sqrt_pos|apply sqrt_pos|apply within_0|]. apply (big_err 400); [lia|]. apply big_sqrt. apply (big_le (Z.of_nat e)); [lia|exact A].
- split; [exact F|]. rewrite vpow_1 by exact P. apply within_0.
- split; [apply is64_fmt, b64_fmt|]. rewrite vpow_2 by exact P. apply apart_bigp in A. rewrite Rminus_0_r in A. apply within_rnd; [nra|nra|apply within_0|]. pose proof (big_mul (Z.of_nat e) (Z.of_nat e) 800 v v ltac:(lia) ltac:(lia) A A) as B. rewrite Rabs_pos_eq in B by nra. apply (big_err 800); [lia|exact B].
Qed.
Lemma C101_vs_l :
forall e n q M D p pw y x h tm t g, vgens64 e M D y x -> pow64 e n p pw -> 0 < p <= INR q -> (Z.of_nat n <= 2 ^ 52)%Z -> (e * q <= 340)%nat -> (forall i j, (i < D)%nat -> (j < D)%nat -> wt64 (h i j)) -> orders (D * D) M g tm -> adds t (D * D) ->
  let E := vs_score D h p M (fun _ => / INR M) y x in
  Rabs (vs_nrg_arr_r b64 pw tm t M D y x h - E) <= ((1 + u64) ^ (2 * (n + q + g) + 6 + height t) - 1) * vs_size D h p M y x /\
  Rabs (vs_nrg_k_r b64 pw M D y x h - E) <= ((1 + u64) ^ (2 * (n + q + M) + 6 + D * D) - 1) * vs_size D h p M y x.
Proof.
intros e n q M D p pw y x h tm t g HE HP Hp Hn He Hh O A E. unfold E. rewrite vs_score_unif by apply HE. split; apply appr0_err; [exact (vs_arr_err e n q M D p pw y x h HE HP Hp Hn He Hh tm t g O A)|exact (vs_k_err e n q M D p pw y x h HE HP Hp Hn He Hh)].
Qed.
Lemma C101_agree_l :
forall e n q M D p pw y x h tm t g, vgens64 e M D y x -> pow64 e n p pw -> 0 < p <= INR q -> (Z.of_nat n <= 2 ^ 52)%Z -> (e * q <= 340)%nat -> (forall i j, (i < D)%nat -> (j < D)%nat -> wt64 (h i j)) -> orders (D * D) M g tm -> adds t (D * D) ->
  Rabs (vs_nrg_arr_r b64 pw tm t M D y x h - vs_nrg_k_r b64 pw M D y x h) <= ((1 + u64) ^ (2 * (n + q + g) + 6 + height t) + (1 + u64) ^ (2 * (n + q + M) + 6 + D * D) - 2) * vs_size D h p M y x.
Proof.
intros e n q M D p pw y x h tm t g HE HP Hp Hn He Hh O A. destruct (C101_vs_l e n q M D p pw y x h tm t g HE HP Hp Hn He Hh O A) as [H1 H2]. set (E := vs_score _ _ _ _ _ _ _) in *.
replace (vs_nrg_arr_r b64 pw tm t M D y x h - vs_nrg_k_r b64 pw M D y x h) with ((vs_nrg_arr_r b64 pw tm t M D y x h - E) + - (vs_nrg_k_r b64 pw M D y x h - E)) by ring. eapply Rle_trans; [apply Rabs_triang|]. rewrite Rabs_Ropp. lra.
Qed.
Lemma C101_nonnegative_l :
forall M D pw y x h tm t, (forall i j, (i < D)%nat -> (j < D)%nat -> wt64 (h i j)) -> adds t (D * D) ->
  0 <= vs_nrg_arr_r b64 pw tm t M D y x h /\ 0 <= vs_nrg_k_r b64 pw M D y x h /\
  (M = 1%nat -> (forall v, is64 (pw v)) -> (forall k, (k < D * D)%nat -> adds (tm k) 1) -> (forall i, (i < D)%nat -> x 0%nat i = y i) -> vs_nrg_arr_r b64 pw tm t M D y x h = 0 /\ vs_nrg_k_r b64 pw M D y x h = 0).
Proof.
intros M D pw y x h tm t Hh A. split; [now apply vs_nonneg_arr|]. split; [now apply vs_nonneg_k|]. intros -> Fp Ak Hx.
assert (forall v, b64 (pw v / INR 1) = pw v) as D1 by (intros v; simpl INR; unfold Rdiv; rewrite Rinv_1, Rmult_1_r; apply b64_id, is64_fmt, Fp).
split.
- unfold vs_nrg_arr_r. apply tsum_zl. intros k Hk. apply (Permutation_in k A), in_seq in Hk. assert (k / D < D)%nat by (apply Nat.div_lt_upper_bound; lia). assert (k mod D < D)%nat by (apply Nat.mod_upper_bound; lia).
  assert (exists i, tm k = Leaf i /\ i = 0%nat) as (i & -> & ->).
  { specialize (Ak k ltac:(lia)). pose proof (height_adds _ _ Ak) as Hl. destruct (tm k) as [i|a b]; [|simpl in Hl; lia]. exists i. split; [reflexivity|]. apply (Permutation_in i) in Ak; [|now left]. simpl in Ak. destruct Ak as [<-|[]]. reflexivity. }
  cbn [tsum]. cbv zeta. rewrite !Hx by assumption. unfold rdiv. rewrite D1. unfold rsub at 1 3. rewrite Rminus_eq_0, b64_0. now rewrite rm0l, rm0r.
- unfold vs_nrg_k_r. apply zero_lsum. apply Forall_forall. intros v Hv. apply in_flat_map in Hv. destruct Hv as (i & Hi & Hv). apply in_map_iff in Hv. destruct Hv as (j & <- & Hj). apply in_seq in Hi, Hj.
  cbv zeta. cbn [seq map]. unfold lsum. cbn [fold_left]. rewrite !Hx by lia. unfold radd. rewrite Rplus_0_l, (b64_id (pw _)) by apply is64_fmt, Fp. unfold rdiv. rewrite D1. unfold rsub at 1 3. rewrite Rminus_eq_0, b64_0. now rewrite rm0l, rm0r.
Qed.
Lemma C101_perfect_refuted_l :
exists e M D p pw y x h tm t, vgens64 e M D y x /\ pow64 e 0 p pw /\ 0 < p <= INR 1 /\ (e * 1 <= 340)%nat /\ (forall i j, wt64 (h i j)) /\ (forall k, adds (tm k) M) /\ adds t (D * D) /\
  (forall m, x m = y) /\ vs_score D h p M (fun _ => / INR M) y x = 0 /\ vs_nrg_arr_r b64 pw tm t M D y x h = 2 /\ vs_nrg_k_r b64 pw M D y x h = 2.
Proof.
exists 340%nat, 3%nat, 2%nat, 1, (fun v => v), ex_v, (fun _ => ex_v), (fun _ _ => 1), (fun _ => comb 2), (comb 3).
split; [apply ex_vgv|]. split; [apply ex_pid|]. split; [simpl; lra|]. split; [lia|]. split; [intros; apply ex_oone|]. split; [intros; apply comb_adds|]. split; [apply comb_adds|]. split; [reflexivity|]. split; [|split; [apply ex_varr|apply ex_vk]].
rewrite vs_score_unif by lia. rewrite (sumn_ext 2 _ (fun _ => 0)); [rewrite sumn_const; ring|]. intros i _. rewrite (sumn_ext 2 _ (fun _ => 0)); [rewrite sumn_const; ring|]. intros j _. rewrite sumn_const. simpl INR. field.
Qed.
Lemma C101_unrounded_l :
forall M D p y x h tm t g, (0 < M)%nat -> 0 < p -> orders (D * D) M g tm -> adds t (D * D) ->
  let id := fun r : R => r in let pw v := vpow v p in
  let obs := map (fun k => Fin (y k)) (seq 0 D) in let rows n f := map (fun i => map (fun k => Fin (f i k)) (seq 0 D)) (seq 0 n) in
  vs_nrg_arr_r id pw tm t M D y x h = vs_score D h p M (fun _ => / INR M) y x /\ vs_nrg_k_r id pw M D y x h = vs_score D h p M (fun _ => / INR M) y x /\
  vs_nrg_k (fun a => a) obs (rows M x) (rows D h) p = Fin (vs_nrg_k_r id pw M D y x h).
Proof.
intros M D p y x h tm t g HM Hp O A id pw obs rows. change id with idr. clear id.
assert (0 < D)%nat as HD. { destruct D as [|D]; [|lia]. simpl in A. pose proof (height_leaves t) as Q. apply Permutation_length in A. rewrite A in Q. simpl in Q. lia. }
assert (vs_nrg_k_r idr pw M D y x h = vs_score D h p M (fun _ => / INR M) y x) as K.
{ rewrite vs_score_unif by exact HM. unfold vs_nrg_k_r. rewrite lsum_id, Rsum_flat_map. apply Rsum_map_ext. intros i _. apply Rsum_map_ext. intros j _. cbv zeta. rewrite lsum_id. unfold rmul, rdiv, rsub, idr. unfold vgram, sumn, pw. ring. }
split; [|split; [exact K|]].
- rewrite vs_score_unif by exact HM. unfold vs_nrg_arr_r. rewrite (tsum_idr_ext t (D * D) _ (fun k => (fun i j => h i j * (vgram p y i j - sumn M (fun m => vgram p (x m) i j) / INR M) ^ 2) (k / D)%nat (k mod D)%nat) A); [now apply (sumn_grid D D (fun i j => h i j * (vgram p y i j - sumn M (fun m => vgram p (x m) i j) / INR M) ^ 2))|].
  intros k Hk. cbv zeta. destruct (O k Hk) as [Ak _]. rewrite (tsum_idr_ext (tm k) M _ (fun m => vgram p (x m) (k / D)%nat (k mod D)%nat) Ak) by (intros; unfold rsub, idr, vgram, pw; now rewrite Rabs_minus_sym).
  unfold rmul, rdiv, rsub, idr. unfold pw. rewrite (Rabs_minus_sym (y (k mod D)%nat)). change (vpow (Rabs (y (k / D)%nat - y (k mod D)%nat)) p) with (vgram p y (k / D)%nat (k mod D)%nat). ring.
- rewrite K. exact (vs_nrg_k_real M D (fun k => Fin (y k)) (fun i k => Fin (x i k)) (fun i k => Fin (h i k)) y x h p HM Hp ltac:(auto) ltac:(auto) ltac:(auto) (fun a => a) ltac:(auto)).
Qed.
