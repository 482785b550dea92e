(** Rounding errors of the variogram score. *)
From Coq Require Import Reals List ZArith Permutation Lia Lra Psatz.
From Flocq Require Import Core.
From Verif Require Import Num L_crps_row L_crps_real L_crps_omit.
From Verif Require Export L_round19 S_round9 S_round7 S_round.
Import ListNotations.
Open Scope R_scope.

Local Notation fmt := (generic_format radix2 (FLT_exp (-1074) 53)).
Local Notation bp := (bpow radix2).

Lemma within_big52 k p x X : (Z.of_nat k <= 2 ^ 52)%Z -> within k x X -> big p X -> big (p + 1) x.
Proof.
  intros Hk [H1 H2] [->|B]; [left; lra|right]. eapply Rle_trans; [|exact H1].
  assert (/ 2 <= (1 - u64) ^ k) as Q.
  { eapply Rle_trans; [|apply bern]. assert (INR k * u64 <= / 2); [|lra]. rewrite u64_bp, INR_IZR_INZ.
    apply Rle_trans with (bp 52 * bp (-53)); [|rewrite <- bpow_plus; right; reflexivity]. apply Rmult_le_compat_r; [apply bpow_ge_0|].
    rewrite <- (IZR_Zpower radix2) by lia. apply IZR_le. exact Hk. }
  replace (- (p + 1))%Z with (- p + -1)%Z by lia. rewrite bpow_plus. change (bp (-1)) with (/ 2). apply Rmult_le_compat; [apply bpow_ge_0|lra|exact B|exact Q].
Qed.
Section Pow.
Variables (p : R) (q : nat).
Hypothesis Hp : 0 < p <= INR q.
Lemma vpow_0 : vpow 0 p = 0. Proof. unfold vpow. destruct (Req_EM_T 0 0); [reflexivity|tauto]. Qed.
Lemma vpow_pos v : 0 < v -> vpow v p = Rpower v p. Proof. intros H. unfold vpow. destruct (Req_EM_T v 0); [lra|reflexivity]. Qed.
Lemma vpow_ge0 v : 0 <= vpow v p. Proof. unfold vpow. destruct (Req_EM_T v 0); [lra|]. left. apply exp_pos. Qed.
Lemma low_pow c : 0 < c <= 1 -> c ^ q <= Rpower c p.
Proof.
  intros H. rewrite <- (Rpower_pow q c) by lra. unfold Rpower. apply exp_le. assert (ln c <= 0). { rewrite <- ln_1. destruct (Rle_lt_or_eq_dec c 1) as [L| ->]; [lra|left; apply ln_increasing; lra|lra]. } nra.
Qed.
Lemma high_pow c : 1 <= c -> Rpower c p <= c ^ q.
Proof.
  intros H. rewrite <- (Rpower_pow q c) by lra. unfold Rpower. apply exp_le. assert (0 <= ln c). { rewrite <- ln_1. destruct (Rle_lt_or_eq_dec 1 c H) as [L|<-]; [left; apply ln_increasing; lra|lra]. } nra.
Qed.
Lemma vpow_within v v' : 0 <= v -> within 1 v' v -> within q (vpow v' p) (vpow v p).
Proof.
  intros Hv [H1 H2]. pose proof u64_pos as U. rewrite pow_1 in H1, H2. destruct (Rle_lt_or_eq_dec 0 v Hv) as [P|<-].
  - assert (0 < v * (1 - u64)) as P1 by nra. rewrite !vpow_pos by lra. split.
    + eapply Rle_trans; [|apply Rle_Rpower_l; [lra|split; [exact P1|exact H1]]]. rewrite <- Rpower_mult_distr by lra. apply Rmult_le_compat_l; [left; apply exp_pos|]. apply low_pow. lra.
    + eapply Rle_trans; [apply Rle_Rpower_l; [lra|split; [|exact H2]]; lra|]. rewrite <- Rpower_mult_distr by lra. apply Rmult_le_compat_l; [left; apply exp_pos|]. apply high_pow. lra.
  - assert (v' = 0) as -> by lra. rewrite vpow_0. unfold within. lra.
Qed.
Lemma vpow_big e v : big (Z.of_nat e) v -> big (Z.of_nat (e * q)) (vpow v p).
Proof.
  intros [->|B]; [left; apply vpow_0|right]. pose proof (bpow_gt_0 radix2 (- Z.of_nat e)) as P. rewrite vpow_pos by lra.
  assert (bp (- Z.of_nat (e * q)) = bp (- Z.of_nat e) ^ q) as E.
  { clear. induction q as [|k IH]; [rewrite Nat.mul_0_r; reflexivity|]. rewrite Nat.mul_succ_r. cbn [pow]. rewrite <- IH, <- bpow_plus. f_equal. lia. }
  rewrite E. assert (bp (- Z.of_nat e) <= 1) as L by (change 1 with (bp 0); apply bpow_le; lia). eapply Rle_trans; [apply low_pow; lra|]. apply Rle_Rpower_l; [lra|]. lra.
Qed.
(** the computed variogram *)
Lemma pd_calc e n pw a b : pow64 e n p pw -> (Z.of_nat n <= 2 ^ 52)%Z -> (e * q <= 340)%nat -> (e <= 340)%nat -> is64 a -> is64 b -> apart e a b -> calc (n + q) 341 (pw (Rabs (rsub b64 a b))) (vpow (Rabs (a - b)) p).
Proof.
  intros HP Hn Le Le' Fa Fb A. apply is64_fmt in Fa, Fb.
  assert (within 1 (Rabs (b64 (a - b))) (Rabs (a - b)) /\ big (Z.of_nat e) (Rabs (b64 (a - b)))) as [W B].
  { apply apart_bigp in A. rewrite <- b64_abs. split; [|apply big_rnd; [lia|exact A]]. apply within_rnd; [apply Rabs_pos|apply Rabs_pos|apply within_0|]. apply (big_err (Z.of_nat e)); [lia|exact A]. }
  unfold rsub. destruct (HP (Rabs (b64 (a - b)))) as [F Wp]; [apply is64_fmt, fmt_abs, b64_fmt|apply Rabs_pos|apply big_apart; rewrite Rabs_Rabsolu; exact B|].
  split; [now apply is64_fmt|]. split; [apply vpow_ge0|]. split; [apply (within_trans n q _ _ _ Wp); apply vpow_within; [apply Rabs_pos|exact W]|].
  change 341%Z with (340 + 1)%Z. apply (within_big52 n 340 _ _ Hn Wp). apply (big_le (Z.of_nat (e * q))); [lia|]. now apply vpow_big.
Qed.
End Pow.
Lemma sqd k K a A b B h : wt64 h -> calc k 367 a A -> calc k 367 b B -> (2 * k + 4 <= K)%nat ->
  let d := b64 (a - b) in appr K 0 (b64 (h * b64 (d * d))) (h * (A - B) ^ 2) (h * (A + B) ^ 2).
Proof.
  intros Hh Ca Cb L d. assert (appr (S k) 0 d (A - B) (A + B)) as H.
  { apply (appr_le (S k) (S k) (0 + 0) 0); [lia|lra|]. apply appr_sub; [apply (appr_of_calc _ 367), Ca|apply (appr_of_calc _ 367), Cb]. }
  assert (big 419 (Rabs d)) as Bd. { apply big_b64; [lia|]. destruct Ca as (Fa & _ & _ & Ba). destruct Cb as (Fb & _ & _ & Bb). now apply (big_diff 367). }
  assert (big 838 (Rabs (d * d))) as Bq by (apply (big_mul 419 419); [lia|lia|exact Bd|exact Bd]).
  pose proof (appr_mul _ _ 838 _ _ _ _ _ _ ltac:(lia) H H Bq) as Q. pose proof (oow h Hh) as Co. pose proof (appr_of_calc _ _ _ _ Co) as Ho.
  apply (appr_le (S (0 + S (S k + S k))) K 0 0); [lia|lra|]. replace ((A - B) ^ 2) with ((A - B) * (A - B)) by ring. replace ((A + B) ^ 2) with ((A + B) * (A + B)) by ring.
  apply (appr_mul _ _ 938); [lia|exact Ho|exact Q|]. apply (big_mul 100 838); [lia|lia| |apply big_b64; [lia|exact Bq]]. destruct Co as (_ & P & _ & Bo). now rewrite Rabs_pos_eq.
Qed.
Lemma flat_pairs {A} (f : nat -> nat -> A) D : flat_map (fun i => map (f i) (seq 0 D)) (seq 0 D) = map (fun ij => f (fst ij) (snd ij)) (flat_map (fun i => map (pair i) (seq 0 D)) (seq 0 D)).
Proof. generalize (seq 0 D) at 2 4. intros l. induction l as [|i l IH]; [reflexivity|]. simpl. rewrite map_app, <- IH, map_map. reflexivity. Qed.
Lemma pairs_len D l : length (flat_map (fun i : nat => map (pair i) (seq 0 D)) l) = (length l * D)%nat.
Proof. induction l as [|i l IH]; [reflexivity|]. simpl. rewrite app_length, map_length, seq_length, IH. reflexivity. Qed.
Section V.
Variables (e n q M D : nat) (p : R) (pw : R -> R) (y : nat -> R) (x h : nat -> nat -> R).
Hypothesis HE : vgens64 e M D y x.
Hypothesis HP : pow64 e n p pw.
Hypothesis Hp : 0 < p <= INR q.
Hypothesis Hn : (Z.of_nat n <= 2 ^ 52)%Z.
Hypothesis He : (e * q <= 340)%nat.
Hypothesis Hh : forall i j, (i < D)%nat -> (j < D)%nat -> wt64 (h i j).
Let HM : (0 < M)%nat. Proof. apply HE. Qed.
Let LM : (Z.of_nat M <= 2 ^ 26)%Z. Proof. apply HE. Qed.
Let He' : (e <= 340)%nat.
Proof. assert (0 < q)%nat by (destruct q; [simpl in Hp; lra|lia]). nia. Qed.
Lemma vg_y i j : (i < D)%nat -> (j < D)%nat -> calc (n + q) 341 (pw (Rabs (rsub b64 (y i) (y j)))) (vgram p y i j).
Proof. intros Hi Hj. destruct HE as (_ & _ & Fy & _ & Ay & _). now apply (pd_calc p q Hp e); auto. Qed.
Lemma vg_x m i j : (m < M)%nat -> (i < D)%nat -> (j < D)%nat -> calc (n + q) 341 (pw (Rabs (rsub b64 (x m i) (x m j)))) (vgram p (x m) i j).
Proof. intros Hm Hi Hj. destruct HE as (_ & _ & _ & Fx & _ & Ax). now apply (pd_calc p q Hp e); auto. Qed.
Lemma calc_up k l r s c X : (k <= l)%nat -> (r <= s)%Z -> calc k r c X -> calc l s c X.
Proof. intros L L' (F & P & W & B). split; [exact F|]. split; [exact P|]. split; [now apply (within_le k)|now apply (big_le r)]. Qed.
Lemma vg_sym u i j : vgram p u i j = vgram p u j i. Proof. unfold vgram. now rewrite Rabs_minus_sym. Qed.
Definition VX i j := sumn M (fun m => vgram p (x m) i j) / INR M.
Lemma vs_arr_err tm t g : orders (D * D) M g tm -> adds t (D * D) ->
  appr (2 * (n + q + g) + 6 + height t) 0 (vs_nrg_arr_r b64 pw tm t M D y x h) (sumn D (fun i => sumn D (fun j => h i j * (vgram p y i j - VX i j) ^ 2))) (sumn D (fun i => sumn D (fun j => h i j * (vgram p y i j + VX i j) ^ 2))).
Proof.
  intros O A. unfold vs_nrg_arr_r. cbv zeta. destruct (Nat.eq_dec D 0) as [Z|ZD].
  { exfalso. subst D. simpl in A. pose proof (Permutation_length A) as Q. simpl in Q. destruct t as [i|a b]; [discriminate Q|]. simpl in Q. rewrite app_length in Q. assert (forall t, (0 < length (leaves t))%nat) as G by (clear; induction t; simpl; [lia|rewrite app_length; lia]). specialize (G a). lia. }
  rewrite <- (sumn_grid D D (fun i j => h i j * (vgram p y i j - VX i j) ^ 2)) by lia.
  rewrite <- (sumn_grid D D (fun i j => h i j * (vgram p y i j + VX i j) ^ 2)) by lia. rewrite <- (Rmult_0_r (INR (D * D))). apply tsum_an; [exact A|]. intros k Hk.
  assert (k / D < D)%nat as Hi by (apply Nat.div_lt_upper_bound; lia). assert (k mod D < D)%nat as Hj by (apply Nat.mod_upper_bound; lia). destruct (O k Hk) as [Ak Lk].
  apply (sqd (n + q + g + 1)); [now apply Hh| | |lia].
  - apply (calc_up (n + q) _ 341); [lia|lia|]. rewrite vg_sym. now apply vg_y.
  - apply (calc_up (n + q + height (tm k) + 1) _ 367); [lia|lia|]. apply (gdiv M _ 341 26); try lia. apply (tsum_n (tm k) M (n + q) 341); [lia|exact Ak|]. intros m Hm. rewrite vg_sym. now apply vg_x.
Qed.
Lemma vs_k_err : appr (2 * (n + q + M) + 6 + D * D) 0 (vs_nrg_k_r b64 pw M D y x h) (sumn D (fun i => sumn D (fun j => h i j * (vgram p y i j - VX i j) ^ 2))) (sumn D (fun i => sumn D (fun j => h i j * (vgram p y i j + VX i j) ^ 2))).
Proof.
  unfold vs_nrg_k_r. cbv zeta. rewrite flat_pairs. set (l := flat_map (fun i => map (pair i) (seq 0 D)) (seq 0 D)).
  assert (length l = (D * D)%nat) as Ll by (unfold l; rewrite pairs_len, seq_length; reflexivity).
  assert (forall F : nat -> nat -> R, sumn D (fun i => sumn D (F i)) = Rsum (map (fun ij => F (fst ij) (snd ij)) l)) as S by (intros F; unfold l; rewrite <- flat_pairs, Rsum_flat_map; reflexivity).
  rewrite (S (fun i j => h i j * (vgram p y i j - VX i j) ^ 2)), (S (fun i j => h i j * (vgram p y i j + VX i j) ^ 2)), <- Ll. rewrite <- (Rmult_0_r (INR (length l))). apply lsum_appr; [lra|].
  intros [i j] H. apply in_flat_map in H. destruct H as (i' & Hi & H). apply in_map_iff in H. destruct H as (j' & E & Hj). injection E as -> ->. apply in_seq in Hi, Hj. cbn [fst snd].
  apply (sqd (n + q + M + 1)); [apply Hh; lia| | |lia].
  - apply (calc_up (n + q) _ 341); [lia|lia|]. apply vg_y; lia.
  - apply (gdiv M _ 341 26); try lia. apply (lsum_n M HM); [lia|]. intros m Hm. apply vg_x; lia.
Qed.
End V.
Lemma vs_nonneg_arr M D pw y x h tm t : (forall i j, (i < D)%nat -> (j < D)%nat -> wt64 (h i j)) -> adds t (D * D) -> 0 <= vs_nrg_arr_r b64 pw tm t M D y x h.
Proof.
  intros Hh A. unfold vs_nrg_arr_r. apply tsum_ge0. intros k Hk. apply (Permutation_in k A), in_seq in Hk. unfold rmul. apply b64_ge0, Rmult_le_pos; [|apply b64_ge0, Rle_0_sqr].
  destruct (oow (h (k / D)%nat (k mod D)%nat)) as (_ & P & _); [|exact P]. apply Hh; [apply Nat.div_lt_upper_bound; lia|apply Nat.mod_upper_bound; lia].
Qed.
Lemma vs_nonneg_k M D pw y x h : (forall i j, (i < D)%nat -> (j < D)%nat -> wt64 (h i j)) -> 0 <= vs_nrg_k_r b64 pw M D y x h.
Proof.
  intros Hh. unfold vs_nrg_k_r. apply lsum_ge0. apply Forall_forall. intros v H. apply in_flat_map in H. destruct H as (i & Hi & H). apply in_map_iff in H. destruct H as (j & <- & Hj). apply in_seq in Hi, Hj. cbv zeta. unfold rmul. apply b64_ge0, Rmult_le_pos; [|apply b64_ge0, Rle_0_sqr].
  destruct (oow (h i j)) as (_ & P & _); [|exact P]. apply Hh; lia.
Qed.
