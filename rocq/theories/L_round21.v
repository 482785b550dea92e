(** Rounding errors of the fair estimator of the variogram score. *)
From Coq Require Import Reals List ZArith Permutation Lia Lra Psatz.
From Flocq Require Import Core.
From Verif Require Import Num L_crps_row L_crps_real L_crps_omit L_energy L_vario.
From Verif Require Export L_round20 S_round10 S_round9 S_round7 S_round.
Import ListNotations.
Open Scope R_scope.

Local Notation fmt := (generic_format radix2 (FLT_exp (-1074) 53)).
Local Notation bp := (bpow radix2).

Lemma sqdc k K a A b B c C : calc 0 100 c C -> calc k 367 a A -> calc k 367 b B -> (2 * k + 4 <= K)%nat ->
  let d := b64 (a - b) in appr K 0 (b64 (c * b64 (d * d))) (C * (A - B) ^ 2) (C * (A + B) ^ 2).
Proof.
  intros Co Ca Cb L d. assert (appr (S k) 0 d (A - B) (A + B)) as H.
  { apply (appr_le (S k) (S k) (0 + 0) 0); [lia|lra|]. apply appr_sub; [apply (appr_of_calc _ 367), Ca|apply (appr_of_calc _ 367), Cb]. }
  assert (big 419 (Rabs d)) as Bd. { apply big_b64; [lia|]. destruct Ca as (Fa & _ & _ & Ba). destruct Cb as (Fb & _ & _ & Bb). now apply (big_diff 367). }
  assert (big 838 (Rabs (d * d))) as Bq by (apply (big_mul 419 419); [lia|lia|exact Bd|exact Bd]).
  pose proof (appr_mul _ _ 838 _ _ _ _ _ _ ltac:(lia) H H Bq) as Q. pose proof (appr_of_calc _ _ _ _ Co) as Ho.
  apply (appr_le (S (0 + S (S k + S k))) K 0 0); [lia|lra|]. replace ((A - B) ^ 2) with ((A - B) * (A - B)) by ring. replace ((A + B) ^ 2) with ((A + B) * (A + B)) by ring.
  apply (appr_mul _ _ 938); [lia|exact Ho|exact Q|]. apply (big_mul 100 838); [lia|lia| |apply big_b64; [lia|exact Bq]]. destruct Co as (_ & P & W & Bo). rewrite Rabs_pos_eq; [exact Bo|now apply (big_ge0 100)].
Qed.
Lemma Rsum_prod {A B} (f : A -> B -> R) l l' : Rsum (map (fun z => f (fst z) (snd z)) (list_prod l l')) = Rsum (map (fun a => Rsum (map (f a) l')) l).
Proof. induction l as [|a l IH]; [reflexivity|]. simpl. rewrite map_app, Rsum_app, IH, map_map. reflexivity. Qed.
Lemma Rsum_km (f : nat -> nat -> R) L l : Rsum (map (fun z => f (fst z) (snd z)) (flat_map (fun k => map (pair k) (L k)) l)) = Rsum (map (fun k => Rsum (map (f k) (L k))) l).
Proof. induction l as [|a l IH]; [reflexivity|]. simpl. rewrite map_app, Rsum_app, IH, map_map. reflexivity. Qed.
Definition ijs D := list_prod (seq 0 D) (seq 0 D).
Definition kms M := flat_map (fun k => map (pair k) (seq (k + 1) (M - (k + 1)))) (seq 0 M).
Lemma ijs_len D : length (ijs D) = (D * D)%nat. Proof. unfold ijs. now rewrite prod_length, seq_length. Qed.
Lemma kms_len M : length (kms M) = (M * (M - 1) / 2)%nat.
Proof.
  pose proof (tri_len M (fun _ _ => 0) M (le_n M)) as H. assert (forall l, length (flat_map (fun k => map (pair k) (seq (k + 1) (M - (k + 1)))) l) = length (flat_map (fun i => map (fun _ : nat => 0) (seq (i + 1) (M - (i + 1)))) l)) as E.
  { induction l as [|a l IH]; [reflexivity|]. simpl. rewrite !app_length, !map_length, IH. reflexivity. }
  unfold kms. rewrite E. apply Nat.div_unique with 0%nat; [lia|]. cbv beta in H. rewrite H, Nat.add_0_r. f_equal. lia.
Qed.
Lemma ijs_in D i j : In (i, j) (ijs D) -> (i < D)%nat /\ (j < D)%nat.
Proof. unfold ijs. rewrite in_prod_iff, !in_seq. lia. Qed.
Lemma kms_in M k m : In (k, m) (kms M) -> (k < M)%nat /\ (m < M)%nat /\ k <> m.
Proof. unfold kms. rewrite in_flat_map. intros (a & Ha & H). apply in_map_iff in H. destruct H as (b & E & Hb). injection E as -> ->. apply in_seq in Ha, Hb. lia. Qed.
Lemma sum_ijs D (f : nat -> nat -> R) : Rsum (map (fun ij => f (fst ij) (snd ij)) (ijs D)) = sumn D (fun i => sumn D (f i)).
Proof. apply Rsum_prod. Qed.

Section V.
Variables (e n q M D : nat) (p : R) (pw : R -> R) (y : nat -> R) (x h : nat -> nat -> R).
Hypothesis HE : vgens64 e M D y x.
Hypothesis HP : pow64 e n p pw.
Hypothesis Hp : 0 < p <= INR q.
Hypothesis Hn : (Z.of_nat n <= 2 ^ 52)%Z.
Hypothesis He : (e * q <= 340)%nat.
Hypothesis Hh : forall i j, (i < D)%nat -> (j < D)%nat -> wt64 (h i j).
Hypothesis H2 : (1 < M)%nat.
Lemma cy i j : (i < D)%nat -> (j < D)%nat -> calc (n + q) 367 (pw (Rabs (rsub b64 (y i) (y j)))) (vgram p y i j).
Proof. intros Hi Hj. apply (calc_le (n + q) _ 341); [lia|lia|]. eapply vg_y; eassumption. Qed.
Lemma cx m i j : (m < M)%nat -> (i < D)%nat -> (j < D)%nat -> calc (n + q) 367 (pw (Rabs (rsub b64 (x m i) (x m j)))) (vgram p (x m) i j).
Proof. intros Hm Hi Hj. apply (calc_le (n + q) _ 341); [lia|lia|]. eapply vg_x; eassumption. Qed.
Let K := (2 * (n + q) + 4)%nat.
Let D2 := (D * D)%nat.
Let vd u v i j := h i j * (vgram p u i j - vgram p v i j) ^ 2.
Let vs u v i j := h i j * (vgram p u i j + vgram p v i j) ^ 2.
Definition sqa (u v : nat -> R) k := let d := rsub b64 (pw (Rabs (rsub b64 (u (k mod D)%nat) (u (k / D)%nat)))) (pw (Rabs (rsub b64 (v (k mod D)%nat) (v (k / D)%nat)))) in rmul b64 (h (k / D)%nat (k mod D)%nat) (rmul b64 d d).
Lemma inner u v t : (forall i j, (i < D)%nat -> (j < D)%nat -> calc (n + q) 367 (pw (Rabs (rsub b64 (u i) (u j)))) (vgram p u i j)) ->
  (forall i j, (i < D)%nat -> (j < D)%nat -> calc (n + q) 367 (pw (Rabs (rsub b64 (v i) (v j)))) (vgram p v i j)) -> adds t D2 ->
  appr (K + height t) 0 (tsum b64 t (sqa u v)) (vdist D h p u v) (vplus D h p u v).
Proof.
  clear HE HP Hp Hn He H2. intros Hu Hv A. assert (0 < D)%nat as HD. { unfold D2 in A. destruct D as [|D0]; [|lia]. apply Permutation_length in A. simpl in A. destruct t as [i|a b]; [discriminate A|]. simpl in A. rewrite app_length in A. assert (forall t, (0 < length (leaves t))%nat) as G by (clear; induction t; simpl; [lia|rewrite app_length; lia]). specialize (G a). lia. }
  change (vdist D h p u v) with (sumn D (fun i => sumn D (vd u v i))). change (vplus D h p u v) with (sumn D (fun i => sumn D (vs u v i))). rewrite <- (sumn_grid D D (vd u v)), <- (sumn_grid D D (vs u v)) by lia.
  rewrite <- (Rmult_0_r (INR (D * D))). apply tsum_an; [exact A|]. intros k Hk.
  assert (k / D < D)%nat as Hi by (apply Nat.div_lt_upper_bound; lia). assert (k mod D < D)%nat as Hj by (apply Nat.mod_upper_bound; lia).
  unfold sqa, vd, vs. apply (sqdc (n + q)); [now apply oow, Hh| | |unfold K; lia].
  - rewrite vg_sym. now apply Hu.
  - rewrite vg_sym. now apply Hv.
Qed.
Lemma inner0 u t : adds t D2 -> tsum b64 t (sqa u u) = 0.
Proof. intros A. apply tsum_zl. intros k _. unfold sqa. unfold rsub at 1 4. rewrite Rminus_eq_0, b64_0. unfold rmul. now rewrite Rmult_0_l, b64_0, Rmult_0_r, b64_0. Qed.
Let fe : INR (M * (M - 1)) = INR M * (INR M - 1). Proof. rewrite mult_INR, minus_INR by lia. reflexivity. Qed.
Let M2 : 2 <= INR M. Proof. apply (le_INR 2). lia. Qed.
Let fin_eq a b : a / INR M - / 2 * (b / INR (M * (M - 1))) = a / INR M - b / (2 * INR M * (INR M - 1)).
Proof. rewrite fe. field. lra. Qed.
Lemma fair_arr_err ta tb t1 t2 g : orders M D2 g ta -> orders (M * M) D2 g tb -> adds t1 M -> adds t2 (M * M) ->
  appr (K + g + Nat.max (height t1) (height t2) + 3) 3 (vs_fair_arr_r b64 pw ta tb t1 t2 M D y x h) (k_fair M (vs_err D h p y x) (vs_dist D h p x)) (vs_fair_size D h p M y x).
Proof.
  intros Oa Ob A1 A2. unfold vs_fair_arr_r. cbv zeta. set (G := (K + g + Nat.max (height t1) (height t2))%nat).
  assert (appr G 0 (tsum b64 t1 (fun m => tsum b64 (ta m) (sqa (x m) y))) (sumn M (vs_err D h p y x)) (sumn M (fun i => vplus D h p (x i) y))) as E1.
  { apply (appr_le (K + g + height t1) G 0 0); [unfold G; lia|lra|]. rewrite <- (Rmult_0_r (INR M)). apply tsum_an; [exact A1|]. intros m Hm. destruct (Oa m Hm) as [Am Lm]. apply (appr_le (K + height (ta m)) _ 0 0); [lia|lra|]. apply inner; [intros; now apply cx|intros; now apply cy|exact Am]. }
  assert (appr G 0 (tsum b64 t2 (fun r => tsum b64 (tb r) (sqa (x (r / M)%nat) (x (r mod M)%nat)))) (sumn M (fun i => sumn M (vs_dist D h p x i))) (sumn M (fun i => sumn M (vpair D h p x i)))) as E2.
  { rewrite <- (sumn_grid M M (vs_dist D h p x)), <- (sumn_grid M M (vpair D h p x)) by lia. apply (appr_le (K + g + height t2) G 0 0); [unfold G; lia|lra|]. rewrite <- (Rmult_0_r (INR (M * M))). apply tsum_an; [exact A2|]. intros r Hr. destruct (Ob r Hr) as [Am Lm].
    assert (r / M < M)%nat as Hi by (apply Nat.div_lt_upper_bound; lia). assert (r mod M < M)%nat as Hj by (apply Nat.mod_upper_bound; lia). unfold vpair. destruct (Nat.eqb_spec (r / M) (r mod M)) as [->|N].
    - rewrite inner0 by exact Am. rewrite vs_dist_refl. apply appr_0.
    - apply (appr_le (K + height (tb r)) _ 0 0); [lia|lra|]. apply inner; [intros; now apply cx|intros; now apply cx|exact Am]. }
  apply (appr_div G 0 M) in E1; [|lia]. apply (appr_div G 0 (M * (M - 1))) in E2; [|nia]. apply (appr_scal _ _ (1 / 2)) in E2; [|lra].
  unfold k_fair, vs_fair_size. rewrite <- fin_eq.
  replace (sumn M (fun i => vplus D h p (x i) y) / INR M + sumn M (fun i => sumn M (vpair D h p x i)) / (2 * INR M * (INR M - 1))) with (sumn M (fun i => vplus D h p (x i) y) / INR M + 1 / 2 * (sumn M (fun i => sumn M (vpair D h p x i)) / INR (M * (M - 1)))) by (rewrite fe; field; lra).
  replace (/ 2) with (1 / 2) by field.
  apply (appr_le (S (S (S G))) _ ((0 / INR M + 1) + (1 / 2 * (0 / INR (M * (M - 1)) + 1) + 1))); [unfold G; lia|unfold Rdiv; rewrite !Rmult_0_l; lra|].
  apply appr_sub; [|exact E2]. apply (appr_le (S G) _ (0 / INR M + 1) (0 / INR M + 1)); [lia|lra|exact E1].
Qed.
Lemma fair_k_err : appr (K + Nat.max M (M * (M - 1) / 2) * D2 + 3) 3 (vs_fair_k_r b64 pw M D y x h) (k_fair M (vs_err D h p y x) (vs_dist D h p x)) (vs_fair_size D h p M y x).
Proof.
  unfold vs_fair_k_r. cbv zeta. fold (ijs D). fold (kms M). set (G := (K + Nat.max M (M * (M - 1) / 2) * D2)%nat).
  set (e1 := lsum b64 (map _ (list_prod (seq 0 M) (ijs D)))). set (e2 := lsum b64 (map _ (list_prod (kms M) (ijs D)))).
  assert (appr G 0 e1 (sumn M (vs_err D h p y x)) (sumn M (fun i => vplus D h p (x i) y))) as E1.
  { replace (sumn M (vs_err D h p y x)) with (Rsum (map (fun z => vd (x (fst z)) y (fst (snd z)) (snd (snd z))) (list_prod (seq 0 M) (ijs D)))) by (rewrite (Rsum_prod (fun k ij => vd (x k) y (fst ij) (snd ij))); apply Rsum_map_ext; intros k _; apply (sum_ijs D (vd (x k) y))).
    replace (sumn M (fun i => vplus D h p (x i) y)) with (Rsum (map (fun z => vs (x (fst z)) y (fst (snd z)) (snd (snd z))) (list_prod (seq 0 M) (ijs D)))) by (rewrite (Rsum_prod (fun k ij => vs (x k) y (fst ij) (snd ij))); apply Rsum_map_ext; intros k _; apply (sum_ijs D (vs (x k) y))).
    apply (appr_le (K + length (list_prod (seq 0 M) (ijs D))) G (INR (length (list_prod (seq 0 M) (ijs D))) * 0) 0); [rewrite prod_length, seq_length, ijs_len; unfold G, D2; nia|lra|].
    apply lsum_appr; [lra|]. intros [k [i j]] H. apply in_prod_iff in H. destruct H as [Hk H]. apply in_seq in Hk. apply ijs_in in H. destruct H as [Hi Hj]. cbn [fst snd].
    apply (sqdc (n + q)); [now apply oow, Hh|apply cx; lia|now apply cy|unfold K; lia]. }
  assert (appr G 0 e2 (sumn M (fun i => sumn M (vs_dist D h p x i))) (sumn M (fun i => sumn M (vpair D h p x i)))) as E2.
  { replace (sumn M (fun i => sumn M (vs_dist D h p x i))) with (Rsum (map (fun z => 2 * vd (x (fst (fst z))) (x (snd (fst z))) (fst (snd z)) (snd (snd z))) (list_prod (kms M) (ijs D)))).
    2:{ rewrite (Rsum_prod (fun km ij => 2 * vd (x (fst km)) (x (snd km)) (fst ij) (snd ij))). rewrite <- (tri_gen M (vs_dist D h p x)) by (intros; first [apply vs_dist_refl|apply vs_dist_sym]). unfold sumn. unfold kms. rewrite <- (Rsum_km (fun i j => 2 * vs_dist D h p x i j)).
        apply Rsum_map_ext. intros [k m] _. cbn [fst snd]. rewrite (sum_ijs D (fun i j => 2 * vd (x k) (x m) i j)). apply sumn2_scal. }
    replace (sumn M (fun i => sumn M (vpair D h p x i))) with (Rsum (map (fun z => 2 * vs (x (fst (fst z))) (x (snd (fst z))) (fst (snd z)) (snd (snd z))) (list_prod (kms M) (ijs D)))).
    2:{ rewrite (Rsum_prod (fun km ij => 2 * vs (x (fst km)) (x (snd km)) (fst ij) (snd ij))). rewrite <- (tri_gen M (vpair D h p x)).
        - unfold sumn. unfold kms. rewrite <- (Rsum_km (fun i j => 2 * vpair D h p x i j)).
          apply Rsum_map_ext. intros [k m] Hkm. apply kms_in in Hkm. cbn [fst snd]. rewrite (sum_ijs D (fun i j => 2 * vs (x k) (x m) i j)). rewrite sumn2_scal. unfold vpair. destruct (Nat.eqb_spec k m); [tauto|reflexivity].
        - intros i j. unfold vpair. rewrite (Nat.eqb_sym i j). destruct (j =? i)%nat; [reflexivity|]. unfold vplus. apply sumn_ext; intros; apply sumn_ext; intros. f_equal. f_equal. ring.
        - intros i. unfold vpair. now rewrite Nat.eqb_refl. }
    apply (appr_le (K + length (list_prod (kms M) (ijs D))) G (INR (length (list_prod (kms M) (ijs D))) * 0) 0); [rewrite prod_length, kms_len, ijs_len; unfold G, D2; nia|lra|].
    apply lsum_appr; [lra|]. intros [[k m] [i j]] H. apply in_prod_iff in H. destruct H as [Hk H]. apply kms_in in Hk. apply ijs_in in H. destruct H as [Hi Hj]. cbn [fst snd].
    unfold vd, vs. rewrite <- !Rmult_assoc. apply (sqdc (n + q)); [|apply cx; lia|apply cx; lia|unfold K; lia]. unfold rmul. rewrite Rmult_comm. apply calc_double. now apply oow, Hh. }
  apply (appr_div G 0 M) in E1; [|lia]. apply (appr_scal _ _ (1 / 2)) in E2; [|lra]. apply (appr_div _ _ (M * (M - 1))) in E2; [|nia].
  unfold k_fair, vs_fair_size.
  replace (sumn M (fun i => sumn M (vs_dist D h p x i)) / (2 * INR M * (INR M - 1))) with (1 / 2 * sumn M (fun i => sumn M (vs_dist D h p x i)) / INR (M * (M - 1))) by (rewrite fe; field; lra).
  replace (sumn M (fun i => sumn M (vpair D h p x i)) / (2 * INR M * (INR M - 1))) with (1 / 2 * sumn M (fun i => sumn M (vpair D h p x i)) / INR (M * (M - 1))) by (rewrite fe; field; lra).
  apply (appr_le (S (S (S G))) _ ((0 / INR M + 1) + ((1 / 2 * 0 + 1) / INR (M * (M - 1)) + 1))); [unfold G; lia| |].
  - assert ((1 / 2 * 0 + 1) / INR (M * (M - 1)) <= 1); [|unfold Rdiv at 1; rewrite Rmult_0_l; lra]. rewrite fe. apply Rle_div_l; nra.
  - apply appr_sub; [|exact E2]. apply (appr_le (S G) _ (0 / INR M + 1) (0 / INR M + 1)); [lia|lra|exact E1].
Qed.
End V.
