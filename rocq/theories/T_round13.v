(** Proofs of the rounding properties of the weighted energy scores (statements in P_round13.v). *)
From Coq Require Import Reals List ZArith Permutation Lia Lra Psatz Bool.
From Flocq Require Import Core.
From Verif Require Import Num L_crps_real L_crps_math L_crps_row L_crps_ens L_energy L_round6.
From Verif Require Export T_round4 T_round12 L_round19 S_round8 S_round7 S_round5 S_round.
Open Scope R_scope.

Local Notation bp := (bpow radix2).
Lemma height_leaves t : (height t < length (leaves t))%nat.
Proof. induction t as [i|a IHa b IHb]; simpl; [lia|]. rewrite app_length. lia. Qed.
Lemma height_adds t M : adds t M -> (height t < M)%nat.
Proof. intros H. pose proof (height_leaves t). apply Permutation_length in H. rewrite seq_length in H. lia. Qed.
Lemma height50 t M : adds t M -> (Z.of_nat M <= 2 ^ 26)%Z -> (Z.of_nat (height t) <= 2 ^ 50)%Z.
Proof. intros H L. apply height_adds in H. change (2 ^ 26)%Z with 67108864%Z in L. change (2 ^ 50)%Z with 1125899906842624%Z. lia. Qed.
Section W.
Variables (M D : nat) (y : nat -> R) (x : nat -> nat -> R) (ow : R) (fw : nat -> R) (t0 : stree).
Hypothesis HE : mvens64 M D y x.
Hypothesis HW : wts64 M fw.
Hypothesis Ho : wt64 ow.
Hypothesis A0 : adds t0 M.
Local Notation e := (es_err D y x).
Local Notation d := (es_dist D x).
Let HM : (0 < M)%nat. Proof. apply HE. Qed.
Let LM : (Z.of_nat M <= 2 ^ 26)%Z. Proof. apply HE. Qed.
Lemma w_e1 tn1 h i : orders M D h tn1 -> (Z.of_nat h <= 2 ^ 52)%Z -> (i < M)%nat -> calc (h / 2 + 3) 401 (norm_arr_r b64 (tn1 i) (rvsub b64 (x i) y)) (e i).
Proof. intros O Hh Hi. replace (h / 2 + 3)%nat with (h / 2 + 2 + 1)%nat by lia. apply (dist_calc M); auto; [now apply (order_norm M D h)|now apply half52]. Qed.
Lemma w_e2 tn2 h n : orders (M * M) D h tn2 -> (Z.of_nat h <= 2 ^ 52)%Z -> (n < M * M)%nat -> calc (h / 2 + 3) 401 (norm_arr_r b64 (tn2 n) (rvsub b64 (x (n / M)%nat) (x (n mod M)%nat))) (d (n / M)%nat (n mod M)%nat).
Proof.
  intros O Hh Hn. assert (n / M < M)%nat by (apply Nat.div_lt_upper_bound; lia). assert (n mod M < M)%nat by (apply Nat.mod_upper_bound; lia).
  replace (h / 2 + 3)%nat with (h / 2 + 2 + 1)%nat by lia. apply (pair_calc M D y); auto; [now apply (order_norm (M * M) D h)|now apply half52].
Qed.
Lemma ow_split : ow * k_wexact M (nw M fw) e d = ow * sumn M (fun i => nw M fw i * e i) - ow * (/ 2 * sumn M (fun i => sumn M (fun j => nw M fw i * nw M fw j * d i j))).
Proof. unfold k_wexact. ring. Qed.
Lemma owes_arr_err tn1 tn2 t1 t2 h : orders M D h tn1 -> orders (M * M) D h tn2 -> (Z.of_nat h <= 2 ^ 52)%Z -> adds t1 M -> adds t2 (M * M) ->
  Rabs (owes_arr_r b64 tn1 tn2 t0 t1 t2 M y x ow fw - ow * k_wexact M (nw M fw) e d) <= ((1 + u64) ^ (h / 2 + height t1 + height t2 + 2 * height t0 + 14) - 1) * (ow * k_wsize M (nw M fw) e d).
Proof.
  intros O1 O2 Hh A1 A2. rewrite ow_split. unfold k_wsize. rewrite (Rmult_plus_distr_l ow). pose proof (height50 t0 M A0 LM) as B0.
  pose proof (g1_arr M ow fw t0 (h / 2 + 3) e HM LM HW Ho A0 B0 (fun i => norm_arr_r b64 (tn1 i) (rvsub b64 (x i) y)) t1 A1 (fun i Hi => w_e1 tn1 h i O1 Hh Hi)) as C1.
  pose proof (g2_arr M ow fw t0 (h / 2 + 3) d HM LM HW Ho A0 B0 (fun n => norm_arr_r b64 (tn2 n) (rvsub b64 (x (n / M)%nat) (x (n mod M)%nat))) t2 A2 (fun n Hn => w_e2 tn2 h n O2 Hh Hn)) as C2.
  refine (calc_diff2 _ _ _ _ _ _ _ _ _ C1 C2 _). lia.
Qed.
Lemma owes_k_err n nrm : norm64 n D nrm -> (Z.of_nat n <= 2 ^ 52)%Z ->
  Rabs (owes_k_r b64 nrm t0 M y x ow fw - ow * k_wexact M (nw M fw) e d) <= ((1 + u64) ^ (n + M + M * (M - 1) / 2 + 2 * height t0 + 12) - 1) * (ow * k_wsize M (nw M fw) e d).
Proof.
  intros HN Hn. rewrite ow_split. unfold k_wsize. rewrite (Rmult_plus_distr_l ow). pose proof (height50 t0 M A0 LM) as B0.
  pose proof (g1_k M ow fw t0 (n + 1) e HM LM HW Ho A0 B0 (fun i => nrm (rvsub b64 (x i) y)) (fun i Hi => dist_calc M D y x n nrm i HE HN Hn Hi)) as C1.
  pose proof (g2_k M ow fw t0 (n + 1) d HM LM HW Ho A0 (es_dist_sym D x) (es_dist_refl D x) B0 (fun i j => nrm (rvsub b64 (x i) (x j))) (fun i j Hi Hj => pair_calc M D y x n nrm i j HE HN Hn Hi Hj)) as C2.
  refine (calc_diff2 _ _ _ _ _ _ _ _ _ C1 C2 _). lia.
Qed.
Local Notation u := (fun i => fw i / INR M).
Local Notation nx := (fun i => enorm D (x i)).
Hypothesis Hy : forall k, (k < D)%nat -> apart 400 (y k) 0.
Hypothesis Hx : forall i k, (i < M)%nat -> (k < D)%nat -> apart 400 (x i k) 0.
Lemma y_calc n nrm : norm64 n D nrm -> (Z.of_nat n <= 2 ^ 52)%Z -> calc (n + 1) 501 (rmul b64 (nrm y) ow) (ow * enorm D y).
Proof.
  intros HN Hn. rewrite Rmult_comm. replace (n + 1)%nat with (S (n + 0)) by lia. apply (calc_mul n 0 401 100 501); try lia; [|now apply oow]. apply nrm_calc0; auto. intros k Hk. split; [now apply HE|now apply Hy].
Qed.
Lemma x_calc n nrm i : norm64 n D nrm -> (Z.of_nat n <= 2 ^ 52)%Z -> (i < M)%nat -> calc (n + 1) 501 (rmul b64 (nrm (x i)) (fw i)) (enorm D (x i) * fw i).
Proof.
  intros HN Hn Hi. replace (n + 1)%nat with (S (n + 0)) by lia. apply (calc_mul n 0 401 100 501); try lia; [|now apply (ofw M fw HW)]. apply nrm_calc0; auto. intros k Hk. split; [destruct HE as (_ & _ & _ & Q & _); now apply Q|now apply Hx].
Qed.
Lemma x_sum : sumn M (fun i => fw i / INR M * enorm D (x i)) = sumn M (fun i => enorm D (x i) * fw i) / INR M.
Proof. rewrite <- sumn_div. apply sumn_ext. intros. unfold Rdiv. ring. Qed.
Lemma vres_arr_err tn1 tn2 tn3 ty ta t1 t2 h : orders M D h tn1 -> orders (M * M) D h tn2 -> orders M D h tn3 -> orders 1 D h (fun _ => ty) -> (Z.of_nat h <= 2 ^ 52)%Z -> adds ta M -> adds t1 M -> adds t2 (M * M) ->
  Rabs (vres_arr_r b64 tn1 tn2 tn3 ty t0 ta t1 t2 M y x ow fw - k_vr M ow u e d (enorm D y) nx) <= ((1 + u64) ^ (h / 2 + height t1 + height t2 + height ta + height t0 + 9) - 1) * k_vrsize M ow u e d (enorm D y) nx.
Proof.
  intros O1 O2 O3 Oy Hh Aa A1 A2. unfold k_vr, k_vrsize. rewrite x_sum, (sumn_div M (INR M) fw).
  pose proof (v1_arr M ow fw t0 (h / 2 + 3) e HM LM HW Ho (fun i => norm_arr_r b64 (tn1 i) (rvsub b64 (x i) y)) t1 A1 (fun i Hi => w_e1 tn1 h i O1 Hh Hi)) as C1.
  pose proof (v2_arr M fw t0 (h / 2 + 3) d HM LM HW (fun n => norm_arr_r b64 (tn2 n) (rvsub b64 (x (n / M)%nat) (x (n mod M)%nat))) t2 A2 (fun n Hn => w_e2 tn2 h n O2 Hh Hn)) as C2.
  pose proof (y_calc (h / 2 + 2) _ (order_norm 1 D h (fun _ => ty) 0 Oy ltac:(lia)) (half52 h Hh)) as Cy.
  assert (calc (h / 2 + height ta + 4) 527 (b64 (tsum b64 ta (fun i => rmul b64 (norm_arr_r b64 (tn3 i) (x i)) (fw i)) / INR M)) (sumn M (fun i => enorm D (x i) * fw i) / INR M)) as Cx.
  { replace (h / 2 + height ta + 4)%nat with (h / 2 + 2 + 1 + height ta + 1)%nat by lia. apply (gdiv M _ 501 26); try lia. apply (tsum_n ta M (h / 2 + 2 + 1) 501); [lia|exact Aa|]. intros i Hi. apply x_calc; auto; [now apply (order_norm M D h)|now apply half52]. }
  refine (v_fin M ow fw t0 e d HM LM HW Ho A0 _ _ _ _ _ _ _ _ _ _ _ _ _ C1 C2 Cx Cy _ _ _); lia.
Qed.
Lemma vres_k_err n nrm : norm64 n D nrm -> (Z.of_nat n <= 2 ^ 52)%Z ->
  Rabs (vres_k_r b64 nrm t0 M y x ow fw - k_vr M ow u e d (enorm D y) nx) <= ((1 + u64) ^ (n + M + M * (M - 1) / 2 + height t0 + 7) - 1) * k_vrsize M ow u e d (enorm D y) nx.
Proof.
  intros HN Hn. unfold k_vr, k_vrsize. rewrite x_sum, (sumn_div M (INR M) fw).
  pose proof (v1_k M ow fw t0 (n + 1) e HM LM HW Ho (fun i => nrm (rvsub b64 (x i) y)) (fun i Hi => dist_calc M D y x n nrm i HE HN Hn Hi)) as C1.
  pose proof (v2_k M fw t0 (n + 1) d HM LM HW (es_dist_sym D x) (es_dist_refl D x) (fun i j => nrm (rvsub b64 (x i) (x j))) (fun i j Hi Hj => pair_calc M D y x n nrm i j HE HN Hn Hi Hj)) as C2.
  pose proof (y_calc n nrm HN Hn) as Cy.
  assert (calc (n + M + 2) 527 (b64 (lsum b64 (map (fun i => rmul b64 (nrm (x i)) (fw i)) (seq 0 M)) / INR M)) (sumn M (fun i => enorm D (x i) * fw i) / INR M)) as Cx.
  { replace (n + M + 2)%nat with (n + 1 + M + 1)%nat by lia. apply (gdiv M _ 501 26); try lia. apply lsum_n; [exact HM|lia|]. intros i Hi. now apply x_calc. }
  refine (v_fin M ow fw t0 e d HM LM HW Ho A0 _ _ _ _ _ _ _ _ _ _ _ _ _ C1 C2 Cx Cy _ _ _); lia.
Qed.
End W.
(** members equal to the observation *)
Lemma zero_diff (a b : nat -> R) : (forall k, a k = b k) -> forall k, rvsub b64 a b k = 0.
Proof. intros H k. unfold rvsub, rsub. rewrite H, Rminus_eq_0. apply b64_0. Qed.
Lemma rm0l a : rmul b64 0 a = 0. Proof. unfold rmul. now rewrite Rmult_0_l, b64_0. Qed.
Lemma rm0r a : rmul b64 a 0 = 0. Proof. unfold rmul. now rewrite Rmult_0_r, b64_0. Qed.
Lemma rd0 a : rdiv b64 0 a = 0. Proof. unfold rdiv, Rdiv. now rewrite Rmult_0_l, b64_0. Qed.
Lemma rs0 : rsub b64 0 0 = 0. Proof. unfold rsub. now rewrite Rminus_0_r, b64_0. Qed.
Lemma zero_map {A} (f : A -> R) l : (forall i, In i l -> f i = 0) -> lsum b64 (map f l) = 0.
Proof. intros H. apply zero_lsum. apply Forall_forall. intros v Hv. apply in_map_iff in Hv. destruct Hv as (i & <- & Hi). auto. Qed.
Lemma zero_fmap {A B} (f : A -> B -> R) (g : A -> list B) l : (forall i j, In i l -> In j (g i) -> f i j = 0) -> lsum b64 (flat_map (fun i => map (f i) (g i)) l) = 0.
Proof. intros H. apply zero_lsum. apply Forall_forall. intros v Hv. apply in_flat_map in Hv. destruct Hv as (i & Hi & Hv). apply in_map_iff in Hv. destruct Hv as (j & <- & Hj). auto. Qed.
Section Z.
Variables (M D n : nat) (y : nat -> R) (x : nat -> nat -> R) (ow : R) (fw : nat -> R) (nrm : (nat -> R) -> R) (tn1 tn2 tn3 : nat -> stree) (ty t0 ta t1 t2 : stree).
Hypothesis HN : norm64 n D nrm.
Hypothesis A1 : adds t1 M.
Hypothesis A2 : adds t2 (M * M).
Hypothesis Hx : forall i k, (i < M)%nat -> x i k = y k.
Let dz i j : (i < M)%nat -> (j < M)%nat -> forall k, rvsub b64 (x i) (x j) k = 0. Proof. intros Hi Hj. apply zero_diff. intros k. now rewrite !Hx. Qed.
Let ez i : (i < M)%nat -> forall k, rvsub b64 (x i) y k = 0. Proof. intros Hi. apply zero_diff. auto. Qed.
Let grid k : In k (leaves t2) -> (k / M < M)%nat /\ (k mod M < M)%nat.
Proof. intros H. apply (Permutation_in k A2), in_seq in H. split; [apply Nat.div_lt_upper_bound; lia|apply Nat.mod_upper_bound; lia]. Qed.
Lemma owes_arr_0 : owes_arr_r b64 tn1 tn2 t0 t1 t2 M y x ow fw = 0.
Proof.
  unfold owes_arr_r. rewrite (tsum_zl t1), (tsum_zl t2).
  - now rewrite !rd0, rm0r, rs0.
  - intros k Hk. apply grid in Hk. rewrite zero_norm_arr by (apply dz; apply Hk). apply rm0l.
  - intros i Hi. apply (Permutation_in i A1), in_seq in Hi. rewrite zero_norm_arr by (apply ez; lia). now rewrite !rm0l.
Qed.
Lemma owes_k_0 : owes_k_r b64 nrm t0 M y x ow fw = 0.
Proof.
  unfold owes_k_r. rewrite zero_map, zero_fmap.
  - now rewrite rm0r, !rd0, rs0.
  - intros i j Hi Hj. apply in_seq in Hi, Hj. rewrite (zero_norm n D nrm) by (auto; apply dz; lia). now rewrite !rm0l, rm0r.
  - intros i Hi. apply in_seq in Hi. rewrite (zero_norm n D nrm) by (auto; apply ez; lia). now rewrite !rm0l.
Qed.
Lemma vres_arr_0 : vres_arr_r b64 tn1 tn2 tn3 ty t0 ta t1 t2 M y x ow fw =
  rmul b64 (rsub b64 (rdiv b64 (tsum b64 ta (fun i => rmul b64 (norm_arr_r b64 (tn3 i) (x i)) (fw i))) (INR M)) (rmul b64 (norm_arr_r b64 ty y) ow)) (rsub b64 (rdiv b64 (tsum b64 t0 fw) (INR M)) ow).
Proof.
  unfold vres_arr_r. rewrite (tsum_zl t1), (tsum_zl t2).
  - rewrite !rd0, rm0r, rs0. unfold radd. rewrite Rplus_0_l. apply b64_id, b64_fmt.
  - intros k Hk. apply grid in Hk. rewrite zero_norm_arr by (apply dz; apply Hk). apply rm0l.
  - intros i Hi. apply (Permutation_in i A1), in_seq in Hi. rewrite zero_norm_arr by (apply ez; lia). apply rm0l.
Qed.
Lemma vres_k_0 : vres_k_r b64 nrm t0 M y x ow fw =
  rmul b64 (rsub b64 (rdiv b64 (lsum b64 (map (fun i => rmul b64 (nrm (x i)) (fw i)) (seq 0 M))) (INR M)) (rmul b64 (nrm y) ow)) (rsub b64 (rdiv b64 (tsum b64 t0 fw) (INR M)) ow).
Proof.
  unfold vres_k_r. rewrite (zero_map (fun i => rmul b64 (rmul b64 (nrm (rvsub b64 (x i) y)) (fw i)) ow)), zero_fmap.
  - rewrite rm0r, !rd0, rs0. unfold radd. rewrite Rplus_0_l. apply b64_id, b64_fmt.
  - intros i j Hi Hj. apply in_seq in Hi, Hj. rewrite (zero_norm n D nrm) by (auto; apply dz; lia). now rewrite !rm0l, rm0r.
  - intros i Hi. apply in_seq in Hi. rewrite (zero_norm n D nrm) by (auto; apply ez; lia). now rewrite !rm0l.
Qed.
End Z.
(** instances *)
Lemma ex_vmv : vmv64 3 2 ex_y ex_x.
Proof.
  assert (forall i, apart 400 (INR i) 0) as A.
  { intros i. destruct i as [|i]; [now left|right]. apply Rle_trans with 1.
    - rewrite <- Rinv_1. apply Rinv_le_contravar; [lra|]. apply pow_R1_Rle. lra.
    - rewrite Rminus_0_r, Rabs_pos_eq by apply pos_INR. apply (le_INR 1). lia. }
  split; [apply ex_mv|]. split; intros; apply A.
Qed.
(** vectors with one coordinate *)
Local Notation nrm1 := (norm_arr_r b64 (comb 0)).
Lemma nrm1_int z v : (Z.abs z < 2 ^ 26)%Z -> v 0%nat = IZR z -> nrm1 v = Rabs (IZR z).
Proof.
  intros Hz E. unfold norm_arr_r. change (tsum b64 (comb 0) ?a) with (a 0%nat). cbv beta. unfold rmul. rewrite E, <- mult_IZR.
  rewrite (b64_id (IZR (z * z))). 2:{ apply fmt_int. rewrite Z.abs_mul. change (2 ^ 53)%Z with (2 ^ 26 * 2 ^ 27)%Z. apply Z.mul_le_mono_nonneg; lia. }
  rewrite mult_IZR. fold (Rsqr (IZR z)). rewrite sqrt_Rsqr_abs, <- abs_IZR. apply b64_id, fmt_int. rewrite Z.abs_involutive. lia.
Qed.
Lemma nrm1_64 : norm64 2 1 nrm1.
Proof. pose proof (norm_arr_64 1 (comb 0) (proj1 (comb_adds 0))) as H. rewrite (proj2 (comb_adds 0)) in H. exact H. Qed.
Lemma ex_ord1 N : orders N 1 0 (fun _ => comb 0).
Proof. intros i _. destruct (comb_adds 0) as [A E]. split; [exact A|]. rewrite E. lia. Qed.
Lemma mv_one M y x : wens64 M y x -> mvens64 M 1 (fun _ => y) (fun i _ => x i).
Proof. intros (HM & HB & Fy & Hx & Hp). split; [exact HM|]. split; [exact HB|]. split; [auto|]. split; auto. Qed.
Lemma vmv_one M y x : vens64 M y x -> vmv64 M 1 (fun _ => y) (fun i _ => x i).
Proof. intros (H & Hy & Hx). split; [now apply mv_one|]. split; auto. Qed.
Lemma eucl_one a b : eucl 1 (fun _ => a) (fun _ => b) = Rabs (a - b).
Proof. unfold eucl. rewrite sumn_S, sumn_0, Rplus_0_l. rewrite <- Rsqr_pow2. apply sqrt_Rsqr_abs. Qed.
Local Notation ox := (fun (i : nat) (_ : nat) => ex_u i).
Lemma on i j : (i < 2)%nat -> (j < 2)%nat -> nrm1 (rvsub b64 (ox i) (ox j)) = Rabs (INR i - INR j).
Proof.
  intros Hi Hj. unfold ex_u. rewrite !INR_IZR_INZ, <- minus_IZR. apply nrm1_int; [lia|]. unfold rvsub, rsub. rewrite <- minus_IZR. apply b64_id, fmt_int. lia.
Qed.
Lemma a00 : Rabs (INR 0 - INR 0) = 0. Proof. rewrite Rminus_eq_0. apply Rabs_R0. Qed.
Lemma a11 : Rabs (INR 1 - INR 1) = 0. Proof. rewrite Rminus_eq_0. apply Rabs_R0. Qed.
Lemma a10 : Rabs (INR 1 - INR 0) = 1. Proof. simpl. rewrite Rminus_0_r. apply Rabs_R1. Qed.
Lemma a01 : Rabs (INR 0 - INR 1) = 1. Proof. rewrite Rabs_minus_sym. apply a10. Qed.
Lemma ex_oe1' : b64 (134217729 * bp (-61) / 4503599694479360) = 9007199187632129 * bp (-139).
Proof.
  apply (b64_pt _ (1208925819614629174706176 * 134217729 / 18014398777917440)); [lia| |rewrite bp52, bp53; lra|apply Znearest_imp; apply Rabs_lt; lra].
  change (-61)%Z with (80 + -2 + -139)%Z. rewrite !bpow_plus. change (bp 80) with 1208925819614629174706176. change (bp (-2)) with (/ 4). field.
Qed.
Lemma ex_earr : owes_arr_r b64 (fun _ => comb 0) (fun _ => comb 0) (comb 1) (comb 1) (comb 3) 2 (ox 0%nat) ox 1 ex_ow = - bp (-140).
Proof.
  unfold owes_arr_r, rdiv. rewrite ex_obar. change (rmul b64 (134217729 * bp (-1)) (134217729 * bp (-1))) with (b64 (134217729 * bp (-1) * (134217729 * bp (-1)))). rewrite ex_osq2.
  change (tsum b64 (comb 3) ?a) with (b64 (b64 (b64 (a 0%nat + a 1%nat) + a 2%nat) + a 3%nat)). change (tsum b64 (comb 1) ?a) with (b64 (a 0%nat + a 1%nat)). cbv beta.
  change (0 / 2)%nat with 0%nat. change (1 / 2)%nat with 0%nat. change (2 / 2)%nat with 1%nat. change (3 / 2)%nat with 1%nat. change (0 mod 2)%nat with 0%nat. change (1 mod 2)%nat with 1%nat. change (2 mod 2)%nat with 0%nat. change (3 mod 2)%nat with 1%nat.
  rewrite !on by lia. rewrite a00, a11, a10, a01. change (ex_ow 0) with 134217729. change (ex_ow 1) with (/ 2 ^ 60). rewrite <- bp_m60. rewrite !rm0l. unfold rsub, rmul.
  rewrite !Rmult_1_l, !Rmult_1_r, !Rplus_0_l, Rplus_0_r, (Rmult_comm (bp (-60))), !ex_oe, !ex_oae.
  replace (134217729 * bp (-60) + 134217729 * bp (-60)) with (134217729 * bp (-59)) by (change (-59)%Z with (1 + -60)%Z; rewrite bpow_plus; change (bp 1) with 2; ring). rewrite !ex_oae2.
  replace (bp (-60) / INR 2) with (bp (-61)) by (change (-60)%Z with (1 + -61)%Z; rewrite bpow_plus; change (bp 1) with 2; simpl INR; field). rewrite (b64_id (bp (-61))) by (apply fmt_bp; lia).
  replace (bp (-61) / (134217729 * bp (-1))) with (bp (-60) / 134217729) by (change (-61)%Z with (-1 + -60)%Z; rewrite bpow_plus; change (bp (-1)) with (/ 2); field). rewrite ex_oe1.
  replace (134217729 * bp (-59) / INR (2 * 2)) with (134217729 * bp (-61)) by (change (-59)%Z with (2 + -61)%Z; rewrite bpow_plus; change (bp 2) with 4; simpl INR; field). rewrite (b64_id (134217729 * bp (-61))) by (apply fmt_mb; lia). rewrite ex_oe1'.
  replace (1 / 2 * (9007199187632129 * bp (-139))) with (9007199187632129 * bp (-140)) by (change (-139)%Z with (1 + -140)%Z; rewrite bpow_plus; change (bp 1) with 2; field). rewrite (b64_id (9007199187632129 * bp (-140))) by (apply fmt_mb; lia). apply ex_osub.
Qed.
Lemma ex_ek : owes_k_r b64 nrm1 (comb 1) 2 (ox 0%nat) ox 1 ex_ow = - bp (-140).
Proof.
  unfold owes_k_r. cbn [seq map flat_map Nat.add Nat.sub app]. rewrite !on by lia. rewrite a00, a10, a01. unfold rdiv. rewrite ex_obar. unfold rmul. rewrite ex_omw, ex_osq2, ex_osq3. unfold lsum. cbn [fold_left]. unfold rsub, radd.
  change (ex_ow 0) with 134217729. change (ex_ow 1) with (/ 2 ^ 60). rewrite <- bp_m60, !Rmult_1_l, !Rmult_1_r, !Rmult_0_l, !b64_0, !Rplus_0_l, b64_0, !Rplus_0_l, ex_oa, !ex_oe, !ex_oae.
  replace (2 * (134217729 * bp (-60))) with (134217729 * bp (-59)) by (change (-59)%Z with (1 + -60)%Z; rewrite bpow_plus; change (bp 1) with 2; ring). rewrite !ex_oae2.
  replace (1 / 2 * (134217729 * bp (-59))) with (134217729 * bp (-60)) by (change (-59)%Z with (1 + -60)%Z; rewrite bpow_plus; change (bp 1) with 2; field). rewrite !ex_oae, ex_oe1, ex_oe2. apply ex_osub.
Qed.
Lemma ex_eexact : 0 < 1 * k_wexact 2 (nw 2 ex_ow) (es_err 1 (ox 0%nat) ox) (es_dist 1 ox).
Proof.
  pose proof ex_oexact as H. unfold wexact_crps, wmae, wpairsum in H. unfold k_wexact, es_err, es_dist.
  rewrite (sumn_ext 2 (fun i => nw 2 ex_ow i * eucl 1 (ox i) (ox 0%nat)) (fun i => nw 2 ex_ow i * Rabs (ex_u i - 0))) by (intros; now rewrite eucl_one).
  rewrite (sumn_ext 2 (fun i => sumn 2 (fun j => nw 2 ex_ow i * nw 2 ex_ow j * eucl 1 (ox i) (ox j))) (fun i => sumn 2 (fun j => nw 2 ex_ow i * nw 2 ex_ow j * Rabs (ex_u i - ex_u j)))) by (intros; apply sumn_ext; intros; now rewrite eucl_one). lra.
Qed.
Local Notation vw := 7319843605468574.
Local Notation sev := (fun _ : nat => 7).
Lemma nrm7 : nrm1 sev = Rabs 7. Proof. apply (nrm1_int 7); [lia|reflexivity]. Qed.
Lemma ex_w3rd : vres_arr_r b64 (fun _ => comb 0) (fun _ => comb 0) (fun _ => comb 0) (comb 0) (comb 2) (comb 2) (comb 2) (comb 8) 3 sev (fun _ => sev) vw (fun _ => vw) = - (8) /\ vres_k_r b64 nrm1 (comb 2) 3 sev (fun _ => sev) vw (fun _ => vw) = - (8).
Proof.
  rewrite (vres_arr_0 3) by (auto; apply comb_adds). rewrite (vres_k_0 3 1 2) by (auto; apply nrm1_64).
  replace (lsum b64 (map (fun _ : nat => rmul b64 (nrm1 sev) vw) (seq 0 3))) with (tsum b64 (comb 2) (fun _ : nat => rmul b64 (nrm1 sev) vw)).
  2:{ change (lsum b64 (map ?f (seq 0 3))) with (b64 (b64 (b64 (0 + f 0%nat) + f 1%nat) + f 2%nat)). change (tsum b64 (comb 2) ?a) with (b64 (b64 (a 0%nat + a 1%nat) + a 2%nat)). cbv beta. rewrite Rplus_0_l. unfold rmul. now rewrite (b64_id (b64 (nrm1 sev * vw))) by apply b64_fmt. }
  rewrite nrm7. split; apply ex_v3rd.
Qed.
Lemma norm_id0 D t v : adds t D -> norm_arr_r idr t v = enorm D v.
Proof. intros H. unfold norm_arr_r, enorm. unfold idr at 1. f_equal. rewrite (tsum_id t D _ H). apply sumn_ext. intros. unfold rmul, idr. ring. Qed.
Lemma C100_ow_l :
forall M D y x ow fw tn1 tn2 t0 t1 t2 h nrm n, mvens64 M D y x -> wts64 M fw -> wt64 ow -> adds t0 M -> orders M D h tn1 -> orders (M * M) D h tn2 -> (Z.of_nat h <= 2 ^ 52)%Z -> adds t1 M -> adds t2 (M * M) -> norm64 n D nrm -> (Z.of_nat n <= 2 ^ 52)%Z ->
  let W := nw M fw in let e := es_err D y x in let d := es_dist D x in
  Rabs (owes_arr_r b64 tn1 tn2 t0 t1 t2 M y x ow fw - ow * k_wexact M W e d) <= ((1 + u64) ^ (h / 2 + height t1 + height t2 + 2 * height t0 + 14) - 1) * (ow * k_wsize M W e d) /\
  Rabs (owes_k_r b64 nrm t0 M y x ow fw - ow * k_wexact M W e d) <= ((1 + u64) ^ (n + M + M * (M - 1) / 2 + 2 * height t0 + 12) - 1) * (ow * k_wsize M W e d).
Proof.
intros M D y x ow fw tn1 tn2 t0 t1 t2 h nrm n HE HW Ho A0 O1 O2 Hh A1 A2 HN Hn W e d. split; [now apply owes_arr_err|now apply owes_k_err].
Qed.
Lemma C100_vr_l :
forall M D y x ow fw tn1 tn2 tn3 ty t0 ta t1 t2 h nrm n, vmv64 M D y x -> wts64 M fw -> wt64 ow -> adds t0 M -> orders M D h tn1 -> orders (M * M) D h tn2 -> orders M D h tn3 -> orders 1 D h (fun _ => ty) -> (Z.of_nat h <= 2 ^ 52)%Z -> adds ta M -> adds t1 M -> adds t2 (M * M) -> norm64 n D nrm -> (Z.of_nat n <= 2 ^ 52)%Z ->
  let u i := fw i / INR M in let e := es_err D y x in let d := es_dist D x in let nx i := enorm D (x i) in
  Rabs (vres_arr_r b64 tn1 tn2 tn3 ty t0 ta t1 t2 M y x ow fw - k_vr M ow u e d (enorm D y) nx) <= ((1 + u64) ^ (h / 2 + height t1 + height t2 + height ta + height t0 + 9) - 1) * k_vrsize M ow u e d (enorm D y) nx /\
  Rabs (vres_k_r b64 nrm t0 M y x ow fw - k_vr M ow u e d (enorm D y) nx) <= ((1 + u64) ^ (n + M + M * (M - 1) / 2 + height t0 + 7) - 1) * k_vrsize M ow u e d (enorm D y) nx.
Proof.
intros M D y x ow fw tn1 tn2 tn3 ty t0 ta t1 t2 h nrm n (HE & Hy & Hx) HW Ho A0 O1 O2 O3 Oy Hh Aa A1 A2 HN Hn u e d nx. split; [now apply vres_arr_err|now apply vres_k_err].
Qed.
Lemma C100_agree_l :
forall M D y x ow fw tn1 tn2 tn3 ty t0 ta t1 t2 h nrm n, vmv64 M D y x -> wts64 M fw -> wt64 ow -> adds t0 M -> orders M D h tn1 -> orders (M * M) D h tn2 -> orders M D h tn3 -> orders 1 D h (fun _ => ty) -> (Z.of_nat h <= 2 ^ 52)%Z -> adds ta M -> adds t1 M -> adds t2 (M * M) -> norm64 n D nrm -> (Z.of_nat n <= 2 ^ 52)%Z ->
  let W := nw M fw in let u i := fw i / INR M in let e := es_err D y x in let d := es_dist D x in let nx i := enorm D (x i) in
  Rabs (owes_arr_r b64 tn1 tn2 t0 t1 t2 M y x ow fw - owes_k_r b64 nrm t0 M y x ow fw) <= ((1 + u64) ^ (h / 2 + height t1 + height t2 + 2 * height t0 + 14) + (1 + u64) ^ (n + M + M * (M - 1) / 2 + 2 * height t0 + 12) - 2) * (ow * k_wsize M W e d) /\
  Rabs (vres_arr_r b64 tn1 tn2 tn3 ty t0 ta t1 t2 M y x ow fw - vres_k_r b64 nrm t0 M y x ow fw) <= ((1 + u64) ^ (h / 2 + height t1 + height t2 + height ta + height t0 + 9) + (1 + u64) ^ (n + M + M * (M - 1) / 2 + height t0 + 7) - 2) * k_vrsize M ow u e d (enorm D y) nx.
Proof.
intros M D y x ow fw tn1 tn2 tn3 ty t0 ta t1 t2 h nrm n HV HW Ho A0 O1 O2 O3 Oy Hh Aa A1 A2 HN Hn W u e d nx.
destruct (C100_ow_l M D y x ow fw tn1 tn2 t0 t1 t2 h nrm n (proj1 HV) HW Ho A0 O1 O2 Hh A1 A2 HN Hn) as [H1 H2]. destruct (C100_vr_l M D y x ow fw tn1 tn2 tn3 ty t0 ta t1 t2 h nrm n HV HW Ho A0 O1 O2 O3 Oy Hh Aa A1 A2 HN Hn) as [H3 H4].
assert (forall a b c A B S, Rabs (a - c) <= (A - 1) * S -> Rabs (b - c) <= (B - 1) * S -> Rabs (a - b) <= (A + B - 2) * S) as T.
{ intros a b c A B S Ha Hb. replace (a - b) with ((a - c) + - (b - c)) by ring. eapply Rle_trans; [apply Rabs_triang|]. rewrite Rabs_Ropp. lra. }
split; [exact (T _ _ _ _ _ _ H1 H2)|exact (T _ _ _ _ _ _ H3 H4)].
Qed.
Lemma C100_perfect_l :
forall M D y x ow fw tn1 tn2 tn3 ty t0 ta t1 t2 nrm n, adds t1 M -> adds t2 (M * M) -> norm64 n D nrm -> (forall i k, (i < M)%nat -> x i k = y k) ->
  owes_arr_r b64 tn1 tn2 t0 t1 t2 M y x ow fw = 0 /\ owes_k_r b64 nrm t0 M y x ow fw = 0 /\
  (b64 (tsum b64 t0 fw / INR M) = ow -> vres_arr_r b64 tn1 tn2 tn3 ty t0 ta t1 t2 M y x ow fw = 0 /\ vres_k_r b64 nrm t0 M y x ow fw = 0).
Proof.
intros M D y x ow fw tn1 tn2 tn3 ty t0 ta t1 t2 nrm n A1 A2 HN Hx. split; [now apply owes_arr_0|]. split; [now apply (owes_k_0 M D n)|]. intros E.
assert (rsub b64 (rdiv b64 (tsum b64 t0 fw) (INR M)) ow = 0) as Z by (unfold rdiv; rewrite E; unfold rsub; rewrite Rminus_eq_0; apply b64_0).
split; [rewrite vres_arr_0 by assumption|rewrite (vres_k_0 M D n) by assumption]; rewrite Z; apply rm0r.
Qed.
Lemma C100_nonnegative_refuted_l :
(exists M D y x ow fw tn1 tn2 t0 t1 t2 nrm, mvens64 M D y x /\ wts64 M fw /\ wt64 ow /\ adds t0 M /\ orders M D 0 tn1 /\ orders (M * M) D 0 tn2 /\ adds t1 M /\ adds t2 (M * M) /\ norm64 2 D nrm /\
  0 < ow * k_wexact M (nw M fw) (es_err D y x) (es_dist D x) /\ owes_arr_r b64 tn1 tn2 t0 t1 t2 M y x ow fw < 0 /\ owes_k_r b64 nrm t0 M y x ow fw < 0) /\
  (exists M D y x ow fw tn1 tn2 tn3 ty t0 ta t1 t2 nrm, vmv64 M D y x /\ wts64 M fw /\ wt64 ow /\ adds t0 M /\ orders M D 0 tn1 /\ orders (M * M) D 0 tn2 /\ orders M D 0 tn3 /\ adds ty D /\ adds ta M /\ adds t1 M /\ adds t2 (M * M) /\ norm64 2 D nrm /\
  (forall i, x i = y) /\ (forall i, fw i = ow) /\ vres_arr_r b64 tn1 tn2 tn3 ty t0 ta t1 t2 M y x ow fw < 0 /\ vres_k_r b64 nrm t0 M y x ow fw < 0).
Proof.
split.
- exists 2%nat, 1%nat, (fun _ => ex_u 0), (fun i _ => ex_u i), 1, ex_ow, (fun _ => comb 0), (fun _ => comb 0), (comb 1), (comb 1), (comb 3), (norm_arr_r b64 (comb 0)). rewrite ex_earr, ex_ek. pose proof (bpow_gt_0 radix2 (-140)).
  split; [exact (mv_one 2 0 ex_u ex_oens)|]. repeat (split; [first [apply ex_owts|apply ex_oone|apply comb_adds|apply ex_ord1|apply nrm1_64|apply ex_eexact|lra]|]). lra.
- exists 3%nat, 1%nat, (fun _ => 7), (fun _ _ => 7), 7319843605468574, (fun _ => 7319843605468574), (fun _ => comb 0), (fun _ => comb 0), (fun _ => comb 0), (comb 0), (comb 2), (comb 2), (comb 2), (comb 8), (norm_arr_r b64 (comb 0)). destruct ex_w3rd as [-> ->].
  split; [exact (vmv_one 3 7 (fun _ => 7) ex_vsev)|]. repeat (split; [first [apply ex_vwts|apply ex_vwt|apply comb_adds|apply ex_ord1|apply nrm1_64|reflexivity|lra]|]). lra.
Qed.
Lemma C100_unrounded_l :
forall M D y x ow fw tn1 tn2 tn3 ty t0 ta t1 t2 h, (0 < M)%nat -> sumn M fw <> 0 -> adds t0 M -> orders M D h tn1 -> orders (M * M) D h tn2 -> orders M D h tn3 -> adds ty D -> adds ta M -> adds t1 M -> adds t2 (M * M) ->
  let id := fun r : R => r in let W := nw M fw in let u i := fw i / INR M in let e := es_err D y x in let d := es_dist D x in let nx i := enorm D (x i) in
  let obs := map (fun k => Fin (y k)) (seq 0 D) in let fct := map (fun i => map (fun k => Fin (x i k)) (seq 0 D)) (seq 0 M) in let v := map (fun i => Fin (fw i)) (seq 0 M) in
  owes_arr_r id tn1 tn2 t0 t1 t2 M y x ow fw = ow * k_wexact M W e d /\ owes_k_r id (enorm D) t0 M y x ow fw = ow * k_wexact M W e d /\
  owes_k obs fct (Fin ow) v = Fin (owes_k_r id (enorm D) t0 M y x ow fw) /\
  vres_arr_r id tn1 tn2 tn3 ty t0 ta t1 t2 M y x ow fw = k_vr M ow u e d (enorm D y) nx /\ vres_k_r id (enorm D) t0 M y x ow fw = k_vr M ow u e d (enorm D y) nx /\
  vres_k obs fct (Fin ow) v = Fin (vres_k_r id (enorm D) t0 M y x ow fw).
Proof.
intros M D y x ow fw tn1 tn2 tn3 ty t0 ta t1 t2 h HM HS A0 O1 O2 O3 Ay Aa A1 A2 id W u e d nx obs fct v. pose proof (lt_0_INR M HM) as P. assert (INR M <> 0) as NM by lra. change id with idr. clear id.
assert (tsum idr t0 fw = sumn M fw) as T0 by (apply (tsum_idr_ext t0 M fw fw A0); auto).
assert (forall i, (i < M)%nat -> norm_arr_r idr (tn1 i) (rvsub idr (x i) y) = e i) as N1 by (intros i Hi; apply norm_id; now apply O1).
assert (forall k, (k < M * M)%nat -> norm_arr_r idr (tn2 k) (rvsub idr (x (k / M)%nat) (x (k mod M)%nat)) = d (k / M)%nat (k mod M)%nat) as N2 by (intros k Hk; apply norm_id; now apply O2).
assert (norm_arr_r idr ty y = enorm D y) as Ny by now apply norm_id0.
assert (forall c, lsum idr (map (fun i => rmul idr (rmul idr (enorm D (rvsub idr (x i) y)) (fw i)) c) (seq 0 M)) = c * sumn M (fun i => fw i * e i)) as L1.
{ intros c. rewrite lsum_id, <- sumn_scal. apply sumn_ext. intros i Hi. rewrite eucl_id. change (eucl D (x i) y) with (e i). unfold rmul, idr. ring. }
assert (lsum idr (flat_map (fun i => map (fun j => rmul idr 2 (rmul idr (rmul idr (enorm D (rvsub idr (x i) (x j))) (fw i)) (fw j))) (seq (i + 1) (M - (i + 1)))) (seq 0 M)) = sumn M (fun i => sumn M (fun j => fw i * fw j * d i j))) as L2.
{ rewrite lsum_id, Rsum_flat_map. rewrite <- (tri_gen M (fun i j => fw i * fw j * d i j)) by (intros; unfold d; first [rewrite es_dist_sym; ring|rewrite es_dist_refl; ring]). apply Rsum_map_ext. intros i _. apply Rsum_map_ext. intros j _. rewrite eucl_id. unfold rmul, idr, d, es_dist. ring. }
assert (lsum idr (flat_map (fun i => map (fun j => rmul idr 2 (rmul idr (rmul idr (rmul idr (enorm D (rvsub idr (x i) (x j))) (fw i)) (fw j)) ow)) (seq (i + 1) (M - (i + 1)))) (seq 0 M)) = ow * sumn M (fun i => sumn M (fun j => fw i * fw j * d i j))) as L3.
{ rewrite lsum_id, Rsum_flat_map. rewrite <- (tri_gen M (fun i j => fw i * fw j * d i j)) by (intros; unfold d; first [rewrite es_dist_sym; ring|rewrite es_dist_refl; ring]). rewrite <- sumn_scal. apply Rsum_map_ext. intros i _. rewrite <- Rsum_map_scal. apply Rsum_map_ext. intros j _. rewrite eucl_id. unfold rmul, idr, d, es_dist. ring. }
assert (lsum idr (map (fun i => rmul idr (enorm D (x i)) (fw i)) (seq 0 M)) = sumn M (fun i => fw i * nx i)) as Lx by (rewrite lsum_id; apply sumn_ext; intros; unfold rmul, idr, nx; ring).
assert (owes_k_r idr (enorm D) t0 M y x ow fw = ow * k_wexact M W e d) as K1.
{ unfold owes_k_r. rewrite L1, L3, T0. unfold W. rewrite k_wexact_nw by exact HS. unfold rsub, rmul, rdiv, idr. rewrite mult_INR. field. auto. }
assert (vres_k_r idr (enorm D) t0 M y x ow fw = k_vr M ow u e d (enorm D y) nx) as K2.
{ unfold vres_k_r. rewrite L1, L2, Lx, T0. unfold u. rewrite k_vr_unif by exact NM. unfold radd, rsub, rmul, rdiv, idr. rewrite mult_INR. field. exact NM. }
assert (forall k, (k < D)%nat -> Fin (y k) = Fin (y k)) as Hy by auto. assert (forall i k, (i < M)%nat -> (k < D)%nat -> Fin (x i k) = Fin (x i k)) as Hx by auto.
split; [|split; [exact K1|split; [|split; [|split; [exact K2|]]]]].
- unfold owes_arr_r, W. rewrite k_wexact_nw, T0 by exact HS.
  rewrite (tsum_idr_ext t1 M _ (fun i => ow * (fw i * e i)) A1) by (intros; rewrite N1 by assumption; unfold rmul, idr; ring).
  rewrite (tsum_idr_ext t2 (M * M) _ (fun k => ow * (fun i j => fw i * fw j * d i j) (k / M)%nat (k mod M)%nat) A2) by (intros; rewrite N2 by assumption; unfold rmul, idr; ring).
  rewrite !sumn_scal, (sumn_grid M M (fun i j => fw i * fw j * d i j)) by exact HM. unfold rsub, rmul, rdiv, idr. rewrite mult_INR. field. auto.
- rewrite K1. exact (owes_k_real M D (fun k => Fin (y k)) (fun i k => Fin (x i k)) y x HM Hy Hx (fun i => Fin (fw i)) fw ltac:(auto) ow HS).
- unfold vres_arr_r, u. rewrite k_vr_unif, T0, Ny by exact NM.
  rewrite (tsum_idr_ext t1 M _ (fun i => ow * (fw i * e i)) A1) by (intros; rewrite N1 by assumption; unfold rmul, idr; ring).
  rewrite (tsum_idr_ext ta M _ (fun i => fw i * nx i) Aa) by (intros; rewrite (norm_id0 D) by (now apply O3); unfold rmul, idr, nx; ring).
  rewrite (tsum_idr_ext t2 (M * M) _ (fun k => (fun i j => fw i * fw j * d i j) (k / M)%nat (k mod M)%nat) A2) by (intros; rewrite N2 by assumption; unfold rmul, idr; ring).
  rewrite !sumn_scal, (sumn_grid M M (fun i j => fw i * fw j * d i j)) by exact HM. unfold radd, rsub, rmul, rdiv, idr. rewrite mult_INR. field. exact NM.
- rewrite K2. exact (vres_k_real M D (fun k => Fin (y k)) (fun i k => Fin (x i k)) y x HM Hy Hx (fun i => Fin (fw i)) fw ltac:(auto) ow).
Qed.
