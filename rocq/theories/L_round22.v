(** Rounding errors of the outcome-weighted variogram score. *)
From Coq Require Import Reals List ZArith Permutation Lia Lra Psatz.
From Flocq Require Import Core.
From Verif Require Import Num L_crps_row L_crps_real L_crps_omit L_energy L_vario M_round16.
From Verif Require Export L_round21 S_round10 S_round9 S_round8 S_round7 S_round.
Import ListNotations.
Open Scope R_scope.

Local Notation fmt := (generic_format radix2 (FLT_exp (-1074) 53)).
Local Notation bp := (bpow radix2).

(** distance to an exact value in multiples of a size *)
Definition near (k : nat) (x X A : R) : Prop := Rabs X <= A /\ Rabs (x - X) <= (1 + u64) ^ k * A - A.
Lemma near_of k x X A : appr k 0 x X A -> near k x X A.
Proof. intros (_ & H & _ & E). rewrite Rmult_0_l, Rplus_0_r in E. now split. Qed.
Lemma near_scal k c x X A : 0 <= c -> near k x X A -> near k (c * x) (c * X) (c * A).
Proof.
  intros Hc [H1 H2]. split; [rewrite Rabs_mult, (Rabs_pos_eq c) by exact Hc; now apply Rmult_le_compat_l|].
  replace (c * x - c * X) with (c * (x - X)) by ring. rewrite Rabs_mult, (Rabs_pos_eq c) by exact Hc. replace ((1 + u64) ^ k * (c * A) - c * A) with (c * ((1 + u64) ^ k * A - A)) by ring. now apply Rmult_le_compat_l.
Qed.
Lemma near_sum {I} k (x X A : I -> R) l : (forall i, In i l -> near k (x i) (X i) (A i)) -> near k (Rsum (map x l)) (Rsum (map X l)) (Rsum (map A l)).
Proof.
  intros H. induction l as [|i l IH]; cbn [map].
  - change (Rsum (@nil R)) with 0. unfold near. rewrite Rminus_0_r, Rabs_R0. lra.
  - destruct (H i (or_introl eq_refl)) as [H1 H2]. destruct IH as [H3 H4]; [intros; apply H; now right|]. change (Rsum (?a :: ?l)) with (a + Rsum l). split; [eapply Rle_trans; [apply Rabs_triang|]; lra|].
    replace (x i + Rsum (map x l) - (X i + Rsum (map X l))) with ((x i - X i) + (Rsum (map x l) - Rsum (map X l))) by ring. eapply Rle_trans; [apply Rabs_triang|]. lra.
Qed.
Lemma near_sumn k n (x X A : nat -> R) : (forall i, (i < n)%nat -> near k (x i) (X i) (A i)) -> near k (sumn n x) (sumn n X) (sumn n A).
Proof. intros H. apply near_sum. intros i Hi. apply in_seq in Hi. apply H. lia. Qed.
Lemma near_calc k m t y x X A : near k x X A -> calc m t y x -> appr (k + m) 0 y X A.
Proof.
  intros [H1 H2] C. pose proof C as (F & P & _). apply appr_of_calc in C. destruct C as (_ & _ & _ & E). rewrite Rmult_0_l, Rplus_0_r in E.
  split; [exact F|]. split; [exact H1|]. split; [lra|]. rewrite Rmult_0_l, Rplus_0_r, pow_add. pose proof (pow_hi m) as Hm. pose proof (pow_hi k) as Hk.
  assert (x <= (1 + u64) ^ k * A) as B. { apply Rabs_le_between in H2. pose proof (Rle_abs X). lra. }
  replace (y - X) with ((y - x) + (x - X)) by ring. eapply Rle_trans; [apply Rabs_triang|].
  assert (((1 + u64) ^ m - 1) * x <= ((1 + u64) ^ m - 1) * ((1 + u64) ^ k * A)) by (apply Rmult_le_compat_l; lra). lra.
Qed.
Lemma sqbig k a A b B c C : calc 0 100 c C -> calc k 98 a A -> calc k 98 b B -> let d := b64 (a - b) in calc 0 400 (b64 (c * b64 (d * d))) (b64 (c * b64 (d * d))).
Proof.
  intros Co Ca Cb d. apply calc_exact; [apply b64_fmt|].
  assert (big 150 (Rabs d)) as Bd. { apply big_b64; [lia|]. destruct Ca as (Fa & _ & _ & Ba). destruct Cb as (Fb & _ & _ & Bb). now apply (big_diff 98). }
  assert (big 300 (d * d)) as Bq by (rewrite <- (Rabs_pos_eq (d * d)) by apply Rle_0_sqr; apply (big_mul 150 150); [lia|lia|exact Bd|exact Bd]).
  apply big_rnd in Bq; [|lia]. destruct Co as (_ & P & W & Bo). pose proof (big_ge0 _ _ Bo). pose proof (big_ge0 _ _ Bq). apply big_rnd; [lia|]. rewrite <- (Rabs_pos_eq (c * _)) by nra. apply (big_mul 100 300); [lia|lia| |]; rewrite Rabs_pos_eq; assumption.
Qed.

Section V.
Variables (e n q M D : nat) (p : R) (pw : R -> R) (y : nat -> R) (x h : nat -> nat -> R) (ow : R) (fw : nat -> R) (t0 : stree).
Hypothesis HE : vgens64 e M D y x.
Hypothesis HP : pow64 e n p pw.
Hypothesis Hp : 0 < p <= INR q.
Hypothesis Hn : (Z.of_nat n <= 2 ^ 52)%Z.
Hypothesis He : (e * q <= 97)%nat.
Hypothesis Hh : forall i j, (i < D)%nat -> (j < D)%nat -> wt64 (h i j).
Hypothesis HW : wts64 M fw.
Hypothesis Ho : wt64 ow.
Hypothesis A0 : adds t0 M.
Hypothesis B0 : (Z.of_nat (height t0) <= 2 ^ 50)%Z.
Let HM : (0 < M)%nat. Proof. apply HE. Qed.
Let LM : (Z.of_nat M <= 2 ^ 26)%Z. Proof. apply HE. Qed.
Let Hq : (0 < q)%nat. Proof. destruct q; [simpl in Hp; lra|lia]. Qed.
Let He3 : (e * q <= 340)%nat. Proof. lia. Qed.
Local Notation h0 := (height t0).
Local Notation S0 := (sumn M fw).
Local Notation W := (nw M fw).
Let K := (2 * (n + q) + 4)%nat.
Let vd u v i j := h i j * (vgram p u i j - vgram p v i j) ^ 2.
Let vs u v i j := h i j * (vgram p u i j + vgram p v i j) ^ 2.
Definition good (u : nat -> R) := forall i j, (i < D)%nat -> (j < D)%nat -> calc (n + q) 98 (pw (Rabs (rsub b64 (u i) (u j)))) (vgram p u i j).
Lemma pd98 a b : is64 a -> is64 b -> apart e a b -> calc (n + q) 98 (pw (Rabs (rsub b64 a b))) (vpow (Rabs (a - b)) p).
Proof.
  intros Fa Fb A. destruct (pd_calc p q Hp e n pw a b HP Hn He3 ltac:(nia) Fa Fb A) as (F & P & Wt & _). split; [exact F|]. split; [exact P|]. split; [exact Wt|].
  apply is64_fmt in Fa, Fb. assert (big (Z.of_nat e) (Rabs (b64 (a - b)))) as B. { apply apart_bigp in A. rewrite <- b64_abs. apply big_rnd; [nia|exact A]. }
  unfold rsub. destruct (HP (Rabs (b64 (a - b)))) as [_ Wp]; [apply is64_fmt, fmt_abs, b64_fmt|apply Rabs_pos|apply big_apart; rewrite Rabs_Rabsolu; exact B|].
  change 98%Z with (97 + 1)%Z. apply (within_big52 n 97 _ _ Hn Wp). apply (big_le (Z.of_nat (e * q))); [lia|]. now apply vpow_big.
Qed.
Lemma good_y : good y. Proof. intros i j Hi Hj. destruct HE as (_ & _ & Fy & _ & Ay & _). apply pd98; auto. Qed.
Lemma good_x m : (m < M)%nat -> good (x m). Proof. intros Hm i j Hi Hj. destruct HE as (_ & _ & _ & Fx & _ & Ax). apply pd98; auto. Qed.
Lemma good367 u : good u -> forall i j, (i < D)%nat -> (j < D)%nat -> calc (n + q) 367 (pw (Rabs (rsub b64 (u i) (u j)))) (vgram p u i j).
Proof. intros G i j Hi Hj. apply (calc_le (n + q) _ 98); [lia|lia|now apply G]. Qed.
Lemma hcalc i j : (i < D)%nat -> (j < D)%nat -> calc 0 100 (h i j) (h i j). Proof. intros. now apply oow, Hh. Qed.
(** the sums over the entries in the array implementation *)
Lemma in_near u v t : good u -> good v -> adds t (D * D) -> near (K + height t) (tsum b64 t (sqa D pw h u v)) (vdist D h p u v) (vplus D h p u v).
Proof. intros Gu Gv A. apply near_of. apply (inner n q D p pw h Hh); auto using good367. Qed.
Lemma in_big u v t : good u -> good v -> adds t (D * D) -> calc 0 401 (tsum b64 t (sqa D pw h u v)) (tsum b64 t (sqa D pw h u v)).
Proof.
  intros Gu Gv A. assert (calc (0 + height t) 400 (tsum b64 t (sqa D pw h u v)) (sumn (D * D) (sqa D pw h u v))) as (F & _ & _ & B).
  { apply (tsum_n t (D * D)); [lia|exact A|]. intros k Hk. assert (k / D < D)%nat as Hi by (apply Nat.div_lt_upper_bound; nia). assert (k mod D < D)%nat as Hj by (apply Nat.mod_upper_bound; nia).
    unfold sqa. cbv zeta. eapply (sqbig (n + q)); [now apply hcalc|now apply Gu|now apply Gv]. }
  apply calc_exact; [exact F|apply (big_le 400); [lia|exact B]].
Qed.
Let k_e i := vplus D h p (x i) y.
Let Wp i : (i < M)%nat -> 0 <= W i.
Proof. intros Hi. unfold nw. apply Rmult_le_pos; [|left; apply Rinv_0_lt_compat, (L_round19.gS M fw HW)]. destruct (gfw M fw HW i Hi) as (_ & P & _). exact P. Qed.
Let Op : 0 <= ow. Proof. apply (gow ow Ho). Qed.
Lemma ow_arr_err ta tb t1 t2 g : orders M (D * D) g ta -> orders (M * M) (D * D) g tb -> adds t1 M -> adds t2 (M * M) ->
  appr (K + g + height t1 + height t2 + 2 * h0 + 11) 0 (owvs_arr_r b64 pw ta tb t0 t1 t2 M D y x h ow fw) (ow * k_wexact M W (vs_err D h p y x) (vs_dist D h p x)) (ow * k_wsize M W k_e (vpair D h p x)).
Proof.
  intros Oa Ob A1 A2. unfold owvs_arr_r. cbv zeta.
  set (E := fun i => tsum b64 (ta i) (sqa D pw h (x i) y)). set (Dd := fun i j => tsum b64 (tb (i * M + j)%nat) (sqa D pw h (x i) (x j))).
  assert (forall r, (r < M * M)%nat -> (r / M < M)%nat /\ (r mod M < M)%nat) as HR by (intros r Hr; split; [apply Nat.div_lt_upper_bound; lia|apply Nat.mod_upper_bound; lia]).
  assert (forall r, (r / M * M + r mod M)%nat = r) as HD by (intros r; rewrite Nat.mul_comm, <- Nat.div_mod_eq; reflexivity).
  pose proof (g1_arr M ow fw t0 0 E HM LM HW Ho A0 B0 E t1 A1 ltac:(intros i Hi; apply in_big; [now apply good_x|apply good_y|now apply Oa])) as C1.
  assert (forall i j, (i < M)%nat -> (j < M)%nat -> (i * M + j < M * M)%nat) as HI by (intros; nia).
  pose proof (g2_arr M ow fw t0 0 Dd HM LM HW Ho A0 B0 (fun r => tsum b64 (tb r) (sqa D pw h (x (r / M)%nat) (x (r mod M)%nat))) t2 A2 ltac:(intros r Hr; destruct (HR r Hr); unfold Dd; rewrite HD; apply in_big; [now apply good_x|now apply good_x|now apply Ob])) as C2.
  assert (near (K + g) (ow * sumn M (fun i => W i * E i)) (ow * sumn M (fun i => W i * vs_err D h p y x i)) (ow * sumn M (fun i => W i * k_e i))) as N1.
  { apply near_scal; [exact Op|]. apply near_sumn. intros i Hi. apply near_scal; [now apply Wp|]. destruct (Oa i Hi) as [Ai Li]. apply near_of. apply (appr_le (K + height (ta i)) _ 0 0); [lia|lra|]. apply (inner n q D p pw h Hh); [apply good367; now apply good_x|apply good367, good_y|exact Ai]. }
  assert (near (K + g) (ow * (/ 2 * sumn M (fun i => sumn M (fun j => W i * W j * Dd i j)))) (ow * (/ 2 * sumn M (fun i => sumn M (fun j => W i * W j * vs_dist D h p x i j)))) (ow * (/ 2 * sumn M (fun i => sumn M (fun j => W i * W j * vpair D h p x i j))))) as N2.
  { apply near_scal; [exact Op|]. apply near_scal; [lra|]. apply near_sumn. intros i Hi. apply near_sumn. intros j Hj. apply near_scal; [apply Rmult_le_pos; now apply Wp|]. destruct (Ob (i * M + j)%nat (HI i j Hi Hj)) as [Ai Li]. unfold Dd, vpair. destruct (Nat.eqb_spec i j) as [->|N].
    - rewrite (inner0 D pw h) by exact Ai. rewrite vs_dist_refl. apply near_of, appr_0.
    - apply near_of. apply (appr_le (K + height (tb (i * M + j)%nat)) _ 0 0); [lia|lra|]. apply (inner n q D p pw h Hh); [apply good367; now apply good_x|apply good367; now apply good_x|exact Ai]. }
  pose proof (near_calc _ _ _ _ _ _ _ N1 C1) as F1. pose proof (near_calc _ _ _ _ _ _ _ N2 C2) as F2.
  replace (ow * k_wexact M W (vs_err D h p y x) (vs_dist D h p x)) with (ow * sumn M (fun i => W i * vs_err D h p y x i) - ow * (/ 2 * sumn M (fun i => sumn M (fun j => W i * W j * vs_dist D h p x i j)))) by (unfold k_wexact; ring).
  replace (ow * k_wsize M W k_e (vpair D h p x)) with (ow * sumn M (fun i => W i * k_e i) + ow * (/ 2 * sumn M (fun i => sumn M (fun j => W i * W j * vpair D h p x i j)))) by (unfold k_wsize; ring).
  replace (K + g + height t1 + height t2 + 2 * h0 + 11)%nat with (S (K + g + height t1 + height t2 + 2 * h0 + 10)) by lia. rewrite <- (Rplus_0_r 0).
  apply appr_sub; [apply (appr_le (K + g + (0 + height t1 + h0 + 6)) _ 0 0); [lia|lra|exact F1]|].
  apply (appr_le (K + g + (0 + height t2 + 2 * h0 + 10)) _ 0 0); [lia|lra|].
  rewrite (tsum_ext t2 _ (fun r => rmul b64 (tsum b64 (tb r) (sqa D pw h (x (r / M)%nat) (x (r mod M)%nat))) (rmul b64 (rmul b64 (fw (r / M)%nat) (fw (r mod M)%nat)) ow))) by (intros r _; f_equal; f_equal; unfold rmul; now rewrite Rmult_comm).
  exact F2.
Qed.
(** the numba implementation *)
Definition sk u v (ij : nat * nat) := let d := rsub b64 (pw (Rabs (rsub b64 (u (fst ij)) (u (snd ij))))) (pw (Rabs (rsub b64 (v (fst ij)) (v (snd ij))))) in rmul b64 (h (fst ij) (snd ij)) (rmul b64 d d).
Definition sk2 u v (ij : nat * nat) := let d := rsub b64 (pw (Rabs (rsub b64 (u (fst ij)) (u (snd ij))))) (pw (Rabs (rsub b64 (v (fst ij)) (v (snd ij))))) in rmul b64 (rmul b64 2 (h (fst ij) (snd ij))) (rmul b64 d d).
Lemma h2calc i j : (i < D)%nat -> (j < D)%nat -> calc 0 100 (rmul b64 2 (h i j)) (2 * h i j). Proof. intros. apply calc_double. now apply hcalc. Qed.
Lemma sk_near u v i j : good u -> good v -> (i < D)%nat -> (j < D)%nat -> near K (sk u v (i, j)) (vd u v i j) (vs u v i j) /\ calc 0 400 (sk u v (i, j)) (sk u v (i, j)).
Proof.
  intros Gu Gv Hi Hj. split; [apply near_of; apply (sqdc (n + q)); [now apply hcalc|now apply good367|now apply good367|unfold K; lia]|]. eapply (sqbig (n + q)); [now apply hcalc|now apply Gu|now apply Gv].
Qed.
Lemma sk2_near u v i j : good u -> good v -> (i < D)%nat -> (j < D)%nat -> near K (sk2 u v (i, j)) (2 * vd u v i j) (2 * vs u v i j) /\ calc 0 400 (sk2 u v (i, j)) (sk2 u v (i, j)).
Proof.
  intros Gu Gv Hi Hj. split; [unfold vd, vs; rewrite <- !Rmult_assoc; apply near_of; apply (sqdc (n + q)); [now apply h2calc|now apply good367|now apply good367|unfold K; lia]|]. eapply (sqbig (n + q)); [now apply h2calc|now apply Gu|now apply Gv].
Qed.
Lemma ow_k_err : appr (K + Nat.max M (M * (M - 1) / 2) * (D * D) + 2 * h0 + 11) 0 (owvs_k_r b64 pw t0 M D y x h ow fw) (ow * k_wexact M W (vs_err D h p y x) (vs_dist D h p x)) (ow * k_wsize M W k_e (vpair D h p x)).
Proof.
  unfold owvs_k_r. cbv zeta. fold (ijs D). fold (kms M). pose proof (L_round19.gS M fw HW) as PS. pose proof (gPM M HM) as PM. pose proof (gb M t0 HM B0) as GB.
  set (l1 := list_prod (seq 0 M) (ijs D)). set (l2 := list_prod (kms M) (ijs D)).
  assert (length l1 = M * (D * D))%nat as L1 by (unfold l1; rewrite prod_length, seq_length, ijs_len; reflexivity).
  assert (length l2 = M * (M - 1) / 2 * (D * D))%nat as L2 by (unfold l2; rewrite prod_length, kms_len, ijs_len; reflexivity).
  assert (forall z, In z l1 -> (fst z < M)%nat /\ (fst (snd z) < D)%nat /\ (snd (snd z) < D)%nat) as I1 by (intros [k [i j]] H; apply in_prod_iff in H; destruct H as [Hk H]; apply in_seq in Hk; apply ijs_in in H; cbn [fst snd]; lia).
  assert (forall z, In z l2 -> (fst (fst z) < M)%nat /\ (snd (fst z) < M)%nat /\ fst (fst z) <> snd (fst z) /\ (fst (snd z) < D)%nat /\ (snd (snd z) < D)%nat) as I2 by (intros [[k m] [i j]] H; apply in_prod_iff in H; destruct H as [Hk H]; apply kms_in in Hk; apply ijs_in in H; cbn [fst snd]; tauto).
  set (e1 := lsum b64 (map _ l1)). set (e2 := lsum b64 (map _ l2)).
  set (s1 := fun z : nat * (nat * nat) => sk (x (fst z)) y (snd z)). set (s2 := fun z : (nat * nat) * (nat * nat) => sk2 (x (fst (fst z))) (x (snd (fst z))) (snd z)).
  assert (calc (2 + length l1) 600 e1 (Rsum (map (fun z => s1 z * fw (fst z) * ow) l1))) as C1.
  { rewrite <- (map_length (fun '(k, (i, j)) => rmul b64 (rmul b64 (rmul b64 (h i j) (rmul b64 (rsub b64 (pw (Rabs (rsub b64 (x k i) (x k j)))) (pw (Rabs (rsub b64 (y i) (y j))))) (rsub b64 (pw (Rabs (rsub b64 (x k i) (x k j)))) (pw (Rabs (rsub b64 (y i) (y j))))))) (fw k)) ow) l1).
    apply lsum_calc; [lia|]. apply F2_map. intros [k [i j]] H. destruct (I1 _ H) as (Hk & Hi & Hj). cbn [fst snd] in *. destruct (sk_near (x k) y i j (good_x k Hk) good_y Hi Hj) as [_ C].
    apply (calc_mul 1 0 500 100 600); try lia; [|now apply gow]. apply (calc_mul 0 0 400 100 500); try lia; [exact C|now apply (gfw M fw HW)]. }
  assert (calc (3 + length l2) 700 e2 (Rsum (map (fun z => s2 z * fw (fst (fst z)) * fw (snd (fst z)) * ow) l2))) as C2.
  { rewrite <- (map_length (fun '((k, m), (i, j)) => rmul b64 (rmul b64 (rmul b64 (rmul b64 (rmul b64 2 (h i j)) (rmul b64 (rsub b64 (pw (Rabs (rsub b64 (x k i) (x k j)))) (pw (Rabs (rsub b64 (x m i) (x m j))))) (rsub b64 (pw (Rabs (rsub b64 (x k i) (x k j)))) (pw (Rabs (rsub b64 (x m i) (x m j))))))) (fw k)) (fw m)) ow) l2).
    apply lsum_calc; [lia|]. apply F2_map. intros [[k m] [i j]] H. destruct (I2 _ H) as (Hk & Hm & _ & Hi & Hj). cbn [fst snd] in *. destruct (sk2_near (x k) (x m) i j (good_x k Hk) (good_x m Hm) Hi Hj) as [_ C].
    apply (calc_mul 2 0 600 100 700); try lia; [|now apply gow]. apply (calc_mul 1 0 500 100 600); try lia; [|now apply (gfw M fw HW)]. apply (calc_mul 0 0 400 100 500); try lia; [exact C|now apply (gfw M fw HW)]. }
  assert (calc (2 * h0 + 4) 252 (b64 (INR (M * M) * b64 (b64 (tsum b64 t0 fw / INR M) * b64 (tsum b64 t0 fw / INR M)))) (S0 * S0)) as CS.
  { replace (2 * h0 + 4)%nat with (S (2 * h0 + 3)) by lia. replace (S0 * S0) with (INR (M * M) * (S0 / INR M * (S0 / INR M))) by (rewrite mult_INR; field; lra). apply (calc_scal _ 252 0 252); try lia; [|now apply gsq]. pose proof (le_INR 1 (M * M) ltac:(nia)) as Q. simpl (INR 1) in Q. simpl. lra. }
  apply (calc_quot2 _ (h0 + 2) 600 126 127 727 _ _ (b64 (INR M * b64 (tsum b64 t0 fw / INR M))) S0) in C1; [|lia|lia|lia|now apply gmw|exact PS|apply (calc_le_bp (h0 + 2) 126 _ S0 126); [lia|now apply gmw|apply (oSle M 0 (fun _ => 0) fw t0); auto using dummy]].
  apply (calc_scal _ 700 1 701 (/ 2)) in C2; [|simpl; lra|lia|lia].
  apply (calc_quot2 _ (2 * h0 + 4) 701 252 253 954 _ _ (b64 (INR (M * M) * b64 (b64 (tsum b64 t0 fw / INR M) * b64 (tsum b64 t0 fw / INR M)))) (S0 * S0)) in C2; [|lia|lia|lia|exact CS|nra|apply (calc_le_bp (2 * h0 + 4) 252 _ (S0 * S0) 252); [lia|exact CS|apply (oSS M 0 (fun _ => 0) fw t0); auto using dummy]].
  assert (near K (Rsum (map (fun z => s1 z * fw (fst z) * ow) l1) / S0) (ow * sumn M (fun i => W i * vs_err D h p y x i)) (ow * sumn M (fun i => W i * k_e i))) as N1.
  { assert (forall F : nat -> nat -> nat -> R, ow * sumn M (fun k => W k * sumn D (fun i => sumn D (F k i))) = / S0 * Rsum (map (fun z => (fw (fst z) * ow) * F (fst z) (fst (snd z)) (snd (snd z))) l1)) as T.
    { intros F. unfold l1. rewrite (Rsum_prod (fun k ij => (fw k * ow) * F k (fst ij) (snd ij))). rewrite (Rsum_map_ext _ (fun k => ow * S0 * (W k * sumn D (fun i => sumn D (F k i)))) (seq 0 M)).
      - fold (sumn M (fun k => ow * S0 * (W k * sumn D (fun i => sumn D (F k i))))). rewrite sumn_scal. field. lra.
      - intros k _. rewrite (sum_ijs D (fun i j => fw k * ow * F k i j)), sumn2_scal. unfold nw. field. lra. }
    change (sumn M (fun i => W i * vs_err D h p y x i)) with (sumn M (fun k => W k * sumn D (fun i => sumn D (vd (x k) y i)))). change (sumn M (fun i => W i * k_e i)) with (sumn M (fun k => W k * sumn D (fun i => sumn D (vs (x k) y i)))).
    rewrite (T (fun k => vd (x k) y)), (T (fun k => vs (x k) y)). unfold Rdiv. rewrite Rmult_comm. apply near_scal; [left; now apply Rinv_0_lt_compat|].
    rewrite (Rsum_map_ext _ (fun z => fw (fst z) * ow * s1 z) l1) by (intros; ring). apply near_sum. intros [k [i j]] H. destruct (I1 _ H) as (Hk & Hi & Hj). cbn [fst snd] in *. apply near_scal; [apply Rmult_le_pos; [apply (gfw M fw HW k Hk)|exact Op]|]. now apply sk_near; [apply good_x|apply good_y| |]. }
  assert (near K (/ 2 * Rsum (map (fun z => s2 z * fw (fst (fst z)) * fw (snd (fst z)) * ow) l2) / (S0 * S0)) (ow * (/ 2 * sumn M (fun i => sumn M (fun j => W i * W j * vs_dist D h p x i j)))) (ow * (/ 2 * sumn M (fun i => sumn M (fun j => W i * W j * vpair D h p x i j))))) as N2.
  { assert (forall (F : nat -> nat -> nat -> nat -> R) (G : nat -> nat -> R), (forall k m, G k m = G m k) -> (forall k, G k k = 0) -> (forall k m, k <> m -> G k m = sumn D (fun i => sumn D (F k m i))) ->
      ow * (/ 2 * sumn M (fun i => sumn M (fun j => W i * W j * G i j))) = / 2 * / (S0 * S0) * Rsum (map (fun z => (fw (fst (fst z)) * fw (snd (fst z)) * ow) * (2 * F (fst (fst z)) (snd (fst z)) (fst (snd z)) (snd (snd z)))) l2)) as T.
    { intros F G Gs G0 GF. unfold l2. rewrite (Rsum_prod (fun km ij => (fw (fst km) * fw (snd km) * ow) * (2 * F (fst km) (snd km) (fst ij) (snd ij)))).
      rewrite (Rsum_map_ext _ (fun km => 2 * (ow * (S0 * S0) * (W (fst km) * W (snd km) * G (fst km) (snd km)))) (kms M)).
      - unfold kms. rewrite (Rsum_km (fun k m => 2 * (ow * (S0 * S0) * (W k * W m * G k m)))). fold (sumn M (fun k => Rsum (map (fun m => 2 * (ow * (S0 * S0) * (W k * W m * G k m))) (seq (k + 1) (M - (k + 1)))))).
        rewrite (tri_gen M (fun k m => ow * (S0 * S0) * (W k * W m * G k m))) by (intros; first [rewrite G0; ring|rewrite Gs; ring]). rewrite sumn2_scal. field. lra.
      - intros [k m] Hkm. apply kms_in in Hkm. cbn [fst snd]. rewrite (sum_ijs D (fun i j => fw k * fw m * ow * (2 * F k m i j))), (GF k m) by tauto. rewrite !sumn2_scal. unfold nw. field. lra. }
    rewrite (T (fun k m => vd (x k) (x m)) (vs_dist D h p x)); [|apply vs_dist_sym|apply vs_dist_refl|reflexivity].
    rewrite (T (fun k m => vs (x k) (x m)) (vpair D h p x)).
    2:{ intros i j. unfold vpair. rewrite (Nat.eqb_sym i j). destruct (j =? i)%nat; [reflexivity|]. unfold vplus. apply sumn_ext; intros; apply sumn_ext; intros. f_equal. f_equal. ring. }
    2:{ intros i. unfold vpair. now rewrite Nat.eqb_refl. }
    2:{ intros k m N. unfold vpair. destruct (Nat.eqb_spec k m); [tauto|reflexivity]. }
    unfold Rdiv. replace (/ 2 * Rsum (map (fun z => s2 z * fw (fst (fst z)) * fw (snd (fst z)) * ow) l2) * / (S0 * S0)) with (/ 2 * / (S0 * S0) * Rsum (map (fun z => s2 z * fw (fst (fst z)) * fw (snd (fst z)) * ow) l2)) by ring.
    apply near_scal; [left; apply Rmult_lt_0_compat; [lra|apply Rinv_0_lt_compat; nra]|].
    rewrite (Rsum_map_ext _ (fun z => fw (fst (fst z)) * fw (snd (fst z)) * ow * s2 z) l2) by (intros; ring). apply near_sum. intros [[k m] [i j]] H. destruct (I2 _ H) as (Hk & Hm & _ & Hi & Hj). cbn [fst snd] in *.
    apply near_scal; [apply Rmult_le_pos; [apply Rmult_le_pos; [apply (gfw M fw HW k Hk)|apply (gfw M fw HW m Hm)]|exact Op]|]. now apply sk2_near; [apply good_x|apply good_x| |]. }
  pose proof (near_calc _ _ _ _ _ _ _ N1 C1) as F1. pose proof (near_calc _ _ _ _ _ _ _ N2 C2) as F2.
  replace (ow * k_wexact M W (vs_err D h p y x) (vs_dist D h p x)) with (ow * sumn M (fun i => W i * vs_err D h p y x i) - ow * (/ 2 * sumn M (fun i => sumn M (fun j => W i * W j * vs_dist D h p x i j)))) by (unfold k_wexact; ring).
  replace (ow * k_wsize M W k_e (vpair D h p x)) with (ow * sumn M (fun i => W i * k_e i) + ow * (/ 2 * sumn M (fun i => sumn M (fun j => W i * W j * vpair D h p x i j)))) by (unfold k_wsize; ring).
  replace (1 / 2) with (/ 2) by field.
  replace (K + Nat.max M (M * (M - 1) / 2) * (D * D) + 2 * h0 + 11)%nat with (S (K + Nat.max M (M * (M - 1) / 2) * (D * D) + 2 * h0 + 10)) by lia. rewrite <- (Rplus_0_r 0).
  apply appr_sub; [apply (appr_le (K + (2 + length l1 + (h0 + 2) + 2)) _ 0 0); [rewrite L1; nia|lra|exact F1]|].
  apply (appr_le (K + (S (3 + length l2) + (2 * h0 + 4) + 2)) _ 0 0); [rewrite L2; nia|lra|exact F2].
Qed.
End V.
