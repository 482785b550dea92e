(** Proofs of the rounding properties of the outcome-weighted variogram score (statements in P_round16.v). *)
From Coq Require Import Reals List ZArith Permutation Lia Lra Psatz Bool.
From Flocq Require Import Core.
From Verif Require Import Num M_vario L_crps_real L_crps_math L_crps_row L_crps_omit L_crps_ens L_energy L_vario L_round6 M_round16.
From Verif Require Export T_round15 L_round22 S_round10 S_round9 S_round8 S_round7 S_round5 S_round.
Open Scope R_scope.

Lemma ex_vg90 : vgens64 90 3 2 ex_y ex_x.
Proof.
  destruct ex_vg as (A & B & C & D & _). split; [exact A|]. split; [exact B|]. split; [exact C|]. split; [exact D|].
  assert (forall i j, apart 90 (INR i) (INR j)) as G.
  { intros i j. destruct (Nat.eq_dec i j) as [->|N]; [now left|right]. apply Rle_trans with 1.
    - rewrite <- Rinv_1. apply Rinv_le_contravar; [lra|]. apply pow_R1_Rle. lra.
    - rewrite !INR_IZR_INZ, <- minus_IZR, <- abs_IZR. apply (IZR_le 1). lia. }
  unfold ex_y, ex_x. split; intros; apply G.
Qed.
Lemma mw_div a b c : 0 < c -> a / (c * (b / c)) = a / b.
Proof. intros H. replace (c * (b / c)) with b by (field; lra). reflexivity. Qed.
Lemma C103_ow_l :
forall e n q M D p pw y x h ow fw ta tb t0 t1 t2 g, vgens64 e M D y x -> pow64 e n p pw -> 0 < p <= INR q -> (Z.of_nat n <= 2 ^ 52)%Z -> (e * q <= 97)%nat -> (forall i j, (i < D)%nat -> (j < D)%nat -> wt64 (h i j)) -> wts64 M fw -> wt64 ow -> adds t0 M -> orders M (D * D) g ta -> orders (M * M) (D * D) g tb -> adds t1 M -> adds t2 (M * M) ->
  let E := ow * k_wexact M (nw M fw) (vs_err D h p y x) (vs_dist D h p x) in
  Rabs (owvs_arr_r b64 pw ta tb t0 t1 t2 M D y x h ow fw - E) <= ((1 + u64) ^ (2 * (n + q) + 4 + g + height t1 + height t2 + 2 * height t0 + 11) - 1) * (ow * k_wsize M (nw M fw) (fun i => vplus D h p (x i) y) (vpair D h p x)) /\
  Rabs (owvs_k_r b64 pw t0 M D y x h ow fw - E) <= ((1 + u64) ^ (2 * (n + q) + 4 + Nat.max M (M * (M - 1) / 2) * (D * D) + 2 * height t0 + 11) - 1) * (ow * k_wsize M (nw M fw) (fun i => vplus D h p (x i) y) (vpair D h p x)).
Proof.
intros e n q M D p pw y x h ow fw ta tb t0 t1 t2 g HE HP Hp Hn He Hh HW Ho A0 Oa Ob A1 A2 E. assert (Z.of_nat (height t0) <= 2 ^ 50)%Z as B0 by (apply (height50 t0 M A0); apply HE).
split; apply appr0_err; [exact (ow_arr_err e n q M D p pw y x h ow fw t0 HE HP Hp Hn He Hh HW Ho A0 B0 ta tb t1 t2 g Oa Ob A1 A2)|exact (ow_k_err e n q M D p pw y x h ow fw t0 HE HP Hp Hn He Hh HW Ho A0 B0)].
Qed.
Lemma C103_agree_l :
forall e n q M D p pw y x h ow fw ta tb t0 t1 t2 g, vgens64 e M D y x -> pow64 e n p pw -> 0 < p <= INR q -> (Z.of_nat n <= 2 ^ 52)%Z -> (e * q <= 97)%nat -> (forall i j, (i < D)%nat -> (j < D)%nat -> wt64 (h i j)) -> wts64 M fw -> wt64 ow -> adds t0 M -> orders M (D * D) g ta -> orders (M * M) (D * D) g tb -> adds t1 M -> adds t2 (M * M) ->
  Rabs (owvs_arr_r b64 pw ta tb t0 t1 t2 M D y x h ow fw - owvs_k_r b64 pw t0 M D y x h ow fw) <= ((1 + u64) ^ (2 * (n + q) + 4 + g + height t1 + height t2 + 2 * height t0 + 11) + (1 + u64) ^ (2 * (n + q) + 4 + Nat.max M (M * (M - 1) / 2) * (D * D) + 2 * height t0 + 11) - 2) * (ow * k_wsize M (nw M fw) (fun i => vplus D h p (x i) y) (vpair D h p x)).
Proof.
intros e n q M D p pw y x h ow fw ta tb t0 t1 t2 g HE HP Hp Hn He Hh HW Ho A0 Oa Ob A1 A2. destruct (C103_ow_l e n q M D p pw y x h ow fw ta tb t0 t1 t2 g HE HP Hp Hn He Hh HW Ho A0 Oa Ob A1 A2) as [B1 B2]. set (E := ow * k_wexact _ _ _ _) in *.
replace (owvs_arr_r b64 pw ta tb t0 t1 t2 M D y x h ow fw - owvs_k_r b64 pw t0 M D y x h ow fw) with ((owvs_arr_r b64 pw ta tb t0 t1 t2 M D y x h ow fw - E) + - (owvs_k_r b64 pw t0 M D y x h ow fw - E)) by ring. eapply Rle_trans; [apply Rabs_triang|]. rewrite Rabs_Ropp. lra.
Qed.
Lemma C103_perfect_l :
forall M D pw y x h ow fw ta tb t0 t1 t2 g, orders M (D * D) g ta -> orders (M * M) (D * D) g tb -> adds t1 M -> adds t2 (M * M) -> (forall m i, (m < M)%nat -> (i < D)%nat -> x m i = y i) ->
  owvs_arr_r b64 pw ta tb t0 t1 t2 M D y x h ow fw = 0 /\ owvs_k_r b64 pw t0 M D y x h ow fw = 0.
Proof.
intros M D pw y x h ow fw ta tb t0 t1 t2 g Oa Ob A1 A2 Hx.
assert (0 < M)%nat as HM by (pose proof (height_adds _ _ A1); lia).
assert (0 < D)%nat as HD. { destruct (Oa 0%nat HM) as [A _]. pose proof (height_adds _ _ A). nia. }
assert (forall k, (k < D * D)%nat -> (k / D < D)%nat /\ (k mod D < D)%nat) as HK by (intros k Hk; split; [apply Nat.div_lt_upper_bound; lia|apply Nat.mod_upper_bound; lia]).
split.
- unfold owvs_arr_r. cbv zeta. rewrite (tsum_zl t1), (tsum_zl t2); [rewrite !rd0, rm0r; apply rs0| |].
  + intros r Hr. apply (leaves_lt _ _ _ A2) in Hr. assert (r / M < M)%nat as Hi by (apply Nat.div_lt_upper_bound; lia). assert (r mod M < M)%nat as Hj by (apply Nat.mod_upper_bound; lia). rewrite tsum_zl; [apply rm0l|]. intros k Hk. apply (leaves_lt _ (D * D)) in Hk; [|now apply Ob]. destruct (HK k Hk). rewrite sq0; [apply rm0r|]. now rewrite !Hx.
  + intros m Hm. apply (leaves_lt _ _ _ A1) in Hm. rewrite tsum_zl; [now rewrite !rm0l|]. intros k Hk. apply (leaves_lt _ (D * D)) in Hk; [|now apply Oa]. destruct (HK k Hk). rewrite sq0; [apply rm0r|]. now rewrite !Hx.
- unfold owvs_k_r. cbv zeta. fold (ijs D). fold (kms M). rewrite (zero_lsum (map _ (list_prod (seq 0 M) (ijs D)))), (zero_lsum (map _ (list_prod (kms M) (ijs D)))); [rewrite rm0r, !rd0; apply rs0| |].
  + apply Forall_forall. intros v Hv. apply in_map_iff in Hv. destruct Hv as ([[k m] [i j]] & <- & Hz). apply in_prod_iff in Hz. destruct Hz as [Hk Hi]. apply kms_in in Hk. apply ijs_in in Hi. rewrite sq0; [now rewrite rm0r, !rm0l|]. now rewrite !Hx by lia.
  + apply Forall_forall. intros v Hv. apply in_map_iff in Hv. destruct Hv as ([k [i j]] & <- & Hz). apply in_prod_iff in Hz. destruct Hz as [Hk Hi]. apply in_seq in Hk. apply ijs_in in Hi. rewrite sq0; [now rewrite rm0r, !rm0l|]. now rewrite !Hx by lia.
Qed.
Lemma C103_unrounded_l :
forall M D p y x h ow fw ta tb t0 t1 t2 g, (0 < M)%nat -> 0 < p -> 0 < sumn M fw -> adds t0 M -> orders M (D * D) g ta -> orders (M * M) (D * D) g tb -> adds t1 M -> adds t2 (M * M) ->
  let id := fun r : R => r in let pw v := vpow v p in let E := ow * k_wexact M (nw M fw) (vs_err D h p y x) (vs_dist D h p x) in
  let vec n f := map (fun k => Fin (f k)) (seq 0 n) in let rows n f := map (fun i => map (fun k => Fin (f i k)) (seq 0 D)) (seq 0 n) in
  owvs_arr_r id pw ta tb t0 t1 t2 M D y x h ow fw = E /\ owvs_k_r id pw t0 M D y x h ow fw = E /\
  owvs_k (vec D y) (rows M x) (rows D h) (Fin ow) (vec M fw) p = Fin (owvs_k_r id pw t0 M D y x h ow fw).
Proof.
intros M D p y x h ow fw ta tb t0 t1 t2 g HM Hp PS A0 Oa Ob A1 A2 id pw E vec rows. change id with idr. clear id.
assert (0 < D)%nat as HD. { destruct (Oa 0%nat HM) as [A _]. pose proof (height_adds _ _ A). nia. }
assert (0 < INR M) as PM by (now apply lt_0_INR). assert (INR (M * M) = INR M * INR M) as fe by apply mult_INR.
set (e := vs_err D h p y x) in *. set (d := vs_dist D h p x) in *.
assert (E = sumn M (fun i => e i * fw i * ow) / sumn M fw - / 2 * (sumn M (fun i => sumn M (fun j => d i j * (fw i * fw j * ow))) / (sumn M fw * sumn M fw))) as EE.
{ unfold E. rewrite k_wexact_nw by lra. rewrite (sumn_ext M (fun i => e i * fw i * ow) (fun i => ow * (fw i * e i))) by (intros; ring). rewrite sumn_scal.
  rewrite (sumn_ext M (fun i => sumn M (fun j => d i j * (fw i * fw j * ow))) (fun i => sumn M (fun j => ow * (fw i * fw j * d i j)))) by (intros; apply sumn_ext; intros; ring). rewrite sumn2_scal. field. lra. }
assert (owvs_k_r idr pw t0 M D y x h ow fw = E) as K.
{ unfold owvs_k_r. cbv zeta. fold (ijs D). fold (kms M). rewrite !lsum_id, (tsum_id t0 M _ A0).
  rewrite (Rsum_map_ext _ (fun z => fw (fst z) * ow * (h (fst (snd z)) (snd (snd z)) * (vgram p (x (fst z)) (fst (snd z)) (snd (snd z)) - vgram p y (fst (snd z)) (snd (snd z))) ^ 2)) (list_prod (seq 0 M) (ijs D))).
  2:{ intros [k [i j]] _. unfold rmul, rsub, idr, pw, vgram. cbn [fst snd]. ring. }
  rewrite (Rsum_map_ext _ (fun z => 2 * (fw (fst (fst z)) * fw (snd (fst z)) * ow) * (h (fst (snd z)) (snd (snd z)) * (vgram p (x (fst (fst z))) (fst (snd z)) (snd (snd z)) - vgram p (x (snd (fst z))) (fst (snd z)) (snd (snd z))) ^ 2)) (list_prod (kms M) (ijs D))).
  2:{ intros [[k m] [i j]] _. unfold rmul, rsub, idr, pw, vgram. cbn [fst snd]. ring. }
  rewrite (Rsum_prod (fun k ij => fw k * ow * (h (fst ij) (snd ij) * (vgram p (x k) (fst ij) (snd ij) - vgram p y (fst ij) (snd ij)) ^ 2))).
  rewrite (Rsum_map_ext _ (fun k => e k * fw k * ow) (seq 0 M)) by (intros k _; rewrite (sum_ijs D (fun i j => fw k * ow * (h i j * (vgram p (x k) i j - vgram p y i j) ^ 2))), sumn2_scal; unfold e, vs_err, vdist; ring).
  rewrite (Rsum_prod (fun km ij => 2 * (fw (fst km) * fw (snd km) * ow) * (h (fst ij) (snd ij) * (vgram p (x (fst km)) (fst ij) (snd ij) - vgram p (x (snd km)) (fst ij) (snd ij)) ^ 2))).
  rewrite (Rsum_map_ext _ (fun km => 2 * (d (fst km) (snd km) * (fw (fst km) * fw (snd km) * ow))) (kms M)) by (intros km _; rewrite (sum_ijs D (fun i j => 2 * (fw (fst km) * fw (snd km) * ow) * (h i j * (vgram p (x (fst km)) i j - vgram p (x (snd km)) i j) ^ 2))), sumn2_scal; unfold d, vs_dist, vdist; ring).
  unfold kms. rewrite (Rsum_km (fun k m => 2 * (d k m * (fw k * fw m * ow)))). fold (sumn M (fun k => e k * fw k * ow)). fold (sumn M (fun i => Rsum (map (fun j => 2 * (d i j * (fw i * fw j * ow))) (seq (i + 1) (M - (i + 1)))))).
  rewrite (tri_gen M (fun i j => d i j * (fw i * fw j * ow))) by (intros; unfold d; first [rewrite vs_dist_refl; ring|rewrite vs_dist_sym; ring]). rewrite EE. unfold rsub, rdiv, rmul, idr. rewrite fe. field. lra. }
split; [|split; [exact K|]].
- unfold owvs_arr_r. cbv zeta. rewrite (tsum_id t0 M _ A0).
  assert (forall u v t, adds t (D * D) -> tsum idr t (fun n => let d := rsub idr (pw (Rabs (rsub idr (u (n mod D)%nat) (u (n / D)%nat)))) (pw (Rabs (rsub idr (v (n mod D)%nat) (v (n / D)%nat)))) in rmul idr (h (n / D)%nat (n mod D)%nat) (rmul idr d d)) = vdist D h p u v) as I.
  { intros u v t A. rewrite (tsum_idr_ext t (D * D) _ (fun k => (fun i j => h i j * (vgram p u i j - vgram p v i j) ^ 2) (k / D)%nat (k mod D)%nat) A); [now apply (sumn_grid D D (fun i j => h i j * (vgram p u i j - vgram p v i j) ^ 2))|].
    intros k Hk. cbv zeta. unfold rmul, rsub, idr, pw, vgram. rewrite (Rabs_minus_sym (u (k mod D)%nat)), (Rabs_minus_sym (v (k mod D)%nat)). ring. }
  rewrite (tsum_idr_ext t1 M _ (fun i => e i * fw i * ow) A1) by (intros m Hm; unfold rmul at 1 2; unfold idr at 1 2; f_equal; f_equal; apply (I (x m) y); now apply Oa).
  rewrite (tsum_idr_ext t2 (M * M) _ (fun k => (fun i j => d i j * (fw i * fw j * ow)) (k / M)%nat (k mod M)%nat) A2) by (intros r Hr; unfold rmul at 1; unfold idr at 1; f_equal; [apply (I (x (r / M)%nat) (x (r mod M)%nat)); now apply Ob|unfold rmul, idr; ring]).
  rewrite (sumn_grid M M (fun i j => d i j * (fw i * fw j * ow))) by lia. rewrite EE. unfold rsub, rdiv, rmul, idr. rewrite fe. field. lra.
- rewrite K. exact (owvs_k_real M D (fun k => Fin (y k)) (fun i k => Fin (x i k)) (fun i k => Fin (h i k)) y x h p HM Hp ltac:(auto) ltac:(auto) ltac:(auto) (fun k => Fin (fw k)) fw ltac:(auto) ow ltac:(lra)).
Qed.
