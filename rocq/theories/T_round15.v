(** Proofs of the rounding properties of the fair variogram score (statements in P_round15.v). *)
From Coq Require Import Reals List ZArith Permutation Lia Lra Psatz Bool.
From Flocq Require Import Core.
From Verif Require Import Num M_vario L_crps_real L_crps_math L_crps_row L_crps_omit L_crps_ens L_energy L_vario L_round6.
From Verif Require Export T_round14 L_round21 S_round10 S_round9 S_round8 S_round7 S_round5 S_round.
Open Scope R_scope.

Local Notation bp := (bpow radix2).
Lemma ex_ordv N : orders N (2 * 2) 3 (fun _ => comb 3).
Proof. intros i _. destruct (comb_adds 3) as [A L]. split; [exact A|rewrite L; lia]. Qed.
Lemma leaves_lt t N i : adds t N -> In i (leaves t) -> (i < N)%nat.
Proof. intros A H. apply (Permutation_in i A), in_seq in H. lia. Qed.
Lemma sq0 a b : a = b -> rmul b64 (rsub b64 a b) (rsub b64 a b) = 0.
Proof. intros ->. unfold rsub. rewrite Rminus_eq_0, b64_0. apply rm0l. Qed.
Lemma hge h D i j : (forall i j, (i < D)%nat -> (j < D)%nat -> wt64 (h i j)) -> (i < D)%nat -> (j < D)%nat -> 0 <= h i j.
Proof. intros Hh Hi Hj. destruct (oow (h i j)) as (_ & P & _); [now apply Hh|exact P]. Qed.
Lemma C102_fair_l :
forall e n q M D p pw y x h ta tb t1 t2 g, (1 < M)%nat -> vgens64 e M D y x -> pow64 e n p pw -> 0 < p <= INR q -> (Z.of_nat n <= 2 ^ 52)%Z -> (e * q <= 340)%nat -> (forall i j, (i < D)%nat -> (j < D)%nat -> wt64 (h i j)) -> orders M (D * D) g ta -> orders (M * M) (D * D) g tb -> adds t1 M -> adds t2 (M * M) ->
  let E := k_fair M (vs_err D h p y x) (vs_dist D h p x) in
  Rabs (vs_fair_arr_r b64 pw ta tb t1 t2 M D y x h - E) <= err64 (2 * (n + q) + 4 + g + Nat.max (height t1) (height t2) + 3) 3 (vs_fair_size D h p M y x) /\
  Rabs (vs_fair_k_r b64 pw M D y x h - E) <= err64 (2 * (n + q) + 4 + Nat.max M (M * (M - 1) / 2) * (D * D) + 3) 3 (vs_fair_size D h p M y x).
Proof.
intros e n q M D p pw y x h ta tb t1 t2 g H2 HE HP Hp Hn He Hh Oa Ob A1 A2 E. split; apply appr_err; [exact (fair_arr_err e n q M D p pw y x h HE HP Hp Hn He Hh H2 ta tb t1 t2 g Oa Ob A1 A2)|exact (fair_k_err e n q M D p pw y x h HE HP Hp Hn He Hh H2)].
Qed.
Lemma C102_agree_l :
forall e n q M D p pw y x h ta tb t1 t2 g, (1 < M)%nat -> vgens64 e M D y x -> pow64 e n p pw -> 0 < p <= INR q -> (Z.of_nat n <= 2 ^ 52)%Z -> (e * q <= 340)%nat -> (forall i j, (i < D)%nat -> (j < D)%nat -> wt64 (h i j)) -> orders M (D * D) g ta -> orders (M * M) (D * D) g tb -> adds t1 M -> adds t2 (M * M) ->
  Rabs (vs_fair_arr_r b64 pw ta tb t1 t2 M D y x h - vs_fair_k_r b64 pw M D y x h) <= err64 (2 * (n + q) + 4 + g + Nat.max (height t1) (height t2) + 3) 3 (vs_fair_size D h p M y x) + err64 (2 * (n + q) + 4 + Nat.max M (M * (M - 1) / 2) * (D * D) + 3) 3 (vs_fair_size D h p M y x).
Proof.
intros e n q M D p pw y x h ta tb t1 t2 g H2 HE HP Hp Hn He Hh Oa Ob A1 A2. destruct (C102_fair_l e n q M D p pw y x h ta tb t1 t2 g H2 HE HP Hp Hn He Hh Oa Ob A1 A2) as [B1 B2]. set (E := k_fair _ _ _) in *.
replace (vs_fair_arr_r b64 pw ta tb t1 t2 M D y x h - vs_fair_k_r b64 pw M D y x h) with ((vs_fair_arr_r b64 pw ta tb t1 t2 M D y x h - E) + - (vs_fair_k_r b64 pw M D y x h - E)) by ring. eapply Rle_trans; [apply Rabs_triang|]. rewrite Rabs_Ropp. lra.
Qed.
Lemma C102_perfect_l :
forall M D pw y x h ta tb t1 t2 g, (forall i j, (i < D)%nat -> (j < D)%nat -> wt64 (h i j)) -> orders M (D * D) g ta -> orders (M * M) (D * D) g tb -> adds t1 M -> adds t2 (M * M) ->
  (forall m i, (m < M)%nat -> (i < D)%nat -> x m i = x 0%nat i) ->
  0 <= vs_fair_arr_r b64 pw ta tb t1 t2 M D y x h /\ 0 <= vs_fair_k_r b64 pw M D y x h /\
  ((forall i, (i < D)%nat -> x 0%nat i = y i) -> vs_fair_arr_r b64 pw ta tb t1 t2 M D y x h = 0 /\ vs_fair_k_r b64 pw M D y x h = 0).
Proof.
intros M D pw y x h ta tb t1 t2 g Hh Oa Ob A1 A2 Hx.
assert (0 < M)%nat as HM by (pose proof (height_adds _ _ A1); lia).
assert (0 < D)%nat as HD. { destruct (Oa 0%nat HM) as [A _]. pose proof (height_adds _ _ A). nia. }
assert (forall k, (k < D * D)%nat -> (k / D < D)%nat /\ (k mod D < D)%nat) as HK by (intros k Hk; split; [apply Nat.div_lt_upper_bound; lia|apply Nat.mod_upper_bound; lia]).
assert (forall a, rsub b64 a (rmul b64 (1 / 2) (rdiv b64 0 (INR (M * (M - 1))))) = b64 a) as Q1 by (intros a; rewrite rd0, rm0r; unfold rsub; now rewrite Rminus_0_r).
assert (forall a, rsub b64 a (rdiv b64 (rmul b64 (1 / 2) 0) (INR (M * (M - 1)))) = b64 a) as Q2 by (intros a; rewrite rm0r, rd0; unfold rsub; now rewrite Rminus_0_r).
assert (forall a b, 0 <= a -> 0 < b -> 0 <= rdiv b64 a b) as Q3 by (intros a b Ha Hb; unfold rdiv; apply b64_ge0, Rmult_le_pos; [exact Ha|left; now apply Rinv_0_lt_compat]).
assert (0 < INR M) as PM by (now apply lt_0_INR).
assert (vs_fair_arr_r b64 pw ta tb t1 t2 M D y x h = b64 (rdiv b64 (tsum b64 t1 (fun m => tsum b64 (ta m) (sqa D pw h (x m) y))) (INR M))) as EA.
{ unfold vs_fair_arr_r. cbv zeta. rewrite (tsum_zl t2).
  - apply Q1.
  - intros r Hr. apply (leaves_lt _ _ _ A2) in Hr. assert (r / M < M)%nat as Hi by (apply Nat.div_lt_upper_bound; lia). assert (r mod M < M)%nat as Hj by (apply Nat.mod_upper_bound; lia). apply tsum_zl. intros k Hk. apply (leaves_lt _ (D * D)) in Hk; [|now apply Ob]. destruct (HK k Hk). rewrite sq0; [apply rm0r|]. now rewrite (Hx (r / M)%nat), (Hx (r / M)%nat), (Hx (r mod M)%nat), (Hx (r mod M)%nat). }
assert (vs_fair_k_r b64 pw M D y x h = b64 (rdiv b64 (lsum b64 (map (fun '(k, (i, j)) => let d := rsub b64 (pw (Rabs (rsub b64 (x k i) (x k j)))) (pw (Rabs (rsub b64 (y i) (y j)))) in rmul b64 (h i j) (rmul b64 d d)) (list_prod (seq 0 M) (ijs D)))) (INR M))) as EK.
{ unfold vs_fair_k_r. cbv zeta. fold (ijs D). fold (kms M). rewrite (zero_lsum (map _ (list_prod (kms M) (ijs D)))); [apply Q2|].
  apply Forall_forall. intros v Hv. apply in_map_iff in Hv. destruct Hv as ([[k m] [i j]] & <- & Hz). apply in_prod_iff in Hz. destruct Hz as [Hk Hi]. apply kms_in in Hk. apply ijs_in in Hi. rewrite sq0; [apply rm0r|]. now rewrite (Hx k i), (Hx k j), (Hx m i), (Hx m j) by lia. }
rewrite EA, EK. split; [|split].
- apply b64_ge0, Q3; [|exact PM]. apply tsum_ge0. intros m Hm. apply (leaves_lt _ _ _ A1) in Hm. apply tsum_ge0. intros k Hk. apply (leaves_lt _ (D * D)) in Hk; [|now apply Oa]. destruct (HK k Hk). unfold sqa. cbv zeta. unfold rmul. apply b64_ge0, Rmult_le_pos; [now apply (hge h D)|apply b64_ge0, Rle_0_sqr].
- apply b64_ge0, Q3; [|exact PM]. apply lsum_ge0. apply Forall_forall. intros v Hv. apply in_map_iff in Hv. destruct Hv as ([k [i j]] & <- & Hz). apply in_prod_iff in Hz. destruct Hz as [_ Hi]. apply ijs_in in Hi. cbv zeta. unfold rmul. apply b64_ge0, Rmult_le_pos; [now apply (hge h D)|apply b64_ge0, Rle_0_sqr].
- intros Hy. split.
  + rewrite tsum_zl; [now rewrite rd0, b64_0|]. intros m Hm. apply (leaves_lt _ _ _ A1) in Hm. apply tsum_zl. intros k Hk. apply (leaves_lt _ (D * D)) in Hk; [|now apply Oa]. destruct (HK k Hk). unfold sqa. cbv zeta. rewrite sq0; [apply rm0r|]. now rewrite !(Hx m), !Hy.
  + rewrite zero_lsum; [now rewrite rd0, b64_0|]. apply Forall_forall. intros v Hv. apply in_map_iff in Hv. destruct Hv as ([k [i j]] & <- & Hz). apply in_prod_iff in Hz. destruct Hz as [Hk Hi]. apply in_seq in Hk. apply ijs_in in Hi. cbv zeta. rewrite sq0; [apply rm0r|]. now rewrite (Hx k i), (Hx k j), !Hy by lia.
Qed.
Lemma C102_unrounded_l :
forall M D p y x h ta tb t1 t2 g, (1 < M)%nat -> 0 < p -> orders M (D * D) g ta -> orders (M * M) (D * D) g tb -> adds t1 M -> adds t2 (M * M) ->
  let id := fun r : R => r in let pw v := vpow v p in let E := k_fair M (vs_err D h p y x) (vs_dist D h p x) in
  let obs := map (fun k => Fin (y k)) (seq 0 D) in let rows n f := map (fun i => map (fun k => Fin (f i k)) (seq 0 D)) (seq 0 n) in
  vs_fair_arr_r id pw ta tb t1 t2 M D y x h = E /\ vs_fair_k_r id pw M D y x h = E /\
  vs_fair_k obs (rows M x) (rows D h) p = Fin (vs_fair_k_r id pw M D y x h).
Proof.
intros M D p y x h ta tb t1 t2 g H2 Hp Oa Ob A1 A2 id pw E obs rows. change id with idr. clear id.
assert (0 < D)%nat as HD. { destruct (Oa 0%nat ltac:(lia)) as [A _]. pose proof (height_adds _ _ A). nia. }
assert (2 <= INR M) as M2 by (apply (le_INR 2); lia). assert (INR (M * (M - 1)) = INR M * (INR M - 1)) as fe by (rewrite mult_INR, minus_INR by lia; reflexivity).
assert (vs_fair_k_r idr pw M D y x h = E) as K.
{ unfold vs_fair_k_r. cbv zeta. fold (ijs D). fold (kms M). rewrite !lsum_id.
  rewrite (Rsum_map_ext _ (fun z => h (fst (snd z)) (snd (snd z)) * (vgram p (x (fst z)) (fst (snd z)) (snd (snd z)) - vgram p y (fst (snd z)) (snd (snd z))) ^ 2) (list_prod (seq 0 M) (ijs D))).
  2:{ intros [k [i j]] _. unfold rmul, rsub, idr, pw, vgram. cbn [fst snd]. ring. }
  rewrite (Rsum_map_ext _ (fun z => 2 * (h (fst (snd z)) (snd (snd z)) * (vgram p (x (fst (fst z))) (fst (snd z)) (snd (snd z)) - vgram p (x (snd (fst z))) (fst (snd z)) (snd (snd z))) ^ 2)) (list_prod (kms M) (ijs D))).
  2:{ intros [[k m] [i j]] _. unfold rmul, rsub, idr, pw, vgram. cbn [fst snd]. ring. }
  rewrite (Rsum_prod (fun k ij => h (fst ij) (snd ij) * (vgram p (x k) (fst ij) (snd ij) - vgram p y (fst ij) (snd ij)) ^ 2)).
  rewrite (Rsum_map_ext _ (vs_err D h p y x) (seq 0 M)) by (intros k _; apply (sum_ijs D (fun i j => h i j * (vgram p (x k) i j - vgram p y i j) ^ 2))).
  rewrite (Rsum_prod (fun km ij => 2 * (h (fst ij) (snd ij) * (vgram p (x (fst km)) (fst ij) (snd ij) - vgram p (x (snd km)) (fst ij) (snd ij)) ^ 2))).
  rewrite (Rsum_map_ext _ (fun km => 2 * vs_dist D h p x (fst km) (snd km)) (kms M)) by (intros km _; rewrite (sum_ijs D (fun i j => 2 * (h i j * (vgram p (x (fst km)) i j - vgram p (x (snd km)) i j) ^ 2))); apply sumn2_scal).
  unfold kms. rewrite (Rsum_km (fun k m => 2 * vs_dist D h p x k m)). fold (sumn M (vs_err D h p y x)). fold (sumn M (fun i => Rsum (map (fun j => 2 * vs_dist D h p x i j) (seq (i + 1) (M - (i + 1)))))).
  rewrite (tri_gen M (vs_dist D h p x)) by (intros; first [apply vs_dist_refl|apply vs_dist_sym]). unfold rsub, rdiv, rmul, idr, E, k_fair. rewrite fe. field. lra. }
split; [|split; [exact K|]].
- unfold vs_fair_arr_r. cbv zeta.
  assert (forall u v t, adds t (D * D) -> tsum idr t (fun n => let d := rsub idr (pw (Rabs (rsub idr (u (n mod D)%nat) (u (n / D)%nat)))) (pw (Rabs (rsub idr (v (n mod D)%nat) (v (n / D)%nat)))) in rmul idr (h (n / D)%nat (n mod D)%nat) (rmul idr d d)) = vdist D h p u v) as I.
  { intros u v t A. rewrite (tsum_idr_ext t (D * D) _ (fun k => (fun i j => h i j * (vgram p u i j - vgram p v i j) ^ 2) (k / D)%nat (k mod D)%nat) A); [now apply (sumn_grid D D (fun i j => h i j * (vgram p u i j - vgram p v i j) ^ 2))|].
    intros k Hk. cbv zeta. unfold rmul, rsub, idr, pw, vgram. rewrite (Rabs_minus_sym (u (k mod D)%nat)), (Rabs_minus_sym (v (k mod D)%nat)). ring. }
  rewrite (tsum_idr_ext t1 M _ (vs_err D h p y x) A1) by (intros m Hm; apply I; now apply Oa).
  rewrite (tsum_idr_ext t2 (M * M) _ (fun k => vs_dist D h p x (k / M)%nat (k mod M)%nat) A2) by (intros r Hr; apply (I (x (r / M)%nat) (x (r mod M)%nat)); now apply Ob).
  rewrite (sumn_grid M M (vs_dist D h p x)) by lia. unfold rsub, rdiv, rmul, idr, E, k_fair. rewrite fe. field. lra.
- rewrite K. exact (vs_fair_k_real M D (fun k => Fin (y k)) (fun i k => Fin (x i k)) (fun i k => Fin (h i k)) y x h p ltac:(lia) Hp ltac:(auto) ltac:(auto) ltac:(auto) H2).
Qed.
