(** Algebra of the kernel forms [k_exact], ... *)
From Verif Require Export S_mv L_negdef L_crps_ens.
Open Scope R_scope.

Section forms.
Variables (M : nat) (HM : (0 < M)%nat).
Lemma k_exact_ext e d e' d' : (forall i, (i < M)%nat -> e i = e' i) ->
  (forall i j, (i < M)%nat -> (j < M)%nat -> d i j = d' i j) -> k_exact M e d = k_exact M e' d'.
Proof.
  intros H1 H2. unfold k_exact. rewrite (sumn_ext M e e') by auto.
  now rewrite (sumn_ext M (fun i => sumn M (d i)) (fun i => sumn M (d' i))) by (intros; apply sumn_ext; auto).
Qed.
Lemma k_fair_ext e d e' d' : (forall i, (i < M)%nat -> e i = e' i) ->
  (forall i j, (i < M)%nat -> (j < M)%nat -> d i j = d' i j) -> k_fair M e d = k_fair M e' d'.
Proof.
  intros H1 H2. unfold k_fair. rewrite (sumn_ext M e e') by auto.
  now rewrite (sumn_ext M (fun i => sumn M (d i)) (fun i => sumn M (d' i))) by (intros; apply sumn_ext; auto).
Qed.
Lemma k_lag_ext g g' e d e' d' : (forall i, (i < M)%nat -> g i = g' i) -> (forall i, (i < M)%nat -> (g i < M)%nat) ->
  (forall i, (i < M)%nat -> e i = e' i) ->
  (forall i j, (i < M)%nat -> (j < M)%nat -> d i j = d' i j) -> k_lag M g e d = k_lag M g' e' d'.
Proof.
  intros H0 Hg H1 H2. unfold k_lag. rewrite (sumn_ext M e e') by auto.
  now rewrite (sumn_ext M (fun i => d i (g i)) (fun i => d' i (g' i))) by (intros; rewrite <- H0 by auto; auto).
Qed.
Lemma k_wexact_ext w w' e d e' d' : (forall i, (i < M)%nat -> w i = w' i) -> (forall i, (i < M)%nat -> e i = e' i) ->
  (forall i j, (i < M)%nat -> (j < M)%nat -> d i j = d' i j) -> k_wexact M w e d = k_wexact M w' e' d'.
Proof.
  intros H0 H1 H2. unfold k_wexact. f_equal; [|f_equal].
  - apply sumn_ext; intros; now rewrite H0, H1.
  - apply sumn_ext; intros; apply sumn_ext; intros. now rewrite !H0, H2.
Qed.
Lemma k_wfair_ext w w' e d e' d' : (forall i, (i < M)%nat -> w i = w' i) -> (forall i, (i < M)%nat -> e i = e' i) ->
  (forall i j, (i < M)%nat -> (j < M)%nat -> d i j = d' i j) -> k_wfair M w e d = k_wfair M w' e' d'.
Proof.
  intros H0 H1 H2. unfold k_wfair.
  rewrite (sumn_ext M (fun i => w i * e i) (fun i => w' i * e' i)) by (intros; now rewrite H0, H1).
  rewrite (sumn_ext M (fun i => w i * w i) (fun i => w' i * w' i)) by (intros; now rewrite H0).
  rewrite (sumn_ext M (fun i => sumn M (fun j => w i * w j * d i j)) (fun i => sumn M (fun j => w' i * w' j * d' i j)));
    [reflexivity|]. intros; apply sumn_ext; intros. now rewrite !H0, H2.
Qed.
Lemma k_wlag_ext g g' w w' e d e' d' : (forall i, (i < M)%nat -> g i = g' i) -> (forall i, (i < M)%nat -> (g i < M)%nat) ->
  (forall i, (i < M)%nat -> w i = w' i) -> (forall i, (i < M)%nat -> e i = e' i) ->
  (forall i j, (i < M)%nat -> (j < M)%nat -> d i j = d' i j) -> k_wlag M g w e d = k_wlag M g' w' e' d'.
Proof.
  intros H H' H0 H1 H2. unfold k_wlag. f_equal; [|f_equal].
  - apply sumn_ext; intros; now rewrite H0, H1.
  - apply sumn_ext; intros. rewrite H0, H2, H; auto.
Qed.

(** ** scale *)
Lemma dscale c (d : nat -> nat -> R) : sumn M (fun i => sumn M (fun j => c * d i j)) = c * sumn M (fun i => sumn M (d i)).
Proof. rewrite <- sumn_scal. apply sumn_ext; intros. apply sumn_scal. Qed.
Lemma k_exact_scale c e d : k_exact M (fun i => c * e i) (fun i j => c * d i j) = c * k_exact M e d.
Proof. unfold k_exact. rewrite sumn_scal, dscale. unfold Rdiv. ring. Qed.
Lemma k_fair_scale c e d : k_fair M (fun i => c * e i) (fun i j => c * d i j) = c * k_fair M e d.
Proof. unfold k_fair. rewrite sumn_scal, dscale. unfold Rdiv. ring. Qed.
Lemma k_lag_scale g c e d : k_lag M g (fun i => c * e i) (fun i j => c * d i j) = c * k_lag M g e d.
Proof. unfold k_lag. rewrite !sumn_scal. unfold Rdiv. ring. Qed.
Lemma k_wexact_scale w c e d : k_wexact M w (fun i => c * e i) (fun i j => c * d i j) = c * k_wexact M w e d.
Proof.
  unfold k_wexact.
  rewrite (sumn_ext M (fun i => w i * (c * e i)) (fun i => c * (w i * e i))) by (intros; ring).
  rewrite (sumn_ext M (fun i => sumn M (fun j => w i * w j * (c * d i j))) (fun i => c * sumn M (fun j => w i * w j * d i j)))
    by (intros; rewrite <- sumn_scal; apply sumn_ext; intros; ring).
  rewrite !sumn_scal. ring.
Qed.
Lemma k_wfair_scale w c e d : k_wfair M w (fun i => c * e i) (fun i j => c * d i j) = c * k_wfair M w e d.
Proof.
  unfold k_wfair.
  rewrite (sumn_ext M (fun i => w i * (c * e i)) (fun i => c * (w i * e i))) by (intros; ring).
  rewrite (sumn_ext M (fun i => sumn M (fun j => w i * w j * (c * d i j))) (fun i => c * sumn M (fun j => w i * w j * d i j)))
    by (intros; rewrite <- sumn_scal; apply sumn_ext; intros; ring).
  rewrite !sumn_scal. unfold Rdiv. ring.
Qed.
Lemma k_wlag_scale g w c e d : k_wlag M g w (fun i => c * e i) (fun i j => c * d i j) = c * k_wlag M g w e d.
Proof.
  unfold k_wlag.
  rewrite (sumn_ext M (fun i => w i * (c * e i)) (fun i => c * (w i * e i))) by (intros; ring).
  rewrite (sumn_ext M (fun i => w i * (c * d i (g i))) (fun i => c * (w i * d i (g i)))) by (intros; ring).
  rewrite !sumn_scal. ring.
Qed.

(** ** reordering *)
Lemma sumn2_perm g (d : nat -> nat -> R) : reorders M g ->
  sumn M (fun i => sumn M (fun j => d (g i) (g j))) = sumn M (fun i => sumn M (fun j => d i j)).
Proof.
  intros H. rewrite <- (sumn_permutes M g (fun i => sumn M (fun j => d i j)) H).
  apply sumn_ext; intros i _. apply (sumn_permutes M g (fun j => d (g i) j) H).
Qed.
Lemma k_exact_perm g e d : reorders M g -> k_exact M (fun i => e (g i)) (fun i j => d (g i) (g j)) = k_exact M e d.
Proof. intros H. unfold k_exact. rewrite (sumn_permutes M g e H), (sumn2_perm g d H). reflexivity. Qed.
Lemma k_fair_perm g e d : reorders M g -> k_fair M (fun i => e (g i)) (fun i j => d (g i) (g j)) = k_fair M e d.
Proof. intros H. unfold k_fair. rewrite (sumn_permutes M g e H), (sumn2_perm g d H). reflexivity. Qed.
Lemma k_wexact_perm g w e d : reorders M g ->
  k_wexact M (fun i => w (g i)) (fun i => e (g i)) (fun i j => d (g i) (g j)) = k_wexact M w e d.
Proof.
  intros H. unfold k_wexact. rewrite (sumn_permutes M g (fun i => w i * e i) H).
  now rewrite (sumn2_perm g (fun i j => w i * w j * d i j) H).
Qed.
Lemma k_wfair_perm g w e d : reorders M g ->
  k_wfair M (fun i => w (g i)) (fun i => e (g i)) (fun i j => d (g i) (g j)) = k_wfair M w e d.
Proof.
  intros H. unfold k_wfair. rewrite (sumn_permutes M g (fun i => w i * e i) H).
  now rewrite (sumn2_perm g (fun i j => w i * w j * d i j) H), (sumn_permutes M g (fun i => w i * w i) H).
Qed.

(** ** uniform weights *)
Lemma unif2 d : sumn M (fun i => sumn M (fun j => / INR M * / INR M * d i j)) =
  / INR M * / INR M * sumn M (fun i => sumn M (fun j => d i j)).
Proof. rewrite <- sumn_scal. apply sumn_ext; intros. apply sumn_scal. Qed.
Lemma k_exact_unif e d : k_wexact M (fun _ => / INR M) e d = k_exact M e d.
Proof.
  pose proof (INR_nz M HM). unfold k_wexact, k_exact. rewrite unif2, sumn_scal.
  change (fun i => sumn M (fun j => d i j)) with (fun i => sumn M (d i)). field. auto.
Qed.
Lemma k_fair_unif e d : (1 < M)%nat -> k_wfair M (fun _ => / INR M) e d = k_fair M e d.
Proof.
  intros H2. pose proof (INR_nz M HM). pose proof (INR_ge2 M H2).
  unfold k_wfair, k_fair. rewrite unif2, sumn_scal, sumn_const.
  change (fun i => sumn M (fun j => d i j)) with (fun i => sumn M (d i)). field.
  repeat split; auto; try lra.
Qed.
Lemma k_lag_unif g e d : k_wlag M g (fun _ => / INR M) e d = k_lag M g e d.
Proof.
  pose proof (INR_nz M HM). unfold k_wlag, k_lag. rewrite !sumn_scal. field. auto.
Qed.

(** ** circular shifts forwards and backwards *)
Lemma lagc_lagf k : (k < M)%nat -> lagc M (lagf M k) = k.
Proof.
  intros H. unfold lagc, lagf. assert (M / 2 < M)%nat by (apply Nat.div_lt; lia).
  destruct (Nat.lt_ge_cases (k + M / 2) M).
  - rewrite (Nat.mod_small (k + M / 2)) by lia.
    replace (k + M / 2 + M - M / 2)%nat with (k + 1 * M)%nat by lia. rewrite Nat.mod_add, Nat.mod_small; lia.
  - assert (E : ((k + M / 2) mod M = k + M / 2 - M)%nat).
    { replace (k + M / 2)%nat with (k + M / 2 - M + 1 * M)%nat at 1 by lia.
      rewrite Nat.mod_add by lia. apply Nat.mod_small; lia. }
    rewrite E. replace (k + M / 2 - M + M - M / 2)%nat with k by lia. now apply Nat.mod_small.
Qed.
Lemma lagf_lt k : (k < M)%nat -> (lagf M k < M)%nat. Proof. intros; apply Nat.mod_upper_bound; lia. Qed.
Lemma lagf_reorders : reorders M (lagf M).
Proof.
  apply NoDup_Permutation_bis.
  - assert (N : NoDup (seq 0 M)) by apply seq_NoDup.
    apply (NoDup_map_inv (lagc M)). rewrite map_map.
    rewrite (map_ext_in _ (fun k => k)); [now rewrite map_id|]. intros k Hk. apply in_seq in Hk. apply lagc_lagf; lia.
  - rewrite map_length. lia.
  - intros k Hk. apply in_map_iff in Hk. destruct Hk as (j & <- & Hj). apply in_seq in Hj.
    apply in_seq. pose proof (lagf_lt j). lia.
Qed.
Lemma k_lag_sym e d : (forall i j, d i j = d j i) -> k_lag M (lagc M) e d = k_lag M (lagf M) e d.
Proof.
  intros Hs. unfold k_lag. do 2 f_equal.
  rewrite <- (sumn_permutes M (lagf M) (fun i => d i (lagc M i)) lagf_reorders).
  apply sumn_ext; intros i Hi. rewrite lagc_lagf by auto. apply Hs.
Qed.
Lemma lag_even k : Nat.even M = true -> lagc M k = lagf M k.
Proof.
  intros H. apply Nat.even_spec in H. destruct H as [m ->]. unfold lagc, lagf.
  rewrite Nat.mul_comm, Nat.div_mul by lia. f_equal. lia.
Qed.
End forms.

(** ** the energy score is non-negative and proper *)
Lemma qf_split M N a K : qf (M + N) a K =
  sumn M (fun i => sumn M (fun j => a i * a j * K i j))
  + sumn M (fun i => sumn N (fun j => a i * a (M + j)%nat * K i (M + j)%nat))
  + sumn N (fun i => sumn M (fun j => a (M + i)%nat * a j * K (M + i)%nat j))
  + sumn N (fun i => sumn N (fun j => a (M + i)%nat * a (M + j)%nat * K (M + i)%nat (M + j)%nat)).
Proof.
  unfold qf. rewrite sumn_plus_idx.
  rewrite (sumn_ext M _ (fun i => sumn M (fun j => a i * a j * K i j) + sumn N (fun j => a i * a (M + j)%nat * K i (M + j)%nat)))
    by (intros; apply sumn_plus_idx).
  rewrite (sumn_ext N _ (fun i => sumn M (fun j => a (M + i)%nat * a j * K (M + i)%nat j)
     + sumn N (fun j => a (M + i)%nat * a (M + j)%nat * K (M + i)%nat (M + j)%nat)))
    by (intros; apply sumn_plus_idx).
  rewrite !sumn_plus. ring.
Qed.
(** two weighted point sets of the same total mass *)
Lemma eucl_two M N D w x v z : sumn M w = sumn N v ->
  sumn M (fun i => sumn M (fun j => w i * w j * eucl D (x i) (x j)))
  + sumn N (fun i => sumn N (fun j => v i * v j * eucl D (z i) (z j)))
  <= 2 * sumn N (fun j => v j * sumn M (fun i => w i * eucl D (x i) (z j))).
Proof.
  intros Hm.
  set (a k := if (k <? M)%nat then w k else - v (k - M)%nat).
  set (p k := if (k <? M)%nat then x k else z (k - M)%nat).
  assert (A1 : forall k, (k < M)%nat -> a k = w k /\ p k = x k).
  { intros k Hk. unfold a, p. destruct (Nat.ltb_spec k M); [auto|lia]. }
  assert (A2 : forall k, a (M + k)%nat = - v k /\ p (M + k)%nat = z k).
  { intros k. unfold a, p. destruct (Nat.ltb_spec (M + k) M); [lia|].
    replace (M + k - M)%nat with k by lia. auto. }
  assert (Z : sumn (M + N) a = 0).
  { rewrite sumn_plus_idx. rewrite (sumn_ext M a w) by (intros; now apply A1).
    rewrite (sumn_ext N _ (fun k => - v k)) by (intros; now apply A2). rewrite sumn_opp. lra. }
  pose proof (eucl_cnd (M + N) D p a Z) as H. rewrite qf_split in H.
  rewrite (sumn_ext M (fun i => sumn M (fun j => a i * a j * eucl D (p i) (p j)))
    (fun i => sumn M (fun j => w i * w j * eucl D (x i) (x j)))) in H.
  2:{ intros i Hi. apply sumn_ext; intros j Hj. destruct (A1 i Hi) as [-> ->]. now destruct (A1 j Hj) as [-> ->]. }
  rewrite (sumn_ext N (fun i => sumn N (fun j => a (M + i)%nat * a (M + j)%nat * eucl D (p (M + i)%nat) (p (M + j)%nat)))
    (fun i => sumn N (fun j => v i * v j * eucl D (z i) (z j)))) in H.
  2:{ intros i Hi. apply sumn_ext; intros j Hj. destruct (A2 i) as [-> ->]. destruct (A2 j) as [-> ->]. ring. }
  rewrite (sumn_swap M N (fun i j => a i * a (M + j)%nat * eucl D (p i) (p (M + j)%nat))) in H.
  set (C := sumn N (fun j => v j * sumn M (fun i => w i * eucl D (x i) (z j)))) in *.
  assert (E1 : sumn N (fun j => sumn M (fun i => a i * a (M + j)%nat * eucl D (p i) (p (M + j)%nat))) = - C).
  { unfold C. rewrite <- sumn_opp. apply sumn_ext; intros j Hj. rewrite <- sumn_scal, <- sumn_opp.
    apply sumn_ext; intros i Hi. destruct (A1 i Hi) as [-> ->]. destruct (A2 j) as [-> ->]. ring. }
  assert (E2 : sumn N (fun i => sumn M (fun j => a (M + i)%nat * a j * eucl D (p (M + i)%nat) (p j))) = - C).
  { rewrite <- E1. apply sumn_ext; intros j Hj. apply sumn_ext; intros i Hi.
    unfold eucl. rewrite (Rmult_comm (a (M + j)%nat) (a i)). f_equal. f_equal. apply sumn_ext; intros; ring. }
  rewrite E1, E2 in H. lra.
Qed.
Lemma es_nonneg M D w y x : sumn M w = 1 -> 0 <= k_wexact M w (es_err D y x) (es_dist D x).
Proof.
  intros Hw. pose proof (eucl_two M 1 D w x (fun _ => 1) (fun _ => y)) as H.
  rewrite sumn_const in H. simpl INR in H. specialize (H ltac:(lra)).
  rewrite !(sumn_S 0), !sumn_0 in H.
  assert (E : eucl D y y = 0).
  { unfold eucl. rewrite (sumn_ext D _ (fun _ => 0)) by (intros; ring). rewrite sumn_zero. apply sqrt_0. }
  rewrite E in H. unfold k_wexact, es_err, es_dist. lra.
Qed.
Lemma es_proper M N D w x v z : sumn M w = 1 -> sumn N v = 1 ->
  sumn N (fun j => v j * k_wexact N v (es_err D (z j) z) (es_dist D z))
  <= sumn N (fun j => v j * k_wexact M w (es_err D (z j) x) (es_dist D x)).
Proof.
  intros Hw Hv. pose proof (eucl_two M N D w x v z ltac:(lra)) as H.
  assert (E : forall L u p, sumn N (fun j => v j * k_wexact L u (es_err D (z j) p) (es_dist D p)) =
    sumn N (fun j => v j * sumn L (fun i => u i * eucl D (p i) (z j)))
    - / 2 * sumn L (fun i => sumn L (fun j => u i * u j * eucl D (p i) (p j)))).
  { intros L u p. unfold k_wexact, es_err, es_dist.
    rewrite (sumn_ext N _ (fun j => v j * sumn L (fun i => u i * eucl D (p i) (z j))
       - v j * (/ 2 * sumn L (fun i => sumn L (fun k => u i * u k * eucl D (p i) (p k)))))) by (intros; ring).
    rewrite sumn_minus, sumn_scal_r, Hv. ring. }
  rewrite !E.
  assert (F : sumn N (fun j => v j * sumn N (fun i => v i * eucl D (z i) (z j)))
    = sumn N (fun i => sumn N (fun j => v i * v j * eucl D (z i) (z j)))).
  { rewrite sumn_swap. apply sumn_ext; intros j Hj. rewrite <- sumn_scal. apply sumn_ext; intros; ring. }
  rewrite F. lra.
Qed.
