(** The exact scores depend only on the distribution described by the ensemble. *)
From Verif Require Export S_law L_unbias2 L_split T_crps_inv L_crps_omit.
Open Scope R_scope.
Section Law.
Context {A : Type}.
Variables (P : (A -> R) -> Prop) (M N : nat) (w w' : nat -> R) (x x' : nat -> A).
Hypothesis L : forall f, P f -> wmean M w f x = wmean N w' f x'.
Lemma nw_mean K u (f : A -> R) z : sumn K (fun i => nw K u i * f (z i)) = wmean K u f z.
Proof. unfold nw, wmean, Rdiv. rewrite Rmult_comm, <- sumn_scal. apply sumn_ext; intros. ring. Qed.
Lemma law1 f : P f -> sumn M (fun i => nw M w i * f (x i)) = sumn N (fun j => nw N w' j * f (x' j)).
Proof. intros H. rewrite !nw_mean. auto. Qed.
Lemma law2 (d : A -> A -> R) : (forall v, P (fun u => d u v)) -> P (fun v => wmean N w' (fun u => d u v) x') ->
  sumn M (fun i => sumn M (fun j => nw M w i * nw M w j * d (x i) (x j))) = sumn N (fun i => sumn N (fun j => nw N w' i * nw N w' j * d (x' i) (x' j))).
Proof.
  intros H1 H2. rewrite sumn_swap. symmetry. rewrite sumn_swap. symmetry.
  transitivity (sumn M (fun j => nw M w j * wmean M w (fun u => d u (x j)) x)).
  { apply sumn_ext; intros j _. rewrite <- nw_mean, <- sumn_scal. apply sumn_ext; intros; ring. }
  transitivity (sumn M (fun j => nw M w j * (fun v => wmean N w' (fun u => d u v) x') (x j))).
  { apply sumn_ext; intros j _. cbv beta. f_equal. apply L, H1. }
  rewrite (law1 (fun v => wmean N w' (fun u => d u v) x') H2). apply sumn_ext; intros j _. rewrite <- nw_mean, <- sumn_scal. apply sumn_ext; intros; ring.
Qed.
End Law.
Lemma nw_one N i : nw N (fun _ => 1) i = / INR N.
Proof. unfold nw. rewrite sumn_const, Rmult_1_r. unfold Rdiv. ring. Qed.
(** kernel forms of laws *)
Lemma law_k1 M w x N w' x' (E : R -> R) (d : R -> R -> R) : same_law1 M w x N w' x' ->
  k_wexact M (nw M w) (fun i => E (x i)) (fun i j => d (x i) (x j)) = k_wexact N (nw N w') (fun i => E (x' i)) (fun i j => d (x' i) (x' j)) /\
  gk_wexact M (nw M w) (fun i => E (x i)) (fun i j => d (x i) (x j)) = gk_wexact N (nw N w') (fun i => E (x' i)) (fun i j => d (x' i) (x' j)).
Proof.
  intros H. assert (H' : forall f, (fun _ => True) f -> wmean M w f x = wmean N w' f x') by (intros; apply H).
  unfold k_wexact, gk_wexact. rewrite (law1 _ _ _ _ _ _ _ H' E I), (law2 _ _ _ _ _ _ _ H' d) by auto. auto.
Qed.
Definition depends (D : nat) (f : (nat -> R) -> R) : Prop := forall u v, (forall k, (k < D)%nat -> u k = v k) -> f u = f v.
Lemma law_kD D M w x N w' x' (E : (nat -> R) -> R) (d : (nat -> R) -> (nat -> R) -> R) : same_law D M w x N w' x' ->
  depends D E -> (forall v, depends D (fun u => d u v)) -> (forall u, depends D (d u)) ->
  k_wexact M (nw M w) (fun i => E (x i)) (fun i j => d (x i) (x j)) = k_wexact N (nw N w') (fun i => E (x' i)) (fun i j => d (x' i) (x' j)) /\
  gk_wexact M (nw M w) (fun i => E (x i)) (fun i j => d (x i) (x j)) = gk_wexact N (nw N w') (fun i => E (x' i)) (fun i j => d (x' i) (x' j)).
Proof.
  intros H HE H1 H2. assert (H' : forall f, depends D f -> wmean M w f x = wmean N w' f x') by (intros f Hf; apply H, Hf).
  unfold k_wexact, gk_wexact. rewrite (law1 _ _ _ _ _ _ _ H' E HE), (law2 _ _ _ _ _ _ _ H' d); auto.
  intros u v Huv. unfold wmean. f_equal. apply sumn_ext; intros j _. f_equal. now apply H2.
Qed.
Lemma eucl_dep D v : depends D (fun u => eucl D u v).
Proof. intros u u' H. unfold eucl. f_equal. apply sumn_ext; intros k Hk. now rewrite H. Qed.
Lemma eucl_dep' D v : depends D (eucl D v).
Proof. intros u u' H. unfold eucl. f_equal. apply sumn_ext; intros k Hk. now rewrite H. Qed.
Lemma gaussD_dep D v : depends D (fun u => gaussD D u v).
Proof. intros u u' H. unfold gaussD. do 3 f_equal. apply sumn_ext; intros k Hk. now rewrite H. Qed.
Lemma gaussD_dep' D v : depends D (gaussD D v).
Proof. intros u u' H. unfold gaussD. do 3 f_equal. apply sumn_ext; intros k Hk. now rewrite H. Qed.
Lemma vdist_dep D h p v : depends D (fun u => vdist D h p u v).
Proof. intros u u' H. unfold vdist, vgram. apply sumn_ext; intros i Hi. apply sumn_ext; intros j Hj. now rewrite !H. Qed.
Lemma vdist_dep' D h p v : depends D (vdist D h p v).
Proof. intros u u' H. unfold vdist, vgram. apply sumn_ext; intros i Hi. apply sumn_ext; intros j Hj. now rewrite !H. Qed.
Lemma wexact_k M w y x : wexact_crps M w y x = k_wexact M w (fun i => Rabs (x i - y)) (fun i j => Rabs (x i - x j)).
Proof. reflexivity. Qed.
Lemma k_unif N e d : (0 < N)%nat -> k_wexact N (nw N (fun _ => 1)) e d = k_exact N e d.
Proof.
  intros HN. rewrite <- (k_exact_unif N HN). unfold k_wexact. f_equal; [|f_equal; apply sumn_ext; intros; apply sumn_ext; intros; now rewrite !nw_one].
  apply sumn_ext; intros; now rewrite nw_one.
Qed.
Lemma gk_unif N e d : (0 < N)%nat -> gk_wexact N (nw N (fun _ => 1)) e d = gk_exact N e d.
Proof.
  intros HN. rewrite (gk_exact_unif N _ _ HN). unfold gk_wexact. f_equal; [f_equal; apply sumn_ext; intros; now rewrite nw_one|f_equal; apply sumn_ext; intros; apply sumn_ext; intros; now rewrite !nw_one].
Qed.
(** operations that keep the law *)
Lemma wmean_scale {A} c M w (f : A -> R) x : c <> 0 -> wmean M (fun i => c * w i) f x = wmean M w f x.
Proof.
  intros Hc. unfold wmean. rewrite (sumn_ext M (fun i => c * w i * f (x i)) (fun i => c * (w i * f (x i)))) by (intros; ring). rewrite !sumn_scal.
  destruct (Req_dec (sumn M w) 0) as [->|]; [rewrite Rmult_0_r; unfold Rdiv; rewrite Rinv_0; ring|]. now field.
Qed.
Lemma sumn_kept M w keep : covers M w keep -> sumn M w = sumn (length keep) (kept w keep).
Proof.
  intros (H1 & H2 & H3). unfold kept.
  transitivity (Rsum (map w keep)).
  - unfold sumn. rewrite <- (Rsum_perm (map w (filter (fun k => if in_dec Nat.eq_dec k keep then true else false) (seq 0 M))) (map w keep)).
    + clear - H3. assert (forall k, In k (seq 0 M) -> ~ In k keep -> w k = 0) as H by (intros k Hk; apply in_seq in Hk; apply H3; lia).
      induction (seq 0 M) as [|a l IH]; [reflexivity|]. cbn [filter map]. destruct (in_dec Nat.eq_dec a keep).
      * cbn [map]. rewrite !Rsum_cons. f_equal. apply IH. intros; apply H; simpl; auto.
      * rewrite Rsum_cons, (H a) by (simpl; auto). rewrite Rplus_0_l. apply IH. intros; apply H; simpl; auto.
    + apply Permutation_map, NoDup_Permutation; auto; [apply NoDup_filter, seq_NoDup|].
      intros k. rewrite filter_In, in_seq. destruct (in_dec Nat.eq_dec k keep) as [i|i]; split; intros; try tauto; try easy. split; auto. specialize (H2 _ i). lia.
  - unfold sumn. rewrite <- (nth_seq_map keep 0%nat) at 1. now rewrite map_map.
Qed.
Lemma wmean_kept {A} M w keep (f : A -> R) x : covers M w keep -> wmean M w f x = wmean (length keep) (kept w keep) f (kept x keep).
Proof.
  intros H. unfold wmean. rewrite (sumn_kept M w keep H). f_equal. rewrite (sumn_kept M (fun i => w i * f (x i)) keep); [reflexivity|].
  destruct H as (H1 & H2 & H3). repeat split; auto. intros k Hk Hn. rewrite H3 by auto. ring.
Qed.
Lemma wmean_repeated {A} N (x' : nat -> A) M c x (f : A -> R) : Permutation (map x' (seq 0 N)) (flat_map (fun k => repeat (x k) (c k)) (seq 0 M)) ->
  wmean M (fun k => INR (c k)) f x = wmean N (fun _ => 1) f x'.
Proof.
  intros H. assert (S : forall g : A -> R, sumn N (fun j => g (x' j)) = sumn M (fun k => INR (c k) * g (x k))).
  { intros g. unfold sumn. rewrite <- (map_map x' g). rewrite (Rsum_perm _ _ (Permutation_map g H)), map_flat_map, Rsum_flat_map.
    apply Rsum_map_ext; intros k _. rewrite <- Rsum_repeat. f_equal. induction (c k); simpl; congruence. }
  unfold wmean. rewrite (sumn_ext N (fun i => 1 * f (x' i)) (fun i => f (x' i))) by (intros; ring). rewrite (S f), (S (fun _ => 1)).
  f_equal. apply sumn_ext; intros; ring.
Qed.
