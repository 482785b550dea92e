(** Propriety of the weighted kernel scores, on real numbers. *)
From Coq Require Import FunctionalExtensionality.
From Verif Require Export T_crps_ow T_energy_w T_kernels T_vario.
From Coq Require Import Lra Lia Psatz.
Open Scope R_scope.

Lemma INR_pos0 n : (0 < n)%nat -> 0 < INR n. Proof. apply lt_0_INR. Qed.
Lemma unif_mass n : (0 < n)%nat -> sumn n (fun _ => / INR n) = 1.
Proof. intros H. rewrite sumn_const. pose proof (INR_pos0 n H). field. lra. Qed.
(** from means with probabilities to sums *)
Lemma sums_from_means N (f h : nat -> R) : (0 < N)%nat ->
  sumn N (fun j => / INR N * f j) <= sumn N (fun j => / INR N * h j) -> sumn N f <= sumn N h.
Proof.
  intros HN H. rewrite !sumn_scal in H. pose proof (Rinv_0_lt_compat _ (INR_pos0 N HN)). nra.
Qed.
Lemma sums_from_nw N (a f h : nat -> R) : 0 < sumn N a ->
  sumn N (fun j => nw N a j * f j) <= sumn N (fun j => nw N a j * h j) ->
  sumn N (fun j => a j * f j) <= sumn N (fun j => a j * h j).
Proof.
  intros HN H. assert (forall k : nat -> R, sumn N (fun j => nw N a j * k j) = / sumn N a * sumn N (fun j => a j * k j)) as E.
  { intros k. rewrite <- sumn_scal. apply sumn_ext. intros j _. unfold nw. field. lra. }
  rewrite !E in H. pose proof (Rinv_0_lt_compat _ HN). nra.
Qed.

(** ** energy score *)
Lemma es_mean M N D x z : (0 < M)%nat -> (0 < N)%nat ->
  sumn N (fun j => k_exact N (es_err D (z j) z) (es_dist D z)) <= sumn N (fun j => k_exact M (es_err D (z j) x) (es_dist D x)).
Proof.
  intros HM HN. apply sums_from_means; [exact HN|].
  pose proof (es_proper M N D (fun _ => / INR M) x (fun _ => / INR N) z (unif_mass M HM) (unif_mass N HN)) as H.
  rewrite (sumn_ext N _ (fun j => / INR N * k_wexact N (fun _ => / INR N) (es_err D (z j) z) (es_dist D z))) by (intros; now rewrite k_exact_unif).
  rewrite (sumn_ext N (fun j => / INR N * k_exact M _ _) (fun j => / INR N * k_wexact M (fun _ => / INR M) (es_err D (z j) x) (es_dist D x))) by (intros; now rewrite k_exact_unif).
  exact H.
Qed.
Lemma es_ow M N D x z (gx gz : nat -> R) : 0 < sumn M gx -> 0 < sumn N gz ->
  sumn N (fun j => gz j * k_wexact N (nw N gz) (es_err D (z j) z) (es_dist D z))
  <= sumn N (fun j => gz j * k_wexact M (nw M gx) (es_err D (z j) x) (es_dist D x)).
Proof.
  intros HM HN. apply sums_from_nw; [exact HN|]. apply es_proper; now apply nw_s1.
Qed.
Lemma enorm_eucl D u : eucl D u (fun _ => 0) = enorm D u.
Proof. unfold eucl, enorm. f_equal. apply sumn_ext. intros; ring. Qed.
(** two weighted point sets, each completed by a mass at the origin *)
Lemma eucl_two_origin M N D u x t z :
  sumn M (fun i => sumn M (fun j => u i * u j * eucl D (x i) (x j)))
  + sumn N (fun i => sumn N (fun j => t i * t j * eucl D (z i) (z j)))
  <= 2 * sumn N (fun j => t j * sumn M (fun i => u i * eucl D (x i) (z j)))
     + 2 * (sumn M (fun i => u i * enorm D (x i)) - sumn N (fun j => t j * enorm D (z j))) * (sumn M u - sumn N t).
Proof.
  set (U := sumn M u). set (T := sumn N t).
  set (u' k := if (k <? M)%nat then u k else T). set (x' k := if (k <? M)%nat then x k else fun _ : nat => 0).
  set (t' k := if (k <? N)%nat then t k else U). set (z' k := if (k <? N)%nat then z k else fun _ : nat => 0).
  assert (forall k, (k < M)%nat -> u' k = u k /\ x' k = x k) as A1 by (intros k Hk; unfold u', x'; destruct (Nat.ltb_spec k M); [auto|lia]).
  assert (u' M = T /\ x' M = fun _ => 0) as [B1 B1'] by (unfold u', x'; rewrite Nat.ltb_irrefl; auto).
  assert (forall k, (k < N)%nat -> t' k = t k /\ z' k = z k) as A2 by (intros k Hk; unfold t', z'; destruct (Nat.ltb_spec k N); [auto|lia]).
  assert (t' N = U /\ z' N = fun _ => 0) as [B2 B2'] by (unfold t', z'; rewrite Nat.ltb_irrefl; auto).
  assert (forall v, eucl D (fun _ => 0) v = enorm D v) as N0 by (intros v; rewrite <- enorm_eucl; unfold eucl; f_equal; apply sumn_ext; intros; ring).
  assert (enorm D (fun _ => 0) = 0) as NZ by (rewrite <- enorm_eucl; unfold eucl; rewrite (sumn_ext D _ (fun _ => 0)) by (intros; ring); rewrite sumn_zero; apply sqrt_0).
  pose proof (eucl_two (S M) (S N) D u' x' t' z') as H. rewrite !sumn_S, B1, B2, B1', B2' in H.
  assert (forall L u0 x0 u1 x1 T0, (forall k, (k < L)%nat -> u1 k = u0 k /\ x1 k = x0 k) -> u1 L = T0 -> x1 L = (fun _ => 0) ->
    sumn L (fun i => sumn (S L) (fun j => u1 i * u1 j * eucl D (x1 i) (x1 j))) =
    sumn L (fun i => sumn L (fun j => u0 i * u0 j * eucl D (x0 i) (x0 j))) + T0 * sumn L (fun i => u0 i * enorm D (x0 i))) as E1.
  { intros L u0 x0 u1 x1 T0 A B C. rewrite <- sumn_scal, <- sumn_plus. apply sumn_ext. intros i Hi. rewrite sumn_S, B, C.
    destruct (A i Hi) as [-> ->]. rewrite enorm_eucl. f_equal; [|ring]. apply sumn_ext. intros j Hj. now destruct (A j Hj) as [-> ->]. }
  rewrite (E1 M u x u' x' T A1 B1 B1'), (E1 N t z t' z' U A2 B2 B2') in H.
  rewrite (sumn_ext M u' u) in H by (intros; now apply A1). rewrite (sumn_ext N t' t) in H by (intros; now apply A2).
  rewrite (sumn_ext M (fun i => T * u' i * _) (fun i => T * (u i * enorm D (x i)))) in H by (intros i Hi; destruct (A1 i Hi) as [-> ->]; rewrite N0; ring).
  rewrite (sumn_ext N (fun i => U * t' i * _) (fun i => U * (t i * enorm D (z i)))) in H by (intros i Hi; destruct (A2 i Hi) as [-> ->]; rewrite N0; ring).
  rewrite (sumn_ext N (fun j => t' j * _) (fun j => t j * sumn M (fun i => u i * eucl D (x i) (z j)) + T * (t j * enorm D (z j)))) in H.
  2:{ intros j Hj. destruct (A2 j Hj) as [-> ->]. rewrite sumn_S, B1, B1', N0. rewrite (sumn_ext M _ (fun i => u i * eucl D (x i) (z j))) by (intros i Hi; now destruct (A1 i Hi) as [-> ->]). ring. }
  rewrite (sumn_ext M (fun i => u' i * eucl D (x' i) (fun _ => 0)) (fun i => u i * enorm D (x i))) in H by (intros i Hi; destruct (A1 i Hi) as [-> ->]; now rewrite enorm_eucl).
  rewrite sumn_plus, !sumn_scal, !N0, NZ in H. fold U T in H. specialize (H ltac:(lra)). nra.
Qed.
Lemma k_vr_sum N D (a : nat -> R) z L u p : (0 < N)%nat ->
  sumn N (fun j => k_vr L (a j) u (es_err D (z j) p) (es_dist D p) (enorm D (z j)) (fun i => enorm D (p i))) =
  INR N * (sumn N (fun j => a j / INR N * sumn L (fun i => u i * eucl D (p i) (z j)))
    - / 2 * sumn L (fun i => sumn L (fun j => u i * u j * eucl D (p i) (p j)))
    + sumn L (fun i => u i * enorm D (p i)) * sumn L u - sumn L (fun i => u i * enorm D (p i)) * sumn N (fun j => a j / INR N)
    - sumn L u * sumn N (fun j => a j / INR N * enorm D (z j))) + sumn N (fun j => a j ^ 2 * enorm D (z j)).
Proof.
  intros HN. pose proof (INR_pos0 N HN). unfold k_vr, es_err, es_dist.
  set (Q := sumn L (fun i => sumn L (fun j => u i * u j * eucl D (p i) (p j)))). set (A := sumn L (fun i => u i * enorm D (p i))). set (V := sumn L u).
  rewrite (sumn_ext N _ (fun j => INR N * (a j / INR N * sumn L (fun i => u i * eucl D (p i) (z j))) + (A * V - / 2 * Q) - INR N * A * (a j / INR N)
    - INR N * V * (a j / INR N * enorm D (z j)) + a j ^ 2 * enorm D (z j))) by (intros; field; lra).
  rewrite sumn_plus, !sumn_minus, sumn_plus, !sumn_scal, sumn_const. ring.
Qed.
Lemma es_vr M N D (u a : nat -> R) x z : (0 < N)%nat ->
  sumn N (fun j => k_vr N (a j) (fun k => a k / INR N) (es_err D (z j) z) (es_dist D z) (enorm D (z j)) (fun i => enorm D (z i)))
  <= sumn N (fun j => k_vr M (a j) u (es_err D (z j) x) (es_dist D x) (enorm D (z j)) (fun i => enorm D (x i))).
Proof.
  intros HN. rewrite !k_vr_sum by exact HN. apply Rplus_le_compat_r. apply Rmult_le_compat_l; [left; now apply INR_pos0|].
  pose proof (eucl_two_origin M N D u x (fun j => a j / INR N) z) as H.
  assert (sumn N (fun j => a j / INR N * sumn N (fun i => a i / INR N * eucl D (z i) (z j)))
    = sumn N (fun i => sumn N (fun j => a i / INR N * (a j / INR N) * eucl D (z i) (z j)))) as ->.
  { rewrite sumn_swap. apply sumn_ext. intros j Hj. rewrite <- sumn_scal. apply sumn_ext. intros; ring. }
  nra.
Qed.

(** ** the CRPS is the energy score of one variable *)
Definition up (f : nat -> R) (i _ : nat) : R := f i.
Lemma eucl_up u v : eucl 1 (fun _ => u) (fun _ => v) = Rabs (u - v).
Proof. apply eucl_1. Qed.
Lemma wexact_es M w y x : wexact_crps M w y x = k_wexact M w (es_err 1 (fun _ => y) (up x)) (es_dist 1 (up x)).
Proof.
  unfold wexact_crps, wmae, wpairsum, k_wexact, es_err, es_dist, up. f_equal; [|f_equal].
  - apply sumn_ext. intros i _. now rewrite eucl_up.
  - apply sumn_ext. intros i _. apply sumn_ext. intros j _. now rewrite eucl_up.
Qed.
Lemma enorm_up u : enorm 1 (fun _ => u) = Rabs u.
Proof. rewrite <- enorm_eucl, eucl_up. f_equal. ring. Qed.
Lemma vrv_es M p w a y x : vrv M p w a y x = k_vr M a (fun i => p i * w i) (es_err 1 (fun _ => y) (up x)) (es_dist 1 (up x)) (enorm 1 (fun _ => y)) (fun i => enorm 1 (up x i)).
Proof.
  unfold vrv, wpairsum, k_vr, es_err, es_dist. f_equal; [f_equal; f_equal|f_equal].
  - apply sumn_ext. intros i _. unfold up. now rewrite eucl_up.
  - apply sumn_ext. intros i _. apply sumn_ext. intros j _. unfold up. now rewrite eucl_up.
  - rewrite enorm_up. f_equal. apply sumn_ext. intros i _. unfold up. now rewrite enorm_up.
Qed.

(** ** Gaussian kernel score *)
Lemma gk_mean M N D x z : (0 < M)%nat -> (0 < N)%nat ->
  sumn N (fun j => gk_exact N (kobsD D (z j) z) (kmemD D z)) <= sumn N (fun j => gk_exact M (kobsD D (z j) x) (kmemD D x)).
Proof.
  intros HM HN. apply sums_from_means; [exact HN|].
  pose proof (gk_proper M N D (fun _ => / INR M) x (fun _ => / INR N) z (unif_mass N HN)) as H.
  rewrite (sumn_ext N _ (fun j => / INR N * gk_wexact N (fun _ => / INR N) (kobsD D (z j) z) (kmemD D z))) by (intros; now rewrite gk_exact_unif).
  rewrite (sumn_ext N (fun j => / INR N * gk_exact M _ _) (fun j => / INR N * gk_wexact M (fun _ => / INR M) (kobsD D (z j) x) (kmemD D x))) by (intros; now rewrite gk_exact_unif).
  exact H.
Qed.
Lemma gk_ow M N D x z (gx gz : nat -> R) : 0 < sumn N gz ->
  sumn N (fun j => gz j * gk_wexact N (nw N gz) (kobsD D (z j) z) (kmemD D z))
  <= sumn N (fun j => gz j * gk_wexact M (nw M gx) (kobsD D (z j) x) (kmemD D x)).
Proof. intros HN. apply sums_from_nw; [exact HN|]. apply gk_proper. now apply nw_s1. Qed.
Lemma gk_vr_sum N D (a : nat -> R) z L u p : (0 < N)%nat ->
  sumn N (fun j => gk_vr L (a j) u (kobsD D (z j) p) (kmemD D p)) =
  INR N * (/ 2 * sumn L (fun i => sumn L (fun j => u i * u j * gaussD D (p i) (p j)))
    - sumn N (fun j => a j / INR N * sumn L (fun i => u i * gaussD D (p i) (z j)))) + sumn N (fun j => / 2 * (a j * a j)).
Proof.
  intros HN. pose proof (INR_pos0 N HN). unfold gk_vr, kobsD, kmemD.
  set (Q := sumn L (fun i => sumn L (fun j => u i * u j * gaussD D (p i) (p j)))).
  rewrite (sumn_ext N _ (fun j => / 2 * (a j * a j) - INR N * (a j / INR N * sumn L (fun i => u i * gaussD D (p i) (z j))) + / 2 * Q)) by (intros; field; lra).
  rewrite sumn_plus, sumn_minus, sumn_const, (sumn_scal N (INR N)). ring.
Qed.
Lemma gk_vrp M N D (u a : nat -> R) x z : (0 < N)%nat ->
  sumn N (fun j => gk_vr N (a j) (fun k => a k / INR N) (kobsD D (z j) z) (kmemD D z))
  <= sumn N (fun j => gk_vr M (a j) u (kobsD D (z j) x) (kmemD D x)).
Proof.
  intros HN. rewrite !gk_vr_sum by exact HN. apply Rplus_le_compat_r. apply Rmult_le_compat_l; [left; now apply INR_pos0|].
  pose proof (gauss_two M N D u x (fun j => a j / INR N) z) as H.
  assert (sumn N (fun j => a j / INR N * sumn N (fun i => a i / INR N * gaussD D (z i) (z j)))
    = sumn N (fun i => sumn N (fun j => a i / INR N * (a j / INR N) * gaussD D (z i) (z j)))) as ->.
  { rewrite sumn_swap. apply sumn_ext. intros j Hj. rewrite <- sumn_scal. apply sumn_ext. intros; ring. }
  lra.
Qed.
Lemma gk_exact_up M y x : gk_exact M (kobs1 y x) (kmem1 x) = gk_exact M (kobsD 1 (fun _ => y) (up x)) (kmemD 1 (up x)).
Proof. apply gk_exact_ext; auto; intros; apply gauss1_D. Qed.
Lemma gk_vr_up M a u y x : gk_vr M a u (kobs1 y x) (kmem1 x) = gk_vr M a u (kobsD 1 (fun _ => y) (up x)) (kmemD 1 (up x)).
Proof. apply gk_vr_ext; auto; intros; apply gauss1_D. Qed.

(** ** variogram score *)
Section vario.
Variables (D : nat) (h : nat -> nat -> R) (po : R).
Hypothesis Hh : forall i j, (i < D)%nat -> (j < D)%nat -> 0 <= h i j.
Lemma vs_mean M N x z : (0 < N)%nat ->
  sumn N (fun j => vs_score D h po N (fun _ => / INR N) (z j) z) <= sumn N (fun j => vs_score D h po M (fun _ => / INR M) (z j) x).
Proof. intros HN. apply sums_from_means; [exact HN|]. apply (vs_proper M N D h po (fun _ => / INR M) x (fun _ => / INR N) z Hh (unif_mass N HN)). Qed.
Lemma vs_ow M N x z (gx gz : nat -> R) : 0 < sumn N gz ->
  sumn N (fun j => gz j * vs_score D h po N (nw N gz) (z j) z) <= sumn N (fun j => gz j * vs_score D h po M (nw M gx) (z j) x).
Proof. intros HN. apply sums_from_nw; [exact HN|]. apply vs_proper; auto. now apply nw_s1. Qed.
Lemma vs_vr M N x z (u a : nat -> R) : (0 < N)%nat ->
  sumn N (fun j => sumn D (fun i => sumn D (fun l => h i l * (a j * vgram po (z j) i l - sumn N (fun k => a k / INR N * vgram po (z k) i l)) ^ 2)))
  <= sumn N (fun j => sumn D (fun i => sumn D (fun l => h i l * (a j * vgram po (z j) i l - sumn M (fun k => u k * vgram po (x k) i l)) ^ 2))).
Proof.
  intros HN. rewrite (sumn_swap N D), (sumn_swap N D (fun j i => sumn D (fun l => h i l * (a j * vgram po (z j) i l - sumn M _) ^ 2))).
  apply sumn_le; intros i Hi. rewrite (sumn_swap N D), (sumn_swap N D (fun j l => h i l * (a j * vgram po (z j) i l - sumn M _) ^ 2)). apply sumn_le; intros l Hl. rewrite !sumn_scal.
  apply Rmult_le_compat_l; [auto|]. apply sums_from_means; [exact HN|].
  pose proof (var_min N (fun _ => / INR N) (fun j => a j * vgram po (z j) i l) (sumn M (fun k => u k * vgram po (x k) i l)) (unif_mass N HN)) as H.
  rewrite (sumn_ext N (fun k => a k / INR N * vgram po (z k) i l) (fun k => / INR N * (a k * vgram po (z k) i l))) by (intros; unfold Rdiv; ring). exact H.
Qed.
End vario.
