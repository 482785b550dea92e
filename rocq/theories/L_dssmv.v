(** Lemmas about the multivariate Dawid-Sebastiani score. *)
From Verif Require Export S_dssmv L_posdef M_dssmv L_energy_api L_dss.
From Coq Require Import Psatz Lia Classical.
Open Scope R_scope.

(** * sample covariance matrices *)
Section cov.
Variables (bias : bool) (M D : nat) (x : nat -> nat -> R).
Hypothesis HM : (2 <= M)%nat.
Let c := if bias then INR M else INR M - 1.
Let C := mvcov bias M x.
Let Z i a := x i a - mvmean M x a.
Lemma cov_c : 0 < c.
Proof. unfold c. apply le_INR in HM. simpl in HM. destruct bias; lra. Qed.
Lemma cov_sym n : msym n C.
Proof. intros a b _ _. unfold C, mvcov. f_equal. apply sumn_ext. intros; ring. Qed.
Lemma cov_quad v : quad D C v = sumn M (fun i => (sumn D (fun a => Z i a * v a))²) / c.
Proof.
  unfold quad, C, mvcov. fold c.
  rewrite (sumn_ext D _ (fun a => sumn D (fun b => sumn M (fun i => (Z i a * v a) * (Z i b * v b) * / c)))).
  2:{ intros a _. apply sumn_ext. intros b _. unfold Rdiv. rewrite <- !sumn_scal_r. rewrite <- sumn_scal. rewrite <- sumn_scal_r. apply sumn_ext. intros i _. unfold Z. ring. }
  rewrite (sumn_ext D _ (fun a => sumn M (fun i => sumn D (fun b => (Z i a * v a) * (Z i b * v b) * / c)))) by (intros; apply sumn_swap).
  rewrite sumn_swap. unfold Rdiv. rewrite <- sumn_scal_r. apply sumn_ext. intros i _. unfold Rsqr. rewrite sumn_mul, <- sumn_scal_r. apply sumn_ext. intros a _. rewrite <- sumn_scal_r. reflexivity.
Qed.
Lemma cov_ker v : quad D C v = 0 -> forall i, (i < M)%nat -> sumn D (fun a => Z i a * v a) = 0.
Proof.
  rewrite cov_quad. intros H i Hi. pose proof cov_c as Hc. apply Rsqr_eq_0.
  apply (sumn_zero_inv M (fun i => (sumn D (fun a => Z i a * v a))²)); auto.
  - intros. apply Rle_0_sqr.
  - apply (Rmult_eq_reg_r (/ c)); [|apply Rinv_neq_0_compat; lra]. rewrite Rmult_0_l. exact H.
Qed.
Lemma cov_pd P : is_inverse D C P -> posdef D C.
Proof.
  intros H. split; [apply cov_sym|]. intros v (k & Hk & Hv).
  assert (0 <= quad D C v) as K. { rewrite cov_quad. apply Rmult_le_pos; [apply sumn_nonneg; intros; apply Rle_0_sqr|left; apply Rinv_0_lt_compat, cov_c]. }
  destruct K as [K|K]; auto. exfalso. apply Hv. symmetry in K. pose proof (cov_ker v K) as Hz.
  assert (forall a, sumn D (fun b => C a b * v b) = 0) as Hc.
  { intros a. unfold C, mvcov. fold c. rewrite (sumn_ext D _ (fun b => sumn M (fun i => Z i a * (Z i b * v b) * / c))).
    2:{ intros b _. unfold Rdiv. rewrite <- !sumn_scal_r. apply sumn_ext. intros; unfold Z; ring. }
    rewrite sumn_swap, (sumn_ext M _ (fun _ => 0)); [apply sumn_zero|]. intros i Hi. rewrite (sumn_ext D _ (fun b => Z i b * v b * (Z i a * / c))) by (intros; ring). rewrite sumn_scal_r, Hz by auto. ring. }
  apply inverse_left in H. rewrite <- (sum_idm D v k Hk). rewrite (sumn_ext D _ (fun l => sumn D (fun j => P k j * (C j l * v l)))).
  - rewrite sumn_swap, (sumn_ext D _ (fun _ => 0)); [apply sumn_zero|]. intros j _. rewrite sumn_scal, Hc. ring.
  - intros l Hl. transitivity (idm k l * v l); [unfold idm; destruct (Nat.eq_dec l k), (Nat.eq_dec k l); try lia; ring|]. rewrite <- (H k l) by auto. unfold mmul. rewrite <- sumn_scal_r. apply sumn_ext. intros; ring.
Qed.
End cov.
Lemma det_rows n W u k : (k < n)%nat -> u k <> 0 -> (forall j, (j < n)%nat -> sumn n (fun i => u i * W i j) = 0) -> Rdet n W = 0.
Proof.
  intros Hk Hu H. destruct (Req_dec (Rdet n W) 0) as [E|E]; auto. exfalso. apply Hu. pose proof (Rinvm_right n W E) as HI.
  rewrite <- (sum_idm n u k Hk). rewrite (sumn_ext n _ (fun i => sumn n (fun j => u i * W i j * Rinvm n W j k))).
  - rewrite sumn_swap, (sumn_ext n _ (fun _ => 0)); [apply sumn_zero|]. intros j Hj. rewrite sumn_scal_r, H by auto. ring.
  - intros i Hi. rewrite <- (HI i k) by auto. unfold mmul. rewrite <- sumn_scal. apply sumn_ext. intros; ring.
Qed.
Lemma sumn_pad m n (f : nat -> R) : (m <= n)%nat -> sumn n (fun i => if (i <? m)%nat then f i else 0) = sumn m f.
Proof.
  intros H. replace n with (m + (n - m))%nat by lia. rewrite sumn_plus_idx. rewrite (sumn_ext (n - m) _ (fun _ => 0)), sumn_zero, Rplus_0_r.
  - apply sumn_ext. intros i Hi. destruct (Nat.ltb_spec i m); [auto|lia].
  - intros i Hi. destruct (Nat.ltb_spec (m + i) m); [lia|auto].
Qed.
Lemma cov_few bias M D x : (2 <= M)%nat -> (M <= D)%nat -> Rdet D (mvcov bias M x) = 0.
Proof.
  intros HM HD. set (W := fun i a => if (i <? M)%nat then x i a - mvmean M x a else 0). pose proof (cov_c bias M x HM) as Hc. cbv beta zeta in Hc.
  set (c := if bias then INR M else INR M - 1) in *.
  rewrite (Rdet_ext D _ (mmul D (fun a i => W i a / c) W)).
  - rewrite Rdet_mul. rewrite (det_rows D W (fun i => if (i <? M)%nat then 1 else 0) O); [ring|lia| |].
    + destruct (Nat.ltb_spec 0 M); [lra|lia].
    + intros j Hj. rewrite (sumn_ext D _ (fun i => if (i <? M)%nat then x i j - mvmean M x j else 0)) by (intros i _; unfold W; destruct (i <? M)%nat; ring).
      rewrite (sumn_pad M D (fun i => x i j - mvmean M x j)) by auto. rewrite sumn_minus, sumn_const. unfold mvmean, mean. field. apply not_0_INR. lia.
  - intros a b _ _. unfold mmul, mvcov. fold c. rewrite (sumn_ext D _ (fun i => if (i <? M)%nat then (x i a - mvmean M x a) * (x i b - mvmean M x b) * / c else 0)) by (intros i _; unfold W; destruct (i <? M)%nat; unfold Rdiv; ring).
    rewrite (sumn_pad M D (fun i => (x i a - mvmean M x a) * (x i b - mvmean M x b) * / c)) by auto. rewrite sumn_scal_r. reflexivity.
Qed.

(** * linear maps *)
Lemma quad_trans n A v : quad n (mtrans A) v = quad n A v.
Proof. unfold quad, mtrans. rewrite sumn_swap. apply sumn_ext. intros i _. apply sumn_ext. intros; ring. Qed.
Lemma quad_dot n A v : quad n A v = sumn n (fun i => v i * mapply n A v i).
Proof. unfold quad, mapply. apply sumn_ext. intros i _. rewrite <- sumn_scal. apply sumn_ext. intros; ring. Qed.
Lemma dot_trans n B u w : sumn n (fun i => u i * mapply n (mtrans B) w i) = sumn n (fun i => mapply n B u i * w i).
Proof.
  unfold mapply, mtrans. rewrite (sumn_ext n _ (fun i => sumn n (fun j => u i * (B j i * w j)))) by (intros; now rewrite <- sumn_scal). rewrite sumn_swap. apply sumn_ext. intros j _. rewrite <- sumn_scal_r. apply sumn_ext. intros; ring.
Qed.
Lemma mapply_mul n A B v i : (i < n)%nat -> mapply n (mmul n A B) v i = mapply n A (mapply n B v) i.
Proof.
  intros Hi. unfold mapply, mmul. rewrite (sumn_ext n _ (fun j => sumn n (fun k => A i k * (B k j * v j)))) by (intros; rewrite <- sumn_scal_r; apply sumn_ext; intros; ring). rewrite sumn_swap. apply sumn_ext. intros k _. now rewrite <- sumn_scal.
Qed.
Lemma mapply_ext n A B v w i : (i < n)%nat -> mat_eq n A B -> (forall j, (j < n)%nat -> v j = w j) -> mapply n A v i = mapply n B w i.
Proof. intros Hi H E. apply sumn_ext. intros j Hj. now rewrite H, E. Qed.
Lemma mapply_id n v i : (i < n)%nat -> mapply n idm v i = v i.
Proof. intros Hi. unfold mapply. rewrite <- (sum_idm n v i Hi). apply sumn_ext. intros j _. unfold idm. destruct (Nat.eq_dec i j), (Nat.eq_dec j i); try lia; ring. Qed.
Lemma quad_congr n B P v : quad n (mmul n (mmul n (mtrans B) P) B) v = quad n P (mapply n B v).
Proof.
  rewrite !quad_dot. rewrite (sumn_ext n _ (fun i => v i * mapply n (mtrans B) (mapply n P (mapply n B v)) i)).
  - apply dot_trans.
  - intros i Hi. f_equal. rewrite mapply_mul by auto. rewrite mapply_mul by auto. reflexivity.
Qed.
Lemma mtrans_mul n A B : mat_eq n (mtrans (mmul n A B)) (mmul n (mtrans B) (mtrans A)).
Proof. intros i j _ _. unfold mtrans, mmul. apply sumn_ext. intros; ring. Qed.
Lemma mtrans_inverse n A P : is_inverse n A P -> is_inverse n (mtrans A) (mtrans P).
Proof.
  intros H. apply inverse_left in H. intros i j Hi Hj. rewrite <- (mtrans_mul n P A i j Hi Hj). unfold mtrans. rewrite H by auto. unfold idm. destruct (Nat.eq_dec j i), (Nat.eq_dec i j); auto; lia.
Qed.
Lemma mmul_inverse n A P B Q : is_inverse n A P -> is_inverse n B Q -> is_inverse n (mmul n A B) (mmul n Q P).
Proof.
  intros H1 H2. unfold is_inverse. eapply mat_eq_trans; [apply mmul_assoc|]. eapply mat_eq_trans; [|exact H1]. apply mmul_ext; [apply mat_eq_refl|].
  eapply mat_eq_trans; [apply mat_eq_sym, mmul_assoc|]. eapply mat_eq_trans; [apply mmul_ext; [exact H2|apply mat_eq_refl]|]. apply mmul_1l.
Qed.
Lemma inverse_ext n A A' P P' : mat_eq n A A' -> mat_eq n P P' -> is_inverse n A P -> is_inverse n A' P'.
Proof. intros H H' K. unfold is_inverse. eapply mat_eq_trans; [|exact K]. apply mmul_ext; now apply mat_eq_sym. Qed.

Section affine.
Variables (bias : bool) (M D : nat) (x x' : nat -> nat -> R) (A : mat) (c0 : nat -> R).
Hypothesis HM : (0 < M)%nat.
Hypothesis Hx : forall i k, (i < M)%nat -> (k < D)%nat -> x' i k = affv D A c0 (x i) k.
Lemma aff_mean k : (k < D)%nat -> mvmean M x' k = affv D A c0 (mvmean M x) k.
Proof.
  intros Hk. unfold mvmean at 1, mean. rewrite (sumn_ext M _ (fun i => sumn D (fun j => A k j * x i j) + c0 k)) by (intros; now rewrite Hx). rewrite sumn_plus, sumn_swap, sumn_const. unfold affv, mapply, mvmean, mean.
  rewrite (sumn_ext D (fun j => A k j * (sumn M (fun i => x i j) / INR M)) (fun j => sumn M (fun i => A k j * x i j) * / INR M)) by (intros; rewrite sumn_scal; unfold Rdiv; ring). rewrite sumn_scal_r. field. apply not_0_INR; lia.
Qed.
Lemma aff_dev i k : (i < M)%nat -> (k < D)%nat -> x' i k - mvmean M x' k = mapply D A (fun j => x i j - mvmean M x j) k.
Proof. intros Hi Hk. rewrite Hx, aff_mean by auto. unfold affv, mapply. rewrite (sumn_ext D (fun j => A k j * (x i j - mvmean M x j)) (fun j => A k j * x i j - A k j * mvmean M x j)) by (intros; ring). rewrite sumn_minus. ring. Qed.
Lemma aff_cov : mat_eq D (mvcov bias M x') (mmul D (mmul D A (mvcov bias M x)) (mtrans A)).
Proof.
  intros a b Ha Hb. unfold mvcov at 1. set (c := if bias then INR M else INR M - 1).
  rewrite (sumn_ext M _ (fun i => mapply D A (fun j => x i j - mvmean M x j) a * mapply D A (fun j => x i j - mvmean M x j) b)) by (intros; now rewrite !aff_dev).
  transitivity (sumn D (fun k => sumn D (fun j => sumn M (fun i => A a j * (x i j - mvmean M x j) * (A b k * (x i k - mvmean M x k)) * / c)))).
  - rewrite (sumn_ext D _ (fun k => sumn M (fun i => sumn D (fun j => A a j * (x i j - mvmean M x j) * (A b k * (x i k - mvmean M x k)) * / c)))) by (intros; apply sumn_swap). rewrite sumn_swap. unfold Rdiv. rewrite <- sumn_scal_r. apply sumn_ext. intros i _. unfold mapply. rewrite sumn_mul, sumn_swap, <- sumn_scal_r. apply sumn_ext. intros k _. rewrite <- sumn_scal_r. apply sumn_ext. intros; ring.
  - unfold mmul. apply sumn_ext. intros k _. rewrite <- sumn_scal_r. apply sumn_ext. intros j _. unfold mvcov, mtrans. fold c. unfold Rdiv. rewrite <- !sumn_scal_r. rewrite <- sumn_scal, <- sumn_scal_r. apply sumn_ext. intros; ring.
Qed.
End affine.

(** * propriety *)
Lemma trace_mul n A B : trace n (mmul n A B) = trace n (mmul n B A).
Proof. unfold trace, mmul. rewrite sumn_swap. apply sumn_ext. intros i _. apply sumn_ext. intros; ring. Qed.
Lemma trace_ext n A B : mat_eq n A B -> trace n A = trace n B.
Proof. intros H. apply sumn_ext. auto. Qed.
Lemma trace_id n : trace n idm = INR n.
Proof. unfold trace. rewrite (sumn_ext n _ (fun _ => 1)), sumn_const; [ring|]. intros i _. unfold idm. destruct (Nat.eq_dec i i); [auto|lia]. Qed.
Lemma pd_congr n L T Li : is_inverse n L Li -> posdef n T -> posdef n (mmul n (mmul n L T) (mtrans L)).
Proof.
  intros HL [Hs HT]. assert (forall v, quad n (mmul n (mmul n L T) (mtrans L)) v = quad n T (mapply n (mtrans L) v)) as E.
  { intros v. rewrite <- quad_congr. reflexivity. }
  split.
  - intros i j Hi Hj. unfold mmul, mtrans. rewrite (sumn_ext n _ (fun k => sumn n (fun l => L i l * T l k * L j k))) by (intros; now rewrite <- sumn_scal_r). rewrite sumn_swap. apply sumn_ext. intros k Hk. rewrite <- sumn_scal_r. apply sumn_ext. intros l Hl. rewrite (Hs k l) by auto. ring.
  - intros v (k & Hk & Hv). rewrite E. apply HT. apply NNPP. intros N. apply Hv.
    apply mtrans_inverse, inverse_left in HL. rewrite <- (mapply_id n v k Hk). rewrite <- (mapply_ext n _ idm v v k Hk HL) by auto. rewrite mapply_mul by auto.
    unfold mapply at 1. rewrite (sumn_ext n _ (fun _ => 0)); [apply sumn_zero|]. intros j Hj. assert (mapply n (mtrans L) v j = 0) as ->; [|ring]. apply NNPP. intros Z. apply N. eauto.
Qed.
(** tr (A^-1 T) + ln det A >= n + ln det T *)
Lemma gibbs_pd n A P T : posdef n A -> is_inverse n A P -> posdef n T -> INR n + ln (Rdet n T) <= trace n (mmul n P T) + ln (Rdet n A).
Proof.
  intros HA HP HT. destruct (whiten n A HA) as [L HL]. 
  assert (is_inverse n L (mmul n A (mtrans L))) as HLi by (eapply mat_eq_trans; [apply mat_eq_sym, mmul_assoc|exact HL]).
  pose proof (pd_congr n L T _ HLi HT) as HW. pose proof (pd_trace n _ HW) as K. rewrite !Rdet_mul, Rdet_trans in K.
  assert (is_inverse n A (mmul n (mtrans L) L)) as HP'. { apply inverse_left. unfold is_inverse. eapply mat_eq_trans; [apply mmul_assoc|]. apply (inverse_left n (mmul n L A) (mtrans L)). exact HL. }
  pose proof (inverse_unique n A _ _ HP HP') as EP.
  assert (trace n (mmul n P T) = trace n (mmul n (mmul n L T) (mtrans L))) as ->.
  { rewrite (trace_ext n _ _ (mmul_ext n _ _ T T EP (mat_eq_refl n T))). rewrite (trace_ext n _ _ (mmul_assoc n (mtrans L) L T)). now rewrite trace_mul. }
  assert (Rdet n L * Rdet n A * Rdet n L = 1) as Ed. { rewrite <- (Rdet_id n). rewrite <- (Rdet_ext n _ _ HL). rewrite !Rdet_mul, Rdet_trans. ring. }
  pose proof (pd_det n A HA) as PA. pose proof (pd_det n T HT) as PT.
  assert (Rdet n L <> 0) as NL by (intros E; rewrite E in Ed; lra). assert (0 < Rdet n L * Rdet n L) as PL by nra.
  replace (Rdet n L * Rdet n T * Rdet n L) with ((Rdet n L * Rdet n L) * Rdet n T) in K by ring. rewrite ln_mult in K by auto.
  assert (ln (Rdet n L * Rdet n L) + ln (Rdet n A) = 0); [|lra]. rewrite <- ln_mult by auto. replace (Rdet n L * Rdet n L * Rdet n A) with 1 by (rewrite <- Ed; ring). apply ln_1.
Qed.
(** mean of the quadratic form over the members z of an ensemble *)
Lemma mean_quad D P N z m : (0 < N)%nat -> sumn N (fun j => quad D P (fun k => z j k - m k)) =
  INR N * trace D (mmul D P (mvcov true N z)) + INR N * quad D P (fun k => mvmean N z k - m k).
Proof.
  intros HN. assert (INR N <> 0) as Hn by (apply not_0_INR; lia).
  transitivity (sumn D (fun a => sumn D (fun b => P a b * sumn N (fun j => (z j a - m a) * (z j b - m b))))).
  - unfold quad. rewrite sumn_swap. apply sumn_ext. intros a _. rewrite sumn_swap. apply sumn_ext. intros b _. rewrite <- sumn_scal. apply sumn_ext. intros; ring.
  - unfold trace, mmul, quad. rewrite <- !sumn_scal, <- sumn_plus. apply sumn_ext. intros a _. rewrite <- !sumn_scal, <- sumn_plus. apply sumn_ext. intros b _.
    unfold mvcov. rewrite (sumn_ext N (fun j => (z j a - m a) * (z j b - m b)) (fun j => (z j b - mvmean N z b) * (z j a - mvmean N z a) + ((mvmean N z a - m a) * (z j b - mvmean N z b) + ((mvmean N z b - m b) * (z j a - mvmean N z a) + (mvmean N z a - m a) * (mvmean N z b - m b))))) by (intros; ring).
    rewrite !sumn_plus, !sumn_scal, sumn_const. assert (forall k, sumn N (fun j => z j k - mvmean N z k) = 0) as E0. { intros k. rewrite sumn_minus, sumn_const. unfold mvmean, mean. field. auto. }
    rewrite !E0. field. auto.
Qed.
Lemma mvds_proper D M N x z P Q : (2 <= M)%nat -> (2 <= N)%nat -> is_inverse D (mvcov true M x) P -> is_inverse D (mvcov true N z) Q ->
  sumn N (fun j => mvds_score D (mvmean N z) Q (Rdet D (mvcov true N z)) (z j)) <= sumn N (fun j => mvds_score D (mvmean M x) P (Rdet D (mvcov true M x)) (z j)).
Proof.
  intros HM HN HP HQ. unfold mvds_score. rewrite !sumn_plus, !mean_quad, !sumn_const by lia.
  pose proof (cov_pd true M D x HM P HP) as PA. pose proof (cov_pd true N D z HN Q HQ) as PT.
  pose proof (gibbs_pd D _ P _ PA HP PT) as G. rewrite (trace_ext D _ _ (inverse_left D _ _ HQ)), trace_id.
  assert (quad D Q (fun k => mvmean N z k - mvmean N z k) = 0) as -> by (unfold quad; rewrite (sumn_ext D _ (fun _ => 0)); [apply sumn_zero|]; intros; rewrite (sumn_ext D _ (fun _ => 0)); [apply sumn_zero|]; intros; ring).
  assert (0 <= quad D P (fun k => mvmean N z k - mvmean M x k)) as G2.
  { set (w := fun k => mvmean N z k - mvmean M x k). 
    rewrite (quad_ext D P P w (mapply D (mvcov true M x) (mapply D P w)) (mat_eq_refl _ _)) by (intros i Hi; rewrite <- mapply_mul by auto; rewrite (mapply_ext D _ idm w w i Hi HP) by auto; now rewrite mapply_id).
    rewrite quad_dot. rewrite (sumn_ext D _ (fun i => mapply D (mvcov true M x) (mapply D P w) i * mapply D P w i)).
    - rewrite (sumn_ext D _ (fun i => mapply D P w i * mapply D (mvcov true M x) (mapply D P w) i)) by (intros; ring). rewrite <- quad_dot. rewrite (cov_quad true M D x). apply Rmult_le_pos; [apply sumn_nonneg; intros; apply Rle_0_sqr|left; apply Rinv_0_lt_compat, (cov_c true M x HM)].
    - intros i Hi. f_equal. apply mapply_ext; auto using mat_eq_refl. intros j Hj. rewrite <- mapply_mul by auto. rewrite (mapply_ext D _ idm w w j Hj HP) by auto. now apply mapply_id. }
  assert (0 < INR N) by (apply lt_0_INR; lia). nra.
Qed.
