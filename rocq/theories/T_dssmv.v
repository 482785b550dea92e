(** Proofs of the multivariate Dawid-Sebastiani score properties (statements in P_dssmv.v). *)
From Verif Require Export L_dssmv_api T_dss.
From Coq Require Import Psatz Lia Classical.
Open Scope R_scope.
Lemma dssmv_val b bias obs fct m v s p q M D y x P : mv_args obs fct m v s p q M D y x -> dssmv_ready b obs s M D ->
  (forall r, inb s r -> is_inverse D (mvcov bias M (memv p q x r)) (P r)) ->
  returns (dssmv_ensemble b obs fct m v bias) s (fun r => Fin (mvds_score D (mvmean M (memv p q x r)) (P r) (Rdet D (mvcov bias M (memv p q x r))) (obsv q y r))) /\
  forall r, inb s r -> 0 < Rdet D (mvcov bias M (memv p q x r)).
Proof.
  intros Ha (HM & HD & Hf & Hb) HP. destruct (dssmv_value b bias obs fct m v s p q M D y x Ha ltac:(lia) HD Hf (fun e => proj2 (Hb e)) HM (fun e => proj1 (Hb e)) P HP) as [T Q]. split; [eexists; exact T|exact Q].
Qed.
Lemma returns_eq T s f g : returns T s f -> (forall r, inb s r -> f r = g r) -> returns T s g.
Proof. intros [d H] E. exists d. eapply ten_ext; eauto. Qed.
Lemma noinv_det D C : ~ (exists P, is_inverse D C P) -> Rdet D C = 0.
Proof. intros H. destruct (Req_dec (Rdet D C) 0) as [E|E]; auto. exfalso. apply H. eexists. now apply Rinvm_right. Qed.
Lemma reorders_sum M g f : reorders M g -> sumn M (fun k => f (g k)) = sumn M f.
Proof. intros H. unfold sumn at 1. rewrite <- map_map. now apply sumn_perm. Qed.
Lemma mvmean_perm M D x x' g : reorders M g -> (forall i k, (i < M)%nat -> (k < D)%nat -> x' i k = x (g i) k) -> forall k, (k < D)%nat -> mvmean M x' k = mvmean M x k.
Proof. intros H E k Hk. unfold mvmean, mean. rewrite (sumn_ext M _ (fun i => x (g i) k)) by (intros; now apply E). now rewrite (reorders_sum M g (fun i => x i k)). Qed.
Lemma mvcov_perm bias M D x x' g : reorders M g -> (forall i k, (i < M)%nat -> (k < D)%nat -> x' i k = x (g i) k) -> mat_eq D (mvcov bias M x') (mvcov bias M x).
Proof.
  intros H E a b Ha Hb. unfold mvcov. f_equal. rewrite <- (reorders_sum M g (fun i => (x i a - mvmean M x a) * (x i b - mvmean M x b)) H). apply sumn_ext. intros i Hi. rewrite !E by auto. now rewrite !(mvmean_perm M D x x' g H E) by auto.
Qed.
Lemma det1 A : Rdet 1 A = A O O.
Proof. unfold Rdet. simpl. ring. Qed.
Lemma mvcov1 bias M x : mvcov bias M x O O = variance bias M (fun i => x i O).
Proof. unfold mvcov, variance. f_equal. Qed.
Lemma inv1 A : A O O <> 0 -> is_inverse 1 A (fun _ _ => / A O O).
Proof. intros H i j Hi Hj. destruct i; [|lia]. destruct j; [|lia]. unfold mmul, sumn, Rsum. simpl. unfold idm. destruct (Nat.eq_dec 0 0); [|lia]. field. auto. Qed.
Lemma mv_real2 M D y x : mv_args (real1 D y) (real2 M D x) (-2) (-1) [] 1 0 M D (fun i => y (hd 0%nat i)) (fun i => x (hd 0%nat (tl i)) (hd 0%nat i)).
Proof. repeat split; simpl; auto; now left. Qed.
Lemma C65_value_l :
forall b obs fct m v s p q M D y x bias d P,
  mv_args obs fct m v s p q M D y x -> dssmv_ready b obs s M D -> determinant D d ->
  (forall r, inb s r -> is_inverse D (mvcov bias M (memv p q x r)) (P r)) ->
  returns (dssmv_ensemble b obs fct m v bias) s
    (fun r => Fin (mvds_score D (mvmean M (memv p q x r)) (P r) (d (mvcov bias M (memv p q x r))) (obsv q y r))) /\
  forall r, inb s r -> 0 < d (mvcov bias M (memv p q x r)).
Proof.
intros b obs fct m v s p q M D y x bias d P Ha Hc Hd HP. destruct (dssmv_val b bias obs fct m v s p q M D y x P Ha Hc HP) as [T Q]. split.
  - eapply returns_eq; [exact T|]. intros r Hr. cbv beta. now rewrite (determinant_Rdet D d Hd).
  - intros r Hr. rewrite (determinant_Rdet D d Hd). auto.
Qed.
Lemma C65_singular_l :
forall b obs fct m v s p q M D y x bias r,
  mv_args obs fct m v s p q M D y x -> dssmv_ready b obs s M D -> nonempty s -> inb s r ->
  ~ (exists P, is_inverse D (mvcov bias M (memv p q x r)) P) -> raises (dssmv_ensemble b obs fct m v bias) LinAlgError.
Proof.
intros b obs fct m v s p q M D y x bias r Ha (HM & HD & Hf & Hb) Hs Hr N.
  apply (dssmv_singular b bias obs fct m v s p q M D y x Ha ltac:(lia) HD Hf (fun e => proj2 (Hb e)) HM (fun e => proj1 (Hb e)) r Hs Hr). now apply noinv_det.
Qed.
Lemma C65_few_members_l :
forall b obs fct m v s p q M D y x bias,
  mv_args obs fct m v s p q M D y x -> dssmv_ready b obs s M D -> nonempty s -> (M <= D)%nat ->
  raises (dssmv_ensemble b obs fct m v bias) LinAlgError.
Proof.
intros b obs fct m v s p q M D y x bias Ha (HM & HD & Hf & Hb) Hs HMD. destruct (nonempty_idx s Hs) as [r Hr].
  apply (dssmv_singular b bias obs fct m v s p q M D y x Ha ltac:(lia) HD Hf (fun e => proj2 (Hb e)) HM (fun e => proj1 (Hb e)) r Hs Hr). now apply cov_few.
Qed.
Lemma C65_agree_l :
forall obs fct m v s p q M D y x bias,
  mv_args obs fct m v s p q M D y x -> (2 <= M)%nat -> (2 <= D)%nat -> nonempty s -> dt obs = DFloat ->
  (exists u, returns (dssmv_ensemble Array obs fct m v bias) s (fun r => Fin (u r)) /\ returns (dssmv_ensemble Numba obs fct m v bias) s (fun r => Fin (u r))) \/
  raises (dssmv_ensemble Array obs fct m v bias) LinAlgError /\ raises (dssmv_ensemble Numba obs fct m v bias) LinAlgError.
Proof.
intros obs fct m v s p q M D y x bias Ha HM HD Hs Hf. destruct (classic (exists r, inb s r /\ Rdet D (mvcov bias M (memv p q x r)) = 0)) as [(r & Hr & E)|N].
  - right. split; apply (fun b Hf' Hne HD2 => dssmv_singular b bias obs fct m v s p q M D y x Ha ltac:(lia) ltac:(lia) Hf' Hne HM HD2 r Hs Hr E); auto; intros; discriminate.
  - left. assert (forall r, inb s r -> is_inverse D (mvcov bias M (memv p q x r)) (Rinvm D (mvcov bias M (memv p q x r)))) as HP by (intros r Hr; apply Rinvm_right; intros E; apply N; eauto).
    eexists. split; [apply (dssmv_val Array bias obs fct m v s p q M D y x (fun r => Rinvm D (mvcov bias M (memv p q x r))) Ha)|apply (dssmv_val Numba bias obs fct m v s p q M D y x (fun r => Rinvm D (mvcov bias M (memv p q x r))) Ha)]; try exact HP; repeat split; auto; try lia; intros; discriminate.
Qed.
Lemma C65_one_variable_l :
forall obs fct m v s p q M y x bias,
  mv_args obs fct m v s p q M 1 y x -> (2 <= M)%nat -> nonempty s -> dt obs = DFloat ->
  ((forall r, inb s r -> spread M (fun i => memv p q x r i 0)) ->
    returns (dssmv_ensemble Numba obs fct m v bias) s
      (fun r => Fin (ds_score (mean M (fun i => memv p q x r i 0)) (variance bias M (fun i => memv p q x r i 0)) (obsv q y r 0)))) /\
  raises (dssmv_ensemble Array obs fct m v bias) LinAlgError.
Proof.
intros obs fct m v s p q M y x bias Ha HM Hs Hf. split; [|apply (dssmv_one bias obs fct m v s p q M y x Ha ltac:(lia) Hs)]. intros Hsp.
  assert (forall r, inb s r -> mvcov bias M (memv p q x r) O O <> 0) as N. { intros r Hr. rewrite mvcov1. pose proof (variance_pos M (fun i => memv p q x r i 0) bias (Hsp r Hr)). lra. }
  destruct (dssmv_val Numba bias obs fct m v s p q M 1 y x (fun r _ _ => / mvcov bias M (memv p q x r) O O) Ha) as [T _]; [repeat split; auto; try lia; intros; discriminate|intros r Hr; apply inv1; auto|].
  eapply returns_eq; [exact T|]. intros r Hr. cbv beta. f_equal. unfold mvds_score, ds_score. rewrite det1, mvcov1. f_equal. unfold quad, sumn, Rsum, mvmean, Rdiv, Rsqr. simpl. ring.
Qed.
Lemma C65_one_variable_refuted_l :
exists obs fct M y x, mv_args obs fct (-2) (-1) [] 1 0 M 1 y x /\ (2 <= M)%nat /\ floats obs fct /\
  returns (dssmv_ensemble Numba obs fct (-2) (-1) false) [] (fun _ => Fin (ln 2)) /\
  raises (dssmv_ensemble Array obs fct (-2) (-1) false) LinAlgError.
Proof.
exists (real1 1 (fun _ => 1)), (real2 2 1 (fun i _ => 2 * INR i)), 2%nat. do 2 eexists. split; [apply mv_real2|]. split; [lia|]. split; [split; reflexivity|].
  destruct (C65_one_variable_l _ _ _ _ _ _ _ _ _ _ false (mv_real2 2 1 (fun _ => 1) (fun i _ => 2 * INR i)) ltac:(lia) ltac:(intros K; destruct K) eq_refl) as [T T2]. split; [|exact T2].
  eapply returns_eq; [apply T; intros r _; exists 0%nat, 1%nat; unfold memv; destruct r; simpl; repeat split; auto; lra|]. intros r Hr. destruct r; [|destruct Hr]. unfold memv, obsv. simpl. f_equal. unfold ds_score, variance, mean, sumn, Rsum, Rsqr. simpl. replace ((_ + (_ + 0)) / (1 + 1 - 1)) with 2 by field. replace ((1 - _) * _) with 0 by field. lra.
Qed.
Lemma C65_affine_l :
forall b obs fct obs' fct' m v s p q M D y x y' x' bias d P A Ai c,
  mv_args obs fct m v s p q M D y x -> mv_args obs' fct' m v s p q M D y' x' -> dssmv_ready b obs s M D -> dssmv_ready b obs' s M D -> determinant D d ->
  (forall r, inb s r -> is_inverse D (mvcov bias M (memv p q x r)) (P r)) -> (forall r, inb s r -> is_inverse D (A r) (Ai r)) ->
  (forall r k, inb s r -> (k < D)%nat -> obsv q y' r k = affv D (A r) (c r) (obsv q y r) k) ->
  (forall r i k, inb s r -> (i < M)%nat -> (k < D)%nat -> memv p q x' r i k = affv D (A r) (c r) (memv p q x r i) k) ->
  exists u, returns (dssmv_ensemble b obs fct m v bias) s (fun r => Fin (u r)) /\
            returns (dssmv_ensemble b obs' fct' m v bias) s (fun r => Fin (u r + ln (d (A r))²)).
Proof.
intros b obs fct obs' fct' m v s p q M D y x y' x' bias d P A Ai c Ha Ha' Hc Hc' Hd HP HA Hy Hx. pose proof Hc as (HM & _).
  destruct (dssmv_val b bias obs fct m v s p q M D y x P Ha Hc HP) as [T Q]. eexists. split; [exact T|].
  set (P' := fun r => mmul D (mmul D (mtrans (Ai r)) (P r)) (Ai r)).
  assert (forall r, inb s r -> mat_eq D (mvcov bias M (memv p q x' r)) (mmul D (mmul D (A r) (mvcov bias M (memv p q x r))) (mtrans (A r)))) as EC by (intros r Hr; apply (aff_cov bias M D _ _ (A r) (c r) ltac:(lia)); intros; now apply Hx).
  assert (forall r, inb s r -> is_inverse D (mvcov bias M (memv p q x' r)) (P' r)) as HP'.
  { intros r Hr. eapply inverse_ext; [apply mat_eq_sym, EC; auto|apply mat_eq_sym, mmul_assoc|]. apply mmul_inverse; [apply mmul_inverse; auto|apply mtrans_inverse; auto]. }
  destruct (dssmv_val b bias obs' fct' m v s p q M D y' x' P' Ha' Hc' HP') as [T' Q']. eapply returns_eq; [exact T'|]. intros r Hr. cbv beta. f_equal. unfold mvds_score.
  rewrite (Rdet_ext D _ _ (EC r Hr)). rewrite !Rdet_mul, Rdet_trans. rewrite (determinant_Rdet D d Hd). pose proof (Q r Hr). pose proof (inverse_det D _ _ (HA r Hr)) as EA. assert (Rdet D (A r) <> 0) as NA by (intros E; rewrite E in EA; lra).
  replace (Rdet D (A r) * Rdet D (mvcov bias M (memv p q x r)) * Rdet D (A r)) with (Rdet D (mvcov bias M (memv p q x r)) * (Rdet D (A r))²) by (unfold Rsqr; ring). rewrite ln_mult; [|auto|now apply Rsqr_pos_lt]. rewrite <- Rplus_assoc. f_equal. f_equal.
  unfold P'. rewrite quad_congr. apply quad_ext; [apply mat_eq_refl|]. intros i Hi. rewrite (mapply_ext D (Ai r) (Ai r) _ (mapply D (A r) (fun k => obsv q y r k - mvmean M (memv p q x r) k)) i Hi (mat_eq_refl _ _)).
  - rewrite <- mapply_mul by auto. rewrite (mapply_ext D _ idm _ _ i Hi (inverse_left D _ _ (HA r Hr)) (fun _ _ => eq_refl)). now apply mapply_id.
  - intros j Hj. rewrite Hy by auto. rewrite (aff_mean M D (memv p q x r) _ (A r) (c r) ltac:(lia)) by (intros; now apply Hx || auto). unfold affv, mapply. rewrite (sumn_ext D (fun k => A r j k * (obsv q y r k - mvmean M (memv p q x r) k)) (fun k => A r j k * obsv q y r k - A r j k * mvmean M (memv p q x r) k)) by (intros; ring). rewrite sumn_minus. ring.
Qed.
Lemma C65_permutation_l :
forall b obs fct fct' m v s p q M D y x x' bias P g,
  mv_args obs fct m v s p q M D y x -> mv_args obs fct' m v s p q M D y x' -> dssmv_ready b obs s M D ->
  (forall r, inb s r -> is_inverse D (mvcov bias M (memv p q x r)) (P r)) -> (forall r, inb s r -> reorders M (g r)) ->
  (forall r i k, inb s r -> (i < M)%nat -> (k < D)%nat -> memv p q x' r i k = memv p q x r (g r i) k) ->
  exists u, returns (dssmv_ensemble b obs fct m v bias) s (fun r => Fin (u r)) /\
            returns (dssmv_ensemble b obs fct' m v bias) s (fun r => Fin (u r)).
Proof.
intros b obs fct fct' m v s p q M D y x x' bias P g Ha Ha' Hc HP Hg Hx. destruct (dssmv_val b bias obs fct m v s p q M D y x P Ha Hc HP) as [T _]. eexists. split; [exact T|].
  assert (forall r, inb s r -> mat_eq D (mvcov bias M (memv p q x' r)) (mvcov bias M (memv p q x r))) as EC by (intros r Hr; apply (mvcov_perm bias M D _ _ (g r)); auto).
  destruct (dssmv_val b bias obs fct' m v s p q M D y x' P Ha' Hc) as [T' _]; [intros r Hr; eapply inverse_ext; [apply mat_eq_sym, EC; auto|apply mat_eq_refl|auto]|].
  eapply returns_eq; [exact T'|]. intros r Hr. cbv beta. f_equal. unfold mvds_score. rewrite (Rdet_ext D _ _ (EC r Hr)). f_equal. apply quad_ext; [apply mat_eq_refl|]. intros i Hi. f_equal. apply (mvmean_perm M D _ _ (g r)); auto.
Qed.
Lemma C65_proper_l :
forall b M N D x z P Q,
  (2 <= M)%nat -> (2 <= N)%nat -> (0 < D)%nat -> (b = Array -> 2 <= D)%nat ->
  is_inverse D (mvcov true M x) P -> is_inverse D (mvcov true N z) Q -> exists S T : nat -> R,
    (forall j, (j < N)%nat -> returns (dssmv_ensemble b (real1 D (z j)) (real2 M D x) (-2) (-1) true) [] (fun _ => Fin (S j))) /\
    (forall j, (j < N)%nat -> returns (dssmv_ensemble b (real1 D (z j)) (real2 N D z) (-2) (-1) true) [] (fun _ => Fin (T j))) /\
    sumn N T <= sumn N S.
Proof.
intros b M N D x z P Q HM HN HD HD2 HP HQ.
  exists (fun j => mvds_score D (mvmean M x) P (Rdet D (mvcov true M x)) (z j)), (fun j => mvds_score D (mvmean N z) Q (Rdet D (mvcov true N z)) (z j)). split; [|split].
  - intros j Hj. destruct (dssmv_val b true _ _ _ _ _ _ _ _ _ _ _ (fun _ => P) (mv_real2 M D (z j) x)) as [T _]; [repeat split; auto; intros K; destruct K| |].
    + intros r Hr. destruct r; [|destruct Hr]. exact HP.
    + eapply returns_eq; [exact T|]. intros r Hr. destruct r; [|destruct Hr]. reflexivity.
  - intros j Hj. destruct (dssmv_val b true _ _ _ _ _ _ _ _ _ _ _ (fun _ => Q) (mv_real2 N D (z j) z)) as [T _]; [repeat split; auto; intros K; destruct K| |].
    + intros r Hr. destruct r; [|destruct Hr]. exact HQ.
    + eapply returns_eq; [exact T|]. intros r Hr. destruct r; [|destruct Hr]. reflexivity.
  - now apply mvds_proper.
Qed.
Lemma C65_nan_l :
forall obs fct m v p q M D y x bias i k,
  mv_nums obs fct m v [] p q M D y x -> (2 <= M)%nat -> (2 <= D)%nat -> dt obs = DFloat ->
  (i < M)%nat -> (k < D)%nat -> x (insert_at p i (insert_at q k [])) = NaN ->
  returns (dssmv_ensemble Array obs fct m v bias) [] (fun _ => NaN) /\
  raises (dssmv_ensemble Numba obs fct m v bias) LinAlgError.
Proof.
intros obs fct m v p q M D y x bias i k Ha HM HD Hf Hi Hk E. destruct (dssmv_nan obs fct m v p q M D y x bias i k Ha HM HD Hf Hi Hk E) as [T1 T2]. split; [eexists; exact T1|exact T2].
Qed.
