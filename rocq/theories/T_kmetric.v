(** Proofs of the stability and distance properties of the kernel scores (statements in P_kmetric.v). *)
From Verif Require Export L_kmetric.
From Coq Require Import Psatz.
Open Scope R_scope.
(** two members in the plane, without weights, and two members on the line with the weights 1 and 2 *)
Lemma ex_mv b y : kernel_call "nrg" (gksmv_ensemble b (real1 2 y) (real2 2 2 (fun i k => INR (i * k))) (-2) (-1) None "nrg") nil 2 2 (fun _ _ => 1)
  (fun r => memv 1 0 (fun i => INR (hd 0%nat (tl i) * hd 0%nat i)) r) (fun r => obsv 0 (fun i => y (hd 0%nat i)) r).
Proof. apply kc_mv; [apply real2_args|lia|lia|easy|now left|easy]. Qed.
Lemma ex_uvw b e y : (e = "nrg"%string \/ e = "akr"%string) -> kernel_call e (gksuv_ensemble b (num0 (Fin y)) (real1 2 INR) (-1) (Some (real1 2 (fun k => INR k + 1))) e) nil 1 2
  (fun r => member 0 (fun i => INR (hd 0%nat i) + 1) r) (fun r i _ => member 0 (fun i => INR (hd 0%nat i)) r i) (fun _ _ => y).
Proof.
  intros He. apply (kc_uvw b _ _ _ _ _ _ _ (fun _ => y)); [apply (uv_real_args 2 y INR)|lia|easy|apply (uv_real_wts 2 (fun k => INR k + 1))| | |].
  - intros k _. pose proof (pos_INR k). lra.
  - rewrite !sumn_S, sumn_0. simpl. lra.
  - destruct He as [-> | ->]; simpl; auto.
  - destruct He as [-> | ->]; easy.
  - destruct He as [-> | ->]; easy.
Qed.
Lemma C91_value_l :
forall T s D M w x y, kernel_call "nrg" T s D M w x y ->
  exists u, returns T s (fun r => Fin (u r)) /\ forall r, inb s r -> u r = mmd2 D M (nw M (w r)) (x r) 1 (fun _ => 1) (fun _ => y r) / 2.
Proof.
intros T s D M w x y H. destruct (kernel_call_value _ _ _ _ _ _ _ _ H) as (e & E & _ & V & _). destruct e; try discriminate E.
  eexists (fun r => _). split; [exact V|]. intros r Hr. rewrite mmd2_point. cbn [gval_w]. field.
Qed.
Lemma C91_distance_l :
forall D M w x N v z L u t, 0 <= mmd2 D M w x N v z /\ mmd2 D M w x M w x = 0 /\ mmd2 D M w x N v z = mmd2 D N v z M w x /\
  sqrt (mmd2 D M w x L u t) <= sqrt (mmd2 D M w x N v z) + sqrt (mmd2 D N v z L u t).
Proof.
intros. split; [apply mmd2_nonneg|]. split; [unfold mmd2; ring|]. split; [apply mmd2_sym|apply mmd_triangle].
Qed.
Lemma C91_triangle_l :
forall T T' s D M N w v x z y y', kernel_call "nrg" T s D M w x y -> kernel_call "nrg" T' s D N v z y' ->
  (forall r k, inb s r -> (k < D)%nat -> y' r k = y r k) ->
  exists f g, returns T s (fun r => Fin (f r)) /\ returns T' s (fun r => Fin (g r)) /\ forall r, inb s r ->
    Rabs (sqrt (f r) - sqrt (g r)) <= sqrt (mmd2 D M (nw M (w r)) (x r) N (nw N (v r)) (z r) / 2).
Proof.
intros T T' s D M N w v x z y y' H H' Hy. destruct (C91_value_l _ _ _ _ _ _ _ H) as (f & F & Ef). destruct (C91_value_l _ _ _ _ _ _ _ H') as (g & G & Eg).
  exists f, g. split; [exact F|]. split; [exact G|]. intros r Hr. rewrite Ef, Eg by auto.
  replace (mmd2 D N (nw N (v r)) (z r) 1 (fun _ => 1) (fun _ => y' r)) with (mmd2 D N (nw N (v r)) (z r) 1 (fun _ => 1) (fun _ => y r)).
  2:{ rewrite !mmd2_point. f_equal. apply gk_wexact_ext; auto. intros. apply gaussD_ext; auto. intros. symmetry. now apply Hy. }
  unfold Rdiv. rewrite !sqrt_mult by (try apply mmd2_nonneg; lra). rewrite <- Rmult_minus_distr_r, Rabs_mult, (Rabs_pos_eq (sqrt (/ 2))) by apply sqrt_pos.
  apply Rmult_le_compat_r; [apply sqrt_pos|]. apply mmd_reverse.
Qed.
Lemma C91_observation_l :
forall T T' s D M w x x' y y', kernel_call "nrg" T s D M w x y -> kernel_call "nrg" T' s D M w x' y' ->
  (forall r i k, inb s r -> (i < M)%nat -> (k < D)%nat -> x' r i k = x r i k) ->
  exists f g, returns T s (fun r => Fin (f r)) /\ returns T' s (fun r => Fin (g r)) /\ forall r, inb s r ->
    Rabs (sqrt (g r) - sqrt (f r)) <= sqrt (1 - gaussD D (y r) (y' r)) /\ sqrt (1 - gaussD D (y r) (y' r)) <= eucl D (y r) (y' r) / sqrt 2.
Proof.
intros T T' s D M w x x' y y' H H' Hx. destruct (C91_value_l _ _ _ _ _ _ _ H) as (f & F & Ef). destruct (C91_value_l _ _ _ _ _ _ _ H') as (g & G & Eg).
  exists f, g. split; [exact F|]. split; [exact G|]. intros r Hr. split.
  - rewrite Ef, Eg by auto. replace (mmd2 D M (nw M (w r)) (x' r) 1 (fun _ => 1) (fun _ => y' r)) with (mmd2 D M (nw M (w r)) (x r) 1 (fun _ => 1) (fun _ => y' r)).
    2:{ rewrite !mmd2_point. f_equal. apply gk_wexact_ext; auto; intros; apply gaussD_ext; auto; intros; symmetry; now apply Hx. }
    pose proof (mmd_reverse D 1 (fun _ => 1) (fun _ => y' r) 1 (fun _ => 1) (fun _ => y r) M (nw M (w r)) (x r)) as R. rewrite mmd2_points, gaussD_sym in R.
    rewrite (mmd2_sym D 1 _ (fun _ => y' r)), (mmd2_sym D 1 _ (fun _ => y r)) in R. unfold Rdiv. rewrite !sqrt_mult by (try apply mmd2_nonneg; lra).
    pose proof (gaussD_le1 D (y r) (y' r)). rewrite <- Rmult_minus_distr_r, Rabs_mult, (Rabs_pos_eq (sqrt (/ 2))) by apply sqrt_pos.
    apply (Rmult_le_compat_r (sqrt (/ 2))) in R; [|apply sqrt_pos]. rewrite (Rmult_comm 2), sqrt_mult, Rmult_assoc, <- (sqrt_mult 2) in R by lra. rewrite Rinv_r, sqrt_1, Rmult_1_r in R by lra. exact R.
  - pose proof (gauss_near D (y r) (y' r)). assert (0 <= eucl D (y r) (y' r)) by apply eucl_nonneg.
    replace (eucl D (y r) (y' r) / sqrt 2) with (sqrt (eucl D (y r) (y' r) * eucl D (y r) (y' r) / 2)); [apply sqrt_le_1_alt; lra|]. rewrite sqrt_div_alt, sqrt_square by lra. reflexivity.
Qed.
Lemma C91_lipschitz_l :
forall e T T' s D M w x x' y y' dy dx, kernel_call e T s D M w x y -> kernel_call e T' s D M w x' y' ->
  (forall r, inb s r -> eucl D (y' r) (y r) <= dy r) -> (forall r i, inb s r -> (i < M)%nat -> eucl D (x' r i) (x r i) <= dx r) ->
  exists f g, returns T s (fun r => Fin (f r)) /\ returns T' s (fun r => Fin (g r)) /\ forall r, inb s r ->
    Rabs (g r - f r) <= exp (- / 2) * (dy r + 2 * dx r).
Proof.
intros e T T' s D M w x x' y y' dy dx H H' Hy Hx. destruct (kernel_call_value _ _ _ _ _ _ _ _ H) as (e1 & E1 & HM & F & A). destruct (kernel_call_value _ _ _ _ _ _ _ _ H') as (e2 & E2 & _ & G & _).
  assert (e2 = e1) as -> by (rewrite E1 in E2; destruct e1, e2; reflexivity || discriminate E2).
  eexists (fun r => _), (fun r => _). split; [exact F|]. split; [exact G|]. intros r Hr. destruct (A r Hr) as (A1 & A2 & A3). apply gval_w_lip; auto.
Qed.
Lemma C91_slope_sharp_l :
forall c, (forall b y y' f g, returns (gksuv_ensemble b (num0 (Fin y)) (real1 1 (fun _ => 0)) (-1) None "nrg") nil (fun _ => Fin f) ->
    returns (gksuv_ensemble b (num0 (Fin y')) (real1 1 (fun _ => 0)) (-1) None "nrg") nil (fun _ => Fin g) -> Rabs (g - f) <= c * Rabs (y' - y)) -> exp (- / 2) <= c.
Proof.
intros c H.
  assert (V : forall y, returns (gksuv_ensemble Array (num0 (Fin y)) (real1 1 (fun _ => 0)) (-1) None "nrg") nil (fun _ => Fin (1 - exp (- (y * y) / 2)))).
  { intros y. destruct (C37_uv_values_l Array _ _ _ _ _ _ _ _ "nrg" (uv_real_args 1 y (fun _ => 0)) ltac:(lia) ltac:(easy)) as (V & _).
    eapply returns_ext; [exact (V eq_refl)|]. intros r Hr. cbv beta. f_equal. unfold gk_exact, kobs1, kmem1, member. rewrite !sumn_S, !sumn_0, gauss1_refl. unfold gauss1. simpl INR. replace (- (0 - y) ^ 2 / 2) with (- (y * y) / 2) by field. field. }
  apply slope_sharp. intros y. specialize (H Array 1 y _ _ (V 1) (V y)).
  replace (exp (- (y * y) / 2) - exp (- (1 * 1) / 2)) with (- (1 - exp (- (y * y) / 2) - (1 - exp (- (1 * 1) / 2)))) by ring. now rewrite Rabs_Ropp.
Qed.
Lemma C91_range_l :
forall e T s D M w x y R, kernel_call e T s D M w x y -> 0 <= R ->
  exists f, returns T s (fun r => Fin (f r)) /\ forall r, inb s r ->
    ((forall i, (i < M)%nat -> eucl D (x r i) (y r) <= R) -> f r <= 1 - exp (- R ^ 2 / 2)) /\
    ((forall i, (i < M)%nat -> R <= eucl D (x r i) (y r)) -> / 2 - exp (- R ^ 2 / 2) <= f r).
Proof.
intros e T s D M w x y R H HR. destruct (kernel_call_value _ _ _ _ _ _ _ _ H) as (e' & E & HM & F & A). eexists (fun r => _). split; [exact F|].
  intros r Hr. destruct (A r Hr) as (A1 & A2 & A3).
  assert (Mo : forall s t, s <= t -> exp s <= exp t) by (intros a b [L| ->]; [left; now apply exp_increasing|lra]).
  split; intros B.
  - apply (gval_w_range e' M D (nw M (w r)) (y r) (x r) (exp (- R ^ 2 / 2)) 1); auto. intros i Hi. split; [|apply gaussD_le1].
    rewrite gaussD_eucl. apply Mo. pose proof (B i Hi). pose proof (eucl_nonneg D (x r i) (y r)). simpl. nra.
  - apply (gval_w_range e' M D (nw M (w r)) (y r) (x r) 0 (exp (- R ^ 2 / 2))); auto. intros i Hi. split; [left; apply gaussD_pos|].
    rewrite gaussD_eucl. apply Mo. pose proof (B i Hi). simpl. nra.
Qed.
