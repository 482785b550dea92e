(** The kernel scores as squared distances, and how far they move with their arguments. *)
From Verif Require Export S_kmetric L_stab T_kernels.
From Coq Require Import Psatz.
From Coquelicot Require Import Coquelicot.
Open Scope R_scope.

(** ** the Gaussian kernel as a function of the distance *)
Lemma gauss_slope t : Rabs (- t * exp (- (t * t) / 2)) <= exp (- / 2).
Proof.
  set (g := exp (- (t * t) / 2)). assert (0 < g) by apply exp_pos. assert (0 < exp (- / 2)) as E by apply exp_pos.
  assert (g * g = exp (- (t * t))) as G by (unfold g; rewrite <- exp_plus; f_equal; lra).
  assert (exp (- / 2) * exp (- / 2) = exp (- 1)) as E2 by (rewrite <- exp_plus; f_equal; lra).
  assert (t * t * exp (- (t * t)) <= exp (- 1)) as B.
  { replace (exp (- 1)) with (exp (t * t - 1) * exp (- (t * t))) by (rewrite <- exp_plus; f_equal; ring).
    apply Rmult_le_compat_r; [left; apply exp_pos|]. pose proof (exp_ineq1_le (t * t - 1)). lra. }
  apply Rabs_le. split; nra.
Qed.
Lemma gauss_lip s t : Rabs (exp (- (t * t) / 2) - exp (- (s * s) / 2)) <= exp (- / 2) * Rabs (t - s).
Proof.
  destruct (MVT_gen (fun x => exp (- (x * x) / 2)) s t (fun x => - x * exp (- (x * x) / 2))) as (c & _ & E).
  - intros x _. auto_derive; auto. unfold Rdiv. set (g := exp _). lra.
  - intros x _. apply continuity_pt_filterlim. apply (ex_derive_continuous (fun x => exp (- (x * x) / 2))). auto_derive; auto.
  - rewrite E, Rabs_mult. apply Rmult_le_compat_r; [apply Rabs_pos|apply gauss_slope].
Qed.
Lemma gaussD_lip D u v u' v' : Rabs (gaussD D u' v' - gaussD D u v) <= exp (- / 2) * (eucl D u' u + eucl D v' v).
Proof.
  rewrite !gaussD_eucl. eapply Rle_trans; [apply gauss_lip|]. apply Rmult_le_compat_l; [left; apply exp_pos|]. apply eucl_lip.
Qed.
(** the scores as averages of the distances 1 - k *)
Lemma gval_w_mval e M w A B : (0 < M)%nat -> sumn M w = 1 -> (e = MFair -> sumn M (fun i => w i * w i) <> 1) -> (forall i, B i i = 1) ->
  gval_w e M w A B = mval_w Array e M w (fun i => 1 - A i) (fun i j => 1 - B i j).
Proof.
  intros HM Hw Hf HB. destruct e; cbn [gval_w mval_w].
  - now apply gk_wexact_k.
  - apply gk_wfair_k; auto.
  - now apply gk_wlag_k.
  - now apply gk_wlag_k.
Qed.
Lemma gval_w_lip e M D w y x y' x' dy dx : (0 < M)%nat -> (forall i, (i < M)%nat -> 0 <= w i) -> sumn M w = 1 ->
  (e = MFair -> sumn M (fun i => w i * w i) <> 1) -> eucl D y' y <= dy -> (forall i, (i < M)%nat -> eucl D (x' i) (x i) <= dx) ->
  Rabs (gval_w e M w (kobsD D y' x') (kmemD D x') - gval_w e M w (kobsD D y x) (kmemD D x)) <= exp (- / 2) * (dy + 2 * dx).
Proof.
  intros HM Hw Hw1 Hf Hy Hx. rewrite !gval_w_mval by (auto; intros; apply kmemD_refl). assert (0 < exp (- / 2)) by apply exp_pos.
  replace (exp (- / 2) * (dy + 2 * dx)) with (exp (- / 2) * (dx + dy) + exp (- / 2) * (dx + dx) / 2) by field.
  apply mval_w_lip; auto.
  - intros i Hi. unfold kobsD. replace (1 - gaussD D (x' i) y' - (1 - gaussD D (x i) y)) with (- (gaussD D (x' i) y' - gaussD D (x i) y)) by ring.
    rewrite Rabs_Ropp. eapply Rle_trans; [apply gaussD_lip|]. apply Rmult_le_compat_l; [lra|]. specialize (Hx i Hi). lra.
  - intros i j Hi Hj. unfold kmemD. replace (1 - gaussD D (x' i) (x' j) - (1 - gaussD D (x i) (x j))) with (- (gaussD D (x' i) (x' j) - gaussD D (x i) (x j))) by ring.
    rewrite Rabs_Ropp. eapply Rle_trans; [apply gaussD_lip|]. apply Rmult_le_compat_l; [lra|]. pose proof (Hx i Hi). pose proof (Hx j Hj). lra.
  - intros i. rewrite kmemD_refl. ring.
  - intros i. rewrite kmemD_refl. ring.
Qed.

(** ** the range: all observation kernels in [a, b] *)
Lemma gval_w_range e M D w y x a b : (0 < M)%nat -> (forall i, (i < M)%nat -> 0 <= w i) -> sumn M w = 1 ->
  (e = MFair -> sumn M (fun i => w i * w i) <> 1) -> (forall i, (i < M)%nat -> a <= gaussD D (x i) y <= b) ->
  / 2 - b <= gval_w e M w (kobsD D y x) (kmemD D x) <= 1 - a.
Proof.
  intros HM Hw Hw1 Hf Hab.
  assert (a <= sumn M (fun i => w i * kobsD D y x i) <= b) as HA.
  { rewrite <- (Rmult_1_l a), <- (Rmult_1_l b), <- Hw1, <- !sumn_scal_r. split; apply sumn_le; intros i Hi; apply Rmult_le_compat_l; auto; apply Hab; auto. }
  assert (forall i j, 0 <= kmemD D x i j <= 1) as HB by (intros; split; [left; apply gaussD_pos|apply gaussD_le1]).
  assert (forall g : nat -> nat, 0 <= sumn M (fun i => w i * kmemD D x i (g i)) <= 1) as HL.
  { intros g. rewrite <- Hw1. split; [apply sumn_nonneg|apply sumn_le]; intros i Hi; specialize (HB i (g i)); specialize (Hw i Hi); nra. }
  assert (0 <= sumn M (fun i => sumn M (fun j => w i * w j * kmemD D x i j)) <= 1) as HQ.
  { rewrite (sumn_ext M _ (fun i => w i * sumn M (fun j => w j * kmemD D x i j))) by (intros; rewrite <- sumn_scal; apply sumn_ext; intros; ring).
    assert (forall i, 0 <= sumn M (fun j => w j * kmemD D x i j) <= 1).
    { intros i. rewrite <- Hw1. split; [apply sumn_nonneg|apply sumn_le]; intros j Hj; specialize (HB i j); specialize (Hw j Hj); nra. }
    rewrite <- Hw1. split; [apply sumn_nonneg|apply sumn_le]; intros i Hi; specialize (H i); specialize (Hw i Hi); nra. }
  destruct e; cbn [gval_w].
  - unfold gk_wexact. lra.
  - unfold gk_wfair. pose proof (sq_le1 M w Hw Hw1). specialize (Hf eq_refl). set (C := 1 - sumn M (fun i => w i * w i)) in *. assert (0 < C) by (unfold C; lra).
    assert (0 <= offdiag M (fun i j => w i * w j * kmemD D x i j) <= C) as HO.
    { split.
      - apply sumn_nonneg; intros i Hi. apply sumn_nonneg; intros j Hj. destruct (i =? j)%nat; [lra|]. specialize (HB i j). pose proof (Hw i Hi). pose proof (Hw j Hj). apply Rmult_le_pos; [nra|lra].
      - replace C with (offdiag M (fun i j => w i * w j)).
        + apply sumn_le; intros i Hi. apply sumn_le; intros j Hj. destruct (i =? j)%nat; [lra|]. specialize (HB i j). pose proof (Hw i Hi). pose proof (Hw j Hj). assert (0 <= w i * w j) by nra. nra.
        + rewrite offdiag_sub. unfold C. f_equal. rewrite (sumn_ext M _ (fun i => w i)); [exact Hw1|]. intros i Hi. rewrite sumn_scal, Hw1. ring. }
    assert (0 <= offdiag M (fun i j => w i * w j * kmemD D x i j) / (2 * C) <= / 2) as HD.
    { assert (0 < / (2 * C)) by (apply Rinv_0_lt_compat; lra). split; [apply Rmult_le_pos; lra|]. replace (/ 2) with (C / (2 * C)) by (field; lra). apply Rmult_le_compat_r; lra. }
    lra.
  - unfold gk_wlag. specialize (HL (lag1 M)). lra.
  - unfold gk_wlag. specialize (HL (lagc M)). lra.
Qed.

(** ** the inner product of weighted point sets *)
Definition kip (D M : nat) (w : nat -> R) (x : nat -> nat -> R) (N : nat) (v : nat -> R) (z : nat -> nat -> R) : R :=
  sumn M (fun i => sumn N (fun j => w i * v j * gaussD D (x i) (z j))).
Lemma kip_sym D M w x N v z : kip D M w x N v z = kip D N v z M w x.
Proof. unfold kip. rewrite sumn_swap. apply sumn_ext; intros; apply sumn_ext; intros. rewrite gaussD_sym. ring. Qed.
Lemma kip_pool D M w x N v z L u t : kip D (M + N) (pool M w v) (pool M x z) L u t = kip D M w x L u t + kip D N v z L u t.
Proof.
  unfold kip. rewrite sumn_plus_idx. f_equal; apply sumn_ext; intros i Hi; apply sumn_ext; intros j Hj; [now rewrite !pool_l|now rewrite !pool_r].
Qed.
Lemma kip_scal D M w x N v z c : kip D M w x N (fun j => c * v j) z = c * kip D M w x N v z.
Proof. unfold kip. rewrite <- sumn_scal. apply sumn_ext; intros. rewrite <- sumn_scal. apply sumn_ext; intros; ring. Qed.
Lemma kip_two D M w x N v z : 0 <= kip D M w x M w x + kip D N v z N v z - 2 * kip D M w x N v z.
Proof.
  pose proof (gauss_two M N D w x v z) as H. unfold kip in *. rewrite (sumn_swap M N).
  rewrite (sumn_ext N (fun j => sumn M (fun i => w i * v j * gaussD D (x i) (z j))) (fun j => v j * sumn M (fun i => w i * gaussD D (x i) (z j)))); [exact H|].
  intros j Hj. rewrite <- sumn_scal. apply sumn_ext; intros; ring.
Qed.
Lemma kip_nonneg D M w x : 0 <= kip D M w x M w x.
Proof. pose proof (kip_two D M w x 0 w x) as H. unfold kip at 2 3 in H. rewrite sumn_0 in H. rewrite (sumn_ext M _ (fun _ => 0)), sumn_zero in H by (intros; apply sumn_0). lra. Qed.
Lemma kip_cs D M w x N v z : kip D M w x N v z ^ 2 <= kip D M w x M w x * kip D N v z N v z.
Proof.
  set (a := kip D M w x M w x). set (b := kip D N v z N v z). set (c := kip D M w x N v z).
  assert (forall t, 0 <= a + t * t * b - 2 * t * c) as H.
  { intros t. pose proof (kip_two D M w x N (fun j => t * v j) z) as H. rewrite !kip_scal, (kip_sym D N (fun j => t * v j)), !kip_scal in H. fold a b c in H. lra. }
  assert (0 <= b) by apply kip_nonneg. assert (0 <= a) by apply kip_nonneg. destruct (Req_dec b 0) as [E|N0].
  - destruct (Req_dec c 0) as [-> |Nc]; [nra|]. specialize (H ((a + 1) / c)). rewrite E in H.
    replace (2 * ((a + 1) / c) * c) with (2 * (a + 1)) in H by (field; auto). nra.
  - specialize (H (c / b)). assert (0 < b) by lra. apply (Rmult_le_compat_l b) in H; [|lra]. replace (b * (a + c / b * (c / b) * b - 2 * (c / b) * c)) with (a * b - c ^ 2) in H by (field; lra). lra.
Qed.
Lemma mmd2_kip D M w x N v z : mmd2 D M w x N v z = kip D (M + N) (pool M w (fun j => -1 * v j)) (pool M x z) (M + N) (pool M w (fun j => -1 * v j)) (pool M x z).
Proof.
  rewrite kip_pool, !(kip_sym D _ _ _ (M + N)), !kip_pool. rewrite (kip_sym D N (fun j => -1 * v j) z M), !kip_scal, (kip_sym D N (fun j => -1 * v j) z N), kip_scal.
  unfold mmd2. fold (kip D M w x M w x) (kip D N v z N v z) (kip D M w x N v z). ring.
Qed.
Lemma mmd2_nonneg D M w x N v z : 0 <= mmd2 D M w x N v z.
Proof. rewrite mmd2_kip. apply kip_nonneg. Qed.
Lemma mmd2_sym D M w x N v z : mmd2 D M w x N v z = mmd2 D N v z M w x.
Proof. unfold mmd2. fold (kip D M w x N v z). rewrite kip_sym. unfold kip. ring. Qed.
Lemma mmd_triangle D M w x N v z L u t : sqrt (mmd2 D M w x L u t) <= sqrt (mmd2 D M w x N v z) + sqrt (mmd2 D N v z L u t).
Proof.
  pose proof (mmd2_nonneg D M w x N v z) as Pa. pose proof (mmd2_nonneg D N v z L u t) as Pb.
  pose proof (kip_cs D (M + N) (pool M w (fun j => -1 * v j)) (pool M x z) (N + L) (pool N v (fun j => -1 * u j)) (pool N z t)) as C.
  rewrite <- !mmd2_kip in C. set (a := mmd2 D M w x N v z) in *. set (b := mmd2 D N v z L u t) in *.
  set (c := kip D (M + N) _ _ (N + L) _ _) in *.
  assert (mmd2 D M w x L u t = a + b + 2 * c) as E.
  { unfold c. rewrite kip_pool, !(kip_sym D _ _ _ (N + L)), !kip_pool, !(kip_sym D N v z), !(kip_sym D L (fun j => -1 * u j) t), !kip_scal.
    rewrite !(kip_sym D N (fun j => -1 * v j) z), !kip_scal. unfold a, b, mmd2.
    fold (kip D M w x M w x) (kip D L u t L u t) (kip D N v z N v z) (kip D M w x N v z) (kip D M w x L u t) (kip D N v z L u t). rewrite (kip_sym D L u t N v z). ring. }
  pose proof (sqrt_pos a). pose proof (sqrt_pos b). pose proof (sqrt_sqrt a Pa). pose proof (sqrt_sqrt b Pb).
  apply Rle_trans with (sqrt ((sqrt a + sqrt b) * (sqrt a + sqrt b))); [|rewrite sqrt_square; lra].
  apply sqrt_le_1_alt. rewrite E. assert (c <= sqrt a * sqrt b); [|nra].
  destruct (Rle_dec c 0); [nra|]. apply Rnot_lt_le; intros Hc. assert ((sqrt a * sqrt b) * (sqrt a * sqrt b) < c * c) by (apply Rmult_le_0_lt_compat; nra). nra.
Qed.
Lemma mmd_reverse D M w x N v z L u t : Rabs (sqrt (mmd2 D M w x L u t) - sqrt (mmd2 D N v z L u t)) <= sqrt (mmd2 D M w x N v z).
Proof.
  pose proof (mmd_triangle D M w x N v z L u t). pose proof (mmd_triangle D N v z M w x L u t) as H1. rewrite (mmd2_sym D N v z M w x) in H1. apply Rabs_le. lra.
Qed.
Lemma mmd2_point D M w x y : mmd2 D M w x 1 (fun _ => 1) (fun _ => y) = 2 * gk_wexact M w (kobsD D y x) (kmemD D x).
Proof.
  unfold mmd2, gk_wexact, kobsD, kmemD. rewrite !(sumn_S 0), !sumn_0, gaussD_refl.
  rewrite (sumn_ext M (fun i => sumn 1 (fun j => w i * 1 * gaussD D (x i) y)) (fun i => w i * gaussD D (x i) y)) by (intros; rewrite (sumn_S 0), sumn_0; ring). field.
Qed.
Lemma mmd2_points D y y' : mmd2 D 1 (fun _ => 1) (fun _ => y) 1 (fun _ => 1) (fun _ => y') = 2 * (1 - gaussD D y y').
Proof. unfold mmd2. rewrite !(sumn_S 0), !sumn_0, !gaussD_refl. ring. Qed.
Lemma gauss_near D u v : 1 - gaussD D u v <= eucl D u v * eucl D u v / 2.
Proof. rewrite gaussD_eucl. pose proof (exp_ineq1_le (- (eucl D u v * eucl D u v) / 2)). lra. Qed.
Lemma sqrt2_scale a : 0 <= a -> sqrt (2 * a) = sqrt 2 * sqrt a.
Proof. intros. apply sqrt_mult; lra. Qed.

(** ** the value of a call *)
Lemma nw_ones M i : (0 < M)%nat -> (i < M)%nat -> nw M (fun _ => 1) i = / INR M.
Proof. intros HM Hi. pose proof (INR_pos M HM). unfold nw. rewrite sumn_const. field. lra. Qed.
Lemma gval_w_1 e M w y x : (0 < M)%nat -> gval_w e M w (kobs1 y x) (kmem1 x) = gval_w e M w (kobsD 1 (fun _ => y) (fun i _ => x i)) (kmemD 1 (fun i _ => x i)).
Proof. intros HM. apply gval_w_ext; auto; intros; apply gauss1_D. Qed.
Lemma kernel_call_value e T s D M w x y : kernel_call e T s D M w x y -> exists e', e = mname e' /\ (0 < M)%nat /\
  returns T s (fun r => Fin (gval_w e' M (nw M (w r)) (kobsD D (y r) (x r)) (kmemD D (x r)))) /\
  forall r, inb s r -> (forall i, (i < M)%nat -> 0 <= nw M (w r) i) /\ sumn M (nw M (w r)) = 1 /\
    (e' = MFair -> sumn M (fun i => nw M (w r) i * nw M (w r) i) <> 1).
Proof.
  intros H. assert (U : forall M e', (0 < M)%nat -> (e' = MFair -> (1 < M)%nat) -> (forall i, (i < M)%nat -> 0 <= nw M (fun _ => 1) i) /\ sumn M (nw M (fun _ => 1)) = 1 /\
    (e' = MFair -> sumn M (fun i => nw M (fun _ => 1) i * nw M (fun _ => 1) i) <> 1)).
  { clear. intros M e' HM H2. pose proof (INR_pos M HM). split; [apply nw_nonneg; [intros; lra|rewrite sumn_const; lra]|]. split; [apply nw_s1; rewrite sumn_const; lra|].
    intros E. specialize (H2 E). apply lt_INR in H2. simpl in H2. rewrite (sumn_ext M _ (fun _ => / INR M * / INR M)) by (intros; now rewrite nw_ones).
    rewrite sumn_const. replace (INR M * (/ INR M * / INR M)) with (/ INR M) by (field; lra). assert (/ INR M < 1) by (rewrite <- Rinv_1; apply Rinv_lt_contravar; lra). lra. }
  assert (V : forall M (w : nat -> R) e', (forall k, (k < M)%nat -> 0 <= w k) -> 0 < sumn M w -> (e' = MFair -> two_positive M w) ->
    (forall i, (i < M)%nat -> 0 <= nw M w i) /\ sumn M (nw M w) = 1 /\ (e' = MFair -> sumn M (fun i => nw M w i * nw M w i) <> 1)).
  { clear. intros M w' e' W0 W1 W2. split; [now apply nw_nonneg|]. split; [now apply nw_s1|]. intros E. pose proof (two_positive_fairc M w' W0 W1 (W2 E)) as F. unfold fairc in F. lra. }
  clear -H U V. destruct H as [b obs fct ax s p M y x e Ha HM Hb He Hf|b obs fct wt ax s p M y x w e Ha HM Hb Hw He Hf Hc|b obs fct m v s p q M D y x e Ha HM HD Hb He Hf|b obs fct wt m v s p q M D y x w e Ha HM HD Hb Hqp Hw He Hf];
    destruct (name_mest e He) as (e' & ->); exists e'; (split; [reflexivity|]); (split; [exact HM|]).
  - split; [|intros r _; apply U; auto; now apply fair_names].
    eapply returns_ext; [eapply returns_is, (gksuv_call b obs fct ax s p M y x Ha HM Hb e'); now apply fair_names|].
    intros r Hr. cbv beta. rewrite <- gval_w_1 by auto. rewrite gval_unif; auto; [now apply fair_names|intros; apply kmem1_refl|intros; now apply nw_ones].
  - assert (e' = MFair -> b = Numba /\ forall r, inb s r -> two_positive M (member p w r)) as Hf' by (intros ->; now apply Hf).
    split; [|intros r Hr; destruct Hw as (_ & W0 & W1); apply V; [intros; now apply W0|now apply W1|intros E; now apply Hf']].
    eapply returns_ext; [eapply returns_is, (gksuv_call_w b obs fct ax s p M y x Ha HM Hb wt w Hw e')|].
    + intros E. now apply Hf'.
    + intros [-> ->]. discriminate (Hc eq_refl).
    + intros r Hr. cbv beta. rewrite gval_wa_0; [now rewrite gval_w_1|]. intros -> E. now destruct (Hf' E).
  - split; [|intros r _; apply U; auto; now apply fair_names].
    eapply returns_ext; [eapply returns_is, (gksmv_call b obs fct m v s p q M D y x Ha HM HD Hb e'); now apply fair_names|].
    intros r Hr. cbv beta. rewrite gval_unif; auto; [now apply fair_names|intros; apply kmemD_refl|intros; now apply nw_ones].
  - assert (e' = MFair -> b = Numba /\ forall r, inb s r -> two_positive M (member (wpos p q) w r)) as Hf' by (intros ->; now apply Hf).
    split; [|intros r Hr; destruct Hw as (_ & W0 & W1); apply V; [intros; now apply W0|now apply W1|intros E; now apply Hf']].
    eapply returns_ext; [eapply returns_is, (gksmv_call_w b obs fct m v s p q M D y x Ha HM HD Hb wt (wpos p q) w Hw (wpos_S _ _ Hqp) e'); intros E; now apply Hf'|].
    intros r Hr. cbv beta. rewrite gval_wa_0; [reflexivity|]. intros -> E. now destruct (Hf' E).
Qed.

(** ** the largest slope of the kernel *)
Lemma slope_sharp c : (forall y, Rabs (exp (- (y * y) / 2) - exp (- (1 * 1) / 2)) <= c * Rabs (y - 1)) -> exp (- / 2) <= c.
Proof.
  intros H. apply Rnot_lt_le; intros L. set (d := exp (- / 2) - c). assert (0 < d) by (unfold d; lra).
  assert (is_derive (fun x => exp (- (x * x) / 2)) 1 (- exp (- / 2))) as D.
  { auto_derive; auto. replace (- (1 * 1) * / 2) with (- / 2) by lra. lra. }
  apply is_derive_Reals in D. destruct (D (d / 2) ltac:(lra)) as (del & Hd). pose proof (cond_pos del).
  specialize (Hd (del / 2) ltac:(lra) ltac:(rewrite Rabs_pos_eq; lra)). specialize (H (1 + del / 2)).
  replace (1 + del / 2 - 1) with (del / 2) in H by ring. rewrite (Rabs_pos_eq (del / 2)) in H by lra.
  set (q := exp (- ((1 + del / 2) * (1 + del / 2)) / 2) - exp (- (1 * 1) / 2)) in *.
  assert (q = q / (del / 2) * (del / 2)) as E by (field; lra).
  apply Rabs_le_between in H. apply Rabs_def2 in Hd. set (k := q / (del / 2)) in *. unfold d in *. nra.
Qed.
