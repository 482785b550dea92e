(** The energy, variogram and ranked probability scores as squared distances. *)
From Verif Require Export S_emetric L_kmetric T_energy T_vario T_prob.
From Coq Require Import Psatz.
Open Scope R_scope.

(** ** Cauchy-Schwarz and Minkowski for a non-negative quadratic form *)
Lemma quad_cs a b c : 0 <= a -> 0 <= b -> (forall t, 0 <= a + t * t * b - 2 * t * c) -> c ^ 2 <= a * b.
Proof.
  intros Ha Hb H. destruct (Req_dec b 0) as [E|N0].
  - destruct (Req_dec c 0) as [-> |Nc]; [nra|]. specialize (H ((a + 1) / c)). rewrite E in H.
    replace (2 * ((a + 1) / c) * c) with (2 * (a + 1)) in H by (field; auto). nra.
  - specialize (H (c / b)). assert (0 < b) by lra. apply (Rmult_le_compat_l b) in H; [|lra]. replace (b * (a + c / b * (c / b) * b - 2 * (c / b) * c)) with (a * b - c ^ 2) in H by (field; lra). lra.
Qed.
Lemma quad_mink a b c : 0 <= a -> 0 <= b -> c ^ 2 <= a * b -> sqrt (a + b + 2 * c) <= sqrt a + sqrt b.
Proof.
  intros Pa Pb C. pose proof (sqrt_pos a). pose proof (sqrt_pos b). pose proof (sqrt_sqrt a Pa). pose proof (sqrt_sqrt b Pb).
  apply Rle_trans with (sqrt ((sqrt a + sqrt b) * (sqrt a + sqrt b))); [|rewrite sqrt_square; lra].
  apply sqrt_le_1_alt. assert (c <= sqrt a * sqrt b); [|nra].
  destruct (Rle_dec c 0); [nra|]. apply Rnot_lt_le; intros Hc. assert ((sqrt a * sqrt b) * (sqrt a * sqrt b) < c * c) by (apply Rmult_le_0_lt_compat; nra). nra.
Qed.

(** ** energy *)
Definition eip (D M : nat) (w : nat -> R) (x : nat -> nat -> R) (N : nat) (v : nat -> R) (z : nat -> nat -> R) : R :=
  - sumn M (fun i => sumn N (fun j => w i * v j * eucl D (x i) (z j))).
Lemma eip_sym D M w x N v z : eip D M w x N v z = eip D N v z M w x.
Proof. unfold eip. f_equal. rewrite sumn_swap. apply sumn_ext; intros; apply sumn_ext; intros. rewrite eucl_sym. ring. Qed.
Lemma eip_pool D M w x N v z L u t : eip D (M + N) (pool M w v) (pool M x z) L u t = eip D M w x L u t + eip D N v z L u t.
Proof.
  unfold eip. rewrite sumn_plus_idx, Ropp_plus_distr. f_equal; f_equal; apply sumn_ext; intros i Hi; apply sumn_ext; intros j Hj; [now rewrite !pool_l|now rewrite !pool_r].
Qed.
Lemma eip_scal D M w x N v z c : eip D M w x N (fun j => c * v j) z = c * eip D M w x N v z.
Proof. unfold eip. rewrite Ropp_mult_distr_r_reverse. f_equal. rewrite <- sumn_scal. apply sumn_ext; intros. rewrite <- sumn_scal. apply sumn_ext; intros; ring. Qed.
Lemma pool_sum M N w v : sumn (M + N) (pool M w v) = sumn M w + sumn N v.
Proof. rewrite sumn_plus_idx. f_equal; apply sumn_ext; intros; [now rewrite pool_l|now rewrite pool_r]. Qed.
Lemma eip_nonneg D M w x : sumn M w = 0 -> 0 <= eip D M w x M w x.
Proof. intros H. pose proof (eucl_cnd M D x w H) as Q. unfold eip. unfold qf in Q. lra. Qed.
Lemma eip_cs D M w x N v z : sumn M w = 0 -> sumn N v = 0 -> eip D M w x N v z ^ 2 <= eip D M w x M w x * eip D N v z N v z.
Proof.
  intros Hw Hv. apply quad_cs; [now apply eip_nonneg|now apply eip_nonneg|]. intros t.
  pose proof (eip_nonneg D (M + N) (pool M w (fun j => - t * v j)) (pool M x z)) as H. rewrite pool_sum, sumn_scal, Hw, Hv in H. specialize (H ltac:(ring)).
  rewrite eip_pool, !(eip_sym D _ _ _ (M + N)), !eip_pool in H. rewrite (eip_sym D N (fun j => - t * v j) z M), !eip_scal, (eip_sym D N (fun j => - t * v j) z N), eip_scal in H. lra.
Qed.
Lemma edist2_eip D M w x N v z : edist2 D M w x N v z = eip D (M + N) (pool M w (fun j => -1 * v j)) (pool M x z) (M + N) (pool M w (fun j => -1 * v j)) (pool M x z).
Proof.
  rewrite eip_pool, !(eip_sym D _ _ _ (M + N)), !eip_pool. rewrite (eip_sym D N (fun j => -1 * v j) z M), !eip_scal, (eip_sym D N (fun j => -1 * v j) z N), eip_scal.
  unfold edist2, eip. ring.
Qed.
Lemma edist2_nonneg D M w x N v z : sumn M w = sumn N v -> 0 <= edist2 D M w x N v z.
Proof. intros H. rewrite edist2_eip. apply eip_nonneg. rewrite pool_sum, sumn_scal, H. ring. Qed.
Lemma edist2_sym D M w x N v z : edist2 D M w x N v z = edist2 D N v z M w x.
Proof. pose proof (eip_sym D M w x N v z) as E. unfold eip in E. unfold edist2. lra. Qed.
Lemma edist_triangle D M w x N v z L u t : sumn M w = sumn N v -> sumn N v = sumn L u ->
  sqrt (edist2 D M w x L u t) <= sqrt (edist2 D M w x N v z) + sqrt (edist2 D N v z L u t).
Proof.
  intros S1 S2. pose proof (edist2_nonneg D M w x N v z S1) as Pa. pose proof (edist2_nonneg D N v z L u t S2) as Pb.
  pose proof (eip_cs D (M + N) (pool M w (fun j => -1 * v j)) (pool M x z) (N + L) (pool N v (fun j => -1 * u j)) (pool N z t)) as C.
  rewrite !pool_sum, !sumn_scal in C. specialize (C ltac:(rewrite S1; ring) ltac:(rewrite S2; ring)). rewrite <- !edist2_eip in C.
  pose proof (quad_mink _ _ _ Pa Pb C) as Q. eapply Rle_trans; [right|exact Q]. f_equal.
  rewrite eip_pool, !(eip_sym D _ _ _ (N + L)), !eip_pool, !(eip_sym D N v z), !(eip_sym D L (fun j => -1 * u j) t), !eip_scal.
  rewrite !(eip_sym D N (fun j => -1 * v j) z), !eip_scal, (eip_sym D L u t N v z). unfold edist2, eip. ring.
Qed.
Lemma edist_reverse D M w x N v z L u t : sumn M w = sumn N v -> sumn N v = sumn L u ->
  Rabs (sqrt (edist2 D M w x L u t) - sqrt (edist2 D N v z L u t)) <= sqrt (edist2 D M w x N v z).
Proof.
  intros S1 S2. pose proof (edist_triangle D M w x N v z L u t S1 S2). pose proof (edist_triangle D N v z M w x L u t ltac:(lra) ltac:(lra)) as H1. rewrite (edist2_sym D N v z M w x) in H1. apply Rabs_le. lra.
Qed.
Lemma edist2_point D M w x y : sumn M w = 1 -> edist2 D M w x 1 (fun _ => 1) (fun _ => y) = 2 * k_wexact M w (es_err D y x) (es_dist D x).
Proof.
  intros H. unfold edist2, k_wexact, es_err, es_dist. rewrite !(sumn_S 0), !sumn_0, eucl_refl.
  rewrite (sumn_ext M (fun i => sumn 1 (fun j => w i * 1 * eucl D (x i) y)) (fun i => w i * eucl D (x i) y)) by (intros; rewrite (sumn_S 0), sumn_0; ring). lra.
Qed.
Lemma edist2_points D y y' : edist2 D 1 (fun _ => 1) (fun _ => y) 1 (fun _ => 1) (fun _ => y') = 2 * eucl D y y'.
Proof. unfold edist2. rewrite !(sumn_S 0), !sumn_0, !eucl_refl. ring. Qed.
Lemma energy_call_value T s D M w x y : energy_call T s D M w x y ->
  returns T s (fun r => Fin (k_wexact M (nw M (w r)) (es_err D (y r) (x r)) (es_dist D (x r)))) /\ forall r, inb s r -> sumn M (nw M (w r)) = 1.
Proof.
  intros H; destruct H as [b obs fct m v s p q M D y x Ha HM HD Hb|b obs fct wt m v s p q M D y x w Ha HM HD Hb Hqp Hw].
  - split; [|intros r _; apply nw_s1; rewrite sumn_const; pose proof (lt_0_INR M HM); lra].
    eapply returns_ext; [eapply returns_is, (es_call b obs fct m v s p q M D y x Ha HM HD Hb MNrg); easy|].
    intros r Hr. cbv beta. f_equal. cbn [mval]. unfold eserr, esdist. rewrite <- (k_exact_unif M HM). apply k_wexact_ext; auto. intros; symmetry. now apply nw_ones.
  - split; [|intros r Hr; apply nw_s1; now apply Hw].
    eapply returns_ext; [eapply returns_is, (es_call_w b obs fct m v s p q M D y x Ha HM HD Hb wt _ w Hw (wpos_S _ _ Hqp) MNrg); easy|].
    intros r Hr. reflexivity.
Qed.

(** ** variogram *)
Lemma vgap_triangle D h a b c : (forall i j, (i < D)%nat -> (j < D)%nat -> 0 <= h i j) ->
  let d (f g : nat -> nat -> R) := sumn D (fun i => sumn D (fun j => h i j * (f i j - g i j) ^ 2)) in
  0 <= d a b /\ sqrt (d a c) <= sqrt (d a b) + sqrt (d b c).
Proof.
  intros Hh d. assert (P : forall f g, 0 <= d f g).
  { intros f g. apply sumn_nonneg; intros i Hi. apply sumn_nonneg; intros j Hj. apply Rmult_le_pos; [auto|apply pow2_ge_0]. }
  split; [apply P|].
  set (m f g := sumn D (fun i => sumn D (fun j => h i j * (f i j * g i j)))).
  assert (E : forall s t, sumn D (fun i => sumn D (fun j => h i j * (s * (a i j - b i j) + t * (b i j - c i j)) ^ 2)) =
     s * s * d a b + t * t * d b c + 2 * s * t * m (fun i j => a i j - b i j) (fun i j => b i j - c i j)).
  { intros s t. unfold d, m. rewrite <- !sumn_scal, <- !sumn_plus. apply sumn_ext; intros i Hi. rewrite <- !sumn_scal, <- !sumn_plus. apply sumn_ext; intros j Hj. ring. }
  assert (C : m (fun i j => a i j - b i j) (fun i j => b i j - c i j) ^ 2 <= d a b * d b c).
  { apply quad_cs; auto. intros t. specialize (E 1 (- t)). replace (d a b + t * t * d b c - 2 * t * m (fun i j => a i j - b i j) (fun i j => b i j - c i j)) with
      (1 * 1 * d a b + - t * - t * d b c + 2 * 1 * - t * m (fun i j => a i j - b i j) (fun i j => b i j - c i j)) by ring. rewrite <- E.
    apply sumn_nonneg; intros i Hi. apply sumn_nonneg; intros j Hj. apply Rmult_le_pos; [auto|apply pow2_ge_0]. }
  pose proof (quad_mink _ _ _ (P a b) (P b c) C) as Q. eapply Rle_trans; [right|exact Q]. f_equal.
  specialize (E 1 1). replace (d a b + d b c + 2 * m (fun i j => a i j - b i j) (fun i j => b i j - c i j)) with (1 * 1 * d a b + 1 * 1 * d b c + 2 * 1 * 1 * m (fun i j => a i j - b i j) (fun i j => b i j - c i j)) by ring.
  rewrite <- E. apply sumn_ext; intros i Hi. apply sumn_ext; intros j Hj. ring.
Qed.
Lemma vario_call_value T s D h po M w x y : vario_call T s D h po M w x y -> 0 < po /\ (0 < M)%nat /\
  returns T s (fun r => Fin (vs_score D (h r) po M (nw M (w r)) (y r) (x r))) /\
  forall r, inb s r -> (forall i j, (i < D)%nat -> (j < D)%nat -> 0 <= h r i j) /\ (forall i, (i < M)%nat -> 0 <= nw M (w r) i) /\ sumn M (nw M (w r)) = 1.
Proof.
  intros H; destruct H as [b obs fct hw m v s p q M D y x h po Ha Hh HM HD Hp Hb H0|b obs fct hw wt m v s p q M D y x h po w Ha Hh HM HD Hp Hb H0 Hqp Hw];
    (split; [exact Hp|]); (split; [exact HM|]).
  - pose proof (lt_0_INR M HM). split; [|intros r Hr; split; [intros; now apply H0|]; split; [apply T_kernels.nw_nonneg; [intros; lra|rewrite sumn_const; lra]|apply nw_s1; rewrite sumn_const; lra]].
    destruct (C36_values_l b obs fct hw m v s p q M D y x h po Ha Hh HM HD Hp Hb) as (V & _). eapply returns_ext; [exact V|].
    intros r Hr. cbv beta. f_equal. unfold vs_score, vgram. apply sumn_ext; intros i Hi; apply sumn_ext; intros j Hj. do 3 f_equal.
    rewrite <- sumn_div. apply sumn_ext; intros k Hk. rewrite nw_ones by auto. unfold Rdiv. ring.
  - split; [|intros r Hr; split; [intros; now apply H0|]; destruct Hw as (_ & W0 & W1); split; [apply T_kernels.nw_nonneg; [intros; now apply W0|now apply W1]|apply nw_s1; now apply W1]].
    now destruct (C36_values_weighted_l b obs fct hw wt m v s p q M D y x h po w Ha Hh HM HD Hp Hb Hqp Hw) as (V & _).
Qed.
(** powers of order at most one *)
Lemma vpow_nonneg a p : 0 <= vpow a p.
Proof. unfold vpow. destruct (Req_EM_T a 0); [lra|]. left. apply exp_pos. Qed.
Lemma vpow_mono a b p : 0 < p -> 0 <= a <= b -> vpow a p <= vpow b p.
Proof.
  intros Hp H. destruct (Req_EM_T a 0) as [->|N]; [unfold vpow at 1; destruct (Req_EM_T 0 0); [apply vpow_nonneg|lra]|].
  unfold vpow. destruct (Req_EM_T a 0); [lra|]. destruct (Req_EM_T b 0); [lra|]. destruct H as [H1 H2]. apply Rle_Rpower_l; lra.
Qed.
Lemma vpow_sub a b p : 0 < p <= 1 -> 0 <= a -> 0 <= b -> vpow (a + b) p <= vpow a p + vpow b p.
Proof.
  intros Hp Ha Hb. pose proof (vpow_nonneg a p). pose proof (vpow_nonneg b p).
  destruct (Req_EM_T a 0) as [->|Na]; [rewrite Rplus_0_l; lra|]. destruct (Req_EM_T b 0) as [->|Nb]; [rewrite Rplus_0_r; lra|].
  assert (K : forall t s, 0 < t <= s -> t / s * Rpower s p <= Rpower t p).
  { intros t s H1. replace (Rpower t p) with (Rpower (t / s) p * Rpower s p).
    - apply Rmult_le_compat_r; [left; apply exp_pos|]. assert (0 < t / s) by (apply Rdiv_lt_0_compat; lra). assert (t / s <= 1) by (apply Rle_div_l; lra).
      rewrite <- (Rpower_1 (t / s)) at 1 by lra. unfold Rpower. assert (ln (t / s) <= 0) by (rewrite <- ln_1; destruct (Req_dec (t / s) 1) as [->|]; [lra|left; apply ln_increasing; lra]).
      destruct (Req_dec (1 * ln (t / s)) (p * ln (t / s))) as [->|Ne]; [lra|]. left. apply exp_increasing. nra.
    - rewrite Rpower_mult_distr by (try apply Rdiv_lt_0_compat; lra). f_equal. field. lra. }
  unfold vpow. destruct (Req_EM_T (a + b) 0); [lra|]. destruct (Req_EM_T a 0); [lra|]. destruct (Req_EM_T b 0); [lra|].
  pose proof (K a (a + b) ltac:(lra)). pose proof (K b (a + b) ltac:(lra)).
  replace (Rpower (a + b) p) with (a / (a + b) * Rpower (a + b) p + b / (a + b) * Rpower (a + b) p) by (field; lra). lra.
Qed.
Lemma vpow_holder a b c p : 0 < p <= 1 -> 0 <= a -> 0 <= b -> Rabs (a - b) <= c -> Rabs (vpow a p - vpow b p) <= vpow c p.
Proof.
  intros Hp Ha Hb H. apply Rabs_le_between in H. apply Rabs_le.
  pose proof (vpow_mono a (b + c) p ltac:(lra) ltac:(lra)). pose proof (vpow_mono b (a + c) p ltac:(lra) ltac:(lra)).
  pose proof (vpow_sub b c p Hp Hb ltac:(lra)). pose proof (vpow_sub a c p Hp Ha ltac:(lra)). lra.
Qed.
Lemma vgram_holder p u v d i j : 0 < p <= 1 -> Rabs (u i - v i) <= d -> Rabs (u j - v j) <= d -> Rabs (vgram p u i j - vgram p v i j) <= vpow (2 * d) p.
Proof. intros Hp Hi Hj. unfold vgram. apply vpow_holder; auto; try apply Rabs_pos. eapply Rle_trans; [apply abs_lip|]. lra. Qed.
Lemma vgram_diag p u i : vgram p u i i = 0.
Proof. unfold vgram, vpow. rewrite Rminus_eq_0, Rabs_R0. destruct (Req_EM_T 0 0); [auto|lra]. Qed.
(** a bound on all pairs of different coordinates *)
Lemma vgap_bound D h (f g : nat -> nat -> R) c : (forall i j, (i < D)%nat -> (j < D)%nat -> 0 <= h i j) -> 0 <= c ->
  (forall i j, (i < D)%nat -> (j < D)%nat -> Rabs (f i j - g i j) <= c) -> (forall i, f i i = g i i) ->
  sqrt (sumn D (fun i => sumn D (fun j => h i j * (f i j - g i j) ^ 2))) <= c * sqrt (offdiag D h).
Proof.
  intros Hh Hc H Z. rewrite <- (sqrt_pow2 c) at 1 by auto.
  assert (0 <= offdiag D h). { apply sumn_nonneg; intros i Hi. apply sumn_nonneg; intros j Hj. destruct (i =? j)%nat; [lra|auto]. }
  rewrite <- sqrt_mult by (auto; apply pow2_ge_0). apply sqrt_le_1_alt. unfold offdiag. rewrite <- sumn_scal. apply sumn_le; intros i Hi. rewrite <- sumn_scal. apply sumn_le; intros j Hj.
  destruct (Nat.eqb_spec i j) as [->|N]; [rewrite Z, Rminus_eq_0; simpl; lra|]. rewrite (Rmult_comm (c ^ 2)). apply Rmult_le_compat_l; [auto|]. apply pow_maj_Rabs. auto.
Qed.

(** ** ranked probabilities *)
Lemma rps_triangle K (a b c : nat -> R) : let d (f g : nat -> R) := sumn K (fun k => (f k - g k) ^ 2) in sqrt (d a c) <= sqrt (d a b) + sqrt (d b c).
Proof.
  intros d. pose proof (enorm_triangle K (fun k => a k - b k) (fun k => b k - c k)) as H. unfold d. eapply Rle_trans; [right|exact H]. f_equal. apply sumn_ext; intros. ring.
Qed.
(** two categories differ in at most |c - c'| cumulative outcomes *)
Lemma ind_cat_gap K c c' : sumn K (fun k => (ind_cat c k - ind_cat c' k) ^ 2) <= Rabs (INR c - INR c').
Proof.
  assert (G : forall a b, (a <= b)%nat -> sumn K (fun k => (ind_cat a k - ind_cat b k) ^ 2) <= INR b - INR a).
  { intros a b Hab. rewrite <- minus_INR by auto. revert a b Hab. induction K as [|n IH]; intros a b Hab; [rewrite sumn_0; apply pos_INR|].
    rewrite sumn_S. unfold ind_cat at 3 4. destruct (Nat.leb_spec a (n + 1)) as [L|L], (Nat.leb_spec b (n + 1)) as [L'|L'].
    - specialize (IH a b Hab). lra.
    - specialize (IH a (n + 1)%nat L). rewrite (sumn_ext n _ (fun k => (ind_cat a k - ind_cat (n + 1) k) ^ 2)).
      + replace (b - a)%nat with ((n + 1 - a) + (b - (n + 1)))%nat by lia. rewrite plus_INR. assert (1 <= INR (b - (n + 1))) by (change 1 with (INR 1); apply le_INR; lia). lra.
      + intros k Hk. unfold ind_cat. destruct (Nat.leb_spec b (k + 1)); [lia|]. destruct (Nat.leb_spec (n + 1) (k + 1)); [lia|]. reflexivity.
    - lia.
    - specialize (IH a b Hab). lra. }
  destruct (Nat.le_ge_cases c c') as [L|L].
  - rewrite Rabs_minus_sym, Rabs_pos_eq by (apply le_INR in L; lra). now apply G.
  - rewrite Rabs_pos_eq by (apply le_INR in L; lra). rewrite (sumn_ext K _ (fun k => (ind_cat c' k - ind_cat c k) ^ 2)) by (intros; ring). now apply G.
Qed.
