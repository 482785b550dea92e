(** Facts about the real formulas: permutations, scaling, sign, propriety, unbiasedness. *)
From Coq Require Import FunctionalExtensionality.
From Verif Require Export L_crps_nan.
Open Scope R_scope.

(** ** sums depend on the multiset of members only *)
Lemma sumn_map {A} (f : A -> R) M (x : nat -> A) : sumn M (fun k => f (x k)) = Rsum (map f (map x (seq 0 M))).
Proof. unfold sumn. now rewrite map_map. Qed.
Lemma sumn_multiset {A} (f : A -> R) M (x x' : nat -> A) :
  Permutation (map x (seq 0 M)) (map x' (seq 0 M)) -> sumn M (fun k => f (x k)) = sumn M (fun k => f (x' k)).
Proof. intros H. rewrite !sumn_map. apply Rsum_perm. now apply Permutation_map. Qed.
Lemma sumn2_multiset {A} (f : A -> A -> R) M (x x' : nat -> A) :
  Permutation (map x (seq 0 M)) (map x' (seq 0 M)) ->
  sumn M (fun i => sumn M (fun j => f (x i) (x j))) = sumn M (fun i => sumn M (fun j => f (x' i) (x' j))).
Proof.
  intros H. rewrite (sumn_ext M _ (fun i => sumn M (fun j => f (x i) (x' j)))).
  - apply (sumn_multiset (fun a => sumn M (fun j => f a (x' j))) M x x' H).
  - intros i Hi. apply (sumn_multiset (f (x i)) M x x' H).
Qed.
Section Multiset.
Variables (M : nat) (y : R) (x x' : nat -> R).
Hypothesis H : Permutation (map x (seq 0 M)) (map x' (seq 0 M)).
Lemma mae_multiset : mae M y x = mae M y x'.
Proof. unfold mae. f_equal. apply (sumn_multiset (fun a => Rabs (a - y)) M x x' H). Qed.
Lemma pairsum_multiset : pairsum M x = pairsum M x'.
Proof. apply (sumn2_multiset (fun a b => Rabs (a - b)) M x x' H). Qed.
Lemma real_un_multiset e : e <> Akr -> e <> Circ -> real_un e M y x = real_un e M y x'.
Proof.
  intros. destruct e; cbn; try easy; unfold exact_crps, fair_crps; now rewrite mae_multiset, pairsum_multiset.
Qed.
End Multiset.
Section MultisetW.
Variables (M : nat) (y : R) (x x' w w' : nat -> R).
Hypothesis H : Permutation (map (fun k => (x k, w k)) (seq 0 M)) (map (fun k => (x' k, w' k)) (seq 0 M)).
Lemma sumw_multiset (f : R -> R -> R) : sumn M (fun k => f (x k) (w k)) = sumn M (fun k => f (x' k) (w' k)).
Proof. apply (sumn_multiset (fun a => f (fst a) (snd a)) M _ _ H). Qed.
Lemma sumw2_multiset (f : R -> R -> R -> R -> R) :
  sumn M (fun i => sumn M (fun j => f (x i) (w i) (x j) (w j))) =
  sumn M (fun i => sumn M (fun j => f (x' i) (w' i) (x' j) (w' j))).
Proof. apply (sumn2_multiset (fun a b => f (fst a) (snd a) (fst b) (snd b)) M _ _ H). Qed.
Lemma real_w_multiset b e : e <> Akr -> e <> Circ -> real_w b e M w y x = real_w b e M w' y x'.
Proof.
  pose proof (sumw_multiset (fun a c => c * Rabs (a - y))) as E1.
  pose proof (sumw2_multiset (fun a c a' c' => c * c' * Rabs (a - a'))) as E2.
  pose proof (sumw_multiset (fun a c => c * c)) as E3.
  pose proof (sumw_multiset (fun a c => c * a)) as E4.
  pose proof (sumw_multiset (fun a c => c * c * a)) as E5.
  pose proof (sumw2_multiset (fun a c a' c' => c * c' * Rmax a a')) as E6.
  cbv beta in *.
  intros. destruct e; cbn; try easy; unfold wexact_crps, wfair_crps, wpwm_free, wmae, wpairsum;
    rewrite ?E1, ?E2, ?E3, ?E4, ?E5, ?E6; reflexivity.
Qed.
Lemma total_multiset : sumn M w = sumn M w'.
Proof. apply (sumw_multiset (fun _ c => c)). Qed.
End MultisetW.

(** ** translation and scale *)
Lemma Rabs_affine s c a b : Rabs (s * a + c - (s * b + c)) = Rabs s * Rabs (a - b).
Proof. rewrite <- Rabs_mult. f_equal. ring. Qed.
Lemma mae_affine M s c y x : mae M (s * y + c) (fun k => s * x k + c) = Rabs s * mae M y x.
Proof.
  unfold mae, Rdiv. rewrite (sumn_ext M _ (fun k => Rabs s * Rabs (x k - y))) by (intros; apply Rabs_affine).
  rewrite sumn_scal. ring.
Qed.
Lemma pairsum_affine M s c x : pairsum M (fun k => s * x k + c) = Rabs s * pairsum M x.
Proof.
  unfold pairsum. rewrite <- sumn_scal. apply sumn_ext; intros i Hi. rewrite <- sumn_scal.
  apply sumn_ext; intros; apply Rabs_affine.
Qed.
Lemma real_un_affine e M s c y x :
  real_un e M (s * y + c) (fun k => s * x k + c) = Rabs s * real_un e M y x.
Proof.
  destruct e; cbn; unfold exact_crps, fair_crps, lag_crps; rewrite mae_affine, ?pairsum_affine;
    try (unfold Rdiv; ring).
  - rewrite (sumn_ext M _ (fun k => Rabs s * Rabs (x k - x (lag1 M k)))) by (intros; apply Rabs_affine).
    rewrite sumn_scal. unfold Rdiv; ring.
  - rewrite (sumn_ext M _ (fun k => Rabs s * Rabs (x k - x (lagc M k)))) by (intros; apply Rabs_affine).
    rewrite sumn_scal. unfold Rdiv; ring.
Qed.
Lemma wmae_affine M w s c y x : wmae M w (s * y + c) (fun k => s * x k + c) = Rabs s * wmae M w y x.
Proof.
  unfold wmae. rewrite <- sumn_scal. apply sumn_ext; intros. rewrite Rabs_affine. ring.
Qed.
Lemma wpairsum_affine M w s c x : wpairsum M w (fun k => s * x k + c) = Rabs s * wpairsum M w x.
Proof.
  unfold wpairsum. rewrite <- sumn_scal. apply sumn_ext; intros i Hi. rewrite <- sumn_scal.
  apply sumn_ext; intros. rewrite Rabs_affine. ring.
Qed.
(** weighted pwm is weighted fair plus a term that vanishes for uniform weights *)
Definition pwm_bias (M : nat) (w x : nat -> R) : R :=
  (sumn M (fun k => w k * w k * x k) - sumn M (fun k => w k * w k) * sumn M (fun k => w k * x k))
  / (1 - sumn M (fun k => w k * w k)).
Lemma wmax_sum M w x : sumn M w = 1 ->
  sumn M (fun i => sumn M (fun j => w i * w j * Rmax (x i) (x j))) =
  sumn M (fun k => w k * x k) + / 2 * wpairsum M w x.
Proof.
  intros Hw. unfold wpairsum. rewrite <- sumn_scal.
  rewrite (sumn_ext M _ (fun i => / 2 * (w i * x i) * sumn M w + / 2 * w i * sumn M (fun j => w j * x j)
     + / 2 * sumn M (fun j => w i * w j * Rabs (x i - x j)))).
  - rewrite !sumn_plus. rewrite (sumn_ext M (fun k => / 2 * w k * sumn M (fun j => w j * x j))
      (fun k => / 2 * sumn M (fun j => w j * x j) * w k)) by (intros; ring).
    rewrite sumn_scal_r, !sumn_scal, Hw. field.
  - intros i Hi. rewrite <- !sumn_scal. rewrite <- !sumn_plus. apply sumn_ext; intros j Hj.
    rewrite max_abs. field.
Qed.
Lemma wpwm_bias M w y x : sumn M w = 1 -> fairc M w <> 0 ->
  wpwm_free M w y x = wfair_crps M w y x + pwm_bias M w x.
Proof.
  intros Hw Hc. unfold wpwm_free, wfair_crps, pwm_bias. rewrite wmax_sum by auto. unfold fairc in Hc.
  field. lra.
Qed.
Lemma pwm_bias_affine M w s c x : sumn M w = 1 -> pwm_bias M w (fun k => s * x k + c) = s * pwm_bias M w x.
Proof.
  intros Hw. unfold pwm_bias.
  rewrite (sumn_ext M (fun k => w k * w k * (s * x k + c)) (fun k => s * (w k * w k * x k) + c * (w k * w k)))
    by (intros; ring).
  rewrite (sumn_ext M (fun k => w k * (s * x k + c)) (fun k => s * (w k * x k) + c * w k)) by (intros; ring).
  rewrite !sumn_plus, !sumn_scal, Hw. unfold Rdiv. ring.
Qed.
Lemma real_w_affine b e M w s c y x : sumn M w = 1 ->
  (e = Pwm -> 0 <= s /\ fairc M w <> 0) ->
  real_w b e M w (s * y + c) (fun k => s * x k + c) = Rabs s * real_w b e M w y x.
Proof.
  intros Hw He. destruct e; cbn [real_w].
  1,2,4,7: unfold wexact_crps, wfair_crps; rewrite wmae_affine, wpairsum_affine; unfold Rdiv; ring.
  - destruct (He eq_refl) as [Hs Hc]. rewrite !wpwm_bias by auto. rewrite pwm_bias_affine by auto.
    unfold wfair_crps. rewrite wmae_affine, wpairsum_affine. rewrite (Rabs_right s) by lra. unfold Rdiv; ring.
  - unfold wlag_crps. rewrite wmae_affine.
    rewrite (sumn_ext M _ (fun k => Rabs s * (w k * Rabs (x k - x (lag1 M k))))) by (intros; rewrite Rabs_affine; ring).
    rewrite sumn_scal. ring.
  - unfold wlag_crps. rewrite wmae_affine. set (g := match b with Array => _ | Numba => _ end).
    rewrite (sumn_ext M _ (fun k => Rabs s * (w k * Rabs (x k - x (g k))))) by (intros; rewrite Rabs_affine; ring).
    rewrite sumn_scal. ring.
Qed.

(** ** uniform weights *)
Lemma fairc_uniform M : (0 < M)%nat -> fairc M (fun _ => / INR M) = 1 - / INR M.
Proof. intros HM. pose proof (INR_nz M HM). unfold fairc. rewrite sumn_const. now field. Qed.
Lemma wmae_uniform M y x : wmae M (fun _ => / INR M) y x = mae M y x.
Proof. unfold wmae, mae, Rdiv. rewrite sumn_scal. ring. Qed.
Lemma wpairsum_uniform M x : (0 < M)%nat -> wpairsum M (fun _ => / INR M) x = pairsum M x / (INR M * INR M).
Proof.
  intros HM. pose proof (INR_nz M HM). unfold wpairsum, pairsum, Rdiv. rewrite <- sumn_scal_r. apply sumn_ext; intros i Hi.
  rewrite <- sumn_scal_r. apply sumn_ext; intros. field; auto.
Qed.
Lemma pwm_bias_uniform M x : (0 < M)%nat -> pwm_bias M (fun _ => / INR M) x = 0.
Proof.
  intros HM. pose proof (INR_nz M HM). unfold pwm_bias. rewrite sumn_const, !sumn_scal. unfold Rdiv.
  replace (/ INR M * / INR M * sumn M x - INR M * (/ INR M * / INR M) * (/ INR M * sumn M x)) with 0 by now field.
  ring.
Qed.
Lemma real_w_uniform b e M y x : (0 < M)%nat -> (need2 e = true -> (1 < M)%nat) ->
  (e = Circ -> b = Array -> Nat.odd M = true) ->
  real_w b e M (fun _ => / INR M) y x = real_un e M y x.
Proof.
  intros HM H2 Hc. pose proof (INR_nz M HM) as Hn.
  assert (F : (1 < M)%nat -> fairc M (fun _ => / INR M) <> 0).
  { intros H1. rewrite fairc_uniform by auto. pose proof (INR_ge2 M H1).
    intros E. apply (Rmult_eq_compat_l (INR M)) in E. rewrite Rmult_minus_distr_l, Rinv_r in E; lra. }
  assert (FE : (1 < M)%nat -> wfair_crps M (fun _ => / INR M) y x = fair_crps M y x).
  { intros H1. pose proof (INR_ge2 M H1). unfold wfair_crps, fair_crps.
    rewrite wmae_uniform, wpairsum_uniform, sumn_const by auto. field. repeat split; auto; lra. }
  destruct e; cbn [real_w real_un need2] in *.
  1,4,7: symmetry; now apply exact_uniform.
  - auto.
  - rewrite wpwm_bias by (auto using uniform_sum). rewrite pwm_bias_uniform, FE by auto. ring.
  - unfold wlag_crps, lag_crps. rewrite wmae_uniform, sumn_scal. unfold Rdiv. ring.
  - unfold wlag_crps, lag_crps. rewrite wmae_uniform, sumn_scal. unfold Rdiv.
    replace (sumn M (fun k => Rabs (x k - x (match b with
       | Array => fun k => ((k + M - (M - 1) / 2) mod M)%nat | Numba => lagc M end k))))
      with (sumn M (fun k => Rabs (x k - x (lagc M k)))); [ring|].
    destruct b; auto. specialize (Hc eq_refl eq_refl).
    (* pairs k ~ k-(M-1)/2 and k ~ k-M/2 are the same for odd M *)
    apply sumn_ext; intros k Hk. unfold lagc. 
    destruct (half_cases M) as [(m & E & E1 & E2)|(m & E & E1 & E2)].
    + exfalso. subst M. rewrite Nat.odd_mul in Hc. discriminate.
    + now rewrite E1, E2.
Qed.
Lemma nw_const M c k : (0 < M)%nat -> c <> 0 -> nw M (fun _ => c) k = / INR M.
Proof. intros HM Hc. unfold nw. rewrite sumn_const. pose proof (INR_nz M HM). field; auto. Qed.
Lemma real_w_ext b e M w w' y x : (forall k, (k < M)%nat -> w k = w' k) -> real_w b e M w y x = real_w b e M w' y x.
Proof.
  intros H.
  assert (E1 : wmae M w y x = wmae M w' y x) by (apply sumn_ext; intros; now rewrite H).
  assert (E2 : forall F : nat -> nat -> R, sumn M (fun i => sumn M (fun j => w i * w j * F i j)) =
                sumn M (fun i => sumn M (fun j => w' i * w' j * F i j))).
  { intros F. apply sumn_ext; intros; apply sumn_ext; intros; now rewrite !H. }
  assert (E3 : forall F : nat -> R, sumn M (fun k => w k * F k) = sumn M (fun k => w' k * F k)).
  { intros F. apply sumn_ext; intros; now rewrite !H. }
  assert (E4 : sumn M (fun k => w k * w k) = sumn M (fun k => w' k * w' k)).
  { apply sumn_ext; intros; now rewrite !H. }
  assert (E5 : sumn M (fun k => w k * w k * x k) = sumn M (fun k => w' k * w' k * x k)).
  { apply sumn_ext; intros; now rewrite !H. }
  destruct e; cbn; unfold wexact_crps, wfair_crps, wpwm_free, wlag_crps, wpairsum;
    rewrite ?E4, ?E5, ?E1, ?E2, ?E3; reflexivity.
Qed.

(** ** sign *)
Lemma wexact_lower M w y x i : (forall k, (k < M)%nat -> 0 <= w k) -> sumn M w = 1 -> (i < M)%nat ->
  w i * w i * Rabs (x i - y) <= wexact_crps M w y x.
Proof.
  intros H0 H1 Hi. destruct (bounds M x y) as (A & B & HA & HB).
  eapply (is_RInt_le (fun t => w i * w i * (ind_le (x i) t - ind_le y t) ^ 2)
     (fun t => (sumn M (fun i => w i * ind_le (x i) t) - ind_le y t) ^ 2) A B); [lra| | |].
  - apply (is_RInt_scal (V:=R_NormedModule)). apply is_RInt_ind; try lra; apply HB; auto.
  - apply crps_kernel_int; auto.
  - intros t _.
    assert (T : sumn M w = w i + sumn M (fun k => if Nat.eq_dec k i then 0 else w k)).
    { rewrite <- (sumn_delta M i (w i) Hi), <- sumn_plus. apply sumn_ext; intros k Hk.
      destruct (Nat.eq_dec k i); subst; lra. }
    assert (P : 0 <= sumn M (fun k => if Nat.eq_dec k i then 0 else w k)).
    { apply sumn_nonneg; intros k Hk; destruct (Nat.eq_dec k i); auto; lra. }
    assert (I : forall a, 0 <= ind_le a t <= 1) by (intros; unfold ind_le; destruct (Rle_dec a t); lra).
    assert (L : w i * ind_le (x i) t <= sumn M (fun i => w i * ind_le (x i) t)).
    { rewrite <- (sumn_delta M i (w i * ind_le (x i) t) Hi). apply sumn_le; intros k Hk.
      destruct (Nat.eq_dec k i); subst; [lra|]. apply Rmult_le_pos; auto. apply I. }
    assert (U : sumn M (fun i => w i * ind_le (x i) t) <= 1 - w i * (1 - ind_le (x i) t)).
    { rewrite T in H1. 
      apply Rle_trans with (w i * ind_le (x i) t + sumn M (fun k => if Nat.eq_dec k i then 0 else w k)).
      - rewrite <- (sumn_delta M i (w i * ind_le (x i) t) Hi), <- sumn_plus. apply sumn_le; intros k Hk.
        destruct (Nat.eq_dec k i); subst; [lra|]. specialize (I (x k)). specialize (H0 k Hk). nra.
      - lra. }
    specialize (H0 i Hi). unfold ind_le in *. destruct (Rle_dec (x i) t), (Rle_dec y t); nra.
Qed.
Lemma wexact_nonneg M w y x : (forall k, (k < M)%nat -> 0 <= w k) -> sumn M w = 1 -> 0 <= wexact_crps M w y x.
Proof.
  intros H0 H1. destruct M as [|M]; [rewrite sumn_0 in H1; lra|].
  apply Rle_trans with (w O * w O * Rabs (x O - y)).
  - apply Rmult_le_pos; [apply Rle_0_sqr|apply Rabs_pos].
  - apply wexact_lower; auto. lia.
Qed.
Lemma wexact_zero M w y x : (forall k, (k < M)%nat -> 0 <= w k) -> sumn M w = 1 ->
  wexact_crps M w y x = 0 <-> forall k, (k < M)%nat -> 0 < w k -> x k = y.
Proof.
  intros H0 H1. split.
  - intros E k Hk Hw. pose proof (wexact_lower M w y x k H0 H1 Hk) as L. rewrite E in L.
    destruct (Req_dec (x k) y) as [|N]; auto. exfalso.
    assert (0 < Rabs (x k - y)) by (apply Rabs_pos_lt; lra).
    assert (0 < w k * w k * Rabs (x k - y)) by (repeat apply Rmult_lt_0_compat; auto). lra.
  - intros H. unfold wexact_crps, wmae, wpairsum.
    rewrite (sumn_ext M _ (fun _ => 0)).
    2:{ intros k Hk. destruct (H0 k Hk) as [P|E]; [|rewrite <- E; ring]. rewrite H by auto.
        rewrite Rminus_eq_0, Rabs_R0. ring. }
    rewrite (sumn_ext M (fun i => sumn M (fun j => w i * w j * Rabs (x i - x j))) (fun _ => 0)).
    + rewrite sumn_zero. ring.
    + intros i Hi. rewrite (sumn_ext M _ (fun _ => 0)); [apply sumn_zero|]. intros j Hj.
      destruct (H0 i Hi) as [P|E]; [|rewrite <- E; ring].
      destruct (H0 j Hj) as [P'|E]; [|rewrite <- E; ring].
      rewrite !H by auto. rewrite Rminus_eq_0, Rabs_R0. ring.
Qed.
Lemma wexact_le_mae M w y x : (forall k, (k < M)%nat -> 0 <= w k) -> wexact_crps M w y x <= wmae M w y x.
Proof.
  intros H0. unfold wexact_crps.
  assert (0 <= wpairsum M w x); [|lra].
  apply sumn_nonneg; intros i Hi. apply sumn_nonneg; intros j Hj.
  repeat apply Rmult_le_pos; auto. apply Rabs_pos.
Qed.

(** ** propriety *)
(** expectation of the score when the observation has distribution g on v *)
Definition expect (N : nat) (g : nat -> R) (f : nat -> R) : R := sumn N (fun j => g j * f j).
Lemma divergence_int M f x N g v a b : sumn M f = 1 -> sumn N g = 1 ->
  (forall k, (k < M)%nat -> a <= x k <= b) -> (forall k, (k < N)%nat -> a <= v k <= b) -> a <= b ->
  is_RInt (fun t => (sumn M (fun i => f i * ind_le (x i) t) - sumn N (fun j => g j * ind_le (v j) t)) ^ 2) a b
    (expect N g (fun j => wexact_crps M f (v j) x) - / 2 * wpairsum N g v).
Proof.
  intros Hf Hg Hx Hv Hab.
  apply (is_RInt_extR (fun t => sumn N (fun j => g j * (sumn M (fun i => f i * ind_le (x i) t) - ind_le (v j) t) ^ 2)
    - / 2 * sumn N (fun i => sumn N (fun j => g i * g j * (ind_le (v i) t - ind_le (v j) t) ^ 2)))).
  - intros t _. pose proof (dev_identity N g (fun j => ind_le (v j) t) (sumn M (fun i => f i * ind_le (x i) t)) Hg) as D.
    transitivity ((sumn N (fun j => g j * ind_le (v j) t) - sumn M (fun i => f i * ind_le (x i) t)) ^ 2); [|ring].
    rewrite D. f_equal. apply sumn_ext; intros j Hj. ring.
  - apply (is_RInt_minus (V:=R_NormedModule)).
    + apply is_RInt_sumn; intros j Hj. apply (is_RInt_scal (V:=R_NormedModule)).
      apply crps_kernel_int; auto.
    + apply (is_RInt_scal (V:=R_NormedModule)). apply is_RInt_sumn; intros i Hi.
      apply is_RInt_sumn; intros j Hj. apply (is_RInt_scal (V:=R_NormedModule)).
      apply is_RInt_ind; try apply Hv; auto.
Qed.
Lemma expect_self N g v : sumn N g = 1 -> expect N g (fun j => wexact_crps N g (v j) v) = / 2 * wpairsum N g v.
Proof.
  intros Hg. unfold expect, wexact_crps.
  rewrite (sumn_ext N _ (fun j => g j * wmae N g (v j) v - (/ 2 * wpairsum N g v) * g j)) by (intros; ring).
  rewrite sumn_minus, sumn_scal, Hg.
  replace (sumn N (fun k => g k * wmae N g (v k) v)) with (wpairsum N g v); [field|].
  unfold wpairsum, wmae. apply sumn_ext; intros i Hi. rewrite <- sumn_scal. apply sumn_ext; intros j Hj.
  rewrite Rabs_minus_sym. ring.
Qed.
Lemma bounds2 M (x : nat -> R) N (v : nat -> R) : exists A B, A <= B /\ (forall k, (k < M)%nat -> A <= x k <= B) /\
  (forall k, (k < N)%nat -> A <= v k <= B).
Proof.
  destruct (bounds M x 0) as (A & B & H1 & H2), (bounds N v 0) as (A' & B' & H1' & H2').
  exists (Rmin A A'), (Rmax B B').
  pose proof (Rmin_l A A'); pose proof (Rmin_r A A'); pose proof (Rmax_l B B'); pose proof (Rmax_r B B').
  repeat split; try lra; intros; specialize (H2 k); specialize (H2' k); try (specialize (H2 H4); lra); try (specialize (H2' H4); lra).
  all: intuition lra.
Qed.
Lemma proper M f x N g v : sumn M f = 1 -> sumn N g = 1 ->
  expect N g (fun j => wexact_crps N g (v j) v) <= expect N g (fun j => wexact_crps M f (v j) x).
Proof.
  intros Hf Hg. rewrite expect_self by auto. destruct (bounds2 M x N v) as (A & B & H1 & H2 & H3).
  pose proof (divergence_int M f x N g v A B Hf Hg H2 H3 H1) as D.
  assert (0 <= expect N g (fun j => wexact_crps M f (v j) x) - / 2 * wpairsum N g v); [|lra].
  eapply (is_RInt_le (fun _ => 0) _ A B _ _ H1); [|exact D|].
  - pose proof (is_RInt_const_ext (fun _ => 0) A B 0 H1 (fun _ _ => eq_refl)) as C.
    rewrite Rmult_0_r in C. exact C.
  - intros t _. apply pow2_ge_0.
Qed.
(** no member of either family in (t0, t1] *)
Lemma next_atom M (x : nat -> R) t0 : exists t1, t0 < t1 /\ forall k, (k < M)%nat -> t0 < x k -> t1 <= x k.
Proof.
  induction M as [|M (t1 & H1 & H2)]; [exists (t0 + 1); split; [lra|lia]|].
  destruct (Rlt_dec t0 (x M)) as [L|L].
  - exists (Rmin t1 (x M)). split; [now apply Rmin_glb_lt|]. intros k Hk Hx.
    destruct (Nat.eq_dec k M) as [->|]; [apply Rmin_r|].
    eapply Rle_trans; [apply Rmin_l|]. apply H2; auto; lia.
  - exists t1. split; auto. intros k Hk Hx. destruct (Nat.eq_dec k M) as [->|]; [lra|]. apply H2; auto; lia.
Qed.
Lemma step_const M w (x : nat -> R) t0 t1 t : (forall k, (k < M)%nat -> t0 < x k -> t1 <= x k) -> t0 <= t < t1 ->
  sumn M (fun i => w i * ind_le (x i) t) = sumn M (fun i => w i * ind_le (x i) t0).
Proof.
  intros H Ht. apply sumn_ext; intros k Hk. f_equal. unfold ind_le.
  destruct (Rle_dec (x k) t), (Rle_dec (x k) t0); auto; try lra.
  specialize (H k Hk). lra.
Qed.
Lemma strictly_proper M f x N g v : sumn M f = 1 -> sumn N g = 1 ->
  expect N g (fun j => wexact_crps M f (v j) x) = expect N g (fun j => wexact_crps N g (v j) v) ->
  forall t, sumn M (fun i => f i * ind_le (x i) t) = sumn N (fun j => g j * ind_le (v j) t).
Proof.
  intros Hf Hg E t0. rewrite expect_self in E by auto.
  set (F := fun t => sumn M (fun i => f i * ind_le (x i) t)).
  set (G := fun t => sumn N (fun j => g j * ind_le (v j) t)).
  change (F t0 = G t0). destruct (Req_dec (F t0) (G t0)) as [|N0]; auto. exfalso.
  destruct (next_atom M x t0) as (t1 & L1 & A1), (next_atom N v t0) as (t2 & L2 & A2).
  set (t3 := Rmin t1 t2). assert (L3 : t0 < t3) by now apply Rmin_glb_lt.
  destruct (bounds2 M x N v) as (A & B & H1 & H2 & H3).
  set (A' := Rmin A t0). set (B' := Rmax B t3).
  assert (A' <= A) by apply Rmin_l. assert (A' <= t0) by apply Rmin_r.
  assert (B <= B') by apply Rmax_l. assert (t3 <= B') by apply Rmax_r.
  assert (D : is_RInt (fun t => (F t - G t) ^ 2) A' B' 0).
  { replace 0 with (expect N g (fun j => wexact_crps M f (v j) x) - / 2 * wpairsum N g v) by lra.
    apply divergence_int; auto; [| |lra]; intros k Hk; [specialize (H2 k Hk)|specialize (H3 k Hk)]; lra. }
  set (c := (F t0 - G t0) ^ 2).
  assert (Hc : 0 < c) by (unfold c; rewrite <- Rsqr_pow2; apply Rsqr_pos_lt; lra).
  assert (C : c * Rabs (t0 - t3) <= 0).
  { eapply (is_RInt_le (fun t => c * (ind_le t0 t - ind_le t3 t) ^ 2) (fun t => (F t - G t) ^ 2) A' B'); [lra| |exact D|].
    - apply (is_RInt_scal (V:=R_NormedModule)). apply is_RInt_ind; lra.
    - intros t _. unfold ind_le. destruct (Rle_dec t0 t), (Rle_dec t3 t); try lra.
      + rewrite Rminus_eq_0. rewrite pow_i by lia. rewrite Rmult_0_r. apply pow2_ge_0.
      + assert (t < t1) by (pose proof (Rmin_l t1 t2) as Q; fold t3 in Q; lra).
        assert (t < t2) by (pose proof (Rmin_r t1 t2) as Q; fold t3 in Q; lra).
        unfold F, G. rewrite (step_const M f x t0 t1 t), (step_const N g v t0 t2 t) by (auto; lra).
        fold (F t0) (G t0). fold c. lra.
      + rewrite Rminus_eq_0. rewrite pow_i by lia. rewrite Rmult_0_r. apply pow2_ge_0. }
  rewrite Rabs_left in C by lra.
  assert (0 < c * (- (t0 - t3))) by (apply Rmult_lt_0_compat; lra). lra.
Qed.
