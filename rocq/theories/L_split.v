(** Clipping to adjacent ranges splits every form of the ensemble CRPS. *)
From Coq Require Import FunctionalExtensionality Psatz Lia.
From Verif Require Export L_tw T_crps_tw L_crps_math L_crps_more S_split.
Open Scope R_scope.

Section Clamp.
Variables (a c : num) (b : R).
Hypothesis H1 : thresholds a (Fin b).
Hypothesis H2 : thresholds (Fin b) c.
Local Notation U := (clampR a (Fin b)).
Local Notation V := (clampR (Fin b) c).
Local Notation Z := (clampR a c).
Ltac go := unfold thresholds, clampR in *; destruct a as [a'| | |], c as [c'| | |]; try easy;
  unfold Rmax, Rmin; repeat (match goal with |- context [Rle_dec ?u ?v] => lazymatch constr:((u, v)) with context [Rle_dec] => fail | _ => destruct (Rle_dec u v) end end); try lra.
Lemma clamp_split x : Z x = U x + V x - b.
Proof. go. Qed.
Lemma clamp_mono a' c' x y : x <= y -> clampR a' c' x <= clampR a' c' y.
Proof.
  intros H. assert (forall t, Rmax x t <= Rmax y t) as M1 by (intros; apply Rle_max_compat_r; lra).
  unfold clampR. destruct a', c'; try apply Rle_min_compat_r; auto.
Qed.
Lemma clamp_abs x y : Rabs (Z x - Z y) = Rabs (U x - U y) + Rabs (V x - V y).
Proof.
  rewrite !clamp_split. assert (forall s t, s <= t -> Rabs (U t + V t - b - (U s + V s - b)) = Rabs (U t - U s) + Rabs (V t - V s)) as K.
  { intros s t L. pose proof (clamp_mono a (Fin b) s t L). pose proof (clamp_mono (Fin b) c s t L). rewrite !Rabs_pos_eq; lra. }
  destruct (Rle_dec x y); [|apply K; lra]. rewrite Rabs_minus_sym, (Rabs_minus_sym (U x)), (Rabs_minus_sym (V x)). now apply K.
Qed.
Variables (M : nat) (y : R) (x : nat -> R).
Lemma mae_split : mae M (Z y) (fun k => Z (x k)) = mae M (U y) (fun k => U (x k)) + mae M (V y) (fun k => V (x k)).
Proof. unfold mae. rewrite (sumn_ext M _ (fun i => Rabs (U (x i) - U y) + Rabs (V (x i) - V y))) by (intros; apply clamp_abs). rewrite sumn_plus. unfold Rdiv. ring. Qed.
Lemma pairsum_split : pairsum M (fun k => Z (x k)) = pairsum M (fun k => U (x k)) + pairsum M (fun k => V (x k)).
Proof. unfold pairsum. rewrite <- sumn_plus. apply sumn_ext. intros i _. rewrite <- sumn_plus. apply sumn_ext. intros. apply clamp_abs. Qed.
Lemma lag_split g : lag_crps M g (Z y) (fun k => Z (x k)) = lag_crps M g (U y) (fun k => U (x k)) + lag_crps M g (V y) (fun k => V (x k)).
Proof.
  unfold lag_crps. rewrite mae_split. rewrite (sumn_ext M (fun k => Rabs (Z _ - _)) (fun i => Rabs (U (x i) - U (x (g i))) + Rabs (V (x i) - V (x (g i))))) by (intros; apply clamp_abs).
  rewrite sumn_plus. unfold Rdiv. ring.
Qed.
Lemma real_un_split e : real_un e M (Z y) (fun k => Z (x k)) = real_un e M (U y) (fun k => U (x k)) + real_un e M (V y) (fun k => V (x k)).
Proof. destruct e; cbn [real_un]; try apply lag_split; unfold exact_crps, fair_crps; rewrite mae_split, pairsum_split; unfold Rdiv; ring. Qed.
Variable w : nat -> R.
Lemma wmae_split : wmae M w (Z y) (fun k => Z (x k)) = wmae M w (U y) (fun k => U (x k)) + wmae M w (V y) (fun k => V (x k)).
Proof. unfold wmae. rewrite <- sumn_plus. apply sumn_ext. intros. rewrite clamp_abs. ring. Qed.
Lemma wpairsum_split : wpairsum M w (fun k => Z (x k)) = wpairsum M w (fun k => U (x k)) + wpairsum M w (fun k => V (x k)).
Proof. unfold wpairsum. rewrite <- sumn_plus. apply sumn_ext. intros i _. rewrite <- sumn_plus. apply sumn_ext. intros. rewrite clamp_abs. ring. Qed.
Lemma wlag_split g : wlag_crps M g w (Z y) (fun k => Z (x k)) = wlag_crps M g w (U y) (fun k => U (x k)) + wlag_crps M g w (V y) (fun k => V (x k)).
Proof.
  unfold wlag_crps. rewrite wmae_split. rewrite (sumn_ext M (fun k => w k * Rabs (Z _ - _)) (fun i => w i * Rabs (U (x i) - U (x (g i))) + w i * Rabs (V (x i) - V (x (g i))))) by (intros; rewrite clamp_abs; ring).
  rewrite sumn_plus. ring.
Qed.
Lemma bias_split : sumn M w = 1 -> pwm_bias M w (fun k => Z (x k)) = pwm_bias M w (fun k => U (x k)) + pwm_bias M w (fun k => V (x k)).
Proof.
  intros Hw. unfold pwm_bias.
  rewrite (sumn_ext M (fun k => w k * w k * Z (x k)) (fun k => w k * w k * U (x k) + w k * w k * V (x k) + (- b) * (w k * w k))) by (intros; rewrite clamp_split; ring).
  rewrite (sumn_ext M (fun k => w k * Z (x k)) (fun k => w k * U (x k) + w k * V (x k) + (- b) * w k)) by (intros; rewrite clamp_split; ring).
  rewrite !sumn_plus, !sumn_scal, Hw. unfold Rdiv. ring.
Qed.
Lemma real_w_split im e : sumn M w = 1 -> (e = Pwm -> fairc M w <> 0) ->
  real_w im e M w (Z y) (fun k => Z (x k)) = real_w im e M w (U y) (fun k => U (x k)) + real_w im e M w (V y) (fun k => V (x k)).
Proof.
  intros Hw He. destruct e; cbn [real_w]; try apply wlag_split.
  3: rewrite !wpwm_bias by auto; rewrite bias_split by auto.
  all: unfold wexact_crps, wfair_crps; rewrite wmae_split, wpairsum_split; unfold Rdiv; ring.
Qed.
End Clamp.
(** the calls *)
Lemma tw_un srt be obs fct a b ax s p M y x e sf pol : argsort_ok srt -> ens_args obs fct ax s p M y x -> (0 < M)%nat -> thresholds a b ->
  pol_std pol -> sorted_if sf s p M x -> (need2 e = true -> (1 < M)%nat) ->
  returns (twcrps_ensemble srt be obs fct a b ax None None (ename e) sf pol) s (fun r => Fin (real_un e M (clampR a b (y r)) (fun k => clampR a b (member p x r k)))).
Proof.
  intros Hs Ha HM Ht Hp Hsf H2.
  destruct (tw_chain srt be obs fct a b ax None None (ename e) sf pol s p M _ _ (args_nums _ _ _ _ _ _ _ _ Ha)) as (obs' & fct' & D1 & D2 & Hn & ->).
  apply (nums_args obs' fct' ax s p M _ _ (fun r => clampR a b (y r)) (fun i => clampR a b (x i))) in Hn; [|intros; now apply clamp_num|intros; now apply clamp_num].
  eapply returns_is, (call_un srt be obs' fct' ax s p M _ _ e sf pol Hs Hn); auto.
  intros E r Hr i j L. apply clamp_mono. now apply Hsf.
Qed.
Lemma tw_w srt be obs fct wt a b ax s p M y x w e sf pol : argsort_ok srt -> ens_args obs fct ax s p M y x -> (0 < M)%nat -> thresholds a b -> wts_args wt fct s p M w ->
  pol_std pol -> sorted_if sf s p M x -> (need2 e = true -> forall r, inb s r -> two_positive M (member p w r)) ->
  returns (twcrps_ensemble srt be obs fct a b ax (Some wt) None (ename e) sf pol) s (fun r => Fin (real_w be e M (nw M (member p w r)) (clampR a b (y r)) (fun k => clampR a b (member p x r k)))).
Proof.
  intros Hs Ha HM Ht Hw Hp Hsf H2.
  destruct (tw_chain srt be obs fct a b ax (Some wt) None (ename e) sf pol s p M _ _ (args_nums _ _ _ _ _ _ _ _ Ha)) as (obs' & fct' & D1 & D2 & Hn & ->).
  apply (nums_args obs' fct' ax s p M _ _ (fun r => clampR a b (y r)) (fun i => clampR a b (x i))) in Hn; [|intros; now apply clamp_num|intros; now apply clamp_num].
  assert (Hw' : wts_args wt fct' s p M w) by (destruct Hw as (W1 & _ & W3 & W4); repeat split; auto; apply W1).
  eapply returns_is, (call_w srt be obs' fct' wt ax s p M _ _ w e sf pol Hs Hn Hw'); auto.
  intros E r Hr i j L. apply clamp_mono. now apply Hsf.
Qed.
Lemma clamp_inf x : clampR NInf PInf x = x. Proof. reflexivity. Qed.
(** a wider range *)
Lemma inside_gen (f : (R -> R) -> R) a b a' b' :
  (forall a b c, thresholds a (Fin b) -> thresholds (Fin b) c -> f (clampR a c) = f (clampR a (Fin b)) + f (clampR (Fin b) c)) ->
  (forall g, 0 <= f g) -> inside a b a' b' -> f (clampR a b) <= f (clampR a' b').
Proof.
  intros Hs H0 (T1 & T2 & Ta & Tb).
  assert (forall a'', thresholds a'' b -> (a'' = NInf \/ exists u v, a'' = Fin u /\ a = Fin v /\ u <= v) -> f (clampR a b) <= f (clampR a'' b)) as K1.
  { intros a'' T' C. destruct a as [v| | |]; try (simpl in T1; easy).
    - assert (thresholds a'' (Fin v)) as T'' by (destruct C as [->|(u & v' & -> & E & L)]; simpl; auto; injection E as ->; lra).
      rewrite (Hs a'' v b T'' T1). pose proof (H0 (clampR a'' (Fin v))). lra.
    - destruct C as [->|(u & v' & _ & E & _)]; [lra|discriminate]. }
  assert (forall a'', thresholds a'' b -> thresholds a'' b' -> f (clampR a'' b) <= f (clampR a'' b')) as K2.
  { intros a'' T' T''. destruct b as [u| | |]; try (destruct a''; simpl in T'; easy).
    - assert (thresholds (Fin u) b') as T3 by (destruct Tb as [->|(u' & v & E & -> & L)]; simpl; auto; injection E as ->; lra).
      rewrite (Hs a'' u b' T' T3). pose proof (H0 (clampR (Fin u) b')). lra.
    - destruct Tb as [->|(u' & v & E & _)]; [lra|discriminate]. }
  assert (thresholds a' b) as T3.
  { destruct Ta as [->|(u & v & -> & -> & L)], b; simpl in *; try easy; try (destruct a; easy); lra. }
  eapply Rle_trans; [apply (K1 a' T3 Ta)|apply (K2 a' T3 T2)].
Qed.
Lemma inside_un e M y x a b a' b' : (0 < M)%nat -> (need2 e = true -> (1 < M)%nat) -> inside a b a' b' ->
  real_un e M (clampR a b y) (fun k => clampR a b (x k)) <= real_un e M (clampR a' b' y) (fun k => clampR a' b' (x k)).
Proof.
  intros HM H2 Hi. apply (inside_gen (fun g => real_un e M (g y) (fun k => g (x k)))); auto.
  - intros u v t T1 T2. now apply real_un_split.
  - intros g. now apply real_un_nonneg.
Qed.
Lemma inside_w w M y x a b a' b' : (forall k, (k < M)%nat -> 0 <= w k) -> sumn M w = 1 -> inside a b a' b' ->
  wexact_crps M w (clampR a b y) (fun k => clampR a b (x k)) <= wexact_crps M w (clampR a' b' y) (fun k => clampR a' b' (x k)).
Proof.
  intros Hw H1 Hi. apply (inside_gen (fun g => wexact_crps M w (g y) (fun k => g (x k)))); auto.
  - intros u v t T1 T2. now apply (real_w_split u t v T1 T2 M y x w Array Nrg).
  - intros g. now apply wexact_nonneg.
Qed.
(** a bounded range *)
Lemma clamp_range a b x : a <= b -> a <= clampR (Fin a) (Fin b) x <= b.
Proof. intros H. unfold clampR, Rmax, Rmin. destruct (Rle_dec x a); destruct Rle_dec; lra. Qed.
Lemma mae_le M y x d : (0 < M)%nat -> (forall k, (k < M)%nat -> Rabs (x k - y) <= d) -> mae M y x <= d.
Proof.
  intros HM H. unfold mae. pose proof (lt_0_INR M HM). apply (Rmult_le_reg_r (INR M)); [lra|]. unfold Rdiv. rewrite Rmult_assoc, Rinv_l, Rmult_1_r by lra.
  eapply Rle_trans; [apply (sumn_le M _ (fun _ => d) H)|]. rewrite sumn_const. lra.
Qed.
Lemma real_un_le_mae e M y x : (0 < M)%nat -> (need2 e = true -> (1 < M)%nat) -> real_un e M y x <= mae M y x.
Proof.
  intros HM H2. pose proof (lt_0_INR M HM) as P. assert (0 <= pairsum M x) as Q by (apply sumn_nonneg; intros; apply sumn_nonneg; intros; apply Rabs_pos).
  assert (forall g, lag_crps M g y x <= mae M y x) as L.
  { intros g. unfold lag_crps. assert (0 <= sumn M (fun k => Rabs (x k - x (g k))) / INR M); [|lra]. apply Rdiv_le_0_compat; [apply sumn_nonneg; intros; apply Rabs_pos|lra]. }
  destruct e; cbn [real_un] in *; auto; unfold exact_crps, fair_crps.
  all: match goal with |- _ - ?q <= _ => assert (0 <= q) as ?; [|lra] end; apply Rdiv_le_0_compat; auto.
  all: try (specialize (H2 eq_refl); apply lt_INR in H2; simpl in H2); nra.
Qed.
Lemma bounded_un e M y x a b : (0 < M)%nat -> (need2 e = true -> (1 < M)%nat) -> a <= b ->
  0 <= real_un e M (clampR (Fin a) (Fin b) y) (fun k => clampR (Fin a) (Fin b) (x k)) <= b - a.
Proof.
  intros HM H2 L. split; [now apply real_un_nonneg|]. eapply Rle_trans; [apply real_un_le_mae; auto|]. apply mae_le; [exact HM|]. intros k _.
  pose proof (clamp_range a b (x k) L). pose proof (clamp_range a b y L). apply Rabs_le. lra.
Qed.
