(** Improper integrals from primitives, piece by piece. *)
From Verif Require Export S_crps.
From Coq Require Import Psatz.
From Coquelicot Require Import Coquelicot.
Open Scope R_scope.

Definition ltail (f : R -> R) (y v : R) : Prop := is_RInt_gen f (Rbar_locally m_infty) (at_point y) v.
Definition rtail (f : R -> R) (y v : R) : Prop := is_RInt_gen f (at_point y) (Rbar_locally p_infty) v.

Lemma prim_gen (f P : R -> R) (Fa Fb : (R -> Prop) -> Prop) {HA : ProperFilter Fa} {HB : ProperFilter Fb} (la lb : R) :
  filter_prod Fa Fb (fun ab => is_RInt f (fst ab) (snd ab) (P (snd ab) - P (fst ab))) ->
  filterlim P Fa (locally la) -> filterlim P Fb (locally lb) -> is_RInt_gen f Fa Fb (lb - la).
Proof.
  intros H La Lb Q HQ.
  assert (filterlim (fun ab : R * R => P (snd ab) - P (fst ab)) (filter_prod Fa Fb) (locally (lb - la))) as L.
  { apply (filterlim_comp_2 (G := locally lb) (H := locally la) (fun ab : R * R => P (snd ab)) (fun ab : R * R => P (fst ab)) (fun x y => x - y)).
    - apply (filterlim_comp _ _ _ (fun ab : R * R => snd ab) P _ Fb); [apply filterlim_snd|exact Lb].
    - apply (filterlim_comp _ _ _ (fun ab : R * R => fst ab) P _ Fa); [apply filterlim_fst|exact La].
    - apply (filterlim_comp_2 (G := locally lb) (H := locally (opp la)) fst (fun z : R * R => opp (snd z)) (fun x y => plus x y)).
      + apply filterlim_fst.
      + apply (filterlim_comp _ _ _ snd opp _ (locally la)); [apply filterlim_snd|apply (filterlim_opp (V := R_NormedModule))].
      + apply (filterlim_plus (V := R_NormedModule)). }
  specialize (L Q HQ). unfold filtermap in L. unfold filtermapi. generalize (filter_and (F := filter_prod Fa Fb) _ _ H L). apply filter_imp.
  intros [a b] [K1 K2]. exists (P b - P a). split; auto.
Qed.
Lemma ltail_prim (f P : R -> R) y (p : R) : (forall a, a < y -> is_RInt f a y (P y - P a)) -> is_lim P m_infty p -> ltail f y (P y - p).
Proof.
  intros H L. apply (prim_gen f P _ _ (HA := _) (HB := _)).
  - apply (Filter_prod _ _ _ (fun a => a < y) (fun b => b = y)).
    + exists y. auto.
    + reflexivity.
    + intros a b Ha ->. apply H. exact Ha.
  - exact L.
  - intros Q HQ. exact (locally_singleton _ _ HQ).
Qed.
Lemma rtail_prim (f P : R -> R) y (p : R) : (forall b, y < b -> is_RInt f y b (P b - P y)) -> is_lim P p_infty p -> rtail f y (p - P y).
Proof.
  intros H L. apply (prim_gen f P _ _ (HA := _) (HB := _)).
  - apply (Filter_prod _ _ _ (fun b => b = y) (fun a => y < a)).
    + reflexivity.
    + exists y. auto.
    + intros a b -> Hb. apply H. exact Hb.
  - intros Q HQ. exact (locally_singleton _ _ HQ).
  - exact L.
Qed.
Lemma seg_der (f g P : R -> R) a b : a <= b -> (forall t, a < t < b -> f t = g t) -> (forall t, a <= t <= b -> is_derive P t (g t)) ->
  (forall t, a <= t <= b -> continuous g t) -> is_RInt f a b (P b - P a).
Proof.
  intros Hab E D C. apply (is_RInt_ext g).
  - intros t Ht. rewrite Rmin_left, Rmax_right in Ht by auto. symmetry; auto.
  - apply (is_RInt_derive (V := R_CompleteNormedModule) P g); rewrite Rmin_left, Rmax_right by auto; auto.
Qed.
Lemma ltail_der (f g P : R -> R) y (p : R) : (forall t, t < y -> f t = g t) -> (forall t, t <= y -> is_derive P t (g t)) ->
  (forall t, t <= y -> continuous g t) -> is_lim P m_infty p -> ltail f y (P y - p).
Proof.
  intros E D C L. apply ltail_prim; auto. intros a Ha. apply (seg_der f g); [lra| | |]; intros t Ht; [apply E|apply D|apply C]; lra.
Qed.
Lemma rtail_der (f g P : R -> R) y (p : R) : (forall t, y < t -> f t = g t) -> (forall t, y <= t -> is_derive P t (g t)) ->
  (forall t, y <= t -> continuous g t) -> is_lim P p_infty p -> rtail f y (p - P y).
Proof.
  intros E D C L. apply rtail_prim; auto. intros b Hb. apply (seg_der f g); [lra| | |]; intros t Ht; [apply E|apply D|apply C]; lra.
Qed.
Lemma seg_const (f : R -> R) c a b : a <= b -> (forall t, a < t < b -> f t = c) -> is_RInt f a b (c * (b - a)).
Proof.
  intros H E. replace (c * (b - a)) with (c * b - c * a) by ring.
  apply (seg_der f (fun _ => c) (fun t => c * t)); auto.
  - intros t _. auto_derive; auto. ring.
  - intros t _. apply continuous_const.
Qed.
Lemma ltail_0 (f : R -> R) y : (forall t, t < y -> f t = 0) -> ltail f y 0.
Proof.
  intros E. pose proof (ltail_der f (fun _ => 0) (fun _ => 0) y 0 E) as H. rewrite Rminus_0_r in H. apply H.
  - intros; apply (is_derive_const (K := R_AbsRing) (V := R_NormedModule)).
  - intros; apply continuous_const.
  - apply is_lim_const.
Qed.
Lemma rtail_0 (f : R -> R) y : (forall t, y < t -> f t = 0) -> rtail f y 0.
Proof.
  intros E. pose proof (rtail_der f (fun _ => 0) (fun _ => 0) y 0 E) as H. rewrite Rminus_0_r in H. apply H.
  - intros; apply (is_derive_const (K := R_AbsRing) (V := R_NormedModule)).
  - intros; apply continuous_const.
  - apply is_lim_const.
Qed.
Lemma ltail_seg (f : R -> R) a b v w : ltail f a v -> is_RInt f a b w -> ltail f b (v + w).
Proof. intros H1 H2. apply (is_RInt_gen_Chasles (V := R_CompleteNormedModule) f a v w H1). now apply is_RInt_gen_at_point. Qed.
Lemma rtail_seg (f : R -> R) a b v w : is_RInt f a b v -> rtail f b w -> rtail f a (v + w).
Proof. intros H1 H2. apply (is_RInt_gen_Chasles (V := R_CompleteNormedModule) f b v w); [now apply is_RInt_gen_at_point|exact H2]. Qed.
Lemma seg_seg (f : R -> R) a b c v w : is_RInt f a b v -> is_RInt f b c w -> is_RInt f a c (v + w).
Proof. intros H1 H2. exact (is_RInt_Chasles (V := R_NormedModule) f a b c v w H1 H2). Qed.
Lemma tails_join (f : R -> R) a v w : ltail f a v -> rtail f a w -> is_RInt_gen f (Rbar_locally m_infty) (Rbar_locally p_infty) (v + w).
Proof. intros H1 H2. exact (is_RInt_gen_Chasles (V := R_CompleteNormedModule) f a v w H1 H2). Qed.
Lemma ltail_ext f g y v : (forall t, t < y -> f t = g t) -> ltail f y v -> ltail g y v.
Proof.
  intros E. apply is_RInt_gen_ext. apply (Filter_prod _ _ _ (fun a => a < y) (fun b => b = y)); [exists y; auto|reflexivity|].
  intros a b Ha -> t Ht. apply E. cbn [fst snd] in Ht. rewrite Rmin_left, Rmax_right in Ht by lra. lra.
Qed.
Lemma rtail_ext f g y v : (forall t, y < t -> f t = g t) -> rtail f y v -> rtail g y v.
Proof.
  intros E. apply is_RInt_gen_ext. apply (Filter_prod _ _ _ (fun b => b = y) (fun a => y < a)); [reflexivity|exists y; auto|].
  intros a b -> Hb t Ht. apply E. cbn [fst snd] in Ht. rewrite Rmin_left, Rmax_right in Ht by lra. lra.
Qed.
Lemma crps_split F y v w : ltail (fun t => (F t)^2) y v -> rtail (fun t => (1 - F t)^2) y w -> is_crps F y (v + w).
Proof.
  intros H1 H2. apply (tails_join _ y).
  - eapply ltail_ext; [|exact H1]. intros t Ht. cbv beta. unfold ind_le. destruct (Rle_dec y t); [lra|]. f_equal. ring.
  - eapply rtail_ext; [|exact H2]. intros t Ht. cbv beta. unfold ind_le. destruct (Rle_dec y t); [|lra]. ring.
Qed.
(** change of variables *)
Lemma gen_scale (f : R -> R) m s v : 0 < s -> is_RInt_gen f (Rbar_locally m_infty) (Rbar_locally p_infty) v ->
  is_RInt_gen (fun t => f ((t - m) / s)) (Rbar_locally m_infty) (Rbar_locally p_infty) (s * v).
Proof.
  intros Hs H Q HQ.
  assert (locally v (fun x => Q (s * x))) as HQ'.
  { apply (continuous_mult (fun _ => s) (fun x => x) v); [apply continuous_const|apply continuous_id|exact HQ]. }
  destruct (H _ HQ') as [A B [a0 HA] [b0 HB] HAB].
  apply (Filter_prod _ _ _ (fun a => a < m + s * a0) (fun b => m + s * b0 < b)); [eexists; eauto|eexists; eauto|].
  intros a b Ha Hb.
  assert (forall x, m + s * ((x - m) / s) = x) as I by (intros; field; lra).
  destruct (HAB ((a - m) / s) ((b - m) / s)) as (z & Hz & Qz).
  - apply HA. apply (Rmult_lt_reg_l s); auto. specialize (I a). lra.
  - apply HB. apply (Rmult_lt_reg_l s); auto. specialize (I b). lra.
  - exists (s * z). split; [|exact Qz]. cbn [fst snd] in *.
    apply (is_RInt_ext (fun t => scal s (scal (/ s) (f (/ s * t + - m / s))))).
    { intros t _. unfold scal; simpl; unfold mult; simpl. rewrite <- Rmult_assoc, Rinv_r, Rmult_1_l by lra. f_equal. field. lra. }
    apply (is_RInt_scal (V := R_NormedModule)). apply (is_RInt_comp_lin (V := R_NormedModule) f).
    replace (/ s * a + - m / s) with ((a - m) / s) by (field; lra). replace (/ s * b + - m / s) with ((b - m) / s) by (field; lra). exact Hz.
Qed.
Lemma crps_scale F m s y v : 0 < s -> is_crps F ((y - m) / s) v -> is_crps (fun t => F ((t - m) / s)) y (s * v).
Proof.
  intros Hs H. pose proof (gen_scale _ m s v Hs H) as K. unfold is_crps. eapply is_RInt_gen_ext; [|exact K].
  apply filter_forall. intros [a b] t _. cbv beta. f_equal. f_equal.
  assert (m + s * ((t - m) / s) = t) by (field; lra). assert (m + s * ((y - m) / s) = y) by (field; lra).
  unfold ind_le. destruct (Rle_dec _ _), (Rle_dec _ _); auto; exfalso; nra.
Qed.
Lemma crps_eq F G y v w : (forall t, F t = G t) -> v = w -> is_crps F y v -> is_crps G y w.
Proof. intros E <-. unfold is_crps. apply is_RInt_gen_ext. apply filter_forall. intros [a b] t _. now rewrite E. Qed.
