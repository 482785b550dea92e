(** Densities: integrals from primitives, closure under location and scale, exp, truncation and mixtures. *)
From Verif Require Export S_dens L_norm L_tcn.
From Coq Require Import Psatz.
From Coquelicot Require Import Coquelicot.
Open Scope R_scope.

Global Instance from_below_proper l : ProperFilter (from_below l).
Proof. destruct l; simpl; apply _. Qed.
Global Instance from_above_proper l : ProperFilter (from_above l).
Proof. destruct l; simpl; apply _. Qed.
Lemma below_in (l : Rbar) (t : R) : Rbar_lt l t -> from_below l (fun x : R => Rbar_lt l x /\ x < t).
Proof.
  destruct l as [l| |]; simpl; intros H; try easy.
  - assert (0 < t - l) as P by lra. exists (mkposreal _ P). intros y Hy Hl. split; auto.
    unfold ball in Hy; simpl in Hy. unfold AbsRing_ball, abs, minus, plus, opp in Hy. simpl in Hy. apply Rabs_def2 in Hy. lra.
  - exists t. auto.
Qed.
Lemma above_in (u : Rbar) (t : R) : Rbar_lt t u -> from_above u (fun x : R => Rbar_lt x u /\ t < x).
Proof.
  destruct u as [u| |]; simpl; intros H; try easy.
  - assert (0 < u - t) as P by lra. exists (mkposreal _ P). intros y Hy Hl. split; auto.
    unfold ball in Hy; simpl in Hy. unfold AbsRing_ball, abs, minus, plus, opp in Hy. simpl in Hy. apply Rabs_def2 in Hy. lra.
  - exists t. auto.
Qed.
Lemma inside l u : Rbar_lt l u -> exists t : R, Rbar_lt l t /\ Rbar_lt t u.
Proof.
  destruct l as [l| |], u as [u| |]; simpl; intros H; try easy.
  - exists ((l + u) / 2). simpl. lra.
  - exists (l + 1). simpl. lra.
  - exists (u - 1). simpl. lra.
  - exists 0. auto.
Qed.
(** what is to be shown: F is a primitive of f with the limits 0 and 1 *)
Definition dist0 (F f : R -> R) (l u : Rbar) : Prop :=
  Rbar_lt l u /\ (forall t, 0 <= f t) /\ (forall t : R, Rbar_lt t l -> f t = 0 /\ F t = 0) /\
  (forall t : R, Rbar_lt u t -> f t = 0 /\ F t = 1) /\
  (forall t : R, Rbar_lt l t -> Rbar_lt t u -> is_derive F t (f t) /\ continuous f t) /\
  filterlim F (from_below l) (locally 0) /\ filterlim F (from_above u) (locally 1).
Lemma dist0_seg F f l u (a b : R) : dist0 F f l u -> Rbar_lt l a -> a <= b -> Rbar_lt b u -> is_RInt f a b (F b - F a).
Proof.
  intros (_ & _ & _ & _ & D & _) Ha Hab Hb.
  assert (forall t, a <= t <= b -> Rbar_lt l t /\ Rbar_lt t u) as I.
  { intros t [H1 H2]. split; [eapply Rbar_lt_le_trans; [exact Ha|exact H1]|eapply Rbar_le_lt_trans; [|exact Hb]; exact H2]. }
  apply (seg_der f f); auto; intros t Ht; destruct (I t Ht); now apply D.
Qed.
Lemma dist0_distribution F f l u : dist0 F f l u -> distribution F f l u.
Proof.
  intros H. pose proof H as (Hlu & Hf & H1 & H2 & D & L1 & L2). repeat split; auto; try (now apply H1); try (now apply H2).
  - intros t Hl Hu. replace (F t) with (F t - 0) by ring. apply (prim_gen f F _ _ (HA := _) (HB := _)).
    + apply (Filter_prod _ _ _ (fun x : R => Rbar_lt l x /\ x < t) (fun x => x = t)).
      * now apply below_in.
      * reflexivity.
      * intros a b [Ha Hab] ->. simpl. apply (dist0_seg F f l u); auto. lra.
    + exact L1.
    + intros Q HQ. exact (locally_singleton _ _ HQ).
  - replace 1 with (1 - 0) by ring. apply (prim_gen f F _ _ (HA := _) (HB := _)); auto. destruct (inside l u Hlu) as (t & Ht1 & Ht2).
    apply (Filter_prod _ _ _ (fun x : R => Rbar_lt l x /\ x < t) (fun x : R => Rbar_lt x u /\ t < x)).
    + now apply below_in.
    + now apply above_in.
    + intros a b [Ha Hab] [Hb Hab']. simpl. apply (dist0_seg F f l u); auto. lra.
Qed.
Lemma lim_below F f l u : dist0 F f l u -> filterlim F (from_below l) (locally 0). Proof. intros H; apply H. Qed.
Lemma cont_below (F : R -> R) (l v : R) : continuous F l -> F l = v -> filterlim F (from_below l) (locally v).
Proof. intros H <-. eapply filterlim_filter_le_1; [apply filter_le_within; apply _|exact H]. Qed.
Lemma cont_above (F : R -> R) (l v : R) : continuous F l -> F l = v -> filterlim F (from_above l) (locally v).
Proof. intros H <-. eapply filterlim_filter_le_1; [apply filter_le_within; apply _|exact H]. Qed.
(** equal functions near the end *)
Lemma below_ext (F G : R -> R) (l : Rbar) (t v : R) : Rbar_lt l t -> (forall x : R, Rbar_lt l x -> x < t -> G x = F x) ->
  filterlim F (from_below l) (locally v) -> filterlim G (from_below l) (locally v).
Proof.
  intros H E L. eapply filterlim_ext_loc; [|exact L]. eapply filter_imp; [|apply (below_in l t H)]. intros x [H1 H2]. symmetry. auto.
Qed.
Lemma above_ext (F G : R -> R) (u : Rbar) (t v : R) : Rbar_lt t u -> (forall x : R, Rbar_lt x u -> t < x -> G x = F x) ->
  filterlim F (from_above u) (locally v) -> filterlim G (from_above u) (locally v).
Proof.
  intros H E L. eapply filterlim_ext_loc; [|exact L]. eapply filter_imp; [|apply (above_in u t H)]. intros x [H1 H2]. symmetry. auto.
Qed.
Lemma dist0_ext F f G g l u : (forall t, F t = G t) -> (forall t, f t = g t) -> dist0 F f l u -> dist0 G g l u.
Proof.
  intros E1 E2 (Hlu & Hf & H1 & H2 & D & L1 & L2). split; [auto|].
  split; [intros; rewrite <- E2; auto|]. split; [intros; rewrite <- E1, <- E2; auto|]. split; [intros; rewrite <- E1, <- E2; auto|].
  split; [intros t Ha Hb; destruct (D t Ha Hb) as [D1 D2]; rewrite <- E2; split; [eapply is_derive_ext; eauto|eapply continuous_ext; eauto]|].
  split; (eapply filterlim_ext; [|eassumption]); auto.
Qed.
(** local equality inside an open interval *)
Lemma locally_in (l u : Rbar) (t : R) : Rbar_lt l t -> Rbar_lt t u -> locally t (fun x : R => Rbar_lt l x /\ Rbar_lt x u).
Proof.
  intros H1 H2. apply filter_and.
  - apply (open_Rbar_gt' t l). exact H1.
  - apply (open_Rbar_lt' t u). exact H2.
Qed.
Lemma der_in (F G : R -> R) (l u : Rbar) (t v : R) : Rbar_lt l t -> Rbar_lt t u -> (forall x : R, Rbar_lt l x -> Rbar_lt x u -> F x = G x) ->
  is_derive G t v -> is_derive F t v.
Proof.
  intros H1 H2 E D. apply (is_derive_ext_loc G); auto. eapply filter_imp; [|apply (locally_in l u t H1 H2)]. intros x [A B]. symmetry. auto.
Qed.
Lemma cont_in (F G : R -> R) (l u : Rbar) (t : R) : Rbar_lt l t -> Rbar_lt t u -> (forall x : R, Rbar_lt l x -> Rbar_lt x u -> F x = G x) ->
  continuous G t -> continuous F t.
Proof.
  intros H1 H2 E D. apply (continuous_ext_loc (T := R_UniformSpace) (U := R_UniformSpace) F G); auto. eapply filter_imp; [|apply (locally_in l u t H1 H2)]. intros x [A B]. symmetry. auto.
Qed.
(** two pieces *)
Lemma piece_cont (F F1 F2 : R -> R) m : (forall t, t < m -> F t = F1 t) -> (forall t, m <= t -> F t = F2 t) -> F1 m = F2 m ->
  (forall t, t <= m -> continuous F1 t) -> (forall t, m <= t -> continuous F2 t) -> forall t, continuous F t.
Proof.
  intros E1 E2 E C1 C2 t. destruct (Rtotal_order t m) as [H|[->|H]].
  - apply (cont_in F F1 m_infty m); simpl; auto. apply C1. lra.
  - intros P HP. specialize (C1 m ltac:(lra)). specialize (C2 m ltac:(lra)). rewrite E2 in HP by lra.
    assert (locally m (fun x => P (F1 x))) as K1 by (apply C1; rewrite E; exact HP). assert (locally m (fun x => P (F2 x))) as K2 by (apply C2; exact HP).
    unfold filtermap. generalize (filter_and _ _ K1 K2). apply filter_imp. intros x [A B].
    destruct (Rlt_le_dec x m); [rewrite E1|rewrite E2]; auto.
  - apply (cont_in F F2 m p_infty); simpl; auto; [intros; apply E2; lra|]. apply C2. lra.
Qed.
Lemma piece_der (F F1 F2 f : R -> R) m : (forall t, t < m -> F t = F1 t) -> (forall t, m <= t -> F t = F2 t) -> F1 m = F2 m ->
  (forall t, t <= m -> is_derive F1 t (f t)) -> (forall t, m <= t -> is_derive F2 t (f t)) -> forall t, is_derive F t (f t).
Proof.
  intros E1 E2 E D1 D2 t. destruct (Rtotal_order t m) as [H|[->|H]].
  - apply (der_in F F1 m_infty m); simpl; auto. apply D1. lra.
  - specialize (D1 m ltac:(lra)). specialize (D2 m ltac:(lra)). apply is_derive_Reals in D1. apply is_derive_Reals in D2. apply is_derive_Reals.
    intros e He. destruct (D1 e He) as (d1 & K1). destruct (D2 e He) as (d2 & K2).
    assert (0 < Rmin d1 d2) as P by (apply Rmin_pos; apply cond_pos). exists (mkposreal _ P). intros h Hh Hd. simpl in Hd.
    pose proof (Rmin_l d1 d2). pose proof (Rmin_r d1 d2). rewrite (E2 m) by lra. destruct (Rlt_le_dec h 0).
    + rewrite E1 by lra. rewrite <- E. apply K1; auto. lra.
    + rewrite E2 by lra. apply K2; auto. lra.
  - apply (der_in F F2 m p_infty); simpl; auto; [intros; apply E2; lra|]. apply D2. lra.
Qed.
(** * location and scale *)
Lemma ls_tend m s (b : Rbar) : 0 < s -> filterlim (fun t => (t - m) / s) (from_below (ls_end m s b)) (from_below b) /\
  filterlim (fun t => (t - m) / s) (from_above (ls_end m s b)) (from_above b).
Proof.
  intros Hs. assert (forall x, m + s * ((x - m) / s) = x) as I by (intros; field; lra).
  destruct b as [b| |]; simpl; split.
  - intros P (d & Hd). assert (0 < s * d) as Hp by (apply Rmult_lt_0_compat; auto; apply cond_pos). exists (mkposreal _ Hp). intros y Hy Hl.
    unfold ball in Hy; simpl in Hy. unfold AbsRing_ball, abs, minus, plus, opp in Hy. simpl in Hy. apply Rabs_def2 in Hy. pose proof (I y) as Iy. set (z := (y - m) / s) in *.
    apply Hd; [|nra]. unfold ball; simpl. unfold AbsRing_ball, abs, minus, plus, opp; simpl. apply Rabs_def1; nra.
  - intros P (d & Hd). assert (0 < s * d) as Hp by (apply Rmult_lt_0_compat; auto; apply cond_pos). exists (mkposreal _ Hp). intros y Hy Hl.
    unfold ball in Hy; simpl in Hy. unfold AbsRing_ball, abs, minus, plus, opp in Hy. simpl in Hy. apply Rabs_def2 in Hy. pose proof (I y) as Iy. set (z := (y - m) / s) in *.
    apply Hd; [|nra]. unfold ball; simpl. unfold AbsRing_ball, abs, minus, plus, opp; simpl. apply Rabs_def1; nra.
  - intros P (c & Hc). exists (m + s * c). intros x Hx. pose proof (I x). apply Hc. nra.
  - intros P (c & Hc). exists (m + s * c). intros x Hx. pose proof (I x). apply Hc. nra.
  - intros P (c & Hc). exists (m + s * c). intros x Hx. pose proof (I x). apply Hc. nra.
  - intros P (c & Hc). exists (m + s * c). intros x Hx. pose proof (I x). apply Hc. nra.
Qed.
Lemma ls_lt m s (a : Rbar) (t : R) : 0 < s -> (Rbar_lt (ls_end m s a) t <-> Rbar_lt a ((t - m) / s)) /\ (Rbar_lt t (ls_end m s a) <-> Rbar_lt ((t - m) / s) a).
Proof.
  intros Hs. assert (m + s * ((t - m) / s) = t) as I by (field; lra). destruct a as [a| |]; simpl; [|tauto|tauto].
  split; split; intros; nra.
Qed.
Lemma dist0_ls F f l u m s : 0 < s -> dist0 F f l u -> dist0 (ls_cdf F m s) (ls_pdf f m s) (ls_end m s l) (ls_end m s u).
Proof.
  intros Hs (Hlu & Hf & H1 & H2 & D & L1 & L2). split.
  { destruct l, u; simpl in *; auto; try nra. }
  unfold ls_cdf, ls_pdf.
  split; [intros; apply Rdiv_le_0_compat; auto|].
  split. { intros t Ht. apply ls_lt in Ht; auto. destruct (H1 _ Ht) as [-> ->]. split; auto. unfold Rdiv; ring. }
  split. { intros t Ht. apply ls_lt in Ht; auto. destruct (H2 _ Ht) as [-> ->]. split; auto. unfold Rdiv; ring. }
  split.
  { intros t Ha Hb. apply ls_lt in Ha; auto. apply ls_lt in Hb; auto. destruct (D _ Ha Hb) as [D1 D2]. split.
    - evar_last; [apply (is_derive_comp F (fun t => (t - m) / s)); [exact D1|auto_derive; [exact I|reflexivity]]|]. unfold scal; simpl. unfold mult; simpl. field. lra.
    - apply (continuous_mult (fun t => f ((t - m) / s)) (fun _ => / s)); [|apply continuous_const].
      apply (continuous_comp (fun t => (t - m) / s) f); auto. cont (fun t => (t - m) / s). }
  destruct (ls_tend m s l Hs) as [A _], (ls_tend m s u Hs) as [_ B].
  split; (eapply filterlim_comp; [eassumption|assumption]).
Qed.
(** * exp X *)
Lemma dist0_exp F f : dist0 F f m_infty p_infty -> dist0 (exp_cdf F) (exp_pdf f) 0 p_infty.
Proof.
  intros (Hlu & Hf & H1 & H2 & D & L1 & L2). unfold exp_cdf, exp_pdf. split; [exact I|].
  split. { intros t. destruct (Rle_dec t 0); [lra|]. apply Rdiv_le_0_compat; auto. lra. }
  split. { intros t Ht. simpl in Ht. destruct (Rle_dec t 0); [auto|lra]. }
  split. { intros t Ht. easy. }
  split.
  { intros t Ha _. simpl in Ha. destruct (D (ln t) I I) as [D1 D2]. split.
    - apply (der_in _ (fun t => F (ln t)) 0 p_infty); simpl; auto; [intros x Hx _; destruct (Rle_dec x 0); [lra|auto]|].
      destruct (Rle_dec t 0); [lra|]. evar_last; [apply (is_derive_comp F ln); [exact D1|apply is_derive_ln; auto]|]. unfold scal; simpl. unfold mult; simpl. field. lra.
    - apply (cont_in _ (fun t => f (ln t) / t) 0 p_infty); simpl; auto; [intros x Hx _; destruct (Rle_dec x 0); [lra|auto]|].
      apply (continuous_mult (fun t => f (ln t)) Rinv); [|cont Rinv].
      apply (continuous_comp ln f); auto. apply (ex_derive_continuous ln). eexists; apply is_derive_ln; auto. }
  split.
  - apply (below_ext (fun t => F (ln t)) _ 0 1); simpl; [lra|intros x Hx _; destruct (Rle_dec x 0); [lra|auto]|].
    eapply filterlim_comp; [apply is_lim_ln_0|exact L1].
  - apply (above_ext (fun t => F (ln t)) _ p_infty 0); simpl; [auto|intros x _ Hx; destruct (Rle_dec x 0); [lra|auto]|].
    eapply filterlim_comp; [apply is_lim_ln_p|exact L2].
Qed.
(** * truncation *)
Lemma dist0_trunc F f (l u : Rbar) : dist0 F f m_infty p_infty -> Rbar_lt l u -> ext_cdf F l < ext_cdf F u ->
  dist0 (truncensx F l u 0 0) (trunc_pdf F f l u) l u.
Proof.
  intros (Hlu & Hf & H1 & H2 & D & L1 & L2) Hlt Hd. set (d := ext_cdf F u - ext_cdf F l). assert (0 < d) as Hd' by (unfold d; lra).
  assert (forall t, continuous F t) as CF by (intros t; apply (ex_derive_continuous F); eexists; apply (D t I I)).
  assert (forall t : R, Rbar_lt l t -> ~ Rbar_lt t l) as N by (intros t A B; pose proof (Rbar_lt_trans _ _ _ A B) as C; destruct l; simpl in C; auto; lra).
  assert (forall t : R, Rbar_lt u t -> ~ Rbar_lt t u) as N' by (intros t A B; pose proof (Rbar_lt_trans _ _ _ A B) as C; destruct u; simpl in C; auto; lra).
  assert (forall t : R, Rbar_lt l t -> Rbar_lt t u -> truncensx F l u 0 0 t = (F t - ext_cdf F l) / d) as EF.
  { intros t A B. unfold truncensx. destruct (Rbar_lt_dec t l); [exfalso; eapply N; eauto|]. destruct (Rbar_lt_dec t u); [|contradiction]. fold d. ring. }
  assert (forall t : R, Rbar_lt l t -> Rbar_lt t u -> trunc_pdf F f l u t = f t / d) as Ef.
  { intros t A B. unfold trunc_pdf. destruct (Rbar_lt_dec t l); [exfalso; eapply N; eauto|]. destruct (Rbar_lt_dec u t); [exfalso; eapply N'; eauto|]. reflexivity. }
  split; [auto|].
  split. { intros t. unfold trunc_pdf. destruct (Rbar_lt_dec t l); [lra|]. destruct (Rbar_lt_dec u t); [lra|]. apply Rdiv_le_0_compat; auto. }
  split. { intros t Ht. unfold trunc_pdf, truncensx. destruct (Rbar_lt_dec t l); [auto|contradiction]. }
  split. { intros t Ht. unfold trunc_pdf, truncensx. destruct (Rbar_lt_dec t l) as [C|C]; [exfalso; apply (N' t Ht); eapply Rbar_lt_trans; eauto|].
    destruct (Rbar_lt_dec t u); [exfalso; eapply N'; eauto|]. destruct (Rbar_lt_dec u t); [auto|contradiction]. }
  split.
  { intros t A B. destruct (D t I I) as [D1 D2]. split.
    - apply (der_in _ (fun t => (F t - ext_cdf F l) / d) l u); auto. rewrite Ef by auto.
      evar_last; [apply (is_derive_comp (fun z => (z - ext_cdf F l) / d) F); [auto_derive; [exact I|reflexivity]|exact D1]|].
      unfold scal; simpl; unfold mult; simpl. field. lra.
    - apply (cont_in _ (fun t => f t / d) l u); auto. apply (continuous_mult f (fun _ => / d)); [auto|apply continuous_const]. }
  assert (forall Fi (v : R), Filter Fi -> filterlim F Fi (locally v) -> filterlim (fun t => (F t - ext_cdf F l) / d) Fi (locally ((v - ext_cdf F l) / d))) as K.
  { intros Fi v HF Hv. eapply (filterlim_comp _ _ _ F (fun z => (z - ext_cdf F l) / d)); [exact Hv|]. apply (ex_derive_continuous (fun z => (z - ext_cdf F l) / d) v). auto_derive. auto. }
  destruct (inside l u Hlt) as (t & Ht1 & Ht2). split.
  - apply (below_ext (fun t => (F t - ext_cdf F l) / d) _ l t); auto.
    + intros x A B. apply EF; auto. eapply Rbar_lt_trans; [|exact Ht2]. exact B.
    + replace 0 with ((ext_cdf F l - ext_cdf F l) / d) by (unfold Rdiv; ring). apply K; [apply _|]. destruct l as [l| |]; simpl; [|easy|exact L1].
      apply cont_below; auto.
  - apply (above_ext (fun t => (F t - ext_cdf F l) / d) _ u t); auto.
    + intros x A B. apply EF; auto. eapply Rbar_lt_trans; [exact Ht1|]. exact B.
    + replace 1 with ((ext_cdf F u - ext_cdf F l) / d) by (unfold d; field; fold d; lra). apply K; [apply _|]. destruct u as [u| |]; simpl; [|exact L2|easy].
      apply cont_above; auto.
Qed.
(** * mixtures *)
Lemma sumn_der M (f g : nat -> R -> R) t : (forall k, (k < M)%nat -> is_derive (f k) t (g k t)) -> is_derive (fun t => sumn M (fun k => f k t)) t (sumn M (fun k => g k t)).
Proof.
  induction M as [|M IH]; intros H.
  - apply (is_derive_ext (fun _ => 0)); [intros; now rewrite sumn_0|]. rewrite sumn_0. apply (is_derive_const (K := R_AbsRing) (V := R_NormedModule)).
  - apply (is_derive_ext (fun t : R => sumn M (fun k => f k t) + f M t)); [intros; now rewrite sumn_S|]. rewrite sumn_S.
    apply (is_derive_plus (K := R_AbsRing) (V := R_NormedModule) (fun t => sumn M (fun k => f k t)) (f M) t (sumn M (fun k => g k t)) (g M t)); auto.
Qed.
Lemma sumn_lim M (f : nat -> R -> R) (v : nat -> R) Fi {HF : Filter Fi} : (forall k, (k < M)%nat -> filterlim (f k) Fi (locally (v k))) ->
  filterlim (fun t => sumn M (fun k => f k t)) Fi (locally (sumn M v)).
Proof.
  induction M as [|M IH]; intros H.
  - apply (filterlim_ext (fun _ => 0)); [intros; now rewrite sumn_0|]. rewrite sumn_0. apply filterlim_const.
  - apply (filterlim_ext (fun t => plus (sumn M (fun k => f k t)) (f M t))); [intros; now rewrite sumn_S|]. rewrite sumn_S.
    eapply filterlim_comp_2; [apply IH; auto|apply H; auto|]. apply (filterlim_plus (V := R_NormedModule)).
Qed.
Lemma dist0_mix M w (F f : nat -> R -> R) : (forall k, (k < M)%nat -> dist0 (F k) (f k) m_infty p_infty) -> (forall k, (k < M)%nat -> 0 <= w k) -> sumn M w = 1 ->
  dist0 (mixture M w F) (mixture M w f) m_infty p_infty.
Proof.
  intros H Hw S. unfold mixture. split; [exact I|].
  split. { intros t. apply sumn_nonneg. intros k Hk. apply Rmult_le_pos; auto. apply (H k Hk). }
  split; [intros t Ht; easy|]. split; [intros t Ht; easy|].
  split.
  { intros t _ _. split.
    - apply (sumn_der M (fun k t => w k * F k t) (fun k t => w k * f k t)). intros k Hk. apply (is_derive_scal (F k)). apply (H k Hk); exact I.
    - unfold continuous. apply (sumn_lim M (fun k t => w k * f k t) (fun k => w k * f k t) (locally t)). intros k Hk.
      apply (continuous_mult (fun _ => w k) (f k)); [apply continuous_const|]. apply (H k Hk); exact I. }
  assert (forall c v : R, filterlim (fun z => c * z) (locally v) (locally (c * v))) as K.
  { intros c v. apply (ex_derive_continuous (fun z => c * z) v). auto_derive. auto. }
  split.
  - replace 0 with (sumn M (fun k => w k * 0)) by (rewrite (sumn_ext M _ (fun _ => 0)) by (intros; ring); apply sumn_zero).
    apply (sumn_lim M (fun k t => w k * F k t) (fun k => w k * 0) _ (HF := _)). intros k Hk. destruct (H k Hk) as (_ & _ & _ & _ & _ & L1 & _). eapply filterlim_comp; [exact L1|apply K].
  - rewrite <- S. rewrite (sumn_ext M w (fun k => w k * 1)) by (intros; ring).
    apply (sumn_lim M (fun k t => w k * F k t) (fun k => w k * 1) _ (HF := _)). intros k Hk. destruct (H k Hk) as (_ & _ & _ & _ & _ & _ & L2). eapply filterlim_comp; [exact L2|apply K].
Qed.
