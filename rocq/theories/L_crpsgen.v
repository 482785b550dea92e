(** The CRPS integral of a distribution with a density, from its partial means. *)
From Verif Require Export L_dens.
From Coq Require Import Psatz.
From Coquelicot Require Import Coquelicot.
Open Scope R_scope.

(** * primitives with exceptional points *)
Lemma seg_open (g P : R -> R) a b : a <= b -> (forall t, a < t < b -> is_derive P t (g t)) ->
  (forall t, a <= t <= b -> continuous P t) -> (forall t, continuous g t) -> is_RInt g a b (P b - P a).
Proof.
  intros Hab D CP Cg. assert (forall t, is_RInt g a t (RInt g a t)) as RI.
  { intros t. apply (RInt_correct (V := R_CompleteNormedModule)), (ex_RInt_continuous (V := R_CompleteNormedModule)). intros; apply Cg. }
  assert (forall t, is_derive (fun t => RInt g a t) t (g t)) as DR.
  { intros t. apply (is_derive_RInt g (fun t => RInt g a t) a t); [|apply Cg]. apply filter_forall. apply RI. }
  destruct (MVT_gen (fun t => P t - RInt g a t) a b (fun _ => 0)) as (c & _ & E).
  - rewrite Rmin_left, Rmax_right by auto. intros t Ht. evar_last; [apply (is_derive_minus P (fun t => RInt g a t) t (g t) (g t)); [now apply D|apply DR]|]. apply Rminus_eq_0.
  - rewrite Rmin_left, Rmax_right by auto. intros t Ht. apply continuity_pt_filterlim. apply (continuous_minus P (fun t => RInt g a t)); [now apply CP|].
    apply (ex_derive_continuous (fun t => RInt g a t)). eexists; apply DR.
  - rewrite (RInt_point (V := R_CompleteNormedModule)) in E. unfold zero in E; simpl in E. replace (P b - P a) with (RInt g a b) by lra. apply RI.
Qed.
Lemma seg_exc (g P : R -> R) (L : list R) : (forall t, continuous P t) -> (forall t, continuous g t) ->
  forall a b, a <= b -> (forall t, a < t < b -> ~ In t L -> is_derive P t (g t)) -> is_RInt g a b (P b - P a).
Proof.
  intros CP Cg. induction L as [|c L IH]; intros a b Hab D.
  - apply seg_open; auto.
  - destruct (Rlt_dec a c) as [H1|H1].
    + destruct (Rlt_dec c b) as [H2|H2].
      * replace (P b - P a) with ((P c - P a) + (P b - P c)) by ring. apply (seg_seg g a c b); apply IH; try lra; intros t Ht Hn; apply D; try lra; intros [E|E]; [lra|auto|lra|auto].
      * apply IH; auto. intros t Ht Hn. apply D; auto. intros [E|E]; [lra|auto].
    + apply IH; auto. intros t Ht Hn. apply D; auto. intros [E|E]; [lra|auto].
Qed.
Definition xtd (l u : Rbar) (g : R -> R) (v w t : R) : R := if Rbar_lt_dec l t then if Rbar_lt_dec t u then g t else w else v.
Lemma xtd_in (l u : Rbar) g v w (t : R) : Rbar_lt l t -> Rbar_lt t u -> xtd l u g v w t = g t.
Proof. intros H1 H2. unfold xtd. destruct (Rbar_lt_dec l t); [|easy]. destruct (Rbar_lt_dec t u); easy. Qed.
Lemma xtd_lo l u g v w (t : R) : Rbar_le t l -> xtd l u g v w t = v.
Proof. intros H. unfold xtd. destruct (Rbar_lt_dec l t) as [H'|]; auto. exfalso. exact (Rbar_le_not_lt _ _ H H'). Qed.
Lemma xtd_hi (l u : Rbar) g v w (t : R) : Rbar_lt l u -> Rbar_le u t -> xtd l u g v w t = w.
Proof.
  intros Hlu H. unfold xtd. destruct (Rbar_lt_dec l t) as [H1|H1]; [destruct (Rbar_lt_dec t u) as [H2|H2]; auto|].
  - exfalso. exact (Rbar_le_not_lt _ _ H H2).
  - exfalso. apply H1. eapply Rbar_lt_le_trans; [exact Hlu|exact H].
Qed.
Lemma xtd_cont (l u : Rbar) g v w : Rbar_lt l u -> (forall t : R, Rbar_lt l t -> Rbar_lt t u -> continuous g t) -> filterlim g (from_below l) (locally v) ->
  filterlim g (from_above u) (locally w) -> forall t, continuous (xtd l u g v w) t.
Proof.
  intros H0 C L1 L2 t. destruct (Rbar_lt_dec l t) as [H1|H1]; [destruct (Rbar_lt_dec t u) as [H2|H2]|].
  - apply (cont_in _ g l u); auto. intros x Hx Hy. now apply xtd_in.
  - apply Rbar_not_lt_le in H2. destruct u as [ur| |]; [|simpl in H2; contradiction|destruct l; contradiction].
    intros P HP. rewrite xtd_hi in HP by auto. destruct (Rle_lt_or_eq_dec ur t H2) as [Hlt|Heq].
    + unfold filtermap. generalize (open_gt ur t Hlt). apply filter_imp. intros x Hx. rewrite xtd_hi by (auto; simpl; lra). now apply locally_singleton.
    + subst t. specialize (L2 P HP). unfold filtermap in *. simpl in L2. destruct L2 as [d Hd].
      assert (locally ur (fun x : R => Rbar_lt l x)) as K by (apply (open_Rbar_gt' ur l); exact H1).
      generalize (filter_and _ _ (locally_ball ur d) K). apply filter_imp. intros x [Hx Hl]. destruct (Rlt_dec x ur) as [A|A].
      * rewrite xtd_in by (simpl; auto). now apply Hd.
      * rewrite xtd_hi by (auto; simpl; lra). now apply locally_singleton.
  - apply Rbar_not_lt_le in H1. destruct l as [lr| |]; [|destruct u; contradiction|simpl in H1; contradiction].
    intros P HP. rewrite xtd_lo in HP by exact H1. destruct (Rle_lt_or_eq_dec t lr H1) as [Hlt|Heq].
    + unfold filtermap. generalize (open_lt lr t Hlt). apply filter_imp. intros x Hx. rewrite xtd_lo by (simpl; lra). now apply locally_singleton.
    + subst t. specialize (L1 P HP). unfold filtermap in *. simpl in L1. destruct L1 as [d Hd].
      assert (locally lr (fun x : R => Rbar_lt x u)) as K by (apply (open_Rbar_lt' lr u); exact H0).
      generalize (filter_and _ _ (locally_ball lr d) K). apply filter_imp. intros x [Hx Hl]. destruct (Rlt_dec lr x) as [A|A].
      * rewrite xtd_in by (simpl; auto). now apply Hd.
      * rewrite xtd_lo by (simpl; lra). now apply locally_singleton.
Qed.
Definition ends (l u : Rbar) : list R := match l with Finite a => a :: nil | _ => nil end ++ match u with Finite b => b :: nil | _ => nil end.
(** derivatives of extended functions *)
Lemma xtd_der (l u : Rbar) g g' v w t : Rbar_lt l u -> (forall t : R, Rbar_lt l t -> Rbar_lt t u -> is_derive g t (g' t)) -> ~ In t (ends l u) -> is_derive (xtd l u g v w) t (xtd l u g' 0 0 t).
Proof.
  intros H0 D Hn. destruct (Rbar_lt_dec l t) as [H1|H1]; [destruct (Rbar_lt_dec t u) as [H2|H2]|].
  - rewrite xtd_in by auto. apply (der_in _ g l u); auto. intros x Hx Hy. now apply xtd_in.
  - apply Rbar_not_lt_le in H2. rewrite xtd_hi by auto. destruct u as [ur| |]; [simpl in H2|simpl in H2; contradiction|destruct l; contradiction].
    assert (ur < t) as A by (destruct H2; auto; subst; exfalso; apply Hn; unfold ends; apply in_app_iff; right; simpl; auto).
    apply (is_derive_ext_loc (fun _ => w)); [|exact (is_derive_const (K := R_AbsRing) (V := R_NormedModule) w t)].
    generalize (open_gt ur t A). apply filter_imp. intros x Hx. rewrite xtd_hi; auto. simpl in *. lra.
  - apply Rbar_not_lt_le in H1. rewrite xtd_lo by auto. destruct l as [lr| |]; [simpl in H1|destruct u; contradiction|simpl in H1; contradiction].
    assert (t < lr) as A by (destruct H1; auto; subst; exfalso; apply Hn; unfold ends; apply in_app_iff; left; simpl; auto).
    apply (is_derive_ext_loc (fun _ => v)); [|exact (is_derive_const (K := R_AbsRing) (V := R_NormedModule) v t)].
    generalize (open_lt lr t A). apply filter_imp. intros x Hx. rewrite xtd_lo; auto. simpl in *. lra.
Qed.
Section gen.
Variables (F f M Q : R -> R) (l u : Rbar) (m q : R).
Hypothesis D0 : dist0 F f l u.
Hypothesis DM : forall t : R, Rbar_lt l t -> Rbar_lt t u -> is_derive M t (t * f t).
Hypothesis DQ : forall t : R, Rbar_lt l t -> Rbar_lt t u -> is_derive Q t (2 * f t * M t).
Hypothesis LM0 : filterlim M (from_below l) (locally 0).
Hypothesis LM1 : filterlim M (from_above u) (locally m).
Hypothesis LQ0 : filterlim Q (from_below l) (locally 0).
Hypothesis LQ1 : filterlim Q (from_above u) (locally q).
Lemma Hlu : Rbar_lt l u. Proof. apply D0. Qed.
Notation Fx := (xtd l u F 0 1).
Notation Mx := (xtd l u M 0 m).
Notation Qx := (xtd l u Q 0 q).
Notation fx := (xtd l u f 0 0).
Lemma Fx_cont t : continuous Fx t.
Proof. destruct D0 as (_ & _ & _ & _ & D & L1 & L2). apply xtd_cont; auto using Hlu. intros x A B. apply (ex_derive_continuous F). eexists. now apply D. Qed.
Lemma Mx_cont t : continuous Mx t.
Proof. apply xtd_cont; auto using Hlu. intros x A B. apply (ex_derive_continuous M). eexists. now apply DM. Qed.
Lemma Qx_cont t : continuous Qx t.
Proof. apply xtd_cont; auto using Hlu. intros x A B. apply (ex_derive_continuous Q). eexists. now apply DQ. Qed.
Lemma Fx_der t : ~ In t (ends l u) -> is_derive Fx t (fx t).
Proof. intros H. apply xtd_der; auto using Hlu. intros x A B. now apply D0. Qed.
Lemma Mx_der t : ~ In t (ends l u) -> is_derive Mx t (t * fx t).
Proof.
  intros H. evar_last; [apply (xtd_der l u M (fun t => t * f t)); auto using Hlu|]. unfold xtd. destruct (Rbar_lt_dec l t); [destruct (Rbar_lt_dec t u)|]; auto; symmetry; apply Rmult_0_r.
Qed.
Lemma Qx_der t : ~ In t (ends l u) -> is_derive Qx t (2 * fx t * Mx t).
Proof.
  intros H. evar_last; [apply (xtd_der l u Q (fun t => 2 * f t * M t)); auto using Hlu|]. unfold xtd. destruct (Rbar_lt_dec l t); [destruct (Rbar_lt_dec t u)|]; auto; ring.
Qed.
Definition gA (t : R) : R := t * Fx t - Mx t.
Definition gB (t : R) : R := t * Fx t ^ 2 - 2 * Fx t * Mx t + Qx t.
Definition gP (t : R) : R := t * (1 - Fx t) ^ 2 + 2 * Mx t * (1 - Fx t) + Qx t.
Lemma gA_der t : ~ In t (ends l u) -> is_derive gA t (Fx t).
Proof.
  intros H. pose proof (Fx_der t H). pose proof (Mx_der t H). evar_last.
  - apply (is_derive_minus (fun t => t * Fx t) Mx t (1 * Fx t + t * fx t) (t * fx t)); [|auto].
    apply (is_derive_mult (fun t => t) Fx t 1 (fx t)); auto; [apply (is_derive_id (K := R_AbsRing))|intros; apply Rmult_comm].
  - unfold minus, plus, opp; simpl. ring.
Qed.
Lemma gB_der t : ~ In t (ends l u) -> is_derive gB t (Fx t ^ 2).
Proof.
  intros H. pose proof (Fx_der t H) as HF. pose proof (Mx_der t H) as HM. pose proof (Qx_der t H) as HQ.
  assert (is_derive (fun t => t * Fx t - 2 * Mx t) t (1 * Fx t + t * fx t - 2 * (t * fx t))) as D1.
  { apply (is_derive_minus (fun t => t * Fx t) (fun t => 2 * Mx t) t (1 * Fx t + t * fx t) (2 * (t * fx t))).
    - apply (is_derive_mult (fun t => t) Fx t 1 (fx t)); auto; [apply (is_derive_id (K := R_AbsRing))|intros; apply Rmult_comm].
    - now apply (is_derive_scal Mx). }
  assert (is_derive (fun t => Fx t * (t * Fx t - 2 * Mx t)) t (fx t * (t * Fx t - 2 * Mx t) + Fx t * (1 * Fx t + t * fx t - 2 * (t * fx t)))) as D2.
  { apply (is_derive_mult Fx (fun t => t * Fx t - 2 * Mx t)); auto. intros; apply Rmult_comm. }
  apply (is_derive_ext (fun t => Fx t * (t * Fx t - 2 * Mx t) + Qx t)); [intros x; unfold gB; simpl; ring|].
  evar_last; [apply (is_derive_plus _ Qx t _ _ D2 HQ)|]. unfold plus; simpl. ring.
Qed.
Lemma gP_der t : ~ In t (ends l u) -> is_derive gP t ((1 - Fx t) ^ 2).
Proof.
  intros H. pose proof (gA_der t H) as A. pose proof (gB_der t H) as B.
  apply (is_derive_ext (fun t => t - 2 * gA t + gB t)); [intros x; unfold gP, gA, gB; simpl; ring|].
  evar_last; [apply (is_derive_plus (fun t => t - 2 * gA t) gB t (1 - 2 * Fx t) (Fx t ^ 2)); [|auto]|unfold plus; simpl; ring].
  apply (is_derive_minus (fun t => t) (fun t => 2 * gA t)); [apply (is_derive_id (K := R_AbsRing))|now apply (is_derive_scal gA)].
Qed.
Lemma id_cont t : continuous (fun t : R => t) t. Proof. intros P HP. exact HP. Qed.
Lemma gA_cont t : continuous gA t.
Proof. apply (continuous_minus (fun t => t * Fx t) Mx); [apply (continuous_mult (fun t => t) Fx); [apply id_cont|apply Fx_cont]|apply Mx_cont]. Qed.
Lemma gB_cont t : continuous gB t.
Proof.
  apply (continuous_ext (fun t => Fx t * (t * Fx t - 2 * Mx t) + Qx t)); [intros x; unfold gB; simpl; ring|].
  apply (continuous_plus (fun t => Fx t * (t * Fx t - 2 * Mx t)) Qx); [|apply Qx_cont]. apply (continuous_mult Fx (fun t => t * Fx t - 2 * Mx t)); [apply Fx_cont|].
  apply (continuous_minus (fun t => t * Fx t) (fun t => 2 * Mx t)); [apply (continuous_mult (fun t => t) Fx); [apply id_cont|apply Fx_cont]|].
  apply (continuous_mult (fun _ => 2) Mx); [apply continuous_const|apply Mx_cont].
Qed.
Lemma gP_cont t : continuous gP t.
Proof.
  apply (continuous_ext (fun t => t - 2 * gA t + gB t)); [intros x; unfold gP, gA, gB; simpl; ring|].
  apply (continuous_plus (fun t => t - 2 * gA t) gB); [|apply gB_cont]. apply (continuous_minus (fun t => t) (fun t => 2 * gA t)); [apply id_cont|].
  apply (continuous_mult (fun _ => 2) gA); [apply continuous_const|apply gA_cont].
Qed.
(** tails *)
(** tails *)
Lemma mono_der (h h' : R -> R) a b : a <= b -> (forall t, a <= t <= b -> is_derive h t (h' t)) -> (forall t, a <= t <= b -> 0 <= h' t) -> h a <= h b.
Proof.
  intros Hab D P. destruct (MVT_gen h a b h') as (c & Hc & E); rewrite ?Rmin_left, ?Rmax_right in * by auto.
  - intros; apply D; lra.
  - intros t Ht. apply continuity_pt_filterlim. apply (ex_derive_continuous h). eexists; now apply D.
  - specialize (P c Hc). assert (0 <= h' c * (b - a)) by (apply Rmult_le_pos; lra). lra.
Qed.
Lemma low_tail (t : R) : l = m_infty -> Rbar_lt t u -> M t <= t * F t.
Proof.
  intros El Hu. assert (is_lim (fun a => t * F a - M a) m_infty (t * 0 - 0)) as L.
  { apply is_lim_minus'; [apply lim_scal|]; [destruct D0 as (_ & _ & _ & _ & _ & L & _)|pose proof LM0 as L]; rewrite El in L; exact L. }
  assert (t * 0 - 0 <= t * F t - M t); [|lra].
  change (Rbar_le (Finite (t * 0 - 0)) (Finite (t * F t - M t))). apply (is_lim_le_loc (fun a => t * F a - M a) (fun _ => t * F t - M t) m_infty); [|exact L|apply is_lim_const].
  exists t. intros a Ha. apply (mono_der (fun x => t * F x - M x) (fun x => t * f x - x * f x)); [lra| |].
  - intros x Hx. assert (Rbar_lt l x /\ Rbar_lt x u) as [I1 I2] by (rewrite El; split; [exact I|eapply Rbar_le_lt_trans; [|exact Hu]; apply Hx]).
    apply (is_derive_minus (fun x => t * F x) M); [apply (is_derive_scal F); now apply D0|now apply DM].
  - intros x Hx. assert (0 <= f x) by apply D0. nra.
Qed.
Lemma up_tail (t : R) : u = p_infty -> Rbar_lt l t -> t * (1 - F t) <= m - M t.
Proof.
  intros El Hu. assert (is_lim (fun a => M a - t * F a) p_infty (m - t * 1)) as L.
  { apply is_lim_minus'; [|apply lim_scal]; [pose proof LM1 as L|destruct D0 as (_ & _ & _ & _ & _ & _ & L)]; rewrite El in L; exact L. }
  assert (M t - t * F t <= m - t * 1); [|lra].
  change (Rbar_le (Finite (M t - t * F t)) (Finite (m - t * 1))). apply (is_lim_le_loc (fun _ => M t - t * F t) (fun a => M a - t * F a) p_infty); [|apply is_lim_const|exact L].
  exists t. intros a Ha. apply (mono_der (fun x => M x - t * F x) (fun x => x * f x - t * f x)); [lra| |].
  - intros x Hx. assert (Rbar_lt l x /\ Rbar_lt x u) as [I1 I2] by (rewrite El; split; [eapply Rbar_lt_le_trans; [exact Hu|]; apply Hx|exact I]).
    apply (is_derive_minus M (fun x => t * F x)); [now apply DM|apply (is_derive_scal F); now apply D0].
  - intros x Hx. assert (0 <= f x) by apply D0. nra.
Qed.
Lemma F_bounds (t : R) : Rbar_lt l t -> Rbar_lt t u -> 0 <= F t <= 1.
Proof.
  intros H1 H2. destruct D0 as (_ & Pf & _ & _ & _ & L1 & L2). split.
  - apply (filterlim_le (F := from_below l) F (fun _ => F t) 0 (F t)); [|exact L1|apply filterlim_const].
    eapply filter_imp; [|apply (below_in l t H1)]. intros x [A B]. pose proof (dist0_seg F f l u x t D0 A ltac:(lra) H2) as S.
    pose proof (RInt_ge_0 f x t ltac:(lra) (ex_intro _ _ S)) as K. rewrite (is_RInt_unique _ _ _ _ S) in K. specialize (K (fun y _ => Pf y)). lra.
  - apply (filterlim_le (F := from_above u) (fun _ => F t) F (F t) 1); [|apply filterlim_const|exact L2].
    eapply filter_imp; [|apply (above_in u t H2)]. intros x [A B]. pose proof (dist0_seg F f l u t x D0 H1 ltac:(lra) A) as S.
    pose proof (RInt_ge_0 f t x ltac:(lra) (ex_intro _ _ S)) as K. rewrite (is_RInt_unique _ _ _ _ S) in K. specialize (K (fun y _ => Pf y)). lra.
Qed.
Lemma gB_lim : is_lim gB m_infty 0.
Proof.
  pose proof Hlu as H0. destruct (Rbar_eq_dec l m_infty) as [El|Nl].
  - assert (exists t : R, Rbar_lt t u /\ t < 0) as (t0 & Ht0 & Hneg).
    { destruct u as [r| |] eqn:Eu; [exists (Rmin (r - 1) (-1)); pose proof (Rmin_l (r - 1) (-1)); pose proof (Rmin_r (r - 1) (-1)); simpl; lra|exists (-1); simpl; lra|exfalso; rewrite El in H0; exact H0]. }
    assert (forall t : R, t < t0 -> Rbar_lt l t /\ Rbar_lt t u) as I by (intros t Ht; rewrite El; split; [exact I|eapply Rbar_le_lt_trans; [|exact Ht0]; simpl; lra]).
    assert (is_lim F m_infty 0) as LF by (destruct D0 as (_ & _ & _ & _ & _ & L & _); rewrite El in L; exact L).
    assert (is_lim M m_infty 0) as LM by (pose proof LM0 as L; rewrite El in L; exact L).
    assert (is_lim Q m_infty 0) as LQ by (pose proof LQ0 as L; rewrite El in L; exact L).
    assert (is_lim (fun t => t * F t) m_infty 0) as LT.
    { apply (is_lim_le_le_loc M (fun _ => 0) _ m_infty 0); [|exact LM|apply is_lim_const]. exists t0. intros t Ht. destruct (I t Ht) as [I1 I2].
      pose proof (low_tail t El I2). pose proof (F_bounds t I1 I2). split; nra. }
    apply (is_lim_ext_loc (fun t => F t * (t * F t) - 2 * (F t * M t) + Q t)).
    + exists t0. intros t Ht. destruct (I t Ht). unfold gB. rewrite !xtd_in by auto. ring.
    + replace 0 with (0 * 0 - 2 * (0 * 0) + 0) by ring. apply is_lim_plus'; [apply is_lim_minus'|]; auto; [now apply lim_mult'|apply lim_scal; now apply lim_mult'].
  - apply (is_lim_ext_loc (fun _ => 0)); [|apply is_lim_const]. destruct l as [r| |] eqn:El; [|exfalso; destruct u; exact H0|congruence].
    exists r. intros t Ht. unfold gB. rewrite !xtd_lo by (rewrite El; simpl; lra). ring.
Qed.
Lemma gP_lim : is_lim gP p_infty q.
Proof.
  pose proof Hlu as H0. destruct (Rbar_eq_dec u p_infty) as [El|Nl].
  - assert (exists t : R, Rbar_lt l t /\ 0 < t) as (t0 & Ht0 & Hpos).
    { destruct l as [r| |] eqn:Eu; [exists (Rmax (r + 1) 1); pose proof (Rmax_l (r + 1) 1); pose proof (Rmax_r (r + 1) 1); simpl; lra|exfalso; rewrite El in H0; exact H0|exists 1; simpl; lra]. }
    assert (forall t : R, t0 < t -> Rbar_lt l t /\ Rbar_lt t u) as I by (intros t Ht; rewrite El; split; [eapply Rbar_lt_le_trans; [exact Ht0|]; simpl; lra|exact I]).
    assert (is_lim F p_infty 1) as LF by (destruct D0 as (_ & _ & _ & _ & _ & _ & L); rewrite El in L; exact L).
    assert (is_lim M p_infty m) as LM by (pose proof LM1 as L; rewrite El in L; exact L).
    assert (is_lim Q p_infty q) as LQ by (pose proof LQ1 as L; rewrite El in L; exact L).
    assert (is_lim (fun t => 1 - F t) p_infty (1 - 1)) as LG by (apply is_lim_minus'; [apply is_lim_const|exact LF]).
    assert (is_lim (fun t => t * (1 - F t)) p_infty 0) as LT.
    { apply (is_lim_le_le_loc (fun _ => 0) (fun t => m - M t) _ p_infty 0); [|apply is_lim_const|replace 0 with (m - m) by ring; apply is_lim_minus'; [apply is_lim_const|exact LM]]. exists t0. intros t Ht. destruct (I t Ht) as [I1 I2].
      pose proof (up_tail t El I1). pose proof (F_bounds t I1 I2). split; nra. }
    apply (is_lim_ext_loc (fun t => (1 - F t) * (t * (1 - F t)) + 2 * (M t * (1 - F t)) + Q t)).
    + exists t0. intros t Ht. destruct (I t Ht). unfold gP. rewrite !xtd_in by auto. ring.
    + replace q with ((1 - 1) * 0 + 2 * (m * (1 - 1)) + q) by ring. apply is_lim_plus'; [apply is_lim_plus'|]; auto; [now apply lim_mult'|apply lim_scal; now apply lim_mult'].
  - apply (is_lim_ext_loc (fun _ => q)); [|apply is_lim_const]. destruct u as [r| |] eqn:El; [|congruence|exfalso; destruct l; exact H0].
    exists r. intros t Ht. unfold gP. rewrite !xtd_hi by (rewrite El; first [exact H0|simpl; lra]). ring.
Qed.
Lemma gB_ltail y : ltail (fun t => Fx t ^ 2) y (gB y).
Proof.
  rewrite <- (Rminus_0_r (gB y)). apply ltail_prim; [|apply gB_lim]. intros a Ha.
  apply (seg_exc (fun t => Fx t ^ 2) gB (ends l u)); [apply gB_cont|intros; apply cont_sq, Fx_cont|lra|]. intros t _ Hn. now apply gB_der.
Qed.
Lemma gP_rtail y : rtail (fun t => (1 - Fx t) ^ 2) y (q - gP y).
Proof.
  apply rtail_prim; [|apply gP_lim]. intros b Hb.
  apply (seg_exc (fun t => (1 - Fx t) ^ 2) gP (ends l u)); [apply gP_cont| |lra|].
  - intros t. apply cont_sq. apply (continuous_minus (fun _ => 1) Fx); [apply continuous_const|apply Fx_cont].
  - intros t _ Hn. now apply gP_der.
Qed.
Lemma gen_crps y : is_crps Fx y (y * (2 * Fx y - 1) - 2 * Mx y + q).
Proof. eapply crps_eq; [reflexivity| |apply (crps_split Fx y _ _ (gB_ltail y) (gP_rtail y))]. unfold gB, gP. ring. Qed.
End gen.
Lemma xtd_id F f l u : dist0 F f l u -> (forall r, l = Finite r -> F r = 0) -> (forall r, u = Finite r -> F r = 1) -> forall t, xtd l u F 0 1 t = F t.
Proof.
  intros (H0 & _ & H1 & H2 & _) El Eu t. unfold xtd. destruct (Rbar_lt_dec l t) as [A|A]; [destruct (Rbar_lt_dec t u) as [B|B]|]; auto; symmetry.
  - apply Rbar_not_lt_le in B. destruct (Rbar_le_lt_or_eq_dec u t B) as [C|C]; [now apply H2|]. now apply Eu.
  - apply Rbar_not_lt_le in A. destruct (Rbar_le_lt_or_eq_dec t l A) as [C|C]; [now apply H1|]. now apply El.
Qed.
Lemma dist_crps F f M Q l u m q y : dist0 F f l u -> (forall r, l = Finite r -> F r = 0) -> (forall r, u = Finite r -> F r = 1) ->
  (forall t : R, Rbar_lt l t -> Rbar_lt t u -> is_derive M t (t * f t)) -> (forall t : R, Rbar_lt l t -> Rbar_lt t u -> is_derive Q t (2 * f t * M t)) ->
  filterlim M (from_below l) (locally 0) -> filterlim M (from_above u) (locally m) -> filterlim Q (from_below l) (locally 0) -> filterlim Q (from_above u) (locally q) ->
  is_crps F y (y * (2 * F y - 1) - 2 * xtd l u M 0 m y + q).
Proof.
  intros D El Eu DM DQ LM0 LM1 LQ0 LQ1. pose proof (xtd_id F f l u D El Eu) as E.
  eapply crps_eq; [exact E| |apply (gen_crps F f M Q l u m q D DM DQ LM0 LM1 LQ0 LQ1 y)]. now rewrite E.
Qed.
(** * distributions on the whole line *)
Section line.
Variables (F f M Q : R -> R) (m q : R).
Hypothesis D0 : dist0 F f m_infty p_infty.
Hypothesis DM : forall t : R, is_derive M t (t * f t).
Hypothesis DQ : forall t : R, is_derive Q t (2 * f t * M t).
Hypothesis LM0 : is_lim M m_infty 0.
Hypothesis LM1 : is_lim M p_infty m.
Hypothesis LQ0 : is_lim Q m_infty 0.
Hypothesis LQ1 : is_lim Q p_infty q.
Lemma xtd_line g v w t : xtd m_infty p_infty g v w t = g t.
Proof. apply xtd_in; exact I. Qed.
Lemma line_A t : is_derive (fun t => t * F t - M t) t (F t).
Proof.
  rewrite <- (xtd_line F 0 1 t). apply (is_derive_ext (gA F M m_infty p_infty m)); [intros x; unfold gA; now rewrite !xtd_line|].
  apply (gA_der F f); auto.
Qed.
Lemma line_B t : is_derive (fun t => t * F t ^ 2 - 2 * F t * M t + Q t) t (F t ^ 2).
Proof.
  rewrite <- (xtd_line F 0 1 t). apply (is_derive_ext (gB F M Q m_infty p_infty m q)); [intros x; unfold gB; now rewrite !xtd_line|].
  apply (gB_der F f); auto.
Qed.
Lemma line_ltail y : ltail (fun t => F t ^ 2) y (y * F y ^ 2 - 2 * F y * M y + Q y).
Proof.
  pose proof (gB_ltail F f M Q m_infty p_infty m q D0 (fun t _ _ => DM t) (fun t _ _ => DQ t) LM0 LM1 LQ0 LQ1 y) as H.
  unfold gB in H. rewrite !xtd_line in H. eapply ltail_ext; [|exact H]. intros t _. cbv beta. now rewrite xtd_line.
Qed.
Lemma line_rtail y : rtail (fun t => (1 - F t) ^ 2) y (q - (y * (1 - F y) ^ 2 + 2 * M y * (1 - F y) + Q y)).
Proof.
  pose proof (gP_rtail F f M Q m_infty p_infty m q D0 (fun t _ _ => DM t) (fun t _ _ => DQ t) LM0 LM1 LQ0 LQ1 y) as H.
  unfold gP in H. rewrite !xtd_line in H. eapply rtail_ext; [|exact H]. intros t _. cbv beta. now rewrite xtd_line.
Qed.
Lemma line_crps y : is_crps F y (y * (2 * F y - 1) - 2 * M y + q).
Proof. eapply crps_eq; [reflexivity| |exact (crps_split F y _ _ (line_ltail y) (line_rtail y))]. ring. Qed.
End line.
