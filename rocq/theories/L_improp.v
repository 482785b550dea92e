(** Improper integrals of positive continuous functions; the gamma and beta functions. *)
From Verif Require Export L_dens M_special.
From Coq Require Import Psatz.
From Coquelicot Require Import Coquelicot.
Open Scope R_scope.

Section interval.
Variables (l u : Rbar) (t0 : R).
Definition inn (x : R) : Prop := Rbar_lt l x /\ Rbar_lt x u.
Hypothesis H0 : inn t0.
Lemma inn_between x y z : inn x -> inn z -> x <= y <= z -> inn y.
Proof.
  intros [A B] [C D] [E F]. split; [eapply Rbar_lt_le_trans; [exact A|exact E]|eapply Rbar_le_lt_trans; [|exact D]; exact F].
Qed.
Lemma mono_above (P : R -> R) K : (forall x y, inn x -> inn y -> x <= y -> P x <= P y) -> (forall x, inn x -> P x <= K) ->
  exists B, filterlim P (from_above u) (locally B) /\ forall x, inn x -> P x <= B.
Proof.
  intros M Hb. destruct (completeness (fun v => exists x, inn x /\ v = P x)) as [B [U L]].
  - exists K. intros v (x & Hx & ->). auto.
  - exists (P t0), t0. auto.
  - exists B. split; [|intros x Hx; apply U; eauto]. intros Q [e HQ].
    assert (exists x, inn x /\ B - e < P x) as (x & Hx & Hx').
    { apply Classical_Prop.NNPP. intros N. assert (B <= B - e); [|pose proof (cond_pos e); lra]. apply L. intros v (x & Hx & ->). apply Rnot_lt_le. intros C. apply N. eauto. }
    unfold filtermap. eapply filter_imp; [|exact (above_in u x (proj2 Hx))]. intros y [Hy Hxy]. apply HQ.
    assert (inn y) as Iy by (split; [exact (Rbar_lt_trans l x y (proj1 Hx) Hxy)|auto]).
    unfold ball; simpl. unfold AbsRing_ball, abs, minus, plus, opp; simpl. assert (P y <= B) by (apply U; eauto). specialize (M x y Hx Iy (Rlt_le _ _ Hxy)).
    apply Rabs_def1; pose proof (cond_pos e); lra.
Qed.
Lemma mono_below (P : R -> R) K : (forall x y, inn x -> inn y -> x <= y -> P x <= P y) -> (forall x, inn x -> K <= P x) ->
  exists A, filterlim P (from_below l) (locally A) /\ forall x, inn x -> A <= P x.
Proof.
  intros M Hb. destruct (completeness (fun v => exists x, inn x /\ v = - P x)) as [B [U L]].
  - exists (- K). intros v (x & Hx & ->). specialize (Hb x Hx). lra.
  - exists (- P t0), t0. auto.
  - exists (- B). split; [|intros x Hx; assert (- P x <= B) by (apply U; eauto); lra]. intros Q [e HQ].
    assert (exists x, inn x /\ P x < - B + e) as (x & Hx & Hx').
    { apply Classical_Prop.NNPP. intros N. assert (B <= B - e); [|pose proof (cond_pos e); lra]. apply L. intros v (x & Hx & ->). apply Rnot_lt_le. intros C. apply N. exists x. split; auto. lra. }
    unfold filtermap. eapply filter_imp; [|exact (below_in l x (proj1 Hx))]. intros y [Hy Hxy]. apply HQ.
    assert (inn y) as Iy by (split; [auto|exact (Rbar_lt_trans y x u Hxy (proj2 Hx))]).
    unfold ball; simpl. unfold AbsRing_ball, abs, minus, plus, opp; simpl. assert (- P y <= B) by (apply U; eauto). specialize (M y x Iy Hx (Rlt_le _ _ Hxy)).
    apply Rabs_def1; pose proof (cond_pos e); lra.
Qed.
Lemma inn_open x : inn x -> locally x inn.
Proof.
  intros [A B]. assert (locally x (fun y : R => Rbar_lt l y)) as La by (apply open_Rbar_gt; exact A).
  assert (locally x (fun y : R => Rbar_lt y u)) as Lb by (apply open_Rbar_lt; exact B).
  generalize (filter_and _ _ La Lb). apply filter_imp. auto.
Qed.
Variable f : R -> R.
Hypothesis Hc : forall x, inn x -> continuous f x.
Hypothesis Hp : forall x, inn x -> 0 < f x.
Lemma inn_rint x y : inn x -> inn y -> ex_RInt f x y.
Proof.
  intros Hx Hy. apply (ex_RInt_continuous (V := R_CompleteNormedModule)). intros z Hz. apply Hc.
  unfold Rmin, Rmax in Hz. destruct (Rle_dec x y); [apply (inn_between x z y)|apply (inn_between y z x)]; auto; lra.
Qed.
Lemma inn_der x : inn x -> is_derive (RInt f t0) x (f x).
Proof.
  intros Hx. apply (is_derive_RInt f (RInt f t0) t0 x); [|now apply Hc]. generalize (inn_open x Hx). apply filter_imp. intros y Hy.
  apply (RInt_correct (V := R_CompleteNormedModule)). now apply inn_rint.
Qed.
Lemma der_mono (P p : R -> R) : (forall x, inn x -> is_derive P x (p x)) -> (forall x, inn x -> 0 <= p x) -> forall x y, inn x -> inn y -> x <= y -> P x <= P y.
Proof.
  intros D N x y Hx Hy Hxy. destruct (Req_dec x y) as [->|Ne]; [lra|].
  assert (forall t, Rmin x y <= t <= Rmax x y -> inn t) as I by (intros t Ht; rewrite Rmin_left, Rmax_right in Ht by lra; now apply (inn_between x t y)).
  destruct (MVT_gen P x y p) as (c & Hc' & E).
  - intros t Ht. apply D, I. lra.
  - intros t Ht. apply derivable_continuous_pt. exists (p t). apply is_derive_Reals, D, I. lra.
  - assert (0 <= p c * (y - x)) by (apply Rmult_le_pos; [apply N, I; auto|lra]). lra.
Qed.
Lemma der_strict (P p : R -> R) : (forall x, inn x -> is_derive P x (p x)) -> (forall x, inn x -> 0 < p x) -> forall x y, inn x -> inn y -> x < y -> P x < P y.
Proof.
  intros D N x y Hx Hy Hxy.
  assert (forall t, Rmin x y <= t <= Rmax x y -> inn t) as I by (intros t Ht; rewrite Rmin_left, Rmax_right in Ht by lra; now apply (inn_between x t y)).
  destruct (MVT_gen P x y p) as (c & Hc' & E).
  - intros t Ht. apply D, I. lra.
  - intros t Ht. apply derivable_continuous_pt. exists (p t). apply is_derive_Reals, D, I. lra.
  - assert (0 < p c * (y - x)) by (apply Rmult_lt_0_compat; [apply N, I; auto|lra]). lra.
Qed.
(** what convergence gives: a primitive from the lower end *)
Definition improper (Z : R) : Prop := 0 < Z /\ is_RInt_gen f (from_below l) (from_above u) Z /\
  exists G, (forall x, inn x -> is_derive G x (f x)) /\ filterlim G (from_below l) (locally 0) /\ filterlim G (from_above u) (locally Z) /\
    (forall x, inn x -> 0 < G x < Z) /\ (forall x, inn x -> is_RInt_gen f (from_below l) (at_point x) (G x)).
Lemma improper_bounded K : (forall x, inn x -> Rabs (RInt f t0 x) <= K) -> exists Z, improper Z.
Proof.
  intros Hb. set (P := RInt f t0).
  assert (forall x y, inn x -> inn y -> x <= y -> P x <= P y) as M by (apply (der_mono P f); [exact inn_der|intros; left; auto]).
  destruct (mono_above P K M) as (B & LB & UB); [intros x Hx; specialize (Hb x Hx); apply Rabs_le_between in Hb; apply Hb|].
  destruct (mono_below P (- K) M) as (A & LA & UA); [intros x Hx; specialize (Hb x Hx); apply Rabs_le_between in Hb; apply Hb|].
  assert (forall x, inn x -> A < P x) as UA'.
  { intros x Hx. destruct (inside l x (proj1 Hx)) as (y & Hy1 & Hy2). assert (inn y) as Iy by (split; auto; exact (Rbar_lt_trans y x u Hy2 (proj2 Hx))).
    pose proof (der_strict P f inn_der Hp y x Iy Hx Hy2). specialize (UA y Iy). lra. }
  assert (forall x, inn x -> P x < B) as UB'.
  { intros x Hx. destruct (inside x u (proj2 Hx)) as (y & Hy1 & Hy2). assert (inn y) as Iy by (split; auto; exact (Rbar_lt_trans l x y (proj1 Hx) Hy1)).
    pose proof (der_strict P f inn_der Hp x y Hx Iy Hy1). specialize (UB y Iy). lra. }
  assert (forall x y, inn x -> inn y -> x <= y -> is_RInt f x y (P y - P x)) as I.
  { intros x y Hx Hy Hxy. apply (seg_der f f P x y Hxy); auto; intros t Ht; (assert (inn t) as It by now apply (inn_between x t y)); [now apply inn_der|now apply Hc]. }
  exists (B - A). split; [pose proof (UA' t0 H0); pose proof (UB' t0 H0); lra|]. split.
  - apply (prim_gen f P _ _ (HA := _) (HB := _)); auto.
    apply (Filter_prod _ _ _ (fun x : R => Rbar_lt l x /\ x < t0) (fun x : R => Rbar_lt x u /\ t0 < x)); [apply below_in, H0|apply above_in, H0|].
    intros a b [Ha Hab] [Hb1 Hb2]. simpl. assert (inn a) by (split; auto; exact (Rbar_lt_trans a t0 u Hab (proj2 H0))).
    assert (inn b) by (split; auto; exact (Rbar_lt_trans l t0 b (proj1 H0) Hb2)). apply I; auto. lra.
  - exists (fun x => P x - A).
    assert (forall F {HF : Filter F} v, filterlim P F (locally v) -> filterlim (fun x => P x - A) F (locally (v - A))) as Sh.
    { intros F HF v L. apply (filterlim_comp_2 (G := locally v) (H := locally A) P (fun _ => A) Rminus); auto; [apply filterlim_const|].
      unfold Rminus. apply (filterlim_comp_2 (G := locally v) (H := locally (- A)) (fun x : R * R => fst x) (fun x : R * R => - snd x) Rplus).
      - apply filterlim_fst.
      - apply (filterlim_comp _ _ _ (fun x : R * R => snd x) Ropp _ (locally A)); [apply filterlim_snd|]. apply (filterlim_opp (V := R_NormedModule) A).
      - apply (filterlim_plus (V := R_NormedModule) v (- A)). }
    split; [|split; [|split; [|split]]].
    + intros x Hx. evar_last; [apply (is_derive_minus P (fun _ => A) x (f x) 0); [now apply inn_der|apply (is_derive_const A x)]|]. unfold minus, plus, opp; simpl. ring.
    + replace 0 with (A - A) by ring. apply Sh; auto. apply _.
    + apply Sh; auto. apply _.
    + intros x Hx. specialize (UA' x Hx). specialize (UB' x Hx). lra.
    + intros x Hx. apply (prim_gen f P _ _ (HA := _) (HB := _)); auto.
      * apply (Filter_prod _ _ _ (fun y : R => Rbar_lt l y /\ y < x) (fun y => y = x)); [apply below_in, Hx|reflexivity|].
        intros a b [Ha Hab] ->. simpl. apply I; auto; [|lra]. split; auto. exact (Rbar_lt_trans a x u Hab (proj2 Hx)).
      * intros Q HQ. exact (locally_singleton _ _ HQ).
Qed.
End interval.
Section dominate.
Variables (l u : Rbar) (t0 : R) (f : R -> R).
Hypothesis H0 : inn l u t0.
Hypothesis Hc : forall x, inn l u x -> continuous f x.
Hypothesis Hp : forall x, inn l u x -> 0 < f x.
Lemma dom_above (H h : R -> R) K : (forall x, inn l u x -> t0 <= x -> is_derive H x (h x) /\ f x <= h x) ->
  (forall x, inn l u x -> t0 <= x -> H x - H t0 <= K) -> forall x, inn l u x -> t0 <= x -> 0 <= RInt f t0 x <= K.
Proof.
  intros D B x Hx Hx0. assert (forall t, t0 <= t <= x -> inn l u t) as I by (intros t Ht; exact (inn_between l u _ _ _ H0 Hx Ht)).
  assert (RInt f t0 t0 = 0) as R0 by apply (RInt_point (V := R_CompleteNormedModule)). split.
  - rewrite <- R0. apply (der_mono l u (RInt f t0) f); auto; [exact (inn_der l u t0 H0 f Hc)|intros; left; auto].
  - destruct (Req_dec t0 x) as [<-|N]; [rewrite R0; specialize (B t0 H0 (Rle_refl _)); lra|].
    destruct (MVT_gen (fun t => H t - RInt f t0 t) t0 x (fun t => h t - f t)) as (c & Hc' & E).
    + intros t Ht. rewrite Rmin_left, Rmax_right in Ht by lra. apply (is_derive_minus H (RInt f t0) t (h t) (f t)); [apply D|apply (inn_der l u t0 H0 f Hc)]; try apply I; lra.
    + intros t Ht. rewrite Rmin_left, Rmax_right in Ht by lra. apply derivable_continuous_pt. exists (h t - f t). apply is_derive_Reals.
      apply (is_derive_minus H (RInt f t0) t (h t) (f t)); [apply D|apply (inn_der l u t0 H0 f Hc)]; try apply I; lra.
    + rewrite Rmin_left, Rmax_right in Hc' by lra. destruct (D c) as [_ L]; [apply I; lra|lra|]. assert (0 <= (h c - f c) * (x - t0)) by (apply Rmult_le_pos; lra).
      specialize (B x Hx Hx0). lra.
Qed.
Lemma dom_below (H h : R -> R) K : (forall x, inn l u x -> x <= t0 -> is_derive H x (h x) /\ f x <= h x) ->
  (forall x, inn l u x -> x <= t0 -> H t0 - H x <= K) -> forall x, inn l u x -> x <= t0 -> - K <= RInt f t0 x <= 0.
Proof.
  intros D B x Hx Hx0. assert (forall t, x <= t <= t0 -> inn l u t) as I by (intros t Ht; exact (inn_between l u _ _ _ Hx H0 Ht)).
  assert (RInt f t0 t0 = 0) as R0 by apply (RInt_point (V := R_CompleteNormedModule)). split.
  - destruct (Req_dec x t0) as [->|N]; [rewrite R0; specialize (B t0 H0 (Rle_refl _)); lra|].
    destruct (MVT_gen (fun t => H t - RInt f t0 t) x t0 (fun t => h t - f t)) as (c & Hc' & E).
    + intros t Ht. rewrite Rmin_left, Rmax_right in Ht by lra. apply (is_derive_minus H (RInt f t0) t (h t) (f t)); [apply D|apply (inn_der l u t0 H0 f Hc)]; try apply I; lra.
    + intros t Ht. rewrite Rmin_left, Rmax_right in Ht by lra. apply derivable_continuous_pt. exists (h t - f t). apply is_derive_Reals.
      apply (is_derive_minus H (RInt f t0) t (h t) (f t)); [apply D|apply (inn_der l u t0 H0 f Hc)]; try apply I; lra.
    + rewrite Rmin_left, Rmax_right in Hc' by lra. destruct (D c) as [_ L]; [apply I; lra|lra|]. assert (0 <= (h c - f c) * (t0 - x)) by (apply Rmult_le_pos; lra).
      specialize (B x Hx Hx0). lra.
  - rewrite <- R0. apply (der_mono l u (RInt f t0) f); auto; [exact (inn_der l u t0 H0 f Hc)|intros; left; auto].
Qed.
Lemma dominated (H1 h1 H2 h2 : R -> R) K1 K2 :
  (forall x, inn l u x -> x <= t0 -> is_derive H1 x (h1 x) /\ f x <= h1 x) -> (forall x, inn l u x -> x <= t0 -> H1 t0 - H1 x <= K1) ->
  (forall x, inn l u x -> t0 <= x -> is_derive H2 x (h2 x) /\ f x <= h2 x) -> (forall x, inn l u x -> t0 <= x -> H2 x - H2 t0 <= K2) ->
  exists Z, improper l u f Z.
Proof.
  intros A B C D. apply (improper_bounded l u t0 H0 f Hc Hp (Rabs K1 + Rabs K2)). intros x Hx. apply Rabs_le.
  pose proof (Rle_abs K1). pose proof (Rle_abs K2). pose proof (Rabs_pos K1). pose proof (Rabs_pos K2). destruct (Rle_dec x t0) as [L|L].
  - pose proof (dom_below H1 h1 K1 A B x Hx L). lra.
  - pose proof (dom_above H2 h2 K2 C D x Hx ltac:(lra)). lra.
Qed.
End dominate.
(** * gamma *)
Lemma Rpower_pos x a : 0 < Rpower x a. Proof. apply exp_pos. Qed.
Lemma ln_le1 x : 0 < x -> ln x <= x - 1.
Proof.
  intros H. destruct (Req_dec x 1) as [->|N]; [rewrite ln_1; lra|].
  assert (ln x <> 0) as N' by (intros E; apply N; rewrite <- (exp_ln x), E, exp_0; auto).
  pose proof (exp_ineq1 (ln x) N') as K. rewrite exp_ln in K by auto. lra.
Qed.
Lemma Rpower_der p x : 0 < x -> is_derive (fun t => Rpower t p) x (p * Rpower x (p - 1)).
Proof.
  intros H. unfold Rpower. auto_derive; [auto|]. replace ((p - 1) * ln x) with (p * ln x + - ln x) by ring. rewrite exp_plus, exp_Ropp, exp_ln by auto. ring.
Qed.
Lemma gamma_f_cont a x : 0 < x -> continuous (gamma_f a) x.
Proof. intros H. apply (ex_derive_continuous (gamma_f a)). unfold gamma_f, Rpower. auto_derive. auto. Qed.
Lemma inn_gamma x : inn 0 p_infty x <-> 0 < x.
Proof. unfold inn; simpl; tauto. Qed.
Lemma gamma_improper a : 0 < a -> exists Z, improper 0 p_infty (gamma_f a) Z.
Proof.
  intros Ha. set (m := Rabs (a - 1)). set (c := 2 * (m + 1)). assert (0 <= m) as Hm by apply Rabs_pos. set (K := exp (m * ln c)).
  assert (0 < c) as Hcp by (unfold c; lra). assert (0 < K) as HK by apply exp_pos.
  apply (dominated 0 p_infty 1 (gamma_f a)) with (H1 := fun t => Rpower t a / a) (h1 := fun t => Rpower t (a - 1)) (K1 := / a)
    (H2 := fun t => - 2 * K * exp (- (t / 2))) (h2 := fun t => K * exp (- (t / 2))) (K2 := 2 * K).
  - apply inn_gamma; lra.
  - intros x Hx. apply (proj1 (inn_gamma x)) in Hx. now apply gamma_f_cont.
  - intros x Hx. unfold gamma_f. apply Rmult_lt_0_compat; apply exp_pos.
  - intros x Hx _. apply (proj1 (inn_gamma x)) in Hx. split.
    + evar_last; [apply (is_derive_ext (fun t => / a * Rpower t a)); [intros; unfold Rdiv; apply Rmult_comm|apply (is_derive_scal (fun t => Rpower t a) x (/ a)), Rpower_der; auto]|]. unfold scal; simpl; unfold mult; simpl. field. lra.
    + unfold gamma_f. rewrite <- (Rmult_1_r (Rpower x (a - 1))) at 2. apply Rmult_le_compat_l; [left; apply exp_pos|]. rewrite <- exp_0. left. apply exp_increasing. lra.
  - intros x Hx _. assert (Rpower 1 a = 1) as -> by (unfold Rpower; now rewrite ln_1, Rmult_0_r, exp_0). pose proof (Rpower_pos x a).
    assert (0 < Rpower x a / a) by (now apply Rdiv_lt_0_compat). unfold Rdiv at 1. lra.
  - intros x Hx H1. apply (proj1 (inn_gamma x)) in Hx. split.
    + auto_derive; [auto|]. unfold Rdiv. field.
    + unfold gamma_f, K, Rpower. rewrite <- !exp_plus. assert ((a - 1) * ln x + - x <= m * ln c + - (x / 2)) as L; [|destruct L as [L|L]; [left; now apply exp_increasing|rewrite L; lra]].
      assert (0 <= ln x) as Lx by (rewrite <- ln_1; destruct H1 as [H1|H1]; [left; apply ln_increasing; lra|rewrite <- H1; lra]).
      assert ((a - 1) * ln x <= m * ln x) as L1 by (apply Rmult_le_compat_r; auto; apply Rle_abs).
      pose proof (ln_le1 (x / c) ltac:(apply Rdiv_lt_0_compat; lra)) as L2. unfold Rdiv in L2. rewrite ln_mult, ln_Rinv in L2 by (auto; now apply Rinv_0_lt_compat).
      apply (Rmult_le_compat_l m) in L2; auto. assert (m * (x * / c) <= x / 2); [|lra].
      apply (Rmult_le_reg_r c); auto. replace (m * (x * / c) * c) with (m * x) by (field; lra). unfold c. replace (x / 2 * (2 * (m + 1))) with (m * x + x) by field. lra.
  - intros x Hx _. pose proof (exp_pos (- (x / 2))). assert (exp (- (1 / 2)) < 1) by (rewrite <- exp_0 at 2; apply exp_increasing; lra).
    pose proof (Rmult_lt_0_compat _ _ HK H). pose proof (Rmult_lt_compat_l K _ _ HK H0). lra.
Qed.
Lemma Rgamma_improper a : 0 < a -> improper 0 p_infty (gamma_f a) (Rgamma a).
Proof.
  intros Ha. destruct (gamma_improper a Ha) as [Z HZ]. replace (Rgamma a) with Z; auto. symmetry. unfold Rgamma.
  apply (is_RInt_gen_unique (V := R_CompleteNormedModule) (Fa := from_below 0) (Fb := from_above p_infty)). apply HZ.
Qed.
(** * beta *)
Lemma inn_beta x : inn 0 1 x <-> 0 < x < 1.
Proof. unfold inn; simpl; tauto. Qed.
Lemma Rpower_half_bound p t : 1 / 2 <= t <= 1 -> Rpower t p <= Rpower (1 / 2) p + 1.
Proof.
  intros H. assert (ln (1 / 2) <= ln t) as L1 by (destruct (proj1 H) as [L|E]; [left; apply ln_increasing; lra|rewrite E; lra]).
  assert (ln t <= 0) as L2 by (rewrite <- ln_1; destruct (proj2 H) as [L|E]; [left; apply ln_increasing; lra|rewrite E; lra]). unfold Rpower.
  pose proof (exp_pos (p * ln (1 / 2))). destruct (Rle_dec 0 p) as [Hp|Hp].
  - assert (p * ln t <= 0) as L by (pose proof (Rmult_le_compat_l p _ _ Hp L2); lra). destruct L as [L|L]; [apply exp_increasing in L; rewrite exp_0 in L; lra|rewrite L, exp_0; lra].
  - assert (p * ln t <= p * ln (1 / 2)) as L by (pose proof (Rmult_le_compat_l (- p) _ _ ltac:(lra) L1); lra). destruct L as [L|L]; [apply exp_increasing in L; lra|rewrite L; lra].
Qed.
Lemma beta_f_cont a b x : 0 < x < 1 -> continuous (beta_f a b) x.
Proof. intros H. apply (ex_derive_continuous (beta_f a b)). unfold beta_f, Rpower. auto_derive. split; [lra|split; [lra|auto]]. Qed.
Lemma beta_improper a b : 0 < a -> 0 < b -> exists Z, improper 0 1 (beta_f a b) Z.
Proof.
  intros Ha Hb. set (C1 := Rpower (1 / 2) (b - 1) + 1). set (C2 := Rpower (1 / 2) (a - 1) + 1).
  assert (0 < C1) as HC1 by (unfold C1; pose proof (Rpower_pos (1 / 2) (b - 1)); lra). assert (0 < C2) as HC2 by (unfold C2; pose proof (Rpower_pos (1 / 2) (a - 1)); lra).
  apply (dominated 0 1 (1 / 2) (beta_f a b)) with (H1 := fun t => C1 / a * Rpower t a) (h1 := fun t => C1 * Rpower t (a - 1)) (K1 := C1 / a * Rpower (1 / 2) a)
    (H2 := fun t => - (C2 / b) * Rpower (1 - t) b) (h2 := fun t => C2 * Rpower (1 - t) (b - 1)) (K2 := C2 / b * Rpower (1 - 1 / 2) b).
  - apply inn_beta; lra.
  - intros x Hx. apply (proj1 (inn_beta x)) in Hx. now apply beta_f_cont.
  - intros x Hx. unfold beta_f. apply Rmult_lt_0_compat; apply exp_pos.
  - intros x Hx L. apply (proj1 (inn_beta x)) in Hx. split.
    + evar_last; [apply (is_derive_scal (fun t => Rpower t a) x (C1 / a)), Rpower_der; exact (proj1 Hx)|]. unfold scal; simpl; unfold mult; simpl. field. lra.
    + unfold beta_f. rewrite Rmult_comm. apply Rmult_le_compat_r; [left; apply exp_pos|]. apply Rpower_half_bound; lra.
  - intros x Hx _. pose proof (Rpower_pos x a). assert (0 < C1 / a * Rpower x a) by (apply Rmult_lt_0_compat; auto; now apply Rdiv_lt_0_compat). lra.
  - intros x Hx L. apply (proj1 (inn_beta x)) in Hx. split.
    + evar_last; [apply (is_derive_scal (fun t => Rpower (1 - t) b) x (- (C2 / b)))|].
      * apply (is_derive_comp (fun y => Rpower y b) (fun t => 1 - t) x (b * Rpower (1 - x) (b - 1)) (-1)); [apply Rpower_der; lra|auto_derive; auto; ring].
      * unfold scal; simpl; unfold mult; simpl. field. lra.
    + unfold beta_f. apply Rmult_le_compat_r; [left; apply exp_pos|]. apply Rpower_half_bound; lra.
  - intros x Hx _. pose proof (Rpower_pos (1 - x) b). assert (0 < C2 / b * Rpower (1 - x) b) by (apply Rmult_lt_0_compat; auto; now apply Rdiv_lt_0_compat). lra.
Qed.
Lemma Rbeta_improper a b : 0 < a -> 0 < b -> improper 0 1 (beta_f a b) (Rbeta a b).
Proof.
  intros Ha Hb. destruct (beta_improper a b Ha Hb) as [Z HZ]. replace (Rbeta a b) with Z; auto. symmetry. unfold Rbeta.
  apply (is_RInt_gen_unique (V := R_CompleteNormedModule) (Fa := from_below 0) (Fb := from_above 1)). apply HZ.
Qed.
