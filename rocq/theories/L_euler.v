(** The exponential integral and Euler's constant. *)
From Verif Require Export L_crpsgen L_improp L_fam S_euler.
From Coq Require Import Psatz Lia.
From Coquelicot Require Import Coquelicot.
Open Scope R_scope.

Definition ei (t : R) : R := exp (- t) / t.
Lemma ei_cont (t : R) : 0 < t -> continuous ei t.
Proof. intros H. apply (ex_derive_continuous ei). unfold ei. auto_derive. lra. Qed.
Lemma ei_pos t : 0 < t -> 0 < ei t. Proof. intros H. apply Rdiv_lt_0_compat; [apply exp_pos|auto]. Qed.
Definition E1 (v : R) : R := RInt_gen (fun t => exp (- t) / t) (at_point v) (Rbar_locally p_infty).
Lemma inn0 x : inn 0 p_infty x -> 0 < x. Proof. unfold inn. simpl. tauto. Qed.
Lemma inn0' x : 0 < x -> inn 0 p_infty x. Proof. unfold inn. simpl. tauto. Qed.
Lemma P_der (x : R) : 0 < x -> is_derive (RInt ei 1) x (ei x).
Proof. intros H. apply (inn_der 0 p_infty 1); [apply inn0'; lra| |apply inn0'; exact H]. intros t Ht. apply ei_cont. apply inn0. exact Ht. Qed.
Lemma P_mono x y : 0 < x -> x <= y -> RInt ei 1 x <= RInt ei 1 y.
Proof. intros Hx Hxy. apply (mono_der (RInt ei 1) ei x y Hxy); intros t Ht; [apply P_der; lra|left; apply ei_pos; lra]. Qed.
Lemma E1_ex : exists Z, is_lim (RInt ei 1) p_infty (Finite Z) /\ (forall x, 0 < x -> rtail ei x (Z - RInt ei 1 x)) /\ (forall x, 0 < x -> RInt ei 1 x <= Z).
Proof.
  destruct (mono_above 0 p_infty 1 ltac:(apply inn0'; lra) (RInt ei 1) (exp (-1))) as (Z & L & U).
  - intros x y Hx Hy. apply P_mono. now apply inn0.
  - intros x Hx. apply inn0 in Hx. assert (forall b, 1 <= b -> RInt ei 1 b <= exp (-1)) as K.
    { intros b Hb. assert (RInt ei 1 b + exp (- b) <= RInt ei 1 1 + exp (-1)).
      { assert (- (RInt ei 1 1 + exp (- (1))) <= - (RInt ei 1 b + exp (- b))); [|replace (- (1)) with (-1) in * by ring; lra].
        apply (mono_der (fun t => - (RInt ei 1 t + exp (- t))) (fun t => - (ei t + - exp (- t)))); auto.
        - intros t Ht. apply (is_derive_opp (fun t => RInt ei 1 t + exp (- t)) t (ei t + - exp (- t))). apply (is_derive_plus (RInt ei 1) (fun t => exp (- t)) t (ei t) (- exp (- t))); [apply P_der; lra|auto_derive; auto; ring].
        - intros t Ht. assert (ei t <= exp (- t)); [|lra]. unfold ei. apply (Rmult_le_reg_r t); [lra|]. unfold Rdiv. rewrite Rmult_assoc, Rinv_l by lra. pose proof (exp_pos (- t)). nra. }
      rewrite RInt_point in H. unfold zero in H; simpl in H. pose proof (exp_pos (- b)). lra. }
    destruct (Rle_dec 1 x); [auto|]. apply Rle_trans with (RInt ei 1 1); [apply P_mono; lra|apply K; lra].
  - exists Z. split; [exact L|split; [|intros x Hx; apply U; now apply inn0']]. intros x Hx. apply (rtail_prim ei (RInt ei 1)); [|exact L]. intros b Hb.
    apply (is_RInt_derive (V := R_CompleteNormedModule) (RInt ei 1) ei); intros t Ht; rewrite Rmin_left, Rmax_right in Ht by lra; [apply P_der|apply ei_cont]; lra.
Qed.
Lemma E1_eq : exists Z, (forall x, 0 < x -> E1 x = Z - RInt ei 1 x) /\ is_lim (RInt ei 1) p_infty (Finite Z) /\ (forall x, 0 < x -> RInt ei 1 x <= Z).
Proof.
  destruct E1_ex as (Z & L & T & U). exists Z. split; [|auto]. intros x Hx. apply (is_RInt_gen_unique (V := R_CompleteNormedModule) (Fa := at_point x)). exact (T x Hx).
Qed.
Lemma E1_der (x : R) : 0 < x -> is_derive E1 x (- ei x).
Proof.
  intros Hx. destruct E1_eq as (Z & E & _). apply (is_derive_ext_loc (fun x => Z - RInt ei 1 x)).
  - generalize (open_gt 0 x Hx). apply filter_imp. intros t Ht. symmetry. now apply E.
  - evar_last; [apply (is_derive_minus (fun _ => Z) (RInt ei 1) x 0 (ei x)); [exact (is_derive_const (K := R_AbsRing) (V := R_NormedModule) Z x)|now apply P_der]|]. unfold minus, plus, opp; simpl. ring.
Qed.
Lemma E1_lim : is_lim E1 p_infty 0.
Proof.
  destruct E1_eq as (Z & E & L & _). apply (is_lim_ext_loc (fun x => Z - RInt ei 1 x)); [exists 0; intros x Hx; symmetry; now apply E|].
  replace (Finite 0) with (Finite (Z - Z)) by (f_equal; ring). apply is_lim_minus'; [apply is_lim_const|exact L].
Qed.
Lemma E1_nonneg x : 0 < x -> 0 <= E1 x.
Proof. intros Hx. destruct E1_eq as (Z & E & _ & U). rewrite E by auto. specialize (U x Hx). lra. Qed.
Lemma lim_exp_neg : is_lim (fun t => exp (- t)) p_infty 0.
Proof. apply lim_exp_opp. Qed.
Lemma E1_upper x : 0 < x -> E1 x <= exp (- x) / x.
Proof.
  intros Hx. set (h := fun t => exp (- t) / x - E1 t).
  assert (is_lim h p_infty (0 / x - 0)) as L.
  { apply is_lim_minus'; [|apply E1_lim]. apply (is_lim_ext (fun t => / x * exp (- t))); [intros; unfold Rdiv; apply Rmult_comm|]. replace (0 / x) with (/ x * 0) by (field; lra). apply lim_scal, lim_exp_neg. }
  assert (0 / x - 0 <= h x) as K; [|unfold h in K; lra].
  change (Rbar_le (Finite (0 / x - 0)) (Finite (h x))). apply (is_lim_le_loc h (fun _ => h x) p_infty); [|exact L|apply is_lim_const].
  exists x. intros b Hb. apply Ropp_le_cancel. apply (mono_der (fun t => - h t) (fun t => - (- exp (- t) / x - - ei t)) x b); [lra| |].
  - intros t Ht. apply (is_derive_opp h). apply (is_derive_minus (fun t => exp (- t) / x) E1 t (- exp (- t) / x) (- ei t)); [auto_derive; auto; field; lra|apply E1_der; lra].
  - intros t Ht. assert (ei t <= exp (- t) / x) as Q; [|unfold Rdiv in *; lra]. unfold ei, Rdiv. apply Rmult_le_compat_l; [left; apply exp_pos|]. apply Rinv_le_contravar; lra.
Qed.
(** the function whose limit at 0 is Euler's constant *)
Definition eB (v : R) : R := - ln v - E1 v.
Lemma eB_der (v : R) : 0 < v -> is_derive eB v (- ((1 - exp (- v)) / v)).
Proof.
  intros Hv. evar_last.
  - apply (is_derive_minus (fun v => - ln v) E1 v (- / v) (- ei v)); [apply (is_derive_opp ln); now apply is_derive_ln|now apply E1_der].
  - unfold minus, plus, opp, ei; simpl. field. lra.
Qed.
Lemma one_exp v : 0 <= v -> 0 <= 1 - exp (- v) <= v.
Proof.
  intros Hv. split.
  - destruct (Req_dec v 0) as [->|N]; [rewrite Ropp_0, exp_0; lra|]. pose proof (exp_increasing (- v) 0 ltac:(lra)) as H. rewrite exp_0 in H. lra.
  - destruct (Req_dec v 0) as [->|N]; [rewrite Ropp_0, exp_0; lra|]. pose proof (exp_ineq1 (- v) ltac:(lra)). lra.
Qed.
Lemma eB_lim : exists C, filterlim eB (at_right 0) (locally C).
Proof.
  assert (forall x, inn 0 1 x -> 0 < x < 1) as I by (unfold inn; simpl; tauto).
  assert (forall x y, 0 < x -> x <= y -> eB y <= eB x <= eB y + (y - x)) as B.
  { intros x y Hx Hxy. assert (forall t, x <= t <= y -> 0 <= (1 - exp (- t)) / t <= 1) as Bt.
    { intros t Ht. pose proof (one_exp t ltac:(lra)) as K. split; [apply Rdiv_le_0_compat; lra|]. apply (Rmult_le_reg_r t); [lra|]. unfold Rdiv. rewrite Rmult_assoc, Rinv_l by lra. lra. }
    split.
    - apply Ropp_le_cancel. apply (mono_der (fun t => - eB t) (fun t => - - ((1 - exp (- t)) / t)) x y); auto.
      + intros t Ht. apply (is_derive_opp eB). apply eB_der. lra.
      + intros t Ht. specialize (Bt t Ht). lra.
    - assert (eB x + x <= eB y + y); [|lra]. apply (mono_der (fun t => eB t + t) (fun t => - ((1 - exp (- t)) / t) + 1) x y); auto.
      + intros t Ht. apply (is_derive_plus eB (fun t => t) t (- ((1 - exp (- t)) / t)) 1); [apply eB_der; lra|apply is_derive_Reals, derivable_pt_lim_id].
      + intros t Ht. specialize (Bt t Ht). lra. }
  destruct (mono_below 0 1 (1 / 2) ltac:(unfold inn; simpl; lra) (fun t => - eB t) (- eB 1 - 1)) as (A & L & _).
  - intros x y Hx Hy Hxy. apply I in Hx. destruct (B x y); lra.
  - intros x Hx. apply I in Hx. destruct (B x 1); lra.
  - exists (- A). apply (filterlim_ext (fun t => - - eB t)); [intros; apply Ropp_involutive|].
    eapply (filterlim_comp _ _ _ (fun t => - eB t) (fun t => - t)); [exact L|]. apply (filterlim_opp (K := R_AbsRing) (V := R_NormedModule) A).
Qed.
(** comparison of primitives on (0, v] *)
Lemma prim_le (D d p dp : R -> R) v C : 0 < v -> (forall t : R, 0 < t <= v -> is_derive D t (d t) /\ is_derive p t (dp t) /\ d t <= dp t) ->
  filterlim D (at_right 0) (locally C) -> filterlim p (at_right 0) (locally 0) -> D v <= C + p v.
Proof.
  intros Hv H LD Lp. assert (filterlim (fun t => p t - D t) (at_right 0) (locally (0 - C))) as L.
  { assert (filterlim (fun t => opp (D t)) (at_right 0) (locally (opp C))) as LO by (eapply filterlim_comp; [exact LD|apply (filterlim_opp (K := R_AbsRing) (V := R_NormedModule) C)]).
    exact (filterlim_comp_2 p (fun t => opp (D t)) plus Lp LO (filterlim_plus (K := R_AbsRing) (V := R_NormedModule) 0 (opp C))). }
  assert (0 - C <= p v - D v); [|lra].
  apply (filterlim_le (F := at_right 0) (fun t => p t - D t) (fun _ => p v - D v) (0 - C) (p v - D v)); [|exact L|apply filterlim_const].
  exists (mkposreal v Hv). intros t Ht Ht'. unfold ball in Ht; simpl in Ht. unfold AbsRing_ball, abs, minus, plus, opp in Ht; simpl in Ht. apply Rabs_def2 in Ht.
  apply (mono_der (fun t => p t - D t) (fun t => dp t - d t) t v); [lra| |].
  - intros x Hx. destruct (H x ltac:(lra)) as (A & B & _). now apply (is_derive_minus p D).
  - intros x Hx. destruct (H x ltac:(lra)) as (_ & _ & A). lra.
Qed.
Lemma prim_ge (D d p dp : R -> R) v C : 0 < v -> (forall t : R, 0 < t <= v -> is_derive D t (d t) /\ is_derive p t (dp t) /\ dp t <= d t) ->
  filterlim D (at_right 0) (locally C) -> filterlim p (at_right 0) (locally 0) -> C + p v <= D v.
Proof.
  intros Hv H LD Lp. assert (- D v <= - C + - p v); [|lra].
  apply (prim_le (fun t => - D t) (fun t => - d t) (fun t => - p t) (fun t => - dp t)); auto.
  - intros t Ht. destruct (H t Ht) as (A & B & K). split; [now apply (is_derive_opp D)|split; [now apply (is_derive_opp p)|lra]].
  - eapply filterlim_comp; [exact LD|apply (filterlim_opp (K := R_AbsRing) (V := R_NormedModule) C)].
  - rewrite <- Ropp_0 at 2. eapply filterlim_comp; [exact Lp|apply (filterlim_opp (K := R_AbsRing) (V := R_NormedModule) 0)].
Qed.
Lemma der_at0 (g : R -> R) (w : R) : continuous g 0 -> g 0 = w -> filterlim g (at_right 0) (locally w).
Proof. intros H <-. eapply filterlim_filter_le_1; [|exact H]. apply filter_le_within. Qed.
(** * the harmonic numbers *)
Fixpoint hn (m : nat) (x : R) : R := match m with O => 0 | S k => hn k x + (1 - (1 - x) ^ S k) / INR (S k) end.
Fixpoint dh (m : nat) (x : R) : R := match m with O => 0 | S k => dh k x + (1 - x) ^ k end.
Lemma hn_der m (x : R) : is_derive (hn m) x (dh m x).
Proof.
  induction m as [|m IH]; [exact (is_derive_const (K := R_AbsRing) (V := R_NormedModule) 0 x)|].
  apply (is_derive_plus (hn m) (fun x => (1 - (1 - x) ^ S m) / INR (S m)) x (dh m x) ((1 - x) ^ m)); [exact IH|]. clear IH.
  pose proof (lt_0_INR (S m) ltac:(lia)) as Hm. evar_last.
  - apply (is_derive_ext (fun x => / INR (S m) * (1 - (1 - x) ^ S m))); [intros; apply Rmult_comm|]. apply (is_derive_scal (fun x => 1 - (1 - x) ^ S m) x (/ INR (S m)) (INR (S m) * (1 - x) ^ m)).
    evar_last; [apply (is_derive_minus (fun _ => 1) (fun x => (1 - x) ^ S m) x 0 (INR (S m) * (- (1)) * (1 - x) ^ m)); [exact (is_derive_const (K := R_AbsRing) (V := R_NormedModule) 1 x)|]|unfold minus, plus, opp; simpl minus; cbn [AbelianGroup.plus AbelianGroup.opp]; simpl; ring].
    apply (is_derive_pow (fun x => 1 - x) (S m) x (- (1))). auto_derive; auto.
  - field. lra.
Qed.
Lemma dh_x m x : x * dh m x = 1 - (1 - x) ^ m.
Proof. induction m as [|m IH]; simpl; [ring|]. rewrite Rmult_plus_distr_l, IH. ring. Qed.
Lemma hn_0 m : hn m 0 = 0.
Proof. induction m as [|m IH]; simpl hn; [auto|]. rewrite IH, Rminus_0_r, pow1. unfold Rdiv. ring. Qed.
Lemma hn_1 m : hn m 1 = harmonic m.
Proof.
  induction m as [|m IH]; [reflexivity|]. change (hn m 1 + (1 - (1 - 1) * (1 - 1) ^ m) / INR (S m) = harmonic m + / INR (S m)). rewrite IH. unfold Rdiv. ring.
Qed.
Lemma bernoulli x n : 0 <= x <= 1 -> 1 - INR n * x <= (1 - x) ^ n.
Proof.
  intros Hx. induction n as [|n IH]; [simpl; lra|]. rewrite S_INR. pose proof (pos_INR n). simpl pow. assert (0 <= (1 - x) ^ n <= 1) as B by (split; [apply pow_le; lra|]; apply Rle_trans with (1 ^ n); [apply pow_incr; lra|rewrite pow1; lra]). assert (0 <= x * (1 - (1 - x) ^ n)) by (apply Rmult_le_pos; lra). lra.
Qed.
Lemma exp_mul_pow q n : exp (INR n * q) = exp q ^ n.
Proof. induction n as [|n IH]; [simpl; rewrite Rmult_0_l; apply exp_0|]. rewrite S_INR. simpl pow. rewrite <- IH, <- exp_plus. f_equal. ring. Qed.
Lemma pow_bounds t n : (0 < n)%nat -> 0 <= t <= INR n -> 0 <= exp (- t) - (1 - t / INR n) ^ n <= t * t * exp (- t) / INR n.
Proof.
  intros Hn Ht. pose proof (lt_0_INR n Hn) as Pn. set (q := t / INR n). assert (t = INR n * q) as Et by (unfold q; field; lra).
  assert (0 <= q <= 1) as Hq. { split; [apply Rdiv_le_0_compat; lra|]. apply (Rmult_le_reg_l (INR n)); auto. lra. }
  assert (exp (- t) = exp (- q) ^ n) as E by (rewrite <- exp_mul_pow, Et; f_equal; ring).
  assert (1 - q <= exp (- q)) as B1. { destruct (Req_dec q 0) as [->|N]; [rewrite Ropp_0, exp_0; lra|]. pose proof (exp_ineq1 (- q) ltac:(lra)). lra. }
  assert (1 + q <= exp q) as B2. { destruct (Req_dec q 0) as [->|N]; [rewrite exp_0; lra|]. pose proof (exp_ineq1 q ltac:(lra)). lra. }
  split.
  - rewrite E. assert ((1 - q) ^ n <= exp (- q) ^ n); [|lra]. apply pow_incr. lra.
  - assert ((1 + q) ^ n <= exp t) as B3 by (rewrite Et, exp_mul_pow; apply pow_incr; lra).
    assert (1 - INR n * (q * q) <= (1 - q) ^ n * (1 + q) ^ n) as B4. { rewrite <- Rpow_mult_distr. replace ((1 - q) * (1 + q)) with (1 - q * q) by ring. apply bernoulli. nra. }
    assert (0 <= (1 - q) ^ n) as B5 by (apply pow_le; lra).
    assert (exp t * exp (- t) = 1) as B6 by (rewrite <- exp_plus, Rplus_opp_r; apply exp_0). pose proof (exp_pos (- t)) as B7.
    assert (t * t * exp (- t) / INR n = INR n * (q * q) * exp (- t)) as -> by (rewrite Et; field; lra).
    assert ((1 - q) ^ n = (1 - q) ^ n * exp t * exp (- t)) as -> by (rewrite Rmult_assoc, B6; ring).
    assert (1 - INR n * (q * q) <= (1 - q) ^ n * exp t) by nra. nra.
Qed.
Lemma euler_bounds C n : filterlim eB (at_right 0) (locally C) -> (0 < n)%nat -> C <= eB (INR n) + harmonic n <= C + 1 / INR n.
Proof.
  intros HC Hn. pose proof (lt_0_INR n Hn) as Pn. set (D := fun t => eB t + hn n (t / INR n)).
  assert (D (INR n) = eB (INR n) + harmonic n) as ED by (unfold D; unfold Rdiv; rewrite Rinv_r by lra; now rewrite hn_1).
  assert (forall t : R, 0 < t -> is_derive D t ((exp (- t) - (1 - t / INR n) ^ n) / t)) as DD.
  { intros t Ht. evar_last.
    - apply (is_derive_plus eB (fun t => hn n (t / INR n)) t (- ((1 - exp (- t)) / t)) (/ INR n * dh n (t / INR n))); [now apply eB_der|].
      apply (is_derive_comp (hn n) (fun t => t / INR n) t (dh n (t / INR n)) (/ INR n)); [apply hn_der|auto_derive; auto; field; lra].
    - unfold plus; simpl. pose proof (dh_x n (t / INR n)) as K. replace ((1 - t / INR n) ^ n) with (1 - t / INR n * dh n (t / INR n)) by lra. field. lra. }
  assert (filterlim D (at_right 0) (locally C)) as LD.
  { rewrite <- (Rplus_0_r C). apply (filterlim_comp_2 eB (fun t => hn n (t / INR n)) plus HC (H := locally 0)); [|apply (filterlim_plus (K := R_AbsRing) (V := R_NormedModule) C 0)].
    apply der_at0; [|unfold Rdiv; rewrite Rmult_0_l; apply hn_0]. apply (ex_derive_continuous (fun t => hn n (t / INR n))). exists (/ INR n * dh n (0 / INR n)).
    apply (is_derive_comp (hn n) (fun t => t / INR n) 0 (dh n (0 / INR n)) (/ INR n)); [apply hn_der|auto_derive; auto; field; lra]. }
  rewrite <- ED. split.
  - rewrite <- (Rplus_0_r C). apply (prim_ge D (fun t => (exp (- t) - (1 - t / INR n) ^ n) / t) (fun _ => 0) (fun _ => 0) (INR n) C); auto; [|apply filterlim_const].
    intros t Ht. split; [now apply DD|split; [exact (is_derive_const (K := R_AbsRing) (V := R_NormedModule) 0 t)|]]. apply Rdiv_le_0_compat; [|lra]. apply pow_bounds; auto; lra.
  - apply Rle_trans with (C + (1 - (1 + INR n) * exp (- INR n)) / INR n).
    + apply (prim_le D (fun t => (exp (- t) - (1 - t / INR n) ^ n) / t) (fun t => (1 - (1 + t) * exp (- t)) / INR n) (fun t => t * exp (- t) / INR n) (INR n) C); auto.
      * intros t Ht. split; [now apply DD|split; [auto_derive; auto; field; lra|]]. pose proof (pow_bounds t n Hn ltac:(lra)) as [_ B]. apply (Rmult_le_reg_r t); [lra|].
        replace ((exp (- t) - (1 - t / INR n) ^ n) / t * t) with (exp (- t) - (1 - t / INR n) ^ n) by (field; lra). unfold Rdiv in *. lra.
      * apply der_at0; [|rewrite Ropp_0, exp_0; field; lra]. apply (ex_derive_continuous (fun t => (1 - (1 + t) * exp (- t)) / INR n)). auto_derive. lra.
    + unfold Rdiv. pose proof (exp_pos (- INR n)). pose proof (Rinv_0_lt_compat _ Pn). assert (0 <= (1 + INR n) * exp (- INR n)) by (apply Rmult_le_pos; lra). nra.
Qed.
Lemma euler_lim C : filterlim eB (at_right 0) (locally C) -> is_euler C.
Proof.
  intros HC. unfold is_euler. 
  assert (is_lim_seq (fun n => E1 (INR n)) 0) as LE by (apply (is_lim_comp_seq E1 INR p_infty 0 E1_lim); [exists 0%nat; discriminate|apply is_lim_seq_INR]).
  assert (is_lim_seq (fun n => / INR n) 0) as LI by (apply (is_lim_seq_inv INR p_infty); [apply is_lim_seq_INR|discriminate]).
  apply (is_lim_seq_le_le_loc (fun n => C + E1 (INR n)) _ (fun n => C + / INR n + E1 (INR n))).
  - exists 1%nat. intros n Hn. pose proof (euler_bounds C n HC ltac:(lia)) as B. unfold eB in B. unfold Rdiv in B. lra.
  - replace (Finite C) with (Finite (C + 0)) by (f_equal; ring). apply (is_lim_seq_plus' _ _ C 0); [apply is_lim_seq_const|exact LE].
  - replace (Finite C) with (Finite (C + 0 + 0)) by (f_equal; ring). apply (is_lim_seq_plus' _ _ (C + 0) 0); [|exact LE]. apply (is_lim_seq_plus' _ _ C 0); [apply is_lim_seq_const|exact LI].
Qed.
