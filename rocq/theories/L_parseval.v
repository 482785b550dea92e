(** The integral over the circle of (1 - 2 x cos + x^2)^-a against 1 + cos, by the expansion of (1 - x e^(i th))^-a. *)
From Verif Require Export L_count.
From Coq Require Import Psatz Lia.
From Coquelicot Require Import Coquelicot.
Open Scope R_scope.

Definition cD (x th : R) : R := 1 - 2 * x * cos th + x ^ 2.
Lemma cD_pos x th : 0 <= x < 1 -> 0 < cD x th.
Proof. intros Hx. unfold cD. pose proof (COS_bound th). nra. Qed.
Lemma CV_radius_le (a b : nat -> R) : (forall n, Rabs (a n) <= Rabs (b n)) -> Rbar_le (CV_radius b) (CV_radius a).
Proof.
  intros H. destruct (CV_radius_bounded b) as [_ L]. destruct (CV_radius_bounded a) as [B _]. apply L. intros r [M HM]. apply B. exists M. intros n.
  eapply Rle_trans; [|apply (HM n)]. rewrite !Rabs_mult. apply Rmult_le_compat_r; [apply Rabs_pos|apply H].
Qed.
Section expand.
Variables (a th : R).
Hypothesis Ha : 0 < a.
Let ct := cos th.
Let st := sin th.
Let u k := rising a k * cos (INR k * th).
Let v k := rising a k * sin (INR k * th).
Let U := PSeries u.
Let V := PSeries v.
Lemma uv_next k : INR (S k) * u (S k) = (a + INR k) * (ct * u k - st * v k) /\ INR (S k) * v (S k) = (a + INR k) * (st * u k + ct * v k).
Proof.
  unfold u, v, ct, st. assert (INR (S k) * th = INR k * th + th) as -> by (rewrite S_INR; ring). rewrite cos_plus, sin_plus. cbn [rising]. pose proof (lt_0_INR (S k) ltac:(lia)). split; field; lra.
Qed.
Lemma uv_radius : Rbar_le 1 (CV_radius u) /\ Rbar_le 1 (CV_radius v).
Proof.
  rewrite <- (rising_radius a Ha). split; apply CV_radius_le; intros n; unfold u, v; rewrite Rabs_mult; pose proof (rising_pos a n Ha); rewrite (Rabs_right (rising a n)) by lra.
  - pose proof (Rabs_le _ 1 (COS_bound (INR n * th))). nra.
  - pose proof (Rabs_le _ 1 (SIN_bound (INR n * th))). nra.
Qed.
Lemma uv_ex x : Rabs x < 1 -> ex_pseries u x /\ ex_pseries v x /\ ex_pseries (PS_derive u) x /\ ex_pseries (PS_derive v) x.
Proof.
  intros Hx. destruct uv_radius as [Ru Rv]. repeat split; apply CV_radius_inside; rewrite ?CV_radius_derive; (eapply Rbar_lt_le_trans; [|eassumption]); exact Hx.
Qed.
Lemma uv_der x : Rabs x < 1 -> is_derive U x (PSeries (PS_derive u) x) /\ is_derive V x (PSeries (PS_derive v) x).
Proof. intros Hx. destruct uv_radius as [Ru Rv]. split; apply is_derive_PSeries; (eapply Rbar_lt_le_trans; [|eassumption]); exact Hx. Qed.
Lemma uv_ode x : Rabs x < 1 -> let U' := PSeries (PS_derive u) x in let V' := PSeries (PS_derive v) x in
  U' = ct * (a * U x + x * U') - st * (a * V x + x * V') /\ V' = st * (a * U x + x * U') + ct * (a * V x + x * V').
Proof.
  intros Hx. cbv zeta. destruct (uv_ex x Hx) as (Eu & Ev & Eu' & Ev').
  assert (forall w, ex_pseries w x -> ex_pseries (PS_derive w) x -> is_pseries (fun k => (a + INR k) * w k) x (a * PSeries w x + x * PSeries (PS_derive w) x)) as K.
  { intros w E E'. apply (is_pseries_ext (PS_plus (PS_scal a w) (PS_incr_1 (PS_derive w)))).
    - intros [|k]; unfold PS_plus, PS_scal, PS_incr_1, PS_derive, plus, scal; simpl; unfold mult; simpl; unfold zero; simpl; [ring|]. ring.
    - apply (is_pseries_plus (K := R_AbsRing) (V := R_NormedModule)).
      + apply (is_pseries_scal (K := R_AbsRing) (V := R_NormedModule)); [apply Rmult_comm|now apply PSeries_correct].
      + apply (is_pseries_incr_1 (K := R_AbsRing) (V := R_NormedModule)). now apply PSeries_correct. }
  pose proof (K u Eu Eu') as Ku. pose proof (K v Ev Ev') as Kv. fold U V in Ku, Kv. clear K.
  assert (forall p q, is_pseries (fun k => p * ((a + INR k) * u k) + q * ((a + INR k) * v k)) x (p * (a * U x + x * PSeries (PS_derive u) x) + q * (a * V x + x * PSeries (PS_derive v) x))) as L.
  { intros p q. apply (is_pseries_plus (K := R_AbsRing) (V := R_NormedModule) (fun k => p * ((a + INR k) * u k)) (fun k => q * ((a + INR k) * v k)));
    apply (is_pseries_scal (K := R_AbsRing) (V := R_NormedModule) _ (fun k => _)); try apply Rmult_comm; assumption. }
  split.
  - apply is_pseries_unique. replace (ct * (a * U x + x * PSeries (PS_derive u) x) - st * (a * V x + x * PSeries (PS_derive v) x)) with (ct * (a * U x + x * PSeries (PS_derive u) x) + - st * (a * V x + x * PSeries (PS_derive v) x)) by ring.
    eapply is_pseries_ext; [|apply (L ct (- st))]. intros k. unfold PS_derive. symmetry. etransitivity; [apply (proj1 (uv_next k))|rring].
  - apply is_pseries_unique.
    eapply is_pseries_ext; [|apply (L st ct)]. intros k. unfold PS_derive. symmetry. etransitivity; [apply (proj2 (uv_next k))|rring].
Qed.
Lemma uv_sq x : 0 <= x < 1 -> U x ^ 2 + V x ^ 2 = Rpower (cD x th) (- a).
Proof.
  intros Hx. set (g := fun t => (U t ^ 2 + V t ^ 2) * Rpower (cD t th) a).
  assert (forall t, 0 <= t < 1 -> is_derive g t 0) as Dg.
  { intros t Ht. assert (Rabs t < 1) as Ht' by (rewrite Rabs_right; lra). destruct (uv_der t Ht') as [DU DV]. destruct (uv_ode t Ht') as [OU OV].
    set (U' := PSeries (PS_derive u) t) in *. set (V' := PSeries (PS_derive v) t) in *. pose proof (cD_pos t th Ht) as PD. unfold g. evar_last.
    - apply (is_derive_mult (fun t => U t ^ 2 + V t ^ 2) (fun t => Rpower (cD t th) a) t (2 * U t * U' + 2 * V t * V') (a * (2 * t - 2 * ct) / cD t th * Rpower (cD t th) a)); [| |intros; apply Rmult_comm].
      + apply (is_derive_plus (fun t => U t ^ 2) (fun t => V t ^ 2) t (2 * U t * U') (2 * V t * V')).
        * evar_last; [apply (is_derive_pow U 2 t U' DU)|simpl; ring].
        * evar_last; [apply (is_derive_pow V 2 t V' DV)|simpl; ring].
      + unfold Rpower, cD in *. auto_derive; [exact PD|]. replace (1 + - (2 * t * cos th) + t * (t * 1)) with (1 - 2 * t * cos th + t ^ 2) by ring. unfold ct. field. lra.
    - unfold plus, mult; simpl. assert (ct * ct + st * st = 1) as CS by (unfold ct, st; rewrite <- (sin2_cos2 th); unfold Rsqr; ring).
      assert ((1 - t * ct) * U' + t * st * V' = a * (ct * U t - st * V t)) as E1 by lra. assert (- (t * st) * U' + (1 - t * ct) * V' = a * (st * U t + ct * V t)) as E2 by lra.
      assert (cD t th = (1 - t * ct) ^ 2 + (t * st) ^ 2) as ED. { unfold cD. fold ct. replace ((1 - t * ct) ^ 2 + (t * st) ^ 2) with (1 - 2 * t * ct + t ^ 2 * (ct * ct + st * st)) by ring. rewrite CS. ring. }
      assert (cD t th * (U t * U' + V t * V') = a * (ct - t) * (U t ^ 2 + V t ^ 2)) as E.
      { rewrite ED. replace (((1 - t * ct) ^ 2 + (t * st) ^ 2) * (U t * U' + V t * V')) with
          (((1 - t * ct) * U t + t * st * V t) * ((1 - t * ct) * U' + t * st * V') + (- (t * st) * U t + (1 - t * ct) * V t) * (- (t * st) * U' + (1 - t * ct) * V')) by ring.
        rewrite E1, E2. replace (((1 - t * ct) * U t + t * st * V t) * (a * (ct * U t - st * V t)) + (- (t * st) * U t + (1 - t * ct) * V t) * (a * (st * U t + ct * V t))) with (a * (U t ^ 2 + V t ^ 2) * (ct - t * (ct * ct + st * st))) by ring.
        rewrite CS. ring. }
      apply (Rmult_eq_reg_l (cD t th)); [|lra]. rewrite Rmult_0_r.
      match goal with |- ?l = 0 => replace l with (Rpower (cD t th) a * (2 * (cD t th * (U t * U' + V t * V')) - a * (2 * ct - 2 * t) * (U t ^ 2 + V t ^ 2))) by (simpl; field; lra) end. rewrite E. simpl; ring. }
  assert (g x = 1) as G.
  { replace 1 with (g 0).
    - destruct (Req_dec x 0) as [->|N]; [reflexivity|]. assert (0 < x) as Hx0 by lra. destruct (MVT_gen g 0 x (fun _ => 0)) as (c & _ & E).
      + intros t Ht. apply Dg. rewrite Rmin_left, Rmax_right in Ht by lra. lra.
      + intros t Ht. rewrite Rmin_left, Rmax_right in Ht by lra. apply derivable_continuous_pt. exists 0. apply is_derive_Reals, Dg. lra.
      + lra.
    - unfold g, U, V. rewrite !PSeries_0. unfold u, v, cD. simpl. rewrite Rmult_0_l, cos_0, sin_0. replace (1 - 2 * 0 * cos th + 0 * (0 * 1)) with 1 by ring. unfold Rpower. replace (a * ln 1) with 0 by (rewrite ln_1; ring). rewrite exp_0. ring. }
  unfold g in G. rewrite Rpower_Ropp. pose proof (exp_pos (a * ln (cD x th))) as P. fold (Rpower (cD x th) a) in P.
  apply (Rmult_eq_reg_r (Rpower (cD x th) a)); [rewrite G; field|]; lra.
Qed.
Lemma uv_lim x : Rabs x < 1 -> is_lim_seq (fun n => sumn n (fun k => rising a k * x ^ k * cos (INR k * th))) (U x) /\ is_lim_seq (fun n => sumn n (fun k => rising a k * x ^ k * sin (INR k * th))) (V x).
Proof.
  intros Hx. destruct (uv_ex x Hx) as (Eu & Ev & _). apply PSeries_correct, is_pseries_R, sumn_lim in Eu. apply PSeries_correct, is_pseries_R, sumn_lim in Ev. fold U V in Eu, Ev.
  split; [eapply is_lim_seq_ext; [|exact Eu]|eapply is_lim_seq_ext; [|exact Ev]]; intros n; apply sumn_ext; intros k _; unfold u, v; ring.
Qed.
End expand.
(** * integrals of cosines *)
Lemma sin_INR_PI n : sin (INR n * PI) = 0.
Proof. induction n as [|n IH]; [simpl; rewrite Rmult_0_l; apply sin_0|]. rewrite S_INR, Rmult_plus_distr_r, Rmult_1_l, neg_sin, IH. ring. Qed.
Lemma cos_int m : (0 < m)%nat -> is_RInt (fun th => (1 + cos th) * cos (INR m * th)) 0 PI (if (m =? 1)%nat then PI / 2 else 0).
Proof.
  intros Hm. destruct (Nat.eqb_spec m 1) as [->|N].
  - replace (PI / 2) with (minus ((fun th => sin th + sin th * cos th / 2 + th / 2) PI) ((fun th => sin th + sin th * cos th / 2 + th / 2) 0)).
    2: { unfold minus, plus, opp; simpl. rewrite sin_PI, sin_0. field. }
    apply (is_RInt_derive (V := R_CompleteNormedModule) (fun th => sin th + sin th * cos th / 2 + th / 2)).
    + intros x _. auto_derive; auto. change (INR 1) with 1. rewrite (Rmult_1_l x). pose proof (sin2_cos2 x) as E. unfold Rsqr in E. match goal with |- ?l = ?r => change (@eq R l r) end. nra.
    + intros x _. apply (ex_derive_continuous (V := R_NormedModule)). auto_derive. auto.
  - assert (0 < INR m - 1) as H1 by (assert (INR 1 < INR m) by (apply lt_INR; lia); simpl in *; lra).
    set (P := fun th => sin (INR m * th) / INR m + sin ((INR m + 1) * th) / (2 * (INR m + 1)) + sin ((INR m - 1) * th) / (2 * (INR m - 1))).
    replace 0 with (minus (P PI) (P 0)) at 2.
    2: { unfold P, minus, plus, opp; simpl. rewrite !Rmult_0_r, sin_0. rewrite <- S_INR. replace (INR m - 1) with (INR (m - 1)) by (rewrite minus_INR by lia; simpl; ring). rewrite !sin_INR_PI. unfold Rdiv. ring. }
    apply (is_RInt_derive (V := R_CompleteNormedModule) P).
    + intros x _. unfold P. auto_derive; [lra|]. replace ((INR m + 1) * x) with (INR m * x + x) by ring. replace ((INR m - 1) * x) with (INR m * x - x) by ring. rewrite cos_plus, cos_minus. match goal with |- ?l = ?r => change (@eq R l r) end. field. lra.
    + intros x _. apply (ex_derive_continuous (V := R_NormedModule)). auto_derive. auto.
Qed.
Section parseval.
Variable al : nat -> R.
Definition eN n th := sumn n (fun k => al k * cos (INR k * th)).
Definition sN n th := sumn n (fun k => al k * sin (INR k * th)).
Lemma rint_lin (f g : R -> R) p q v w : is_RInt f 0 PI v -> is_RInt g 0 PI w -> is_RInt (fun t => p * f t + q * g t) 0 PI (p * v + q * w).
Proof. intros Hf Hg. apply (is_RInt_plus (V := R_NormedModule)); now apply (is_RInt_scal (V := R_NormedModule)). Qed.
Lemma cross_int n m : (n <= m)%nat -> is_RInt (fun th => (1 + cos th) * (eN n th * cos (INR m * th) + sN n th * sin (INR m * th))) 0 PI (if (n =? m)%nat then match n with O => 0 | S j => al j * (PI / 2) end else 0).
Proof.
  intros H. assert (is_RInt (fun th => (1 + cos th) * (eN n th * cos (INR m * th) + sN n th * sin (INR m * th))) 0 PI (sumn n (fun j => al j * (if (m - j =? 1)%nat then PI / 2 else 0)))) as K.
  { clear - H. induction n as [|n IH].
    - rewrite sumn_0. eapply (is_RInt_ext (V := R_NormedModule)); [|evar_last; [apply (is_RInt_const (V := R_NormedModule) 0 PI 0)|]].
      + intros x _. unfold eN, sN. rewrite !sumn_0. rring.
      + unfold scal; simpl; unfold mult; simpl. ring.
    - specialize (IH ltac:(lia)). rewrite sumn_S. pose proof (rint_lin _ _ 1 (al n) _ _ IH (cos_int (m - n) ltac:(lia))) as K. rewrite Rmult_1_l in K.
      eapply (is_RInt_ext (V := R_NormedModule)); [|exact K]. intros x _. unfold eN, sN. rewrite !sumn_S. rewrite minus_INR by lia. replace ((INR m - INR n) * x) with (INR m * x - INR n * x) by ring. rewrite cos_minus. rring. }
  match type of K with is_RInt _ _ _ ?v => match goal with |- is_RInt _ _ _ ?w => replace w with v; [exact K|] end end. clear K.
  destruct (Nat.eqb_spec n m) as [<-|N].
  - destruct n as [|n]; [apply sumn_0|]. rewrite sumn_S. replace (S n - n =? 1)%nat with true by (symmetry; apply Nat.eqb_eq; lia).
    rewrite (sumn_ext n _ (fun _ => 0)); [rewrite sumn_zero; ring|]. intros j Hj. destruct (Nat.eqb_spec (S n - j) 1); [lia|ring].
  - rewrite (sumn_ext n _ (fun _ => 0)); [apply sumn_zero|]. intros j Hj. destruct (Nat.eqb_spec (m - j) 1); [lia|ring].
Qed.
Lemma sq_int n : is_RInt (fun th => (1 + cos th) * (eN n th ^ 2 + sN n th ^ 2)) 0 PI (PI * (sumn n (fun k => al k * al k) + sumn (pred n) (fun k => al k * al (S k)))).
Proof.
  induction n as [|n IH].
  - simpl pred. rewrite !sumn_0. eapply (is_RInt_ext (V := R_NormedModule)); [|evar_last; [apply (is_RInt_const (V := R_NormedModule) 0 PI 0)|]].
    + intros x _. unfold eN, sN. rewrite !sumn_0. rring.
    + unfold scal; simpl; unfold mult; simpl. ring.
  - pose proof (cross_int n n (le_n n)) as C. rewrite Nat.eqb_refl in C. set (c := match n with O => 0 | S j => al j * (PI / 2) end) in *.
    assert (is_RInt (fun th => 1 + cos th) 0 PI PI) as O1.
    { replace PI with (minus ((fun t => t + sin t) PI) ((fun t => t + sin t) 0)) at 2 by (unfold minus, plus, opp; simpl; rewrite sin_PI, sin_0; ring).
      apply (is_RInt_derive (V := R_CompleteNormedModule) (fun t => t + sin t)); [intros x _; auto_derive; auto; ring|]. intros x _. apply (ex_derive_continuous (V := R_NormedModule)). auto_derive. auto. }
    pose proof (rint_lin _ _ 1 1 _ _ IH (rint_lin _ _ (2 * al n) (al n * al n) _ _ C O1)) as K.
    match type of K with is_RInt _ _ _ ?v => match goal with |- is_RInt _ _ _ ?w => replace w with v end end.
    + eapply (is_RInt_ext (V := R_NormedModule)); [|exact K]. intros x _. unfold eN, sN. rewrite !sumn_S. pose proof (sin2_cos2 (INR n * x)) as E. unfold Rsqr in E.
      set (C1 := cos (INR n * x)) in *. set (S1 := sin (INR n * x)) in *. match goal with |- ?l = ?r => change (@eq R l r) end.
      replace (al n * al n * (1 + cos x)) with (al n * al n * (S1 * S1 + C1 * C1) * (1 + cos x)) by (rewrite E; ring). ring.
    + unfold c. destruct n as [|n]; [simpl pred; rewrite sumn_S, !sumn_0; field|]. simpl pred. rewrite !sumn_S. field.
Qed.
End parseval.
Lemma sumn_le_tail (b al : nat -> R) (B S : R) n : (forall k, Rabs (b k) <= al k) -> is_lim_seq (fun n => sumn n b) B -> is_lim_seq (fun n => sumn n al) S -> Rabs (B - sumn n b) <= S - sumn n al.
Proof.
  intros H HB HS. apply (is_lim_seq_le (fun m => Rabs (sumn (m + n) b - sumn n b)) (fun m => sumn (m + n) al - sumn n al) (Rabs (B - sumn n b)) (S - sumn n al)).
  - intros m. induction m as [|m IH]; [rewrite !Nat.add_0_l, !Rminus_diag_eq, Rabs_R0 by auto; lra|]. change (Datatypes.S m + n)%nat with (Datatypes.S (m + n)). rewrite !(sumn_S (m + n)). specialize (H (m + n)%nat).
    replace (sumn (m + n) b + b (m + n)%nat - sumn n b) with ((sumn (m + n) b - sumn n b) + b (m + n)%nat) by ring. eapply Rle_trans; [apply Rabs_triang|]. lra.
  - apply (is_lim_seq_abs (fun m => sumn (m + n) b - sumn n b) (B - sumn n b)). apply is_lim_seq_minus'; [now apply (is_lim_seq_incr_n (fun n => sumn n b))|apply is_lim_seq_const].
  - apply is_lim_seq_minus'; [now apply (is_lim_seq_incr_n (fun n => sumn n al))|apply is_lim_seq_const].
Qed.
Theorem circle_int a x W V : 0 < a -> 0 <= x < 1 -> is_series (fun k => (rising a k * x ^ k) * (rising a k * x ^ k)) W -> is_series (fun k => (rising a k * x ^ k) * (rising a (S k) * x ^ S k)) V ->
  is_RInt (fun th => (1 + cos th) * Rpower (cD x th) (- a)) 0 PI (PI * (W + V)).
Proof.
  intros Ha Hx HW HV. set (al := fun k => rising a k * x ^ k) in *. set (S := Rpower (1 - x) (- a)).
  assert (is_lim_seq (fun n => sumn n al) S) as HS by (apply sumn_lim; now apply rising_series).
  assert (forall k, 0 <= al k) as Pal by (intros k; unfold al; apply Rmult_le_pos; [left; now apply rising_pos|apply pow_le; lra]).
  assert (forall n, 0 <= sumn n al) as Psn by (intros n; induction n as [|n IH]; [rewrite sumn_0; lra|rewrite sumn_S; specialize (Pal n); lra]).
  assert (0 <= S) as PS by (left; apply exp_pos).
  assert (forall n th, Rabs (Rpower (cD x th) (- a) - (eN al n th ^ 2 + sN al n th ^ 2)) <= 4 * S * (S - sumn n al)) as Err.
  { intros n th. rewrite <- (uv_sq a th Ha x Hx). destruct (uv_lim a th Ha x ltac:(rewrite Rabs_right; lra)) as [LU LV].
    set (U := PSeries (fun k => rising a k * cos (INR k * th)) x) in *. set (Vv := PSeries (fun k => rising a k * sin (INR k * th)) x) in *.
    assert (forall k, Rabs (al k * cos (INR k * th)) <= al k) as Bc by (intros k; rewrite Rabs_mult, (Rabs_right (al k)) by (apply Rle_ge, Pal); pose proof (Rabs_le _ 1 (COS_bound (INR k * th))); specialize (Pal k); nra).
    assert (forall k, Rabs (al k * sin (INR k * th)) <= al k) as Bs by (intros k; rewrite Rabs_mult, (Rabs_right (al k)) by (apply Rle_ge, Pal); pose proof (Rabs_le _ 1 (SIN_bound (INR k * th))); specialize (Pal k); nra).
    pose proof (sumn_le_tail _ al U S n Bc LU HS) as T1. pose proof (sumn_le_tail _ al Vv S n Bs LV HS) as T2. fold (eN al n th) in T1. fold (sN al n th) in T2.
    pose proof (sumn_le_tail _ al U S 0 Bc LU HS) as T3. pose proof (sumn_le_tail _ al Vv S 0 Bs LV HS) as T4. rewrite !sumn_0, !Rminus_0_r in T3, T4.
    assert (forall f, (forall k, Rabs (f k) <= al k) -> Rabs (sumn n f) <= sumn n al) as Fin.
    { intros f Hf. clear - Hf. induction n as [|n IH]; [rewrite !sumn_0, Rabs_R0; lra|]. rewrite !sumn_S. eapply Rle_trans; [apply Rabs_triang|]. specialize (Hf n). lra. }
    pose proof (Fin _ Bc) as T5. pose proof (Fin _ Bs) as T6. fold (eN al n th) in T5. fold (sN al n th) in T6. pose proof (Psn n) as Pn.
    pose proof (sumn_le_tail al al S S n ltac:(intros k; rewrite Rabs_right; [lra|apply Rle_ge, Pal]) HS HS) as T7. pose proof (Rabs_pos (S - sumn n al)) as T8.
    replace (U ^ 2 + Vv ^ 2 - (eN al n th ^ 2 + sN al n th ^ 2)) with ((U - eN al n th) * (U + eN al n th) + (Vv - sN al n th) * (Vv + sN al n th)) by ring.
    eapply Rle_trans; [apply Rabs_triang|]. rewrite !Rabs_mult. pose proof (Rabs_triang U (eN al n th)) as T9. pose proof (Rabs_triang Vv (sN al n th)) as T10.
    assert (Rabs (U - eN al n th) * Rabs (U + eN al n th) <= (S - sumn n al) * (2 * S)) by (apply Rmult_le_compat; try apply Rabs_pos; lra).
    assert (Rabs (Vv - sN al n th) * Rabs (Vv + sN al n th) <= (S - sumn n al) * (2 * S)) by (apply Rmult_le_compat; try apply Rabs_pos; lra). lra. }
  set (f := fun th => (1 + cos th) * Rpower (cD x th) (- a)).
  assert (forall th, continuous f th) as Cf.
  { intros th. apply (ex_derive_continuous (V := R_NormedModule)). unfold f, Rpower, cD. auto_derive. pose proof (cD_pos x th Hx) as Q. unfold cD in Q. simpl in *. lra. }
  assert (ex_RInt f 0 PI) as [I HI] by (apply (ex_RInt_continuous (V := R_CompleteNormedModule)); intros; apply Cf). fold f.
  replace (PI * (W + V)) with I; [exact HI|]. pose proof PI_RGT_0 as HPI.
  set (In := fun n => PI * (sumn n (fun k => al k * al k) + sumn (pred n) (fun k => al k * al (Datatypes.S k)))).
  assert (forall n, Rabs (I - In n) <= PI * (8 * S * (S - sumn n al))) as Bd.
  { intros n. pose proof (is_RInt_minus (V := R_NormedModule) _ _ _ _ _ _ HI (sq_int al n)) as D. fold (In n) in D.
    assert (forall t, 0 <= t <= PI -> norm ((fun y => minus (f y) ((fun th => (1 + cos th) * (eN al n th ^ 2 + sN al n th ^ 2)) y)) t) <= 8 * S * (S - sumn n al)) as Q.
    { intros t _. unfold norm; simpl. unfold abs, minus, plus, opp; simpl. unfold f. pose proof (Err n t) as E. pose proof (COS_bound t) as Ct.
      match goal with |- Rabs ?e <= _ => replace e with ((1 + cos t) * (Rpower (cD x t) (- a) - (eN al n t ^ 2 + sN al n t ^ 2))) by (simpl; ring) end.
      rewrite Rabs_mult, (Rabs_right (1 + cos t)) by lra. pose proof (Rabs_pos (Rpower (cD x t) (- a) - (eN al n t ^ 2 + sN al n t ^ 2))). nra. }
    pose proof (norm_RInt_le_const (V := R_NormedModule) _ 0 PI _ (8 * S * (S - sumn n al)) ltac:(lra) Q D) as B. unfold norm in B; simpl in B. unfold abs, minus, plus, opp in B; simpl in B. rewrite Rminus_0_r in B. exact B. }
  assert (is_lim_seq In (PI * (W + V))) as L1.
  { apply (is_lim_seq_scal_l _ PI (W + V)). apply is_lim_seq_plus'; [now apply sumn_lim|]. apply (is_lim_seq_incr_1 (fun n => sumn (pred n) _)). apply sumn_lim. exact HV. }
  assert (is_lim_seq In I) as L2.
  { assert (is_lim_seq (fun n => PI * (8 * S * (S - sumn n al))) 0) as Z.
    { replace (Finite 0) with (Finite (PI * (8 * S * (S - S)))) by (f_equal; ring). apply (is_lim_seq_scal_l _ PI (8 * S * (S - S))), (is_lim_seq_scal_l _ (8 * S) (S - S)). apply is_lim_seq_minus'; [apply is_lim_seq_const|exact HS]. }
    apply (is_lim_seq_le_le (fun n => I - PI * (8 * S * (S - sumn n al))) _ (fun n => I + PI * (8 * S * (S - sumn n al)))).
    - intros n. specialize (Bd n). apply Rcomplements.Rabs_le_between in Bd. lra.
    - replace (Finite I) with (Finite (I - 0)) by (f_equal; ring). apply is_lim_seq_minus'; [apply is_lim_seq_const|exact Z].
    - replace (Finite I) with (Finite (I + 0)) by (f_equal; ring). apply is_lim_seq_plus'; [apply is_lim_seq_const|exact Z]. }
  apply is_lim_seq_unique in L1, L2. rewrite L1 in L2. now injection L2.
Qed.
