(** The CRPS of the Poisson distribution. *)
From Verif Require Export L_count L_betagamma.
From Coq Require Import Psatz Lia.
From Coquelicot Require Import Coquelicot.
Open Scope R_scope.

Lemma LG1 t : LG 1 t = 1 - exp (- exp t).
Proof.
  assert (full (lg 1) (fun t => 1 - exp (- exp t)) 1) as K.
  { split; [|split].
    - intros x. auto_derive; auto. unfold lg. replace (1 * x - exp x) with (x + - exp x) by ring. rewrite exp_plus. ring.
    - replace (Finite 0) with (Finite (1 - exp (- 0))) by (f_equal; rewrite Ropp_0, exp_0; ring). apply is_lim_minus'; [apply is_lim_const|].
      apply (filterlim_comp _ _ _ exp (fun x => exp (- x)) _ (locally 0)); [apply lim_exp_m0|]. apply (ex_derive_continuous (fun x => exp (- x))). auto_derive. auto.
    - replace (Finite 1) with (Finite (1 - 0)) by (f_equal; ring). apply is_lim_minus'; [apply is_lim_const|].
      apply (is_lim_comp (fun x => exp (- x)) exp p_infty 0 p_infty); [|exact is_lim_exp_p|exists 0; easy].
      apply (is_lim_ext (fun x => exp (-1 * x + 0))); [intros x; f_equal; ring|]. apply lim_exp_lin. lra. }
  exact (full_uniq_prim _ _ _ _ _ t (full_lg 1 Rlt_0_1) K).
Qed.
Lemma gamma_fact n : Rgamma (INR n + 1) = INR (fact n).
Proof.
  induction n as [|n IH].
  - replace (INR 0 + 1) with 1 by (simpl; ring). destruct (full_lg 1 Rlt_0_1) as (_ & _ & L). simpl.
    assert (is_lim (LG 1) p_infty 1) as L'.
    { apply (is_lim_ext (fun t => 1 - exp (- exp t))); [intros; symmetry; apply LG1|]. replace (Finite 1) with (Finite (1 - 0)) by (f_equal; ring). apply is_lim_minus'; [apply is_lim_const|].
      apply (is_lim_comp (fun x => exp (- x)) exp p_infty 0 p_infty); [|exact is_lim_exp_p|exists 0; easy].
      apply (is_lim_ext (fun x => exp (-1 * x + 0))); [intros x; f_equal; ring|]. apply lim_exp_lin. lra. }
    apply is_lim_unique in L, L'. rewrite L in L'. injection L'. intros E. exact E.
  - pose proof (pos_INR n). rewrite S_INR, gamma_rec, IH by lra. change (fact (S n)) with (S n * fact n)%nat. rewrite mult_INR, S_INR. ring.
Qed.
Lemma LG_pois n l : 0 < l -> LG (INR n + 1) (ln l) = INR (fact n) * (1 - sumn (S n) (poisson_pmf l)).
Proof.
  intros Hl. induction n as [|n IH].
  - replace (INR 0 + 1) with 1 by (simpl; ring). rewrite LG1, exp_ln, sumn_S, sumn_0 by auto. unfold poisson_pmf. simpl. field.
  - pose proof (pos_INR n). rewrite S_INR, LG_rec, IH, (sumn_S (S n)) by lra. set (s := sumn (S n) (poisson_pmf l)). unfold poisson_pmf. pose proof (lt_0_INR _ (lt_O_fact n)). pose proof (lt_0_INR _ (lt_O_fact (S n))) as Q.
    assert (lg (INR n + 1) (ln l) = l ^ S n * exp (- l)) as ->. { unfold lg, Rminus. rewrite exp_plus, exp_ln by auto. f_equal. rewrite <- S_INR, <- Rpower_pow by auto. reflexivity. }
    assert (INR (fact (S n)) = (INR n + 1) * INR (fact n)) as E by (change (fact (S n)) with (S n * fact n)%nat; now rewrite mult_INR, S_INR). rewrite E in *. field. lra.
Qed.
Lemma inc_pois n l : 0 <= l -> 1 - Rgammainc (INR n + 1) l = sumn (S n) (poisson_pmf l).
Proof.
  intros [Hl|<-].
  - pose proof (LG_pois n l Hl) as E. unfold LG in E. rewrite exp_ln, gamma_fact in E by auto. pose proof (lt_0_INR _ (lt_O_fact n)).
    apply (Rmult_eq_reg_l (INR (fact n))); [|lra]. lra.
  - unfold Rgammainc. destruct (Req_EM_T 0 0); [|lra]. induction n as [|n IH]; [rewrite sumn_S, sumn_0; unfold poisson_pmf; simpl; rewrite Ropp_0, exp_0; field|].
    rewrite sumn_S, <- IH. unfold poisson_pmf. rewrite pow_i by lia. unfold Rdiv. ring.
Qed.
Lemma pois_rec l k : INR (S k) * poisson_pmf l (S k) = l * poisson_pmf l k.
Proof.
  unfold poisson_pmf. pose proof (lt_0_INR _ (lt_O_fact k)). assert (INR (fact (S k)) = INR (S k) * INR (fact k)) as -> by (change (fact (S k)) with (S k * fact k)%nat; now rewrite mult_INR).
  assert (0 < INR (S k)) by (apply lt_0_INR; lia). change (l ^ S k) with (l * l ^ k). field. lra.
Qed.
Lemma pmf_le1 p k : pmf p -> 0 <= p k <= 1.
Proof.
  intros Hp. split; [apply Hp|]. pose proof (F_le p Hp (S k)) as B. pose proof (F_le p Hp k) as B'. rewrite sumn_S in B. lra.
Qed.
Lemma ex_sq p (s : nat -> nat) : pmf p -> ex_series (fun k => p k * p (s k)).
Proof.
  intros Hp. apply (ex_series_le (K := R_AbsRing) (V := R_CompleteNormedModule) (fun k => p k * p (s k)) p); [|exists 1; apply Hp].
  intros k. pose proof (pmf_le1 p k Hp). pose proof (pmf_le1 p (s k) Hp). unfold norm; simpl. unfold abs; simpl. rewrite Rabs_right by nra. nra.
Qed.
Lemma pois_W l : 0 <= l -> is_series (fun k => poisson_pmf l k * poisson_pmf l k) (exp (-2 * l) * Rbessel0 (2 * l)).
Proof.
  intros Hl. destruct (ex_sq (poisson_pmf l) (fun k => k) (poisson_sum l Hl)) as [W HW]. replace (exp (-2 * l) * Rbessel0 (2 * l)) with W; [exact HW|].
  rewrite <- (is_series_unique _ _ HW). unfold Rbessel0. rewrite <- Series_scal_l. apply Series_ext. intros k. replace (2 * l / 2) with l by field. unfold poisson_pmf.
  rewrite pow_mult, <- Rsqr_pow2. replace (-2 * l) with (- l + - l) by ring. rewrite exp_plus. pose proof (lt_0_INR _ (lt_O_fact k)).
  replace (l² ^ k) with (l ^ k * l ^ k) by (unfold Rsqr; rewrite Rpow_mult_distr; auto). field. lra.
Qed.
Lemma pois_V l : 0 <= l -> is_series (fun k => poisson_pmf l k * poisson_pmf l (S k)) (exp (-2 * l) * Rbessel1 (2 * l)).
Proof.
  intros Hl. destruct (ex_sq (poisson_pmf l) S (poisson_sum l Hl)) as [W HW]. replace (exp (-2 * l) * Rbessel1 (2 * l)) with W; [exact HW|].
  rewrite <- (is_series_unique _ _ HW). unfold Rbessel1. rewrite <- Series_scal_l. apply Series_ext. intros k. replace (2 * l / 2) with l by field. unfold poisson_pmf.
  rewrite pow_add, pow_mult, <- Rsqr_pow2, pow_1. replace (-2 * l) with (- l + - l) by ring. rewrite exp_plus. pose proof (lt_0_INR _ (lt_O_fact k)). pose proof (lt_0_INR _ (lt_O_fact (S k))).
  replace (l² ^ k) with (l ^ k * l ^ k) by (unfold Rsqr; rewrite Rpow_mult_distr; auto). change (l ^ S k) with (l * l ^ k). field. lra.
Qed.
Lemma pois_crps l y : 0 <= l -> is_crps (count_cdf (poisson_pmf l)) y
  ((y - l) * (2 * count_cdf (poisson_pmf l) y - 1) + 2 * l * (if Rlt_dec y 0 then 0 else poisson_pmf l (fl y)) - l * exp (-2 * l) * (Rbessel0 (2 * l) + Rbessel1 (2 * l))).
Proof.
  intros Hl. pose proof (poisson_sum l Hl) as Hp.
  pose proof (biased_crps (poisson_pmf l) (poisson_pmf l) l 1 _ _ Hp Hp (pois_rec l) ltac:(intros m; cbv beta; rewrite (sumn_S (S m)); ring) (pois_W l Hl) (pois_V l Hl) y) as K.
  eapply crps_eq; [reflexivity| |exact K]. unfold count_cdf. fold (fl y) (fl (y - 1)). destruct (Rlt_dec y 0) as [L|L].
  - destruct (Rlt_dec (y - 1) 0); [ring|lra].
  - rewrite (sumn_S (fl y)). pose proof (fl_spec y ltac:(lra)) as B. destruct (Rlt_dec (y - 1) 0) as [L1|L1].
    + rewrite (fl_unique 0 y), sumn_0; [ring|]. simpl. lra.
    + assert (fl y <> 0)%nat as N0 by (intros E; rewrite E in B; simpl in B; lra). rewrite (fl_unique (fl y - 1) (y - 1)); [|rewrite minus_INR by lia; simpl; lra].
      replace (S (fl y - 1)) with (fl y) by lia. ring.
Qed.
