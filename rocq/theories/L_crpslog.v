(** The CRPS of the distribution of exp X: log-Laplace and log-logistic. *)
From Verif Require Export L_crpsbeta L_fam.
From Coq Require Import Psatz.
From Coquelicot Require Import Coquelicot.
Open Scope R_scope.

Lemma exp_crps F f N Q m q y : dist0 F f m_infty p_infty -> (forall x, is_derive N x (exp x * f x)) -> (forall x, is_derive Q x (2 * f x * N x)) ->
  is_lim N m_infty 0 -> is_lim N p_infty (Finite m) -> is_lim Q m_infty 0 -> is_lim Q p_infty (Finite q) ->
  is_crps (exp_cdf F) y (if Rle_dec y 0 then q - y else y * (2 * F (ln y) - 1) - 2 * N (ln y) + q).
Proof.
  intros D DN DQ N0 N1 Q0 Q1.
  assert (forall (G : R -> R) t d, 0 < t -> is_derive G (ln t) d -> is_derive (fun t => G (ln t)) t (d / t)) as C.
  { intros G t d Ht HG. evar_last; [apply (is_derive_comp G ln t d (/ t)); [exact HG|now apply is_derive_ln]|]. unfold scal; simpl; unfold mult; simpl. field. lra. }
  eapply crps_eq; [reflexivity| |apply (dist_crps (exp_cdf F) (exp_pdf f) (fun t => N (ln t)) (fun t => Q (ln t)) 0 p_infty m q y (dist0_exp F f D))].
  - unfold exp_cdf. destruct (Rle_dec y 0).
    + rewrite xtd_lo by (simpl; lra). ring.
    + rewrite xtd_in by (simpl; auto; lra). reflexivity.
  - intros r Hr. injection Hr as <-. unfold exp_cdf. destruct (Rle_dec 0 0); lra.
  - discriminate.
  - intros t Ht _. simpl in Ht. evar_last; [apply C; [exact Ht|apply DN]|]. unfold exp_pdf. destruct (Rle_dec t 0); [lra|]. rewrite exp_ln by auto. field. lra.
  - intros t Ht _. simpl in Ht. evar_last; [apply C; [exact Ht|apply DQ]|]. unfold exp_pdf. destruct (Rle_dec t 0); [lra|]. field. lra.
  - eapply filterlim_comp; [exact is_lim_ln_0|exact N0].
  - eapply filterlim_comp; [exact is_lim_ln_p|exact N1].
  - eapply filterlim_comp; [exact is_lim_ln_0|exact Q0].
  - eapply filterlim_comp; [exact is_lim_ln_p|exact Q1].
Qed.

(** * log-Laplace *)
Section loglap.
Variables m c : R.
Hypothesis (Hc : 0 < c < 1).
Let N1 x := exp m * exp ((x - m) * (1 / c + 1)) / (2 * (1 + c)).
Let N2 x := exp m / (1 - c ^ 2) - exp m * exp (- ((x - m) * (1 / c - 1))) / (2 * (1 - c)).
Let Q1 x := exp m * exp ((x - m) * (2 / c + 1)) / (2 * (1 + c) * (2 + c)).
Definition ll_q := exp m * (1 / (1 + c) + c / (4 - c ^ 2)).
Let Q2 x := ll_q - exp m / (1 - c ^ 2) * exp (- ((x - m) / c)) + exp m * exp (- ((x - m) * (2 / c - 1))) / (2 * (1 - c) * (2 - c)).
Definition llN x := if Rlt_dec x m then N1 x else N2 x.
Definition llQ x := if Rlt_dec x m then Q1 x else Q2 x.
Lemma c2_pos : 0 < 1 - c ^ 2 /\ 0 < 4 - c ^ 2 /\ 0 < 1 - c /\ 0 < 2 - c. Proof. repeat split; nra. Qed.
Lemma at_m k : exp ((m - m) * k) = 1 /\ exp (- ((m - m) * k)) = 1.
Proof. rewrite Rminus_eq_0, Rmult_0_l, Ropp_0, exp_0. auto. Qed.
Lemma lap_lo x : x <= m -> laplace_pdf m c x = exp ((x - m) / c) / (2 * c).
Proof. intros H. unfold laplace_pdf. rewrite Rabs_left1 by lra. do 2 f_equal. field. lra. Qed.
Lemma lap_hi x : m <= x -> laplace_pdf m c x = exp (- ((x - m) / c)) / (2 * c).
Proof. intros H. unfold laplace_pdf. now rewrite Rabs_right by lra. Qed.
Lemma llN_der x : is_derive llN x (exp x * laplace_pdf m c x).
Proof.
  destruct c2_pos as (P1 & P2 & P3 & P4). apply (piece_der llN N1 N2 (fun x => exp x * laplace_pdf m c x) m).
  - intros t Ht. unfold llN. destruct (Rlt_dec t m); [auto|lra].
  - intros t Ht. unfold llN. destruct (Rlt_dec t m); [lra|auto].
  - unfold N1, N2. destruct (at_m (1 / c + 1)) as [-> _]. destruct (at_m (1 / c - 1)) as [_ ->]. simpl in P1. field. repeat split; lra.
  - intros t Ht. rewrite lap_lo by auto. replace (exp t) with (exp m * exp (t - m)) by (rewrite <- exp_plus; f_equal; ring).
    unfold N1. auto_derive; auto. replace ((t + - m) * (1 / c + 1)) with ((t - m) + (t - m) / c) by (field; lra). rewrite exp_plus. field. lra.
  - intros t Ht. rewrite lap_hi by auto. replace (exp t) with (exp m * exp (t - m)) by (rewrite <- exp_plus; f_equal; ring).
    unfold N2. auto_derive; auto. replace (- ((t + - m) * (1 / c - 1))) with ((t - m) + - ((t - m) / c)) by (field; lra). rewrite exp_plus. field. lra.
Qed.
Lemma llQ_der x : is_derive llQ x (2 * laplace_pdf m c x * llN x).
Proof.
  destruct c2_pos as (P1 & P2 & P3 & P4). simpl in P1, P2. apply (piece_der llQ Q1 Q2 (fun x => 2 * laplace_pdf m c x * llN x) m).
  - intros t Ht. unfold llQ. destruct (Rlt_dec t m); [auto|lra].
  - intros t Ht. unfold llQ. destruct (Rlt_dec t m); [lra|auto].
  - unfold Q1, Q2, ll_q. destruct (at_m (2 / c + 1)) as [-> _]. destruct (at_m (2 / c - 1)) as [_ ->]. assert (exp (- ((m - m) / c)) = 1) as -> by (apply (at_m (/ c))). field. repeat split; nra.
  - intros t Ht. rewrite lap_lo by auto. assert (llN t = N1 t) as ->.
    { unfold llN. destruct (Rlt_dec t m); auto. assert (t = m) as -> by lra. unfold N1, N2. destruct (at_m (1 / c + 1)) as [-> _]. destruct (at_m (1 / c - 1)) as [_ ->]. field. repeat split; nra. }
    unfold Q1, N1. auto_derive; auto. replace ((t + - m) * (2 / c + 1)) with ((t - m) / c + (t - m) * (1 / c + 1)) by (field; lra). rewrite exp_plus. field. repeat split; nra.
  - intros t Ht. rewrite lap_hi by auto. assert (llN t = N2 t) as -> by (unfold llN; destruct (Rlt_dec t m); [lra|auto]).
    unfold Q2, N2. auto_derive; auto. replace (- ((t + - m) * (2 / c - 1))) with (- ((t - m) / c) + - ((t - m) * (1 / c - 1))) by (field; lra). rewrite exp_plus.
    replace (- ((t + - m) * / c)) with (- ((t - m) / c)) by (field; lra). field. repeat split; nra.
Qed.
Lemma exp_lim_m k : 0 < k -> is_lim (fun x => exp ((x - m) * k)) m_infty 0.
Proof. intros Hk. apply (is_lim_ext (fun x => exp (k * x + - (m * k)))); [intros; f_equal; ring|]. now apply lim_exp_lin_m. Qed.
Lemma exp_lim_p k : 0 < k -> is_lim (fun x => exp (- ((x - m) * k))) p_infty 0.
Proof. intros Hk. apply (is_lim_ext (fun x => exp (- k * x + m * k))); [intros; f_equal; ring|]. apply lim_exp_lin. lra. Qed.
Lemma ic : 1 < / c. Proof. rewrite <- Rinv_1. apply Rinv_lt_contravar; lra. Qed.
Lemma piece_m (F1 F2 : R -> R) v : is_lim F1 m_infty v -> is_lim (fun x => if Rlt_dec x m then F1 x else F2 x) m_infty v.
Proof. apply is_lim_ext_loc. exists m. intros x Hx. destruct (Rlt_dec x m); [auto|lra]. Qed.
Lemma piece_p (F1 F2 : R -> R) v : is_lim F2 p_infty v -> is_lim (fun x => if Rlt_dec x m then F1 x else F2 x) p_infty v.
Proof. apply is_lim_ext_loc. exists m. intros x Hx. destruct (Rlt_dec x m); [lra|auto]. Qed.
Lemma loglaplace_crps y : is_crps (exp_cdf (laplace_cdf m c)) y (if Rle_dec y 0 then ll_q - y else y * (2 * laplace_cdf m c (ln y) - 1) - 2 * llN (ln y) + ll_q).
Proof.
  pose proof ic as K. destruct c2_pos as (P1 & P2 & P3 & P4).
  apply (exp_crps (laplace_cdf m c) (laplace_pdf m c) llN llQ (exp m / (1 - c ^ 2)) ll_q y); [apply laplace_dist; lra|exact llN_der|exact llQ_der| | | |].
  - apply piece_m. replace (Finite 0) with (Finite (exp m / (2 * (1 + c)) * 0)) by (f_equal; ring). apply (is_lim_ext (fun x => exp m / (2 * (1 + c)) * exp ((x - m) * (1 / c + 1)))); [intros x; unfold N1; field; lra|].
    apply lim_scal, exp_lim_m. lra.
  - apply piece_p. replace (Finite (exp m / (1 - c ^ 2))) with (Finite (exp m / (1 - c ^ 2) - exp m / (2 * (1 - c)) * 0)) by (f_equal; ring).
    apply (is_lim_ext (fun x => exp m / (1 - c ^ 2) - exp m / (2 * (1 - c)) * exp (- ((x - m) * (1 / c - 1))))); [intros x; unfold N2; simpl in P1; simpl; field; lra|].
    apply is_lim_minus'; [apply is_lim_const|]. apply lim_scal, exp_lim_p. lra.
  - apply piece_m. replace (Finite 0) with (Finite (exp m / (2 * (1 + c) * (2 + c)) * 0)) by (f_equal; ring). apply (is_lim_ext (fun x => exp m / (2 * (1 + c) * (2 + c)) * exp ((x - m) * (2 / c + 1)))); [intros x; unfold Q1; field; lra|].
    apply lim_scal, exp_lim_m. lra.
  - apply piece_p. replace (Finite ll_q) with (Finite (ll_q - exp m / (1 - c ^ 2) * 0 + exp m / (2 * (1 - c) * (2 - c)) * 0)) by (f_equal; ring).
    apply (is_lim_ext (fun x => ll_q - exp m / (1 - c ^ 2) * exp (- ((x - m) * / c)) + exp m / (2 * (1 - c) * (2 - c)) * exp (- ((x - m) * (2 / c - 1))))); [intros x; unfold Q2, Rdiv; simpl in P1; simpl; field; repeat split; lra|].
    apply is_lim_plus'; [apply is_lim_minus'; [apply is_lim_const|]|]; apply lim_scal, exp_lim_p; lra.
Qed.
End loglap.

(** * log-logistic *)
Section loglog.
Variables m c : R.
Hypothesis (Hc : 0 < c < 1).
Let B := Rbeta (1 + c) (1 - c).
Let p x := logistic_cdf m c x.
Definition lgN x := exp m * B * Rbetainc (1 + c) (1 - c) (p x).
Definition lgQ x := 2 * (exp m * B) * (p x * Rbetainc (1 + c) (1 - c) (p x) - (1 + c) / 2 * Rbetainc (1 + c + 1) (1 - c) (p x)).
Lemma p_in x : 0 < p x < 1.
Proof.
  unfold p, logistic_cdf. set (e := exp _). assert (0 < e) as He by apply exp_pos. split; [apply Rinv_0_lt_compat; lra|].
  rewrite <- Rinv_1. apply Rinv_lt_contravar; lra.
Qed.
Lemma p_der x : is_derive p x (logistic_pdf m c x).
Proof. destruct (logistic_dist m c ltac:(lra)) as (_ & _ & _ & _ & D & _). apply (D x I I). Qed.
Lemma p_bf x : exp m * beta_f (1 + c) (1 - c) (p x) = exp x.
Proof.
  pose proof (p_in x) as [P1 P2]. unfold beta_f. replace (1 + c - 1) with c by ring. replace (1 - c - 1) with (- c) by ring. unfold Rpower.
  rewrite <- exp_plus, <- exp_plus. f_equal. assert (1 - p x = p x * exp (- ((x - m) / c))) as ->.
  { unfold p, logistic_cdf. pose proof (exp_pos (- ((x - m) / c))). field. lra. }
  rewrite ln_mult by (auto; apply exp_pos). rewrite ln_exp. field. lra.
Qed.
Lemma Ib_der a b x : 0 < a -> 0 < b -> is_derive (fun x => Rbetainc a b (p x)) x (logistic_pdf m c x * (beta_f a b (p x) / Rbeta a b)).
Proof. intros Ha Hb. apply (is_derive_comp (Rbetainc a b) p x _ _ (Ibeta_der a b (p x) Ha Hb (p_in x)) (p_der x)). Qed.
Lemma lgN_der x : is_derive lgN x (exp x * logistic_pdf m c x).
Proof.
  assert (0 < B) as HB by (apply Rbeta_pos; lra).
  evar_last; [apply (is_derive_scal (fun x => Rbetainc (1 + c) (1 - c) (p x))); apply Ib_der; lra|]. rewrite <- (p_bf x). fold B. field. lra.
Qed.
Lemma lgQ_der x : is_derive lgQ x (2 * logistic_pdf m c x * lgN x).
Proof.
  assert (0 < B) as HB by (apply Rbeta_pos; lra). pose proof (beta_rec (1 + c) (1 - c) ltac:(lra) ltac:(lra)) as R. pose proof (p_in x) as [P1 P2].
  assert (Rbeta (1 + c + 1) (1 - c) = (1 + c) / 2 * B) as E by (unfold B; lra).
  evar_last.
  - apply (is_derive_scal (fun x => p x * Rbetainc (1 + c) (1 - c) (p x) - (1 + c) / 2 * Rbetainc (1 + c + 1) (1 - c) (p x)) x (2 * (exp m * B))
      (logistic_pdf m c x * Rbetainc (1 + c) (1 - c) (p x) + p x * (logistic_pdf m c x * (beta_f (1 + c) (1 - c) (p x) / Rbeta (1 + c) (1 - c))) - (1 + c) / 2 * (logistic_pdf m c x * (beta_f (1 + c + 1) (1 - c) (p x) / Rbeta (1 + c + 1) (1 - c))))).
    apply (is_derive_minus (fun x => p x * Rbetainc (1 + c) (1 - c) (p x)) (fun x => (1 + c) / 2 * Rbetainc (1 + c + 1) (1 - c) (p x))).
    + apply (is_derive_mult p (fun x => Rbetainc (1 + c) (1 - c) (p x))); [apply p_der|apply Ib_der; lra|intros; apply Rmult_comm].
    + apply (is_derive_scal (fun x => Rbetainc (1 + c + 1) (1 - c) (p x))). apply Ib_der; lra.
  - rewrite E. fold B. unfold lgN. assert (beta_f (1 + c + 1) (1 - c) (p x) = p x * beta_f (1 + c) (1 - c) (p x)) as ->; [|field; lra].
    unfold beta_f. replace (1 + c + 1 - 1) with (1 + c - 1 + 1) by ring. rewrite Rpower_plus, Rpower_1 by lra. ring.
Qed.
Lemma p_lim_m (P : R -> Prop) : at_right 0 P -> Rbar_locally m_infty (fun x => P (p x)).
Proof.
  intros [e He]. destruct (logistic_dist m c ltac:(lra)) as (_ & _ & _ & _ & _ & L & _). destruct (L (fun t => ball 0 e t)) as [M HM]; [exists e; auto|].
  exists M. intros x Hx. apply He; [now apply HM|apply p_in].
Qed.
Lemma p_lim_p (P : R -> Prop) : at_left 1 P -> Rbar_locally p_infty (fun x => P (p x)).
Proof.
  intros [e He]. destruct (logistic_dist m c ltac:(lra)) as (_ & _ & _ & _ & _ & _ & L). destruct (L (fun t => ball 1 e t)) as [M HM]; [exists e; auto|].
  exists M. intros x Hx. apply He; [now apply HM|apply p_in].
Qed.
Lemma Ib_lims a b : 0 < a -> 0 < b -> is_lim (fun x => Rbetainc a b (p x)) m_infty 0 /\ is_lim (fun x => Rbetainc a b (p x)) p_infty 1.
Proof.
  intros Ha Hb. destruct (Ibeta_lims a b Ha Hb) as [L0 L1]. split.
  - intros P HP. apply (p_lim_m (fun t => P (Rbetainc a b t))). now apply L0.
  - intros P HP. apply (p_lim_p (fun t => P (Rbetainc a b t))). now apply L1.
Qed.
Lemma p_lims : is_lim p m_infty 0 /\ is_lim p p_infty 1.
Proof. destruct (logistic_dist m c ltac:(lra)) as (_ & _ & _ & _ & _ & L0 & L1). split; [exact L0|exact L1]. Qed.
Lemma loglogistic_crps y : is_crps (exp_cdf (logistic_cdf m c)) y
  (if Rle_dec y 0 then exp m * B * (1 - c) - y else y * (2 * logistic_cdf m c (ln y) - 1) - 2 * lgN (ln y) + exp m * B * (1 - c)).
Proof.
  destruct (Ib_lims (1 + c) (1 - c) ltac:(lra) ltac:(lra)) as [A0 A1]. destruct (Ib_lims (1 + c + 1) (1 - c) ltac:(lra) ltac:(lra)) as [C0 C1]. destruct p_lims as [L0 L1].
  apply (exp_crps (logistic_cdf m c) (logistic_pdf m c) lgN lgQ (exp m * B) (exp m * B * (1 - c)) y); [apply logistic_dist; lra|exact lgN_der|exact lgQ_der| | | |].
  - replace (Finite 0) with (Finite (exp m * B * 0)) by (f_equal; ring). now apply lim_scal.
  - replace (Finite (exp m * B)) with (Finite (exp m * B * 1)) by (f_equal; ring). now apply lim_scal.
  - replace (Finite 0) with (Finite (2 * (exp m * B) * (0 * 0 - (1 + c) / 2 * 0))) by (f_equal; ring). apply lim_scal. apply is_lim_minus'; [now apply lim_mult'|now apply lim_scal].
  - replace (Finite (exp m * B * (1 - c))) with (Finite (2 * (exp m * B) * (1 * 1 - (1 + c) / 2 * 1))) by (f_equal; field). apply lim_scal. apply is_lim_minus'; [now apply lim_mult'|now apply lim_scal].
Qed.
End loglog.
