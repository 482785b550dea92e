(** Property C41, continued: the log score of a parametric distribution is minus the logarithm of its density
    (infinite where the density is 0), for all broadcasting shapes and all finite
    observations, also outside the support; the density is non-negative, has integral one,
    and its distribution function is the one of the CRPS theorems. *)
From Verif Require Import T_logs2.
From Coq Require Import Psatz.
From Coquelicot Require Import Coquelicot.
Open Scope R_scope.

(** the normal distribution truncated to an interval, whose ends may be infinite *)
Theorem C41_tnormal :
forall (obs location scale lower upper : arr) (s : list nat) (y m c : list nat -> R) (l u : list nat -> Rbar),
  params s [(obs, fins y); (location, fins m); (scale, fins c); (lower, fun i => rbn (l i)); (upper, fun i => rbn (u i))]%list ->
  (forall i, inb s i -> 0 < c i /\ Rbar_lt (l i) (u i)) ->
  returns (logs_tnormal obs location scale lower upper) s
    (fun i => logp (trunc_pdf (normal_cdf (m i) (c i)) (normal_pdf (m i) (c i)) (l i) (u i) (y i))) /\
  forall i, inb s i -> distribution (truncensx (normal_cdf (m i) (c i)) (l i) (u i) 0 0)
    (trunc_pdf (normal_cdf (m i) (c i)) (normal_pdf (m i) (c i)) (l i) (u i)) (l i) (u i).
Proof. exact C41_tnormal_l. Qed.
Print Assumptions C41_tnormal.
Example C41_tnormal_ex : let f v := fun _ : list nat => v in
  params (2%nat :: nil) [(farr (2%nat :: nil) (f 3), fins (f 3)); (farr nil (f 1), fins (f 1)); (farr (1%nat :: nil) (f 2), fins (f 2));
    (num0 (rbn (Finite 0)), fun _ => rbn (Finite 0)); (num0 (rbn p_infty), fun _ => rbn p_infty)]%list /\ 0 < 2 /\ Rbar_lt (Finite 0) p_infty.
Proof. cbv zeta. split; [split; [reflexivity|repeat constructor]|split; [lra|exact I]]. Qed.

(** the logistic distribution truncated to an interval, whose ends may be infinite *)
Theorem C41_tlogistic :
forall (obs location scale lower upper : arr) (s : list nat) (y m c : list nat -> R) (l u : list nat -> Rbar),
  params s [(obs, fins y); (location, fins m); (scale, fins c); (lower, fun i => rbn (l i)); (upper, fun i => rbn (u i))]%list ->
  (forall i, inb s i -> 0 < c i /\ Rbar_lt (l i) (u i)) ->
  returns (logs_tlogistic obs location scale lower upper) s
    (fun i => logp (trunc_pdf (logistic_cdf (m i) (c i)) (logistic_pdf (m i) (c i)) (l i) (u i) (y i))) /\
  forall i, inb s i -> distribution (truncensx (logistic_cdf (m i) (c i)) (l i) (u i) 0 0)
    (trunc_pdf (logistic_cdf (m i) (c i)) (logistic_pdf (m i) (c i)) (l i) (u i)) (l i) (u i).
Proof. exact C41_tlogistic_l. Qed.
Print Assumptions C41_tlogistic.
Example C41_tlogistic_ex : let f v := fun _ : list nat => v in
  params (2%nat :: nil) [(farr (2%nat :: nil) (f 3), fins (f 3)); (farr nil (f 1), fins (f 1)); (farr (1%nat :: nil) (f 2), fins (f 2));
    (num0 (rbn (Finite 0)), fun _ => rbn (Finite 0)); (num0 (rbn p_infty), fun _ => rbn p_infty)]%list /\ 0 < 2 /\ Rbar_lt (Finite 0) p_infty.
Proof. cbv zeta. split; [split; [reflexivity|repeat constructor]|split; [lra|exact I]]. Qed.

(** the mixture of normal distributions; given or equal weights, components along any axis *)
Theorem C41_mixnorm :
forall (obs m sd : arr) (w : option arr) (ax : Z) (s : list nat) (p M : nat) (y mu sg ww : list nat -> R),
  mix_args obs m sd w ax s p M y mu sg ww -> mix_ok s p M sg ww ->
  returns (logs_mixnorm obs m sd w ax) s
    (fun r => logp (mixture M (member p ww r) (fun k => normal_pdf (member p mu r k) (member p sg r k)) (y r))) /\
  forall r, inb s r -> distribution (mixture M (member p ww r) (fun k => normal_cdf (member p mu r k) (member p sg r k)))
    (mixture M (member p ww r) (fun k => normal_pdf (member p mu r k) (member p sg r k))) m_infty p_infty.
Proof. exact C41_mixnorm_l. Qed.
Print Assumptions C41_mixnorm.
Example C41_mixnorm_ex : let f v := fun _ : list nat => v in
  mix_args (farr (2%nat :: nil) (f 1)) (farr (3%nat :: 2%nat :: nil) (fun i => INR (hd 0%nat i))) (farr (3%nat :: 2%nat :: nil) (f 2))
    None (-1) (2%nat :: nil) 0 3 (f 1) (fun i => INR (hd 0%nat i)) (f 2) (f (/ INR 3)) /\
  mix_ok (2%nat :: nil) 0 3 (f 2) (f (/ INR 3)).
Proof.
  cbv zeta. split.
  - split; [|split; [split; reflexivity|reflexivity]]. split; [split; reflexivity|]. split; [split; reflexivity|]. split; [simpl; lia|left; reflexivity].
  - intros r Hr. split; [intros k Hk|unfold member; rewrite sumn_const; simpl; field]. split; unfold member; simpl; lra.
Qed.

(** Gibbs' inequality: the expected log score under a density is smallest for that density.
    Expectations are improper integrals, assumed to exist. *)
Theorem C41_gibbs :
forall (F f G g : R -> R) (l u l' u' : Rbar) (A B : R), Rbar_lt l u -> distribution F f l u -> distribution G g l' u' ->
  (forall t : R, Rbar_lt l t -> Rbar_lt t u -> 0 < g t) ->
  is_RInt_gen (fun t => f t * - ln (g t)) (from_below l) (from_above u) A ->
  is_RInt_gen (fun t => f t * - ln (f t)) (from_below l) (from_above u) B -> B <= A.
Proof. exact C41_gibbs_l. Qed.
Print Assumptions C41_gibbs.
Example C41_gibbs_ex : Rbar_lt 0 1 /\ distribution (uniform_cdf 0 1 0 0) (uniform_pdf 0 1) 0 1 /\
  distribution (uniform_cdf 0 2 0 0) (uniform_pdf 0 2) 0 2 /\
  (forall t : R, Rbar_lt 0 t -> Rbar_lt t 1 -> 0 < uniform_pdf 0 2 t) /\
  is_RInt_gen (fun t => uniform_pdf 0 1 t * - ln (uniform_pdf 0 2 t)) (from_below 0) (from_above 1) (ln 2) /\
  is_RInt_gen (fun t => uniform_pdf 0 1 t * - ln (uniform_pdf 0 1 t)) (from_below 0) (from_above 1) 0.
Proof.
  assert (distribution (uniform_cdf 0 1 0 0) (uniform_pdf 0 1) 0 1) as D1 by (apply dist0_distribution, uniform_dist; lra).
  assert (forall (g : R -> R) (v : R), (forall t, 0 < t < 1 -> uniform_pdf 0 1 t * - ln (g t) = v * uniform_pdf 0 1 t) ->
    is_RInt_gen (fun t => uniform_pdf 0 1 t * - ln (g t)) (from_below 0) (from_above 1) v) as K.
  { intros g v E. apply (is_RInt_gen_ext (fun t => v * uniform_pdf 0 1 t)).
    - apply (Filter_prod (from_below 0) (from_above 1) _ (fun t => 0 < t < 1) (fun t => 0 < t < 1)).
      + exists (mkposreal 1 Rlt_0_1). intros t Ht Ht0. unfold ball in Ht; simpl in Ht; unfold AbsRing_ball, abs, minus, plus, opp in Ht; simpl in Ht.
        apply Rabs_def2 in Ht. lra.
      + exists (mkposreal 1 Rlt_0_1). intros t Ht Ht0. unfold ball in Ht; simpl in Ht; unfold AbsRing_ball, abs, minus, plus, opp in Ht; simpl in Ht.
        apply Rabs_def2 in Ht. lra.
      + intros a b Ha Hb t Ht. simpl in Ht. symmetry. apply E. unfold Rmin, Rmax in Ht. destruct (Rle_dec a b); lra.
    - assert (scal v 1 = v) as Ev by (unfold scal; simpl; unfold mult; simpl; ring).
      assert (is_RInt_gen (fun t => v * uniform_pdf 0 1 t) (from_below 0) (from_above 1) (scal v 1)) as Q; [|rewrite Ev in Q; exact Q].
      apply (is_RInt_gen_scal (uniform_pdf 0 1) v 1). apply D1. }
  assert (forall b t, 0 < t < 1 -> 1 <= b -> uniform_pdf 0 b t = / b) as U.
  { intros b t Ht Hb. unfold uniform_pdf. destruct (Rlt_dec t 0); [lra|]. destruct (Rlt_dec b t); [lra|]. now rewrite Rminus_0_r. }
  split; [simpl; lra|]. split; [exact D1|]. split; [apply dist0_distribution, uniform_dist; lra|]. split.
  - simpl. intros t H0 H1. rewrite U by lra. lra.
  - split; apply K; intros t Ht; rewrite !U, ln_Rinv by lra; rewrite ?ln_1; ring.
Qed.

(** The same for probabilities of counts. *)
Theorem C41_gibbs_discrete :
forall (p q : nat -> R) (A B : R), (forall n, 0 <= p n) -> (forall n, 0 <= q n) -> (forall n, 0 < p n -> 0 < q n) ->
  is_series p 1 -> is_series q 1 -> is_series (fun n => p n * - ln (q n)) A -> is_series (fun n => p n * - ln (p n)) B -> B <= A.
Proof. exact C41_gibbs_discrete_l. Qed.
Print Assumptions C41_gibbs_discrete.
Example C41_gibbs_discrete_ex : let p n := match n with 0%nat => 1 | _ => 0 end in let q n := (1 / 2) ^ n * (1 / 2) in
  (forall n, 0 <= p n) /\ (forall n, 0 <= q n) /\ (forall n, 0 < p n -> 0 < q n) /\
  is_series p 1 /\ is_series q 1 /\ is_series (fun n => p n * - ln (q n)) (ln 2) /\ is_series (fun n => p n * - ln (p n)) 0.
Proof.
  cbv zeta. assert (forall n, 0 < (1 / 2) ^ n) as P by (intros; apply pow_lt; lra).
  assert (forall (a : nat -> R) v, a 0%nat = v -> (forall n, a (S n) = 0) -> is_series a v) as K.
  { intros a v H0 H. apply is_series_decr_1. apply (is_series_ext (fun _ => 0)); [intros; now rewrite H|].
    apply (is_series_ext (fun n => 0 * (1 / 2) ^ n)); [intros; apply Rmult_0_l|].
    assert (is_series (fun n => 0 * (1 / 2) ^ n) (0 * / (1 - 1 / 2))) as Q by (apply (is_series_scal_l 0 (fun n => (1 / 2) ^ n)), is_series_geom; rewrite Rabs_right; lra).
    rewrite Rmult_0_l in Q. refine (eq_ind 0 (fun z : R => is_series _ z) Q _ _). rewrite H0. unfold plus, opp; simpl. ring. }
  split; [intros []; lra|]. split; [intros n; specialize (P n); lra|]. split; [intros n _; specialize (P n); lra|].
  split; [now apply K|]. split.
  - assert (is_series (fun n => (1 / 2) ^ n * (1 / 2)) (/ (1 - 1 / 2) * (1 / 2))) as Q.
    { apply is_series_scal_r. apply is_series_geom. rewrite Rabs_right; lra. }
    replace (/ (1 - 1 / 2) * (1 / 2)) with 1 in Q by field. exact Q.
  - split; apply K; try (intros; apply Rmult_0_l).
    + replace (1 * - ln ((1 / 2) ^ 0 * (1 / 2))) with (- ln (/ 2)); [rewrite ln_Rinv by lra; ring|]. simpl. rewrite Rmult_1_l. do 2 f_equal. field.
    + rewrite ln_1. ring.
Qed.
