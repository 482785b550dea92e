(** Proofs that the closed-form CRPS of the log-Laplace, log-logistic and log-normal distributions is the CRPS integral
    (statements in P_crpslog.v). *)
From Verif Require Export L_closed L_crpsmix L_interval.
From Coq Require Import Psatz.
From Coquelicot Require Import Coquelicot.
Open Scope R_scope.
Lemma Rpow_exp x k : Rpower (exp x) k = exp (k * x).
Proof. unfold Rpower. now rewrite ln_exp. Qed.
Lemma llN_lo m c x : 0 < c < 1 -> x < m -> 2 * llN m c x = exp m * (1 / (1 + c)) * exp ((1 + c) * ((x - m) / c)).
Proof. intros Hc Hx. unfold llN. destruct (Rlt_dec x m); [|lra]. replace ((1 + c) * ((x - m) / c)) with ((x - m) * (1 / c + 1)) by (field; lra). field. lra. Qed.
Lemma llN_hi m c x : 0 < c < 1 -> m <= x -> 2 * llN m c x = exp m * (2 / (1 - c ^ 2) - exp ((1 - c) * - ((x - m) / c)) / (1 - c)).
Proof. intros Hc Hx. unfold llN. destruct (Rlt_dec x m); [lra|]. replace ((1 - c) * - ((x - m) / c)) with (- ((x - m) * (1 / c - 1))) by (field; lra). field. split; nra. Qed.
Lemma half_inf : Fin 0 .* (Fin 1 .- Fin (1 / 2) .* PInf) = NaN.
Proof. assert (infsgn (1 / 2) = PInf) as E by (unfold infsgn; destruct (Rlt_dec 0 (1 / 2)); [auto|lra]). simpl. rewrite E. simpl. unfold infsgn. destruct (Rlt_dec 0 0); [lra|]. simpl. destruct (Rlt_dec 0 0); [lra|]. auto. Qed.
Lemma betainc01 a b y : 0 < a -> 0 < b -> 0 <= y <= 1 -> Rmin (Rmax (Rbetainc a b y) 0) 1 = Rbetainc a b y.
Proof.
  intros Ha Hb Hy. assert (0 <= Rbetainc a b y <= 1); [|now rewrite Rmax_left, Rmin_left by lra].
  destruct (Rbeta_improper a b Ha Hb) as (HZ & _ & G & _ & _ & _ & Bd & IG). unfold Rbetainc. destruct (Rle_dec y 0); [lra|]. destruct (Rle_dec 1 y); [lra|].
  assert (inn 0 1 y) as It by (apply (inn_beta y); lra).
  specialize (Bd _ It). specialize (IG _ It). rewrite (is_RInt_gen_unique (V := R_CompleteNormedModule) (Fa := at_right 0) _ _ IG).
  split; [apply Rdiv_le_0_compat; lra|]. apply (Rmult_le_reg_r (Rbeta a b)); [lra|]. unfold Rdiv. rewrite Rmult_assoc, Rinv_l by lra. lra.
Qed.
Lemma C60_loglaplace_l :
forall (obs locationlog scalelog : arr) (s : list nat) (y m c : list nat -> R),
  params s [(obs, fins y); (locationlog, fins m); (scalelog, fins c)]%list ->
  (forall i, inb s i -> 0 < c i < 1 /\ 0 < y i) ->
  exists f, returns (crps_loglaplace obs locationlog scalelog) s (fins f) /\
    forall i, inb s i -> is_crps (exp_cdf (laplace_cdf (m i) (c i))) (y i) (f i).
Proof.
intros obs locationlog scalelog s y m c P H. destruct (broadcast3_params _ _ _ _ _ _ _ P) as (a1 & a2 & a3 & E & _ & Q). clear P. rename Q into P.
exists (fun i => y i * (2 * laplace_cdf (m i) (c i) (ln (y i)) - 1) - 2 * llN (m i) (c i) (ln (y i)) + ll_q (m i) (c i)). split.
- unfold crps_loglaplace. rewrite E. cbn [bind]. ret P. destruct (H i Hi) as [Hc Hy]. unfold fins. set (Y := y i) in *. set (M := m i) in *. set (C := c i) in *. clearbody Y M C.
  assert (0 < C * C < 1) by nra. pose proof (exp_pos M). unfold laplace_cdf, ll_q.
  assert (exp ((ln Y - M) / C) < 1 <-> Y < exp M) as Z.
  { rewrite <- exp_0 at 1. split; intros Z.
    - apply exp_lt_inv in Z. rewrite <- (exp_ln Y) by auto. apply exp_increasing. apply (Rmult_lt_compat_r C) in Z; [|lra]. unfold Rdiv in Z. rewrite Rmult_assoc, Rinv_l in Z by lra. lra.
    - apply exp_increasing. apply (Rmult_lt_reg_r C); [lra|]. unfold Rdiv. rewrite Rmult_assoc, Rinv_l by lra. enough (ln Y < M) by lra. apply exp_lt_inv. now rewrite exp_ln. }
  assert (exp ((ln Y - M) / C) * exp (- ((ln Y - M) / C)) = 1) as Zx by (rewrite <- exp_plus, Rplus_opp_r; apply exp_0).
  pose proof (exp_pos ((ln Y - M) / C)) as X1. pose proof (exp_pos (- ((ln Y - M) / C))) as X2.
  destruct (Rlt_dec Y (exp M)) as [L|L].
  + assert (ln Y < M) as L' by (apply exp_lt_inv; rewrite exp_ln by auto; exact L). rewrite llN_lo by auto. destruct (Rlt_dec (ln Y) M); [|lra].
    apply Z in L as Z'. nev. set (x := (ln Y - M) / C) in *.
    rewrite !ncast_b2n. cbn [b2n]. nev. f_equal. replace (2 * (0 * 0 + 1 * (1 / 2 * exp x) + 0 * (1 - 1 / 2 * exp (- x)))) with (exp x) by lra. rewrite Rpow_exp. field. repeat split; nra.
  + assert (M <= ln Y) as L' by (apply Rnot_lt_le; intros K; apply L; rewrite <- (exp_ln Y) by auto; now apply exp_increasing). rewrite llN_hi by auto. destruct (Rlt_dec (ln Y) M); [lra|].
    assert (1 <= exp ((ln Y - M) / C)) as Z' by (apply Rnot_lt_le; tauto). assert (exp (- ((ln Y - M) / C)) <= 1) as Z2 by nra. nev. set (x := (ln Y - M) / C) in *.
    rewrite !ncast_b2n. cbn [b2n]. nev. f_equal. replace (2 * (1 - (0 * 0 + 0 * (1 / 2 * exp x) + 1 * (1 - 1 / 2 * exp (- x))))) with (exp (- x)) by lra. rewrite Rpow_exp. field. repeat split; nra.
- intros i Hi. destruct (H i Hi) as [Hc Hy]. pose proof (loglaplace_crps (m i) (c i) Hc (y i)) as K. destruct (Rle_dec (y i) 0); [lra|]. exact K.
Qed.
Lemma C60_loglaplace_nonpositive_nan_l :
forall (obs locationlog scalelog : arr) (s : list nat) (y m c : list nat -> R),
  params s [(obs, fins y); (locationlog, fins m); (scalelog, fins c)]%list ->
  (forall i, inb s i -> 0 < c i /\ y i <= 0) ->
  returns (crps_loglaplace obs locationlog scalelog) s (fun _ => NaN).
Proof.
intros obs locationlog scalelog s y m c P H. destruct (broadcast3_params _ _ _ _ _ _ _ P) as (a1 & a2 & a3 & E & _ & Q). clear P. rename Q into P.
unfold crps_loglaplace. rewrite E. cbn [bind]. ret P. destruct (H i Hi) as [Hc Hy]. unfold fins. set (Y := y i) in *. set (M := m i) in *. set (C := c i) in *. clearbody Y M C. pose proof (exp_pos M).
assert (nlog (Fin Y) = NaN \/ nlog (Fin Y) = NInf) as [L|L] by (simpl; repeat (match goal with |- context [if ?d then _ else _] => destruct d end; try lra; auto)); rewrite L; clear L.
- nev. rewrite ?ncast_b2n. cbn [b2n]. nev. reflexivity.
- nev. rewrite ?ncast_b2n. cbn [b2n]. nev. rewrite half_inf. nev. reflexivity.
Qed.
Lemma C60_loglogistic_l :
forall (obs mulog sigmalog : arr) (s : list nat) (y m c : list nat -> R),
  params s [(obs, fins y); (mulog, fins m); (sigmalog, fins c)]%list ->
  (forall i, inb s i -> 0 < c i < 1 /\ 0 <= y i) ->
  exists f, returns (crps_loglogistic obs mulog sigmalog) s (fins f) /\
    forall i, inb s i -> is_crps (exp_cdf (logistic_cdf (m i) (c i))) (y i) (f i).
Proof.
intros obs mulog sigmalog s y m c P H.
exists (fun i => if Rle_dec (y i) 0 then exp (m i) * Rbeta (1 + c i) (1 - c i) * (1 - c i) - y i else y i * (2 * logistic_cdf (m i) (c i) (ln (y i)) - 1) - 2 * lgN (m i) (c i) (ln (y i)) + exp (m i) * Rbeta (1 + c i) (1 - c i) * (1 - c i)). split.
- ret P. destruct (H i Hi) as [Hc Hy]. unfold fins. set (Y := y i) in *. set (M := m i) in *. set (C := c i) in *. clearbody Y M C.
  destruct (Rle_dec Y 0) as [L|L].
  + assert (Y = 0) as -> by lra. assert (nlog (Fin 0) = NInf) as E by (simpl; repeat (match goal with |- context [if ?d then _ else _] => destruct d end; try lra; auto)). rewrite E. nev.
    rewrite beta_f1, betainc_f1 by lra. nev. unfold Rbetainc. destruct (Rle_dec 0 0); [|lra]. f_equal. ring.
  + assert (0 < Y) by lra. pose proof (exp_pos (- (ln Y - M) / C)) as X. assert (0 < / (1 + exp (- (ln Y - M) / C)) < 1) as Z by (split; [apply Rinv_0_lt_compat; lra|]; apply (Rmult_lt_reg_l (1 + exp (- (ln Y - M) / C))); [lra|]; rewrite Rinv_r by lra; lra).
    nev. replace (1 / (1 + exp (- (ln Y - M) / C))) with (/ (1 + exp (- (ln Y - M) / C))) by (field; lra). rewrite beta_f1, betainc_f1 by lra. nev. unfold lgN, logistic_cdf. replace (- ((ln Y - M) / C)) with (- (ln Y - M) / C) by (field; lra). f_equal. ring.
- intros i Hi. destruct (H i Hi) as [Hc Hy]. apply (loglogistic_crps (m i) (c i) Hc (y i)).
Qed.
Lemma C60_loglogistic_negative_nan_l :
forall (obs mulog sigmalog : arr) (s : list nat) (y m c : list nat -> R),
  params s [(obs, fins y); (mulog, fins m); (sigmalog, fins c)]%list ->
  (forall i, inb s i -> y i < 0) ->
  returns (crps_loglogistic obs mulog sigmalog) s (fun _ => NaN).
Proof.
intros obs mulog sigmalog s y m c P H. ret P. specialize (H i Hi). unfold fins.
assert (nlog (Fin (y i)) = NaN) as L by (simpl; repeat (match goal with |- context [if ?d then _ else _] => destruct d end; try lra; auto)). rewrite L. nev. reflexivity.
Qed.
Lemma C60_lognormal_l :
forall (obs mulog sigmalog : arr) (s : list nat) (y m c : list nat -> R),
  params s [(obs, fins y); (mulog, fins m); (sigmalog, fins c)]%list ->
  (forall i, inb s i -> 0 < c i /\ 0 <= y i) ->
  exists f, returns (crps_lognormal obs mulog sigmalog) s (fins f) /\
    forall i, inb s i -> is_crps (exp_cdf (normal_cdf (m i) (c i))) (y i) (f i).
Proof.
intros obs mulog sigmalog s y m c P H. 
exists (fun i => let E := exp (m i + c i * c i / 2) in if Rle_dec (y i) 0 then 2 * E * NF (- c i / sqrt 2) - y i else y i * (2 * NF ((ln (y i) - m i) / c i) - 1) - 2 * lnN (m i) (c i) (ln (y i)) + 2 * E * NF (- c i / sqrt 2)). cbv zeta. split.
- retn P. destruct (H i Hi) as [Hc Hy]. unfold fins. set (Y := y i) in *. set (M := m i) in *. set (C := c i) in *. clearbody Y M C. pose proof Rlt_sqrt2_0. replace (- C / sqrt 2) with (- (C / sqrt 2)) by (field; lra). rewrite NF_opp.
  destruct (Rle_dec Y 0) as [L|L].
  + assert (Y = 0) as -> by lra. assert (nlog (Fin 0) = NInf) as E by (simpl; repeat (match goal with |- context [if ?d then _ else _] => destruct d end; try lra; auto)). rewrite E. nev.
    f_equal. ring.
  + assert (0 < Y) by lra. nev. unfold lnN. f_equal. ring.
- intros i Hi. destruct (H i Hi) as [Hc Hy]. apply (lognormal_crps (m i) (c i) Hc (y i)).
Qed.
Lemma C60_lognormal_negative_nan_l :
forall (obs mulog sigmalog : arr) (s : list nat) (y m c : list nat -> R),
  params s [(obs, fins y); (mulog, fins m); (sigmalog, fins c)]%list ->
  (forall i, inb s i -> y i < 0) ->
  returns (crps_lognormal obs mulog sigmalog) s (fun _ => NaN).
Proof.
intros obs mulog sigmalog s y m c P H. retn P. specialize (H i Hi). unfold fins.
assert (nlog (Fin (y i)) = NaN) as L by (simpl; repeat (match goal with |- context [if ?d then _ else _] => destruct d end; try lra; auto)). rewrite L. nev. reflexivity.
Qed.
Lemma C60_negative_refuted_l :
exists obs m c : arr, params nil [(obs, fun _ => Fin (-1)); (m, fun _ => Fin 0); (c, fun _ => Fin (1 / 2))]%list /\
  ((exists v, is_crps (exp_cdf (laplace_cdf 0 (1 / 2))) (-1) v) /\ returns (crps_loglaplace obs m c) nil (fun _ => NaN)) /\
  ((exists v, is_crps (exp_cdf (logistic_cdf 0 (1 / 2))) (-1) v) /\ returns (crps_loglogistic obs m c) nil (fun _ => NaN)) /\
  ((exists v, is_crps (exp_cdf (normal_cdf 0 (1 / 2))) (-1) v) /\ returns (crps_lognormal obs m c) nil (fun _ => NaN)).
Proof.
exists (farr nil (fun _ => -1)), (farr nil (fun _ => 0)), (farr nil (fun _ => 1 / 2)).
assert (params nil ((farr nil (fun _ => -1), fins (fun _ => -1)) :: (farr nil (fun _ => 0), fins (fun _ => 0)) :: (farr nil (fun _ => 1 / 2), fins (fun _ => 1 / 2)) :: nil)%list) as P by (split; [reflexivity|repeat constructor]).
split; [exact P|]. split; [|split]; split.
- eexists. apply loglaplace_crps. lra.
- apply (C60_loglaplace_nonpositive_nan_l _ _ _ _ _ _ _ P). intros. lra.
- eexists. apply loglogistic_crps. lra.
- apply (C60_loglogistic_negative_nan_l _ _ _ _ _ _ _ P). intros. lra.
- eexists. apply lognormal_crps. lra.
- apply (C60_lognormal_negative_nan_l _ _ _ _ _ _ _ P). intros. lra.
Qed.
