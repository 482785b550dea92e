(** Properties C56 and C57: the closed-form CRPS of the normal, the two-piece normal and the truncated and
    censored normal and logistic distributions is the integral of (F - 1{obs <= .})^2, for the
    distribution functions of S_dist.v.  Bounds may be infinite; all arguments broadcast. *)
From Verif Require Import T_crpsnorm.
From Coq Require Import Psatz.
From Coquelicot Require Import Rbar.
Open Scope R_scope.

(** the normal distribution *)
Theorem C56_normal :
forall (obs mu sigma : arr) (s : list nat) (y m c : list nat -> R),
  params s [(obs, fins y); (mu, fins m); (sigma, fins c)]%list -> (forall i, inb s i -> 0 < c i) ->
  exists f, returns (crps_normal obs mu sigma) s (fins f) /\
    forall i, inb s i -> is_crps (normal_cdf (m i) (c i)) (y i) (f i).
Proof. exact C56_normal_l. Qed.
Print Assumptions C56_normal.
Example C56_normal_ex : let f v := fun _ : list nat => v in
  params (2%nat :: nil) [(farr (2%nat :: nil) (f 3), fins (f 3)); (farr nil (f 1), fins (f 1)); (farr (1%nat :: nil) (f 2), fins (f 2))]%list /\ 0 < 2.
Proof. cbv zeta. split; [split; [reflexivity|repeat constructor]|lra]. Qed.

(** the normal distribution with point masses at its bounds *)
Theorem C56_gtcnormal :
forall (obs location scale lower upper lmass umass : arr) (s : list nat) (y m c p q : list nat -> R) (l u : list nat -> Rbar),
  params s [(obs, fins y); (location, fins m); (scale, fins c); (lower, fun i => rbn (l i)); (upper, fun i => rbn (u i)); (lmass, fins p); (umass, fins q)]%list ->
  (forall i, inb s i -> 0 < c i /\ tc_ok (l i) (u i) (p i) (q i)) ->
  exists f, returns (crps_gtcnormal obs location scale lower upper lmass umass) s (fins f) /\
    forall i, inb s i -> is_crps (truncensx (normal_cdf (m i) (c i)) (l i) (u i) (p i) (q i)) (y i) (f i).
Proof. exact C56_gtcnormal_l. Qed.
Print Assumptions C56_gtcnormal.
Example C56_gtcnormal_ex : let f v := fun _ : list nat => v in
  params (2%nat :: nil) [(farr (2%nat :: nil) (f 3), fins (f 3)); (farr nil (f 1), fins (f 1)); (farr (1%nat :: nil) (f 2), fins (f 2));
    (farr nil (f 0), fun i => rbn (Finite (f 0 i))); (farr nil (f 4), fun i => rbn (Finite (f 4 i))); (farr nil (f (1 / 4)), fins (f (1 / 4))); (farr nil (f (1 / 8)), fins (f (1 / 8)))]%list /\
  0 < 2 /\ tc_ok 0 4 (1 / 4) (1 / 8).
Proof.
  cbv zeta. split; [split; [reflexivity|repeat constructor]|]. split; [lra|]. unfold tc_ok; simpl; repeat split; try lra; discriminate.
Qed.

(** the truncated normal distribution *)
Theorem C56_tnormal :
forall (obs location scale lower upper : arr) (s : list nat) (y m c : list nat -> R) (l u : list nat -> Rbar),
  params s [(obs, fins y); (location, fins m); (scale, fins c); (lower, fun i => rbn (l i)); (upper, fun i => rbn (u i))]%list ->
  (forall i, inb s i -> 0 < c i /\ Rbar_lt (l i) (u i)) ->
  exists f, returns (crps_tnormal obs location scale lower upper) s (fins f) /\
    forall i, inb s i -> is_crps (truncensx (normal_cdf (m i) (c i)) (l i) (u i) 0 0) (y i) (f i).
Proof. exact C56_tnormal_l. Qed.
Print Assumptions C56_tnormal.
Example C56_tnormal_ex : let f v := fun _ : list nat => v in
  params (2%nat :: nil) [(farr (2%nat :: nil) (f 3), fins (f 3)); (farr nil (f 1), fins (f 1)); (farr (1%nat :: nil) (f 2), fins (f 2));
    (farr nil (f 0), fun i => rbn (Finite (f 0 i))); (farr nil (f 4), fun i => rbn (Finite (f 4 i)))]%list /\ Rbar_lt 0 4.
Proof. cbv zeta. split; [split; [reflexivity|repeat constructor]|simpl; lra]. Qed.

(** the censored normal distribution *)
Theorem C56_cnormal :
forall (obs location scale lower upper : arr) (s : list nat) (y m c : list nat -> R) (l u : list nat -> Rbar),
  params s [(obs, fins y); (location, fins m); (scale, fins c); (lower, fun i => rbn (l i)); (upper, fun i => rbn (u i))]%list ->
  (forall i, inb s i -> 0 < c i /\ Rbar_lt (l i) (u i)) ->
  exists f, returns (crps_cnormal obs location scale lower upper) s (fins f) /\
    forall i, inb s i -> is_crps (censored (normal_cdf (m i) (c i)) (l i) (u i)) (y i) (f i).
Proof. exact C56_cnormal_l. Qed.
Print Assumptions C56_cnormal.
Example C56_cnormal_ex : let f v := fun _ : list nat => v in
  params (2%nat :: nil) [(farr (2%nat :: nil) (f 3), fins (f 3)); (farr nil (f 1), fins (f 1)); (farr (1%nat :: nil) (f 2), fins (f 2));
    (farr nil (f 0), fun i => rbn (Finite (f 0 i))); (farr nil (f 4), fun i => rbn (Finite (f 4 i)))]%list /\ Rbar_lt 0 4.
Proof. cbv zeta. split; [split; [reflexivity|repeat constructor]|simpl; lra]. Qed.

(** the logistic distribution with point masses at its bounds; both bounds finite or both infinite *)
Theorem C57_gtclogistic :
forall (obs location scale lower upper lmass umass : arr) (s : list nat) (y m c p q : list nat -> R) (l u : list nat -> Rbar),
  params s [(obs, fins y); (location, fins m); (scale, fins c); (lower, fun i => rbn (l i)); (upper, fun i => rbn (u i)); (lmass, fins p); (umass, fins q)]%list ->
  (forall i, inb s i -> 0 < c i /\ tc_ok (l i) (u i) (p i) (q i) /\ (l i = m_infty <-> u i = p_infty)) ->
  exists f, returns (crps_gtclogistic obs location scale lower upper lmass umass) s (fins f) /\
    forall i, inb s i -> is_crps (truncensx (logistic_cdf (m i) (c i)) (l i) (u i) (p i) (q i)) (y i) (f i).
Proof. exact C57_gtclogistic_l. Qed.
Print Assumptions C57_gtclogistic.
Example C57_gtclogistic_ex : let f v := fun _ : list nat => v in
  params (2%nat :: nil) [(farr (2%nat :: nil) (f 3), fins (f 3)); (farr nil (f 1), fins (f 1)); (farr (1%nat :: nil) (f 2), fins (f 2));
    (farr nil (f 0), fun i => rbn (Finite (f 0 i))); (farr nil (f 4), fun i => rbn (Finite (f 4 i))); (farr nil (f (1 / 4)), fins (f (1 / 4))); (farr nil (f (1 / 8)), fins (f (1 / 8)))]%list /\
  0 < 2 /\ tc_ok 0 4 (1 / 4) (1 / 8) /\ (Finite 0 = m_infty <-> Finite 4 = p_infty).
Proof.
  cbv zeta. split; [split; [reflexivity|repeat constructor]|]. split; [lra|]. split; [|split; discriminate]. unfold tc_ok; simpl; repeat split; try lra; discriminate.
Qed.

(** the truncated logistic distribution; both bounds finite or both infinite *)
Theorem C57_tlogistic :
forall (obs location scale lower upper : arr) (s : list nat) (y m c : list nat -> R) (l u : list nat -> Rbar),
  params s [(obs, fins y); (location, fins m); (scale, fins c); (lower, fun i => rbn (l i)); (upper, fun i => rbn (u i))]%list ->
  (forall i, inb s i -> 0 < c i /\ Rbar_lt (l i) (u i) /\ (l i = m_infty <-> u i = p_infty)) ->
  exists f, returns (crps_tlogistic obs location scale lower upper) s (fins f) /\
    forall i, inb s i -> is_crps (truncensx (logistic_cdf (m i) (c i)) (l i) (u i) 0 0) (y i) (f i).
Proof. exact C57_tlogistic_l. Qed.
Print Assumptions C57_tlogistic.
Example C57_tlogistic_ex : let f v := fun _ : list nat => v in
  params (2%nat :: nil) [(farr (2%nat :: nil) (f 3), fins (f 3)); (farr nil (f 1), fins (f 1)); (farr (1%nat :: nil) (f 2), fins (f 2));
    (farr nil (f 0), fun i => rbn (Finite (f 0 i))); (farr nil (f 4), fun i => rbn (Finite (f 4 i)))]%list /\ Rbar_lt 0 4.
Proof. cbv zeta. split; [split; [reflexivity|repeat constructor]|simpl; lra]. Qed.

(** the censored logistic distribution; both bounds finite or both infinite *)
Theorem C57_clogistic :
forall (obs location scale lower upper : arr) (s : list nat) (y m c : list nat -> R) (l u : list nat -> Rbar),
  params s [(obs, fins y); (location, fins m); (scale, fins c); (lower, fun i => rbn (l i)); (upper, fun i => rbn (u i))]%list ->
  (forall i, inb s i -> 0 < c i /\ Rbar_lt (l i) (u i) /\ (l i = m_infty <-> u i = p_infty)) ->
  exists f, returns (crps_clogistic obs location scale lower upper) s (fins f) /\
    forall i, inb s i -> is_crps (censored (logistic_cdf (m i) (c i)) (l i) (u i)) (y i) (f i).
Proof. exact C57_clogistic_l. Qed.
Print Assumptions C57_clogistic.
Example C57_clogistic_ex : let f v := fun _ : list nat => v in
  params (2%nat :: nil) [(farr (2%nat :: nil) (f 3), fins (f 3)); (farr nil (f 1), fins (f 1)); (farr (1%nat :: nil) (f 2), fins (f 2));
    (farr nil (f 0), fun i => rbn (Finite (f 0 i))); (farr nil (f 4), fun i => rbn (Finite (f 4 i)))]%list /\ Rbar_lt 0 4.
Proof. cbv zeta. split; [split; [reflexivity|repeat constructor]|simpl; lra]. Qed.

(** the two-piece normal distribution *)
Theorem C56_2pnormal :
forall (obs scale1 scale2 location : arr) (s : list nat) (y p q m : list nat -> R),
  params s [(obs, fins y); (scale1, fins p); (scale2, fins q); (location, fins m)]%list -> (forall i, inb s i -> 0 < p i /\ 0 < q i) ->
  exists f, returns (crps_2pnormal obs scale1 scale2 location) s (fins f) /\
    forall i, inb s i -> is_crps (normal2p_cdf (p i) (q i) (m i)) (y i) (f i).
Proof. exact C56_2pnormal_l. Qed.
Print Assumptions C56_2pnormal.
Example C56_2pnormal_ex : let f v := fun _ : list nat => v in
  params (2%nat :: nil) [(farr (2%nat :: nil) (f 3), fins (f 3)); (farr nil (f 1), fins (f 1)); (farr nil (f 2), fins (f 2)); (farr (1%nat :: nil) (f 2), fins (f 2))]%list /\ 0 < 2.
Proof. cbv zeta. split; [split; [reflexivity|repeat constructor]|lra]. Qed.

(** with exactly one infinite bound the scores of the logistic distribution are NaN *)
Theorem C57_one_sided_nan :
forall (obs location scale lower upper lmass umass : arr) (s : list nat) (y m c p q : list nat -> R) (l u : list nat -> Rbar),
  params s [(obs, fins y); (location, fins m); (scale, fins c); (lower, fun i => rbn (l i)); (upper, fun i => rbn (u i)); (lmass, fins p); (umass, fins q)]%list ->
  (forall i, inb s i -> 0 < c i /\ Rbar_lt (l i) (u i) /\ ~ (l i = m_infty <-> u i = p_infty)) ->
  returns (crps_gtclogistic obs location scale lower upper lmass umass) s (fun _ => NaN).
Proof. exact C57_one_sided_nan_l. Qed.
Print Assumptions C57_one_sided_nan.
Example C57_one_sided_nan_ex : let f v := fun _ : list nat => v in
  params (2%nat :: nil) [(farr (2%nat :: nil) (f 3), fins (f 3)); (farr nil (f 1), fins (f 1)); (farr (1%nat :: nil) (f 2), fins (f 2));
    (farr nil (f 0), fun i => rbn (Finite (f 0 i))); (mkArr DFloat nil (fun _ => PInf), fun i => rbn p_infty); (farr nil (f 0), fins (f 0)); (farr nil (f 0), fins (f 0))]%list /\
  Rbar_lt 0 p_infty /\ ~ (Finite 0 = m_infty <-> p_infty = p_infty).
Proof. cbv zeta. split; [split; [reflexivity|repeat constructor]|split; [exact I|]]. intros [_ K]. now specialize (K eq_refl). Qed.

(** the score of a logistic distribution truncated below only (a documented use: upper defaults to inf) is not the integral *)
Theorem C57_tlogistic_one_sided_refuted :
exists (obs location scale lower upper : arr) (l u : Rbar),
  params nil [(obs, fun _ => Fin 1); (location, fun _ => Fin 0); (scale, fun _ => Fin 1); (lower, fun _ => rbn l); (upper, fun _ => rbn u)]%list /\
  Rbar_lt l u /\ (exists v, is_crps (truncensx (logistic_cdf 0 1) l u 0 0) 1 v) /\
  returns (crps_tlogistic obs location scale lower upper) nil (fun _ => NaN).
Proof. exact C57_tlogistic_one_sided_refuted_l. Qed.
Print Assumptions C57_tlogistic_one_sided_refuted.
