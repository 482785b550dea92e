(** Proofs of the equivariance of the closed-form scores (statements in P_equiv.v). *)
From Verif Require Export L_equiv.
From Coq Require Import Psatz.
Open Scope R_scope.
Ltac equi := repeat (rewrite ?aff_sub, ?scal_sub, ?scal_add, ?scal_mul_l, ?scal_mul_r, ?scal_div, ?scal_div_l, ?scal_abs, ?scal_opp,
  ?scal_min0, ?scal_max0, ?scal_max0', ?scal_lt0, ?scal_le0, ?scal_scal, ?scal_log, ?aff_ln_sub, ?aff_ln_add, ?exp_log_scal, ?scal_lt,
  ?rate_mul, ?rate_div, ?scal_inv, ?scal_inv' by assumption).
(** crps_gev before the conversion to float *)
Definition crps_gev_out (obs shape location scale : arr) : tensor :=
  let shape := Ok shape in let scale := Ok scale in
  let obs := ((Ok obs - Ok location) / scale)%A in
  let F_xi := _gev_cdf obs shape in
  let zero_shape := aeq shape (sc 0) in
  let shape := awhere (anot zero_shape) shape nan in
  let G_xi := _gev_adjust_fn obs shape F_xi in
  let out := awhere zero_shape
    (aneg obs - sci 2 * aexpi (alog F_xi) + sc EULERMASCHERONI - alog (sci 2))%A
    (obs * (sci 2 * F_xi - sci 1) - sci 2 * G_xi
     - (sci 1 - (sci 2 - apow (sci 2) shape) * agamma (sci 1 - shape)) / shape)%A in
  (out * scale)%A.

Lemma C40_normal_l :
forall (obs mu sigma obs' mu' sigma' : arr) (s : list nat) (y m q : list nat -> num) (a c : list nat -> R),
  params s [(obs, y); (mu, m); (sigma, q)]%list ->
  params s [(obs', fun i => aff (a i) (c i) (y i)); (mu', fun i => aff (a i) (c i) (m i)); (sigma', fun i => scal (c i) (q i))]%list ->
  (forall i, inb s i -> 0 < c i) ->
  exists f, returns (crps_normal obs mu sigma) s f /\
    returns (crps_normal obs' mu' sigma') s (fun i => scal (c i) (f i)).
Proof.
intros obs mu sigma obs' mu' sigma' s y m q a c P P' Hc.  eexists (fun i => _). split; [ret P; reflexivity|].
ret P'. specialize (Hc i Hi). assert (0 < / c i) by (apply Rinv_0_lt_compat; lra). equi. reflexivity.
Qed.
Lemma C40_logistic_l :
forall (obs mu sigma obs' mu' sigma' : arr) (s : list nat) (y m q : list nat -> num) (a c : list nat -> R),
  params s [(obs, y); (mu, m); (sigma, q)]%list ->
  params s [(obs', fun i => aff (a i) (c i) (y i)); (mu', fun i => aff (a i) (c i) (m i)); (sigma', fun i => scal (c i) (q i))]%list ->
  (forall i, inb s i -> 0 < c i) ->
  exists f, returns (crps_logistic obs mu sigma) s f /\
    returns (crps_logistic obs' mu' sigma') s (fun i => scal (c i) (f i)).
Proof.
intros obs mu sigma obs' mu' sigma' s y m q a c P P' Hc.  eexists (fun i => _). split; [ret P; reflexivity|].
ret P'. specialize (Hc i Hi). assert (0 < / c i) by (apply Rinv_0_lt_compat; lra). equi. reflexivity.
Qed.
Lemma C40_laplace_l :
forall (obs location scale obs' location' scale' : arr) (s : list nat) (y m q : list nat -> num) (a c : list nat -> R),
  params s [(obs, y); (location, m); (scale, q)]%list ->
  params s [(obs', fun i => aff (a i) (c i) (y i)); (location', fun i => aff (a i) (c i) (m i)); (scale', fun i => scal (c i) (q i))]%list ->
  (forall i, inb s i -> 0 < c i) ->
  exists f, returns (crps_laplace obs location scale) s f /\
    returns (crps_laplace obs' location' scale') s (fun i => scal (c i) (f i)).
Proof.
intros obs location scale obs' location' scale' s y m q a c P P' Hc.  eexists (fun i => _). split; [ret P; reflexivity|].
ret P'. specialize (Hc i Hi). assert (0 < / c i) by (apply Rinv_0_lt_compat; lra). equi. reflexivity.
Qed.
Lemma C40_t_l :
forall (obs df location scale obs' location' scale' : arr) (s : list nat) (y n m q : list nat -> num) (a c : list nat -> R),
  params s [(obs, y); (df, n); (location, m); (scale, q)]%list ->
  params s [(obs', fun i => aff (a i) (c i) (y i)); (df, n); (location', fun i => aff (a i) (c i) (m i)); (scale', fun i => scal (c i) (q i))]%list ->
  (forall i, inb s i -> 0 < c i) ->
  exists f, returns (crps_t obs df location scale) s f /\
    returns (crps_t obs' df location' scale') s (fun i => scal (c i) (f i)).
Proof.
intros obs df location scale obs' location' scale' s y n m q a c P P' Hc.  eexists (fun i => _). split; [ret P; reflexivity|].
ret P'. specialize (Hc i Hi). assert (0 < / c i) by (apply Rinv_0_lt_compat; lra). equi. reflexivity.
Qed.
Lemma C40_gpd_l :
forall (obs shape location scale mass obs' location' scale' : arr) (s : list nat) (y xi m q p : list nat -> num) (a c : list nat -> R),
  params s [(obs, y); (shape, xi); (location, m); (scale, q); (mass, p)]%list ->
  params s [(obs', fun i => aff (a i) (c i) (y i)); (shape, xi); (location', fun i => aff (a i) (c i) (m i)); (scale', fun i => scal (c i) (q i)); (mass, p)]%list ->
  (forall i, inb s i -> 0 < c i) ->
  exists f, returns (crps_gpd obs shape location scale mass) s f /\
    returns (crps_gpd obs' shape location' scale' mass) s (fun i => scal (c i) (f i)).
Proof.
intros obs shape location scale mass obs' location' scale' s y xi m q p a c P P' Hc.  eexists (fun i => _). split; [ret P; reflexivity|].
ret P'. specialize (Hc i Hi). assert (0 < / c i) by (apply Rinv_0_lt_compat; lra). equi. reflexivity.
Qed.
Lemma C40_uniform_l :
forall (obs min max lmass umass obs' min' max' : arr) (s : list nat) (y l u p q : list nat -> num) (a c : list nat -> R),
  params s [(obs, y); (min, l); (max, u); (lmass, p); (umass, q)]%list ->
  params s [(obs', fun i => aff (a i) (c i) (y i)); (min', fun i => aff (a i) (c i) (l i)); (max', fun i => aff (a i) (c i) (u i)); (lmass, p); (umass, q)]%list ->
  (forall i, inb s i -> 0 < c i) ->
  exists f, returns (crps_uniform obs min max lmass umass) s f /\
    returns (crps_uniform obs' min' max' lmass umass) s (fun i => scal (c i) (f i)).
Proof.
intros obs min max lmass umass obs' min' max' s y l u p q a c P P' Hc.  eexists (fun i => _). split; [ret P; reflexivity|].
ret P'. specialize (Hc i Hi). assert (0 < / c i) by (apply Rinv_0_lt_compat; lra). equi. reflexivity.
Qed.
Lemma C40_gtclogistic_l :
forall (obs location scale lower upper lmass umass obs' location' scale' lower' upper' : arr) (s : list nat) (y m q l u p r : list nat -> num) (a c : list nat -> R),
  params s [(obs, y); (location, m); (scale, q); (lower, l); (upper, u); (lmass, p); (umass, r)]%list ->
  params s [(obs', fun i => aff (a i) (c i) (y i)); (location', fun i => aff (a i) (c i) (m i)); (scale', fun i => scal (c i) (q i)); (lower', fun i => aff (a i) (c i) (l i)); (upper', fun i => aff (a i) (c i) (u i)); (lmass, p); (umass, r)]%list ->
  (forall i, inb s i -> 0 < c i) ->
  exists f, returns (crps_gtclogistic obs location scale lower upper lmass umass) s f /\
    returns (crps_gtclogistic obs' location' scale' lower' upper' lmass umass) s (fun i => scal (c i) (f i)).
Proof.
intros obs location scale lower upper lmass umass obs' location' scale' lower' upper' s y m q l u p r a c P P' Hc.  eexists (fun i => _). split; [ret P; reflexivity|].
ret P'. specialize (Hc i Hi). assert (0 < / c i) by (apply Rinv_0_lt_compat; lra). equi. reflexivity.
Qed.
Lemma C40_tlogistic_l :
forall (obs location scale lower upper obs' location' scale' lower' upper' : arr) (s : list nat) (y m q l u : list nat -> num) (a c : list nat -> R),
  params s [(obs, y); (location, m); (scale, q); (lower, l); (upper, u)]%list ->
  params s [(obs', fun i => aff (a i) (c i) (y i)); (location', fun i => aff (a i) (c i) (m i)); (scale', fun i => scal (c i) (q i)); (lower', fun i => aff (a i) (c i) (l i)); (upper', fun i => aff (a i) (c i) (u i))]%list ->
  (forall i, inb s i -> 0 < c i) ->
  exists f, returns (crps_tlogistic obs location scale lower upper) s f /\
    returns (crps_tlogistic obs' location' scale' lower' upper') s (fun i => scal (c i) (f i)).
Proof.
intros obs location scale lower upper obs' location' scale' lower' upper' s y m q l u a c P P' Hc.  eexists (fun i => _). split; [ret P; reflexivity|].
ret P'. specialize (Hc i Hi). assert (0 < / c i) by (apply Rinv_0_lt_compat; lra). equi. reflexivity.
Qed.
Lemma C40_clogistic_l :
forall (obs location scale lower upper obs' location' scale' lower' upper' : arr) (s : list nat) (y m q l u : list nat -> num) (a c : list nat -> R),
  params s [(obs, y); (location, m); (scale, q); (lower, l); (upper, u)]%list ->
  params s [(obs', fun i => aff (a i) (c i) (y i)); (location', fun i => aff (a i) (c i) (m i)); (scale', fun i => scal (c i) (q i)); (lower', fun i => aff (a i) (c i) (l i)); (upper', fun i => aff (a i) (c i) (u i))]%list ->
  (forall i, inb s i -> 0 < c i) ->
  exists f, returns (crps_clogistic obs location scale lower upper) s f /\
    returns (crps_clogistic obs' location' scale' lower' upper') s (fun i => scal (c i) (f i)).
Proof.
intros obs location scale lower upper obs' location' scale' lower' upper' s y m q l u a c P P' Hc.  eexists (fun i => _). split; [ret P; reflexivity|].
ret P'. specialize (Hc i Hi). assert (0 < / c i) by (apply Rinv_0_lt_compat; lra). equi. reflexivity.
Qed.
Lemma C40_gtcnormal_l :
forall (obs location scale lower upper lmass umass obs' location' scale' lower' upper' : arr) (s : list nat) (y m q l u p r : list nat -> num) (a c : list nat -> R),
  params s [(obs, y); (location, m); (scale, q); (lower, l); (upper, u); (lmass, p); (umass, r)]%list ->
  params s [(obs', fun i => aff (a i) (c i) (y i)); (location', fun i => aff (a i) (c i) (m i)); (scale', fun i => scal (c i) (q i)); (lower', fun i => aff (a i) (c i) (l i)); (upper', fun i => aff (a i) (c i) (u i)); (lmass, p); (umass, r)]%list ->
  (forall i, inb s i -> 0 < c i) ->
  exists f, returns (crps_gtcnormal obs location scale lower upper lmass umass) s f /\
    returns (crps_gtcnormal obs' location' scale' lower' upper' lmass umass) s (fun i => scal (c i) (f i)).
Proof.
intros obs location scale lower upper lmass umass obs' location' scale' lower' upper' s y m q l u p r a c P P' Hc.  eexists (fun i => _). split; [ret P; reflexivity|].
ret P'. specialize (Hc i Hi). assert (0 < / c i) by (apply Rinv_0_lt_compat; lra). equi. reflexivity.
Qed.
Lemma C40_tnormal_l :
forall (obs location scale lower upper obs' location' scale' lower' upper' : arr) (s : list nat) (y m q l u : list nat -> num) (a c : list nat -> R),
  params s [(obs, y); (location, m); (scale, q); (lower, l); (upper, u)]%list ->
  params s [(obs', fun i => aff (a i) (c i) (y i)); (location', fun i => aff (a i) (c i) (m i)); (scale', fun i => scal (c i) (q i)); (lower', fun i => aff (a i) (c i) (l i)); (upper', fun i => aff (a i) (c i) (u i))]%list ->
  (forall i, inb s i -> 0 < c i) ->
  exists f, returns (crps_tnormal obs location scale lower upper) s f /\
    returns (crps_tnormal obs' location' scale' lower' upper') s (fun i => scal (c i) (f i)).
Proof.
intros obs location scale lower upper obs' location' scale' lower' upper' s y m q l u a c P P' Hc.  eexists (fun i => _). split; [ret P; reflexivity|].
ret P'. specialize (Hc i Hi). assert (0 < / c i) by (apply Rinv_0_lt_compat; lra). equi. reflexivity.
Qed.
Lemma C40_cnormal_l :
forall (obs location scale lower upper obs' location' scale' lower' upper' : arr) (s : list nat) (y m q l u : list nat -> num) (a c : list nat -> R),
  params s [(obs, y); (location, m); (scale, q); (lower, l); (upper, u)]%list ->
  params s [(obs', fun i => aff (a i) (c i) (y i)); (location', fun i => aff (a i) (c i) (m i)); (scale', fun i => scal (c i) (q i)); (lower', fun i => aff (a i) (c i) (l i)); (upper', fun i => aff (a i) (c i) (u i))]%list ->
  (forall i, inb s i -> 0 < c i) ->
  exists f, returns (crps_cnormal obs location scale lower upper) s f /\
    returns (crps_cnormal obs' location' scale' lower' upper') s (fun i => scal (c i) (f i)).
Proof.
intros obs location scale lower upper obs' location' scale' lower' upper' s y m q l u a c P P' Hc.  eexists (fun i => _). split; [ret P; reflexivity|].
ret P'. specialize (Hc i Hi). assert (0 < / c i) by (apply Rinv_0_lt_compat; lra). equi. reflexivity.
Qed.
Lemma C40_gtct_l :
forall (obs df location scale lower upper lmass umass obs' location' scale' lower' upper' : arr) (s : list nat) (y n m q l u p r : list nat -> num) (a c : list nat -> R),
  params s [(obs, y); (df, n); (location, m); (scale, q); (lower, l); (upper, u); (lmass, p); (umass, r)]%list ->
  params s [(obs', fun i => aff (a i) (c i) (y i)); (df, n); (location', fun i => aff (a i) (c i) (m i)); (scale', fun i => scal (c i) (q i)); (lower', fun i => aff (a i) (c i) (l i)); (upper', fun i => aff (a i) (c i) (u i)); (lmass, p); (umass, r)]%list ->
  (forall i, inb s i -> 0 < c i) ->
  exists f, returns (crps_gtct obs df location scale lower upper lmass umass) s f /\
    returns (crps_gtct obs' df location' scale' lower' upper' lmass umass) s (fun i => scal (c i) (f i)).
Proof.
intros obs df location scale lower upper lmass umass obs' location' scale' lower' upper' s y n m q l u p r a c P P' Hc.  eexists (fun i => _). split; [ret P; reflexivity|].
ret P'. specialize (Hc i Hi). assert (0 < / c i) by (apply Rinv_0_lt_compat; lra). equi. reflexivity.
Qed.
Lemma C40_tt_l :
forall (obs df location scale lower upper obs' location' scale' lower' upper' : arr) (s : list nat) (y n m q l u : list nat -> num) (a c : list nat -> R),
  params s [(obs, y); (df, n); (location, m); (scale, q); (lower, l); (upper, u)]%list ->
  params s [(obs', fun i => aff (a i) (c i) (y i)); (df, n); (location', fun i => aff (a i) (c i) (m i)); (scale', fun i => scal (c i) (q i)); (lower', fun i => aff (a i) (c i) (l i)); (upper', fun i => aff (a i) (c i) (u i))]%list ->
  (forall i, inb s i -> 0 < c i) ->
  exists f, returns (crps_tt obs df location scale lower upper) s f /\
    returns (crps_tt obs' df location' scale' lower' upper') s (fun i => scal (c i) (f i)).
Proof.
intros obs df location scale lower upper obs' location' scale' lower' upper' s y n m q l u a c P P' Hc.  eexists (fun i => _). split; [ret P; reflexivity|].
ret P'. specialize (Hc i Hi). assert (0 < / c i) by (apply Rinv_0_lt_compat; lra). equi. reflexivity.
Qed.
Lemma C40_ct_l :
forall (obs df location scale lower upper obs' location' scale' lower' upper' : arr) (s : list nat) (y n m q l u : list nat -> num) (a c : list nat -> R),
  params s [(obs, y); (df, n); (location, m); (scale, q); (lower, l); (upper, u)]%list ->
  params s [(obs', fun i => aff (a i) (c i) (y i)); (df, n); (location', fun i => aff (a i) (c i) (m i)); (scale', fun i => scal (c i) (q i)); (lower', fun i => aff (a i) (c i) (l i)); (upper', fun i => aff (a i) (c i) (u i))]%list ->
  (forall i, inb s i -> 0 < c i) ->
  exists f, returns (crps_ct obs df location scale lower upper) s f /\
    returns (crps_ct obs' df location' scale' lower' upper') s (fun i => scal (c i) (f i)).
Proof.
intros obs df location scale lower upper obs' location' scale' lower' upper' s y n m q l u a c P P' Hc.  eexists (fun i => _). split; [ret P; reflexivity|].
ret P'. specialize (Hc i Hi). assert (0 < / c i) by (apply Rinv_0_lt_compat; lra). equi. reflexivity.
Qed.
Lemma C40_2pexponential_l :
forall (obs scale1 scale2 location obs' scale1' scale2' location' : arr) (s : list nat) (y p q m : list nat -> num) (a c : list nat -> R),
  params s [(obs, y); (scale1, p); (scale2, q); (location, m)]%list ->
  params s [(obs', fun i => aff (a i) (c i) (y i)); (scale1', fun i => scal (c i) (p i)); (scale2', fun i => scal (c i) (q i)); (location', fun i => aff (a i) (c i) (m i))]%list ->
  (forall i, inb s i -> 0 < c i) ->
  exists f, returns (crps_2pexponential obs scale1 scale2 location) s f /\
    returns (crps_2pexponential obs' scale1' scale2' location') s (fun i => scal (c i) (f i)).
Proof.
intros obs scale1 scale2 location obs' scale1' scale2' location' s y p q m a c P P' Hc.  eexists (fun i => _). split; [ret P; reflexivity|].
ret P'. specialize (Hc i Hi). assert (0 < c i * c i) by nra. assert (0 < / c i) by (apply Rinv_0_lt_compat; lra). equi. destruct (neqb _ _); rewrite ?scal_sq by assumption; equi; rewrite ?scal_div_r by assumption; equi; replace (c i * c i * / c i) with (c i) by (field; lra); replace (c i * c i * c i * / (c i * c i)) with (c i) by (field; lra); equi; reflexivity.
Qed.
Lemma C40_2pnormal_l :
forall (obs scale1 scale2 location obs' scale1' scale2' location' : arr) (s : list nat) (y p q m : list nat -> num) (a c : list nat -> R),
  params s [(obs, y); (scale1, p); (scale2, q); (location, m)]%list ->
  params s [(obs', fun i => aff (a i) (c i) (y i)); (scale1', fun i => scal (c i) (p i)); (scale2', fun i => scal (c i) (q i)); (location', fun i => aff (a i) (c i) (m i))]%list ->
  (forall i, inb s i -> 0 < c i) ->
  exists f, returns (crps_2pnormal obs scale1 scale2 location) s f /\
    returns (crps_2pnormal obs' scale1' scale2' location') s (fun i => scal (c i) (f i)).
Proof.
intros obs scale1 scale2 location obs' scale1' scale2' location' s y p q m a c P P' Hc.  eexists (fun i => _). split; [ret P; reflexivity|].
ret P'. specialize (Hc i Hi). assert (0 < / c i) by (apply Rinv_0_lt_compat; lra). equi. reflexivity.
Qed.
Lemma C40_exponential_l :
forall (obs rate obs' rate' : arr) (s : list nat) (y r : list nat -> num) (c : list nat -> R),
  params s [(obs, y); (rate, r)]%list ->
  params s [(obs', fun i => scal (c i) (y i)); (rate', fun i => scal (/ c i) (r i))]%list ->
  (forall i, inb s i -> 0 < c i) ->
  exists f, returns (crps_exponential obs rate) s f /\
    returns (crps_exponential obs' rate') s (fun i => scal (c i) (f i)).
Proof.
intros obs rate obs' rate' s y r c P P' Hc.  eexists (fun i => _). split; [ret P; reflexivity|].
ret P'. specialize (Hc i Hi). assert (0 < / c i) by (apply Rinv_0_lt_compat; lra). equi. reflexivity.
Qed.
Lemma C40_gamma_l :
forall (obs shape rate obs' rate' : arr) (s : list nat) (y k r : list nat -> num) (c : list nat -> R),
  params s [(obs, y); (shape, k); (rate, r)]%list ->
  params s [(obs', fun i => scal (c i) (y i)); (shape, k); (rate', fun i => scal (/ c i) (r i))]%list ->
  (forall i, inb s i -> 0 < c i) ->
  exists f, returns (crps_gamma obs shape (Some rate) None) s f /\
    returns (crps_gamma obs' shape (Some rate') None) s (fun i => scal (c i) (f i)).
Proof.
intros obs shape rate obs' rate' s y k r c P P' Hc.  eexists (fun i => _). split; [unfold crps_gamma; ret P; reflexivity|].
unfold crps_gamma; ret P'. specialize (Hc i Hi). assert (0 < / c i) by (apply Rinv_0_lt_compat; lra). equi. reflexivity.
Qed.
Lemma C40_csg0_l :
forall (obs shape rate shift obs' rate' shift' : arr) (s : list nat) (y k r d : list nat -> num) (c : list nat -> R),
  params s [(obs, y); (shape, k); (rate, r); (shift, d)]%list ->
  params s [(obs', fun i => scal (c i) (y i)); (shape, k); (rate', fun i => scal (/ c i) (r i)); (shift', fun i => scal (c i) (d i))]%list ->
  (forall i, inb s i -> 0 < c i) ->
  exists f, returns (crps_csg0 obs shape (Some rate) None shift) s f /\
    returns (crps_csg0 obs' shape (Some rate') None shift') s (fun i => scal (c i) (f i)).
Proof.
intros obs shape rate shift obs' rate' shift' s y k r d c P P' Hc.  eexists (fun i => _). split; [unfold crps_csg0; ret P; reflexivity|].
unfold crps_csg0; ret P'. specialize (Hc i Hi). assert (0 < / c i) by (apply Rinv_0_lt_compat; lra). equi. reflexivity.
Qed.
Lemma C40_lognormal_l :
forall (obs mulog sigmalog obs' mulog' : arr) (s : list nat) (y m q : list nat -> num) (c : list nat -> R),
  params s [(obs, y); (mulog, m); (sigmalog, q)]%list ->
  params s [(obs', fun i => scal (c i) (y i)); (mulog', fun i => aff (ln (c i)) 1 (m i)); (sigmalog, q)]%list ->
  (forall i, inb s i -> 0 < c i) ->
  exists f, returns (crps_lognormal obs mulog sigmalog) s f /\
    returns (crps_lognormal obs' mulog' sigmalog) s (fun i => scal (c i) (f i)).
Proof.
intros obs mulog sigmalog obs' mulog' s y m q c P P' Hc.  eexists (fun i => _). split; [ret P; reflexivity|].
ret P'. specialize (Hc i Hi). assert (0 < / c i) by (apply Rinv_0_lt_compat; lra). equi. reflexivity.
Qed.
Lemma C40_loglogistic_l :
forall (obs mulog sigmalog obs' mulog' : arr) (s : list nat) (y m q : list nat -> num) (c : list nat -> R),
  params s [(obs, y); (mulog, m); (sigmalog, q)]%list ->
  params s [(obs', fun i => scal (c i) (y i)); (mulog', fun i => aff (ln (c i)) 1 (m i)); (sigmalog, q)]%list ->
  (forall i, inb s i -> 0 < c i) ->
  exists f, returns (crps_loglogistic obs mulog sigmalog) s f /\
    returns (crps_loglogistic obs' mulog' sigmalog) s (fun i => scal (c i) (f i)).
Proof.
intros obs mulog sigmalog obs' mulog' s y m q c P P' Hc.  eexists (fun i => _). split; [ret P; reflexivity|].
ret P'. specialize (Hc i Hi). assert (0 < / c i) by (apply Rinv_0_lt_compat; lra). equi. reflexivity.
Qed.
Lemma C40_loglaplace_l :
forall (obs locationlog scalelog obs' locationlog' : arr) (s : list nat) (y m q : list nat -> num) (c : list nat -> R),
  params s [(obs, y); (locationlog, m); (scalelog, q)]%list ->
  params s [(obs', fun i => scal (c i) (y i)); (locationlog', fun i => aff (ln (c i)) 1 (m i)); (scalelog, q)]%list ->
  (forall i, inb s i -> 0 < c i) ->
  exists f, returns (crps_loglaplace obs locationlog scalelog) s f /\
    returns (crps_loglaplace obs' locationlog' scalelog) s (fun i => scal (c i) (f i)).
Proof.
intros obs locationlog scalelog obs' locationlog' s y m q c P P' Hc. destruct (broadcast3_params _ _ _ _ _ _ _ P) as (a1 & a2 & a3 & E & _ & Q). destruct (broadcast3_params _ _ _ _ _ _ _ P') as (b1 & b2 & b3 & F & _ & Q'). clear P P'. rename Q into P, Q' into P'. unfold crps_loglaplace. rewrite E, F. cbn [bind]. eexists (fun i => _). split; [ret P; reflexivity|].
ret P'. specialize (Hc i Hi). assert (0 < / c i) by (apply Rinv_0_lt_compat; lra). equi. reflexivity.
Qed.
Lemma C40_gev_l :
forall (obs shape location scale obs' location' scale' : arr) (s : list nat) (y xi m q : list nat -> num) (a c : R),
  params s [(obs, y); (shape, xi); (location, m); (scale, q)]%list ->
  params s [(obs', fun i => aff a c (y i)); (shape, xi); (location', fun i => aff a c (m i)); (scale', fun i => scal c (q i))]%list ->
  0 < c ->
  exists f, returns (crps_gev obs shape location scale) (float_shape s) f /\
    returns (crps_gev obs' shape location' scale') (float_shape s) (fun i => scal c (f i)).
Proof.
intros obs shape location scale obs' location' scale' s y xi m q a c P P' Hc.
assert (exists f, returns (crps_gev_out obs shape location scale) s f /\ returns (crps_gev_out obs' shape location' scale') s (fun i => scal c (f i))) as (f & H1 & H2).
{ eexists (fun i => _). split; [ret P; reflexivity|]. ret P'. equi. reflexivity. }
eexists. split; [exact (float1_returns _ _ _ H1)|]. eapply returns_eq; [exact (float1_returns _ _ _ H2)|].
intros i Hi. cbv beta. destruct (_ =? 1)%nat; reflexivity.
Qed.
Lemma C40_exponentialM_l :
forall (obs mass location scale obs' location' scale' : arr) (s : list nat) (y p m q a c : list nat -> R),
  params s [(obs, fins y); (mass, fins p); (location, fins m); (scale, fins q)]%list -> dt obs = DFloat -> sh obs = s ->
  params s [(obs', fins (fun i => a i + c i * y i)); (mass, fins p); (location', fins (fun i => a i + c i * m i)); (scale', fins (fun i => c i * q i))]%list ->
  dt obs' = DFloat -> sh obs' = s ->
  (forall i, inb s i -> 0 < c i /\ 0 < q i) ->
  exists f, returns (crps_exponentialM obs mass location scale) s (fun i => Fin (f i)) /\
    returns (crps_exponentialM obs' mass location' scale') s (fun i => Fin (c i * f i)).
Proof.
intros obs mass location scale obs' location' scale' s y p m q a c P D S P' D' S' H.
eexists. split; [exact (exponentialM_value _ _ _ _ _ _ _ _ _ P D S (fun i Hi => Rgt_not_eq _ _ (proj2 (H i Hi))))|].
eapply returns_eq; [apply (exponentialM_value _ _ _ _ _ _ _ _ _ P' D' S')|].
- intros i Hi. destruct (H i Hi). nra.
- intros i Hi. destruct (H i Hi) as [Hc Hq]. cbv beta zeta. f_equal.
  replace (a i + c i * y i - (a i + c i * m i)) with (c i * (y i - m i)) by ring.
  replace (c i * (y i - m i) / (c i * q i)) with ((y i - m i) / q i) by (field; lra).
  rewrite Rabs_mult, (Rabs_right (c i)) by lra. ring.
Qed.
Lemma C40_beta_l :
forall (obs a b lower upper obs' lower' upper' : arr) (s t t' : list nat) (y p q : list nat -> num) (l u l0 u0 l1 u1 e c : list nat -> R),
  params s [(obs, y); (a, p); (b, q)]%list ->
  params s [(obs, y); (a, p); (b, q); (lower, fins l); (upper, fins u)]%list ->
  params t [(lower, fins l0); (upper, fins u0)]%list -> (forall i, inb t i -> l0 i < u0 i) ->
  params s [(obs', fun i => aff (e i) (c i) (y i)); (a, p); (b, q)]%list ->
  params s [(obs', fun i => aff (e i) (c i) (y i)); (a, p); (b, q); (lower', fins (fun i => e i + c i * l i)); (upper', fins (fun i => e i + c i * u i))]%list ->
  params t' [(lower', fins l1); (upper', fins u1)]%list -> (forall i, inb t' i -> l1 i < u1 i) ->
  (forall i, inb s i -> 0 < c i) ->
  exists f, returns (crps_beta obs a b lower upper) s f /\
    returns (crps_beta obs' a b lower' upper') s (fun i => scal (c i) (f i)).
Proof.
intros obs a b lower upper obs' lower' upper' s t t' y p q l u l0 u0 l1 u1 e c P0 P1 Pt Ht P0' P1' Pt' Ht' Hc.
eexists. split; [exact (beta_entry _ _ _ _ _ _ _ _ _ _ _ _ _ _ P0 P1 Pt Ht)|].
eapply returns_eq; [exact (beta_entry _ _ _ _ _ _ _ _ _ _ _ _ _ _ P0' P1' Pt' Ht')|].
intros i Hi. cbv beta. specialize (Hc i Hi).
replace (Fin (e i + c i * u i - (e i + c i * l i))) with (scal (c i) (Fin (u i - l i))) by (simpl; f_equal; ring).
replace (Fin (e i + c i * l i)) with (aff (e i) (c i) (Fin (l i))) by reflexivity.
rewrite aff_sub, scal_div, scal_mul_r by assumption. reflexivity.
Qed.
