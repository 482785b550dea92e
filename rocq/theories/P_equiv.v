(** Property C40: change of units.  The observation, the location and the bounds are mapped by
    x |-> a + c x, the scale is multiplied by c > 0; then the score is multiplied by c.  [a] and [c] may
    differ from entry to entry.  Entries may be any numbers, also infinite or NaN: the scores agree
    in these cases too. *)
From Verif Require Import T_equiv.
From Coq Require Import Psatz.
Open Scope R_scope.

(** the normal distribution *)
Theorem C40_normal :
forall (obs mu sigma obs' mu' sigma' : arr) (s : list nat) (y m q : list nat -> num) (a c : list nat -> R),
  params s [(obs, y); (mu, m); (sigma, q)]%list ->
  params s [(obs', fun i => aff (a i) (c i) (y i)); (mu', fun i => aff (a i) (c i) (m i)); (sigma', fun i => scal (c i) (q i))]%list ->
  (forall i, inb s i -> 0 < c i) ->
  exists f, returns (crps_normal obs mu sigma) s f /\
    returns (crps_normal obs' mu' sigma') s (fun i => scal (c i) (f i)).
Proof. exact C40_normal_l. Qed.
Print Assumptions C40_normal.
Example C40_normal_ex : let f v := fun _ : list nat => v in
  params [2%nat]%list [(farr [2%nat] (f (3)), fins (f (3))); (farr [] (f (3)), fins (f (3))); (farr [] (f (2)), fins (f (2)))]%list /\
  params [2%nat]%list [(farr [2%nat] (f ((1 + 4 * 3))), fun i => aff (1) (4) (fins (f 3) i)); (farr [] (f ((1 + 4 * 3))), fun i => aff (1) (4) (fins (f 3) i)); (farr [] (f ((0 + 4 * 2))), fun i => scal (4) (fins (f 2) i))]%list.
Proof. cbv zeta. split; (split; [reflexivity|repeat constructor]). Qed.

(** the logistic distribution *)
Theorem C40_logistic :
forall (obs mu sigma obs' mu' sigma' : arr) (s : list nat) (y m q : list nat -> num) (a c : list nat -> R),
  params s [(obs, y); (mu, m); (sigma, q)]%list ->
  params s [(obs', fun i => aff (a i) (c i) (y i)); (mu', fun i => aff (a i) (c i) (m i)); (sigma', fun i => scal (c i) (q i))]%list ->
  (forall i, inb s i -> 0 < c i) ->
  exists f, returns (crps_logistic obs mu sigma) s f /\
    returns (crps_logistic obs' mu' sigma') s (fun i => scal (c i) (f i)).
Proof. exact C40_logistic_l. Qed.
Print Assumptions C40_logistic.
Example C40_logistic_ex : let f v := fun _ : list nat => v in
  params [2%nat]%list [(farr [2%nat] (f (3)), fins (f (3))); (farr [] (f (3)), fins (f (3))); (farr [] (f (2)), fins (f (2)))]%list /\
  params [2%nat]%list [(farr [2%nat] (f ((1 + 4 * 3))), fun i => aff (1) (4) (fins (f 3) i)); (farr [] (f ((1 + 4 * 3))), fun i => aff (1) (4) (fins (f 3) i)); (farr [] (f ((0 + 4 * 2))), fun i => scal (4) (fins (f 2) i))]%list.
Proof. cbv zeta. split; (split; [reflexivity|repeat constructor]). Qed.

(** the Laplace distribution *)
Theorem C40_laplace :
forall (obs location scale obs' location' scale' : arr) (s : list nat) (y m q : list nat -> num) (a c : list nat -> R),
  params s [(obs, y); (location, m); (scale, q)]%list ->
  params s [(obs', fun i => aff (a i) (c i) (y i)); (location', fun i => aff (a i) (c i) (m i)); (scale', fun i => scal (c i) (q i))]%list ->
  (forall i, inb s i -> 0 < c i) ->
  exists f, returns (crps_laplace obs location scale) s f /\
    returns (crps_laplace obs' location' scale') s (fun i => scal (c i) (f i)).
Proof. exact C40_laplace_l. Qed.
Print Assumptions C40_laplace.
Example C40_laplace_ex : let f v := fun _ : list nat => v in
  params [2%nat]%list [(farr [2%nat] (f (3)), fins (f (3))); (farr [] (f (3)), fins (f (3))); (farr [] (f (2)), fins (f (2)))]%list /\
  params [2%nat]%list [(farr [2%nat] (f ((1 + 4 * 3))), fun i => aff (1) (4) (fins (f 3) i)); (farr [] (f ((1 + 4 * 3))), fun i => aff (1) (4) (fins (f 3) i)); (farr [] (f ((0 + 4 * 2))), fun i => scal (4) (fins (f 2) i))]%list.
Proof. cbv zeta. split; (split; [reflexivity|repeat constructor]). Qed.

(** the t distribution *)
Theorem C40_t :
forall (obs df location scale obs' location' scale' : arr) (s : list nat) (y n m q : list nat -> num) (a c : list nat -> R),
  params s [(obs, y); (df, n); (location, m); (scale, q)]%list ->
  params s [(obs', fun i => aff (a i) (c i) (y i)); (df, n); (location', fun i => aff (a i) (c i) (m i)); (scale', fun i => scal (c i) (q i))]%list ->
  (forall i, inb s i -> 0 < c i) ->
  exists f, returns (crps_t obs df location scale) s f /\
    returns (crps_t obs' df location' scale') s (fun i => scal (c i) (f i)).
Proof. exact C40_t_l. Qed.
Print Assumptions C40_t.
Example C40_t_ex : let f v := fun _ : list nat => v in
  params [2%nat]%list [(farr [2%nat] (f (3)), fins (f (3))); (farr [] (f (1 / 2)), fins (f (1 / 2))); (farr [] (f (3)), fins (f (3))); (farr [] (f (2)), fins (f (2)))]%list /\
  params [2%nat]%list [(farr [2%nat] (f ((1 + 4 * 3))), fun i => aff (1) (4) (fins (f 3) i)); (farr [] (f (1 / 2)), fins (f (1 / 2))); (farr [] (f ((1 + 4 * 3))), fun i => aff (1) (4) (fins (f 3) i)); (farr [] (f ((0 + 4 * 2))), fun i => scal (4) (fins (f 2) i))]%list.
Proof. cbv zeta. split; (split; [reflexivity|repeat constructor]). Qed.

(** the generalised Pareto distribution with a point mass *)
Theorem C40_gpd :
forall (obs shape location scale mass obs' location' scale' : arr) (s : list nat) (y xi m q p : list nat -> num) (a c : list nat -> R),
  params s [(obs, y); (shape, xi); (location, m); (scale, q); (mass, p)]%list ->
  params s [(obs', fun i => aff (a i) (c i) (y i)); (shape, xi); (location', fun i => aff (a i) (c i) (m i)); (scale', fun i => scal (c i) (q i)); (mass, p)]%list ->
  (forall i, inb s i -> 0 < c i) ->
  exists f, returns (crps_gpd obs shape location scale mass) s f /\
    returns (crps_gpd obs' shape location' scale' mass) s (fun i => scal (c i) (f i)).
Proof. exact C40_gpd_l. Qed.
Print Assumptions C40_gpd.
Example C40_gpd_ex : let f v := fun _ : list nat => v in
  params [2%nat]%list [(farr [2%nat] (f (3)), fins (f (3))); (farr [] (f (1 / 2)), fins (f (1 / 2))); (farr [] (f (3)), fins (f (3))); (farr [] (f (2)), fins (f (2))); (farr [] (f (1 / 2)), fins (f (1 / 2)))]%list /\
  params [2%nat]%list [(farr [2%nat] (f ((1 + 4 * 3))), fun i => aff (1) (4) (fins (f 3) i)); (farr [] (f (1 / 2)), fins (f (1 / 2))); (farr [] (f ((1 + 4 * 3))), fun i => aff (1) (4) (fins (f 3) i)); (farr [] (f ((0 + 4 * 2))), fun i => scal (4) (fins (f 2) i)); (farr [] (f (1 / 2)), fins (f (1 / 2)))]%list.
Proof. cbv zeta. split; (split; [reflexivity|repeat constructor]). Qed.

(** the uniform distribution with point masses *)
Theorem C40_uniform :
forall (obs min max lmass umass obs' min' max' : arr) (s : list nat) (y l u p q : list nat -> num) (a c : list nat -> R),
  params s [(obs, y); (min, l); (max, u); (lmass, p); (umass, q)]%list ->
  params s [(obs', fun i => aff (a i) (c i) (y i)); (min', fun i => aff (a i) (c i) (l i)); (max', fun i => aff (a i) (c i) (u i)); (lmass, p); (umass, q)]%list ->
  (forall i, inb s i -> 0 < c i) ->
  exists f, returns (crps_uniform obs min max lmass umass) s f /\
    returns (crps_uniform obs' min' max' lmass umass) s (fun i => scal (c i) (f i)).
Proof. exact C40_uniform_l. Qed.
Print Assumptions C40_uniform.
Example C40_uniform_ex : let f v := fun _ : list nat => v in
  params [2%nat]%list [(farr [2%nat] (f (3)), fins (f (3))); (farr [] (f (3)), fins (f (3))); (farr [] (f (3)), fins (f (3))); (farr [] (f (1 / 2)), fins (f (1 / 2))); (farr [] (f (1 / 2)), fins (f (1 / 2)))]%list /\
  params [2%nat]%list [(farr [2%nat] (f ((1 + 4 * 3))), fun i => aff (1) (4) (fins (f 3) i)); (farr [] (f ((1 + 4 * 3))), fun i => aff (1) (4) (fins (f 3) i)); (farr [] (f ((1 + 4 * 3))), fun i => aff (1) (4) (fins (f 3) i)); (farr [] (f (1 / 2)), fins (f (1 / 2))); (farr [] (f (1 / 2)), fins (f (1 / 2)))]%list.
Proof. cbv zeta. split; (split; [reflexivity|repeat constructor]). Qed.

(** the generalised truncated and censored logistic distribution; bounds may be infinite *)
Theorem C40_gtclogistic :
forall (obs location scale lower upper lmass umass obs' location' scale' lower' upper' : arr) (s : list nat) (y m q l u p r : list nat -> num) (a c : list nat -> R),
  params s [(obs, y); (location, m); (scale, q); (lower, l); (upper, u); (lmass, p); (umass, r)]%list ->
  params s [(obs', fun i => aff (a i) (c i) (y i)); (location', fun i => aff (a i) (c i) (m i)); (scale', fun i => scal (c i) (q i)); (lower', fun i => aff (a i) (c i) (l i)); (upper', fun i => aff (a i) (c i) (u i)); (lmass, p); (umass, r)]%list ->
  (forall i, inb s i -> 0 < c i) ->
  exists f, returns (crps_gtclogistic obs location scale lower upper lmass umass) s f /\
    returns (crps_gtclogistic obs' location' scale' lower' upper' lmass umass) s (fun i => scal (c i) (f i)).
Proof. exact C40_gtclogistic_l. Qed.
Print Assumptions C40_gtclogistic.
Example C40_gtclogistic_ex : let f v := fun _ : list nat => v in
  params [2%nat]%list [(farr [2%nat] (f (3)), fins (f (3))); (farr [] (f (3)), fins (f (3))); (farr [] (f (2)), fins (f (2))); (farr [] (f (3)), fins (f (3))); (farr [] (f (3)), fins (f (3))); (farr [] (f (1 / 2)), fins (f (1 / 2))); (farr [] (f (1 / 2)), fins (f (1 / 2)))]%list /\
  params [2%nat]%list [(farr [2%nat] (f ((1 + 4 * 3))), fun i => aff (1) (4) (fins (f 3) i)); (farr [] (f ((1 + 4 * 3))), fun i => aff (1) (4) (fins (f 3) i)); (farr [] (f ((0 + 4 * 2))), fun i => scal (4) (fins (f 2) i)); (farr [] (f ((1 + 4 * 3))), fun i => aff (1) (4) (fins (f 3) i)); (farr [] (f ((1 + 4 * 3))), fun i => aff (1) (4) (fins (f 3) i)); (farr [] (f (1 / 2)), fins (f (1 / 2))); (farr [] (f (1 / 2)), fins (f (1 / 2)))]%list.
Proof. cbv zeta. split; (split; [reflexivity|repeat constructor]). Qed.

(** the truncated logistic distribution *)
Theorem C40_tlogistic :
forall (obs location scale lower upper obs' location' scale' lower' upper' : arr) (s : list nat) (y m q l u : list nat -> num) (a c : list nat -> R),
  params s [(obs, y); (location, m); (scale, q); (lower, l); (upper, u)]%list ->
  params s [(obs', fun i => aff (a i) (c i) (y i)); (location', fun i => aff (a i) (c i) (m i)); (scale', fun i => scal (c i) (q i)); (lower', fun i => aff (a i) (c i) (l i)); (upper', fun i => aff (a i) (c i) (u i))]%list ->
  (forall i, inb s i -> 0 < c i) ->
  exists f, returns (crps_tlogistic obs location scale lower upper) s f /\
    returns (crps_tlogistic obs' location' scale' lower' upper') s (fun i => scal (c i) (f i)).
Proof. exact C40_tlogistic_l. Qed.
Print Assumptions C40_tlogistic.
Example C40_tlogistic_ex : let f v := fun _ : list nat => v in
  params [2%nat]%list [(farr [2%nat] (f (3)), fins (f (3))); (farr [] (f (3)), fins (f (3))); (farr [] (f (2)), fins (f (2))); (farr [] (f (3)), fins (f (3))); (farr [] (f (3)), fins (f (3)))]%list /\
  params [2%nat]%list [(farr [2%nat] (f ((1 + 4 * 3))), fun i => aff (1) (4) (fins (f 3) i)); (farr [] (f ((1 + 4 * 3))), fun i => aff (1) (4) (fins (f 3) i)); (farr [] (f ((0 + 4 * 2))), fun i => scal (4) (fins (f 2) i)); (farr [] (f ((1 + 4 * 3))), fun i => aff (1) (4) (fins (f 3) i)); (farr [] (f ((1 + 4 * 3))), fun i => aff (1) (4) (fins (f 3) i))]%list.
Proof. cbv zeta. split; (split; [reflexivity|repeat constructor]). Qed.

(** the censored logistic distribution *)
Theorem C40_clogistic :
forall (obs location scale lower upper obs' location' scale' lower' upper' : arr) (s : list nat) (y m q l u : list nat -> num) (a c : list nat -> R),
  params s [(obs, y); (location, m); (scale, q); (lower, l); (upper, u)]%list ->
  params s [(obs', fun i => aff (a i) (c i) (y i)); (location', fun i => aff (a i) (c i) (m i)); (scale', fun i => scal (c i) (q i)); (lower', fun i => aff (a i) (c i) (l i)); (upper', fun i => aff (a i) (c i) (u i))]%list ->
  (forall i, inb s i -> 0 < c i) ->
  exists f, returns (crps_clogistic obs location scale lower upper) s f /\
    returns (crps_clogistic obs' location' scale' lower' upper') s (fun i => scal (c i) (f i)).
Proof. exact C40_clogistic_l. Qed.
Print Assumptions C40_clogistic.
Example C40_clogistic_ex : let f v := fun _ : list nat => v in
  params [2%nat]%list [(farr [2%nat] (f (3)), fins (f (3))); (farr [] (f (3)), fins (f (3))); (farr [] (f (2)), fins (f (2))); (farr [] (f (3)), fins (f (3))); (farr [] (f (3)), fins (f (3)))]%list /\
  params [2%nat]%list [(farr [2%nat] (f ((1 + 4 * 3))), fun i => aff (1) (4) (fins (f 3) i)); (farr [] (f ((1 + 4 * 3))), fun i => aff (1) (4) (fins (f 3) i)); (farr [] (f ((0 + 4 * 2))), fun i => scal (4) (fins (f 2) i)); (farr [] (f ((1 + 4 * 3))), fun i => aff (1) (4) (fins (f 3) i)); (farr [] (f ((1 + 4 * 3))), fun i => aff (1) (4) (fins (f 3) i))]%list.
Proof. cbv zeta. split; (split; [reflexivity|repeat constructor]). Qed.

(** the generalised truncated and censored normal distribution *)
Theorem C40_gtcnormal :
forall (obs location scale lower upper lmass umass obs' location' scale' lower' upper' : arr) (s : list nat) (y m q l u p r : list nat -> num) (a c : list nat -> R),
  params s [(obs, y); (location, m); (scale, q); (lower, l); (upper, u); (lmass, p); (umass, r)]%list ->
  params s [(obs', fun i => aff (a i) (c i) (y i)); (location', fun i => aff (a i) (c i) (m i)); (scale', fun i => scal (c i) (q i)); (lower', fun i => aff (a i) (c i) (l i)); (upper', fun i => aff (a i) (c i) (u i)); (lmass, p); (umass, r)]%list ->
  (forall i, inb s i -> 0 < c i) ->
  exists f, returns (crps_gtcnormal obs location scale lower upper lmass umass) s f /\
    returns (crps_gtcnormal obs' location' scale' lower' upper' lmass umass) s (fun i => scal (c i) (f i)).
Proof. exact C40_gtcnormal_l. Qed.
Print Assumptions C40_gtcnormal.
Example C40_gtcnormal_ex : let f v := fun _ : list nat => v in
  params [2%nat]%list [(farr [2%nat] (f (3)), fins (f (3))); (farr [] (f (3)), fins (f (3))); (farr [] (f (2)), fins (f (2))); (farr [] (f (3)), fins (f (3))); (farr [] (f (3)), fins (f (3))); (farr [] (f (1 / 2)), fins (f (1 / 2))); (farr [] (f (1 / 2)), fins (f (1 / 2)))]%list /\
  params [2%nat]%list [(farr [2%nat] (f ((1 + 4 * 3))), fun i => aff (1) (4) (fins (f 3) i)); (farr [] (f ((1 + 4 * 3))), fun i => aff (1) (4) (fins (f 3) i)); (farr [] (f ((0 + 4 * 2))), fun i => scal (4) (fins (f 2) i)); (farr [] (f ((1 + 4 * 3))), fun i => aff (1) (4) (fins (f 3) i)); (farr [] (f ((1 + 4 * 3))), fun i => aff (1) (4) (fins (f 3) i)); (farr [] (f (1 / 2)), fins (f (1 / 2))); (farr [] (f (1 / 2)), fins (f (1 / 2)))]%list.
Proof. cbv zeta. split; (split; [reflexivity|repeat constructor]). Qed.

(** the truncated normal distribution *)
Theorem C40_tnormal :
forall (obs location scale lower upper obs' location' scale' lower' upper' : arr) (s : list nat) (y m q l u : list nat -> num) (a c : list nat -> R),
  params s [(obs, y); (location, m); (scale, q); (lower, l); (upper, u)]%list ->
  params s [(obs', fun i => aff (a i) (c i) (y i)); (location', fun i => aff (a i) (c i) (m i)); (scale', fun i => scal (c i) (q i)); (lower', fun i => aff (a i) (c i) (l i)); (upper', fun i => aff (a i) (c i) (u i))]%list ->
  (forall i, inb s i -> 0 < c i) ->
  exists f, returns (crps_tnormal obs location scale lower upper) s f /\
    returns (crps_tnormal obs' location' scale' lower' upper') s (fun i => scal (c i) (f i)).
Proof. exact C40_tnormal_l. Qed.
Print Assumptions C40_tnormal.
Example C40_tnormal_ex : let f v := fun _ : list nat => v in
  params [2%nat]%list [(farr [2%nat] (f (3)), fins (f (3))); (farr [] (f (3)), fins (f (3))); (farr [] (f (2)), fins (f (2))); (farr [] (f (3)), fins (f (3))); (farr [] (f (3)), fins (f (3)))]%list /\
  params [2%nat]%list [(farr [2%nat] (f ((1 + 4 * 3))), fun i => aff (1) (4) (fins (f 3) i)); (farr [] (f ((1 + 4 * 3))), fun i => aff (1) (4) (fins (f 3) i)); (farr [] (f ((0 + 4 * 2))), fun i => scal (4) (fins (f 2) i)); (farr [] (f ((1 + 4 * 3))), fun i => aff (1) (4) (fins (f 3) i)); (farr [] (f ((1 + 4 * 3))), fun i => aff (1) (4) (fins (f 3) i))]%list.
Proof. cbv zeta. split; (split; [reflexivity|repeat constructor]). Qed.

(** the censored normal distribution *)
Theorem C40_cnormal :
forall (obs location scale lower upper obs' location' scale' lower' upper' : arr) (s : list nat) (y m q l u : list nat -> num) (a c : list nat -> R),
  params s [(obs, y); (location, m); (scale, q); (lower, l); (upper, u)]%list ->
  params s [(obs', fun i => aff (a i) (c i) (y i)); (location', fun i => aff (a i) (c i) (m i)); (scale', fun i => scal (c i) (q i)); (lower', fun i => aff (a i) (c i) (l i)); (upper', fun i => aff (a i) (c i) (u i))]%list ->
  (forall i, inb s i -> 0 < c i) ->
  exists f, returns (crps_cnormal obs location scale lower upper) s f /\
    returns (crps_cnormal obs' location' scale' lower' upper') s (fun i => scal (c i) (f i)).
Proof. exact C40_cnormal_l. Qed.
Print Assumptions C40_cnormal.
Example C40_cnormal_ex : let f v := fun _ : list nat => v in
  params [2%nat]%list [(farr [2%nat] (f (3)), fins (f (3))); (farr [] (f (3)), fins (f (3))); (farr [] (f (2)), fins (f (2))); (farr [] (f (3)), fins (f (3))); (farr [] (f (3)), fins (f (3)))]%list /\
  params [2%nat]%list [(farr [2%nat] (f ((1 + 4 * 3))), fun i => aff (1) (4) (fins (f 3) i)); (farr [] (f ((1 + 4 * 3))), fun i => aff (1) (4) (fins (f 3) i)); (farr [] (f ((0 + 4 * 2))), fun i => scal (4) (fins (f 2) i)); (farr [] (f ((1 + 4 * 3))), fun i => aff (1) (4) (fins (f 3) i)); (farr [] (f ((1 + 4 * 3))), fun i => aff (1) (4) (fins (f 3) i))]%list.
Proof. cbv zeta. split; (split; [reflexivity|repeat constructor]). Qed.

(** the generalised truncated and censored t distribution *)
Theorem C40_gtct :
forall (obs df location scale lower upper lmass umass obs' location' scale' lower' upper' : arr) (s : list nat) (y n m q l u p r : list nat -> num) (a c : list nat -> R),
  params s [(obs, y); (df, n); (location, m); (scale, q); (lower, l); (upper, u); (lmass, p); (umass, r)]%list ->
  params s [(obs', fun i => aff (a i) (c i) (y i)); (df, n); (location', fun i => aff (a i) (c i) (m i)); (scale', fun i => scal (c i) (q i)); (lower', fun i => aff (a i) (c i) (l i)); (upper', fun i => aff (a i) (c i) (u i)); (lmass, p); (umass, r)]%list ->
  (forall i, inb s i -> 0 < c i) ->
  exists f, returns (crps_gtct obs df location scale lower upper lmass umass) s f /\
    returns (crps_gtct obs' df location' scale' lower' upper' lmass umass) s (fun i => scal (c i) (f i)).
Proof. exact C40_gtct_l. Qed.
Print Assumptions C40_gtct.
Example C40_gtct_ex : let f v := fun _ : list nat => v in
  params [2%nat]%list [(farr [2%nat] (f (3)), fins (f (3))); (farr [] (f (1 / 2)), fins (f (1 / 2))); (farr [] (f (3)), fins (f (3))); (farr [] (f (2)), fins (f (2))); (farr [] (f (3)), fins (f (3))); (farr [] (f (3)), fins (f (3))); (farr [] (f (1 / 2)), fins (f (1 / 2))); (farr [] (f (1 / 2)), fins (f (1 / 2)))]%list /\
  params [2%nat]%list [(farr [2%nat] (f ((1 + 4 * 3))), fun i => aff (1) (4) (fins (f 3) i)); (farr [] (f (1 / 2)), fins (f (1 / 2))); (farr [] (f ((1 + 4 * 3))), fun i => aff (1) (4) (fins (f 3) i)); (farr [] (f ((0 + 4 * 2))), fun i => scal (4) (fins (f 2) i)); (farr [] (f ((1 + 4 * 3))), fun i => aff (1) (4) (fins (f 3) i)); (farr [] (f ((1 + 4 * 3))), fun i => aff (1) (4) (fins (f 3) i)); (farr [] (f (1 / 2)), fins (f (1 / 2))); (farr [] (f (1 / 2)), fins (f (1 / 2)))]%list.
Proof. cbv zeta. split; (split; [reflexivity|repeat constructor]). Qed.

(** the truncated t distribution *)
Theorem C40_tt :
forall (obs df location scale lower upper obs' location' scale' lower' upper' : arr) (s : list nat) (y n m q l u : list nat -> num) (a c : list nat -> R),
  params s [(obs, y); (df, n); (location, m); (scale, q); (lower, l); (upper, u)]%list ->
  params s [(obs', fun i => aff (a i) (c i) (y i)); (df, n); (location', fun i => aff (a i) (c i) (m i)); (scale', fun i => scal (c i) (q i)); (lower', fun i => aff (a i) (c i) (l i)); (upper', fun i => aff (a i) (c i) (u i))]%list ->
  (forall i, inb s i -> 0 < c i) ->
  exists f, returns (crps_tt obs df location scale lower upper) s f /\
    returns (crps_tt obs' df location' scale' lower' upper') s (fun i => scal (c i) (f i)).
Proof. exact C40_tt_l. Qed.
Print Assumptions C40_tt.
Example C40_tt_ex : let f v := fun _ : list nat => v in
  params [2%nat]%list [(farr [2%nat] (f (3)), fins (f (3))); (farr [] (f (1 / 2)), fins (f (1 / 2))); (farr [] (f (3)), fins (f (3))); (farr [] (f (2)), fins (f (2))); (farr [] (f (3)), fins (f (3))); (farr [] (f (3)), fins (f (3)))]%list /\
  params [2%nat]%list [(farr [2%nat] (f ((1 + 4 * 3))), fun i => aff (1) (4) (fins (f 3) i)); (farr [] (f (1 / 2)), fins (f (1 / 2))); (farr [] (f ((1 + 4 * 3))), fun i => aff (1) (4) (fins (f 3) i)); (farr [] (f ((0 + 4 * 2))), fun i => scal (4) (fins (f 2) i)); (farr [] (f ((1 + 4 * 3))), fun i => aff (1) (4) (fins (f 3) i)); (farr [] (f ((1 + 4 * 3))), fun i => aff (1) (4) (fins (f 3) i))]%list.
Proof. cbv zeta. split; (split; [reflexivity|repeat constructor]). Qed.

(** the censored t distribution *)
Theorem C40_ct :
forall (obs df location scale lower upper obs' location' scale' lower' upper' : arr) (s : list nat) (y n m q l u : list nat -> num) (a c : list nat -> R),
  params s [(obs, y); (df, n); (location, m); (scale, q); (lower, l); (upper, u)]%list ->
  params s [(obs', fun i => aff (a i) (c i) (y i)); (df, n); (location', fun i => aff (a i) (c i) (m i)); (scale', fun i => scal (c i) (q i)); (lower', fun i => aff (a i) (c i) (l i)); (upper', fun i => aff (a i) (c i) (u i))]%list ->
  (forall i, inb s i -> 0 < c i) ->
  exists f, returns (crps_ct obs df location scale lower upper) s f /\
    returns (crps_ct obs' df location' scale' lower' upper') s (fun i => scal (c i) (f i)).
Proof. exact C40_ct_l. Qed.
Print Assumptions C40_ct.
Example C40_ct_ex : let f v := fun _ : list nat => v in
  params [2%nat]%list [(farr [2%nat] (f (3)), fins (f (3))); (farr [] (f (1 / 2)), fins (f (1 / 2))); (farr [] (f (3)), fins (f (3))); (farr [] (f (2)), fins (f (2))); (farr [] (f (3)), fins (f (3))); (farr [] (f (3)), fins (f (3)))]%list /\
  params [2%nat]%list [(farr [2%nat] (f ((1 + 4 * 3))), fun i => aff (1) (4) (fins (f 3) i)); (farr [] (f (1 / 2)), fins (f (1 / 2))); (farr [] (f ((1 + 4 * 3))), fun i => aff (1) (4) (fins (f 3) i)); (farr [] (f ((0 + 4 * 2))), fun i => scal (4) (fins (f 2) i)); (farr [] (f ((1 + 4 * 3))), fun i => aff (1) (4) (fins (f 3) i)); (farr [] (f ((1 + 4 * 3))), fun i => aff (1) (4) (fins (f 3) i))]%list.
Proof. cbv zeta. split; (split; [reflexivity|repeat constructor]). Qed.

(** the two-piece exponential distribution *)
Theorem C40_2pexponential :
forall (obs scale1 scale2 location obs' scale1' scale2' location' : arr) (s : list nat) (y p q m : list nat -> num) (a c : list nat -> R),
  params s [(obs, y); (scale1, p); (scale2, q); (location, m)]%list ->
  params s [(obs', fun i => aff (a i) (c i) (y i)); (scale1', fun i => scal (c i) (p i)); (scale2', fun i => scal (c i) (q i)); (location', fun i => aff (a i) (c i) (m i))]%list ->
  (forall i, inb s i -> 0 < c i) ->
  exists f, returns (crps_2pexponential obs scale1 scale2 location) s f /\
    returns (crps_2pexponential obs' scale1' scale2' location') s (fun i => scal (c i) (f i)).
Proof. exact C40_2pexponential_l. Qed.
Print Assumptions C40_2pexponential.
Example C40_2pexponential_ex : let f v := fun _ : list nat => v in
  params [2%nat]%list [(farr [2%nat] (f (3)), fins (f (3))); (farr [] (f (2)), fins (f (2))); (farr [] (f (2)), fins (f (2))); (farr [] (f (3)), fins (f (3)))]%list /\
  params [2%nat]%list [(farr [2%nat] (f ((1 + 4 * 3))), fun i => aff (1) (4) (fins (f 3) i)); (farr [] (f ((0 + 4 * 2))), fun i => scal (4) (fins (f 2) i)); (farr [] (f ((0 + 4 * 2))), fun i => scal (4) (fins (f 2) i)); (farr [] (f ((1 + 4 * 3))), fun i => aff (1) (4) (fins (f 3) i))]%list.
Proof. cbv zeta. split; (split; [reflexivity|repeat constructor]). Qed.

(** the two-piece normal distribution *)
Theorem C40_2pnormal :
forall (obs scale1 scale2 location obs' scale1' scale2' location' : arr) (s : list nat) (y p q m : list nat -> num) (a c : list nat -> R),
  params s [(obs, y); (scale1, p); (scale2, q); (location, m)]%list ->
  params s [(obs', fun i => aff (a i) (c i) (y i)); (scale1', fun i => scal (c i) (p i)); (scale2', fun i => scal (c i) (q i)); (location', fun i => aff (a i) (c i) (m i))]%list ->
  (forall i, inb s i -> 0 < c i) ->
  exists f, returns (crps_2pnormal obs scale1 scale2 location) s f /\
    returns (crps_2pnormal obs' scale1' scale2' location') s (fun i => scal (c i) (f i)).
Proof. exact C40_2pnormal_l. Qed.
Print Assumptions C40_2pnormal.
Example C40_2pnormal_ex : let f v := fun _ : list nat => v in
  params [2%nat]%list [(farr [2%nat] (f (3)), fins (f (3))); (farr [] (f (2)), fins (f (2))); (farr [] (f (2)), fins (f (2))); (farr [] (f (3)), fins (f (3)))]%list /\
  params [2%nat]%list [(farr [2%nat] (f ((1 + 4 * 3))), fun i => aff (1) (4) (fins (f 3) i)); (farr [] (f ((0 + 4 * 2))), fun i => scal (4) (fins (f 2) i)); (farr [] (f ((0 + 4 * 2))), fun i => scal (4) (fins (f 2) i)); (farr [] (f ((1 + 4 * 3))), fun i => aff (1) (4) (fins (f 3) i))]%list.
Proof. cbv zeta. split; (split; [reflexivity|repeat constructor]). Qed.

(** the exponential distribution, whose rate is divided by c *)
Theorem C40_exponential :
forall (obs rate obs' rate' : arr) (s : list nat) (y r : list nat -> num) (c : list nat -> R),
  params s [(obs, y); (rate, r)]%list ->
  params s [(obs', fun i => scal (c i) (y i)); (rate', fun i => scal (/ c i) (r i))]%list ->
  (forall i, inb s i -> 0 < c i) ->
  exists f, returns (crps_exponential obs rate) s f /\
    returns (crps_exponential obs' rate') s (fun i => scal (c i) (f i)).
Proof. exact C40_exponential_l. Qed.
Print Assumptions C40_exponential.
Example C40_exponential_ex : let f v := fun _ : list nat => v in
  params [2%nat]%list [(farr [2%nat] (f (3)), fins (f (3))); (farr [] (f (2)), fins (f (2)))]%list /\
  params [2%nat]%list [(farr [2%nat] (f ((0 + 4 * 3))), fun i => scal (4) (fins (f 3) i)); (farr [] (f ((0 + / 4 * 2))), fun i => scal (/ 4) (fins (f 2) i))]%list.
Proof. cbv zeta. split; (split; [reflexivity|repeat constructor]). Qed.

(** the gamma distribution *)
Theorem C40_gamma :
forall (obs shape rate obs' rate' : arr) (s : list nat) (y k r : list nat -> num) (c : list nat -> R),
  params s [(obs, y); (shape, k); (rate, r)]%list ->
  params s [(obs', fun i => scal (c i) (y i)); (shape, k); (rate', fun i => scal (/ c i) (r i))]%list ->
  (forall i, inb s i -> 0 < c i) ->
  exists f, returns (crps_gamma obs shape (Some rate) None) s f /\
    returns (crps_gamma obs' shape (Some rate') None) s (fun i => scal (c i) (f i)).
Proof. exact C40_gamma_l. Qed.
Print Assumptions C40_gamma.
Example C40_gamma_ex : let f v := fun _ : list nat => v in
  params [2%nat]%list [(farr [2%nat] (f (3)), fins (f (3))); (farr [] (f (1 / 2)), fins (f (1 / 2))); (farr [] (f (2)), fins (f (2)))]%list /\
  params [2%nat]%list [(farr [2%nat] (f ((0 + 4 * 3))), fun i => scal (4) (fins (f 3) i)); (farr [] (f (1 / 2)), fins (f (1 / 2))); (farr [] (f ((0 + / 4 * 2))), fun i => scal (/ 4) (fins (f 2) i))]%list.
Proof. cbv zeta. split; (split; [reflexivity|repeat constructor]). Qed.

(** the shifted censored gamma distribution *)
Theorem C40_csg0 :
forall (obs shape rate shift obs' rate' shift' : arr) (s : list nat) (y k r d : list nat -> num) (c : list nat -> R),
  params s [(obs, y); (shape, k); (rate, r); (shift, d)]%list ->
  params s [(obs', fun i => scal (c i) (y i)); (shape, k); (rate', fun i => scal (/ c i) (r i)); (shift', fun i => scal (c i) (d i))]%list ->
  (forall i, inb s i -> 0 < c i) ->
  exists f, returns (crps_csg0 obs shape (Some rate) None shift) s f /\
    returns (crps_csg0 obs' shape (Some rate') None shift') s (fun i => scal (c i) (f i)).
Proof. exact C40_csg0_l. Qed.
Print Assumptions C40_csg0.
Example C40_csg0_ex : let f v := fun _ : list nat => v in
  params [2%nat]%list [(farr [2%nat] (f (3)), fins (f (3))); (farr [] (f (1 / 2)), fins (f (1 / 2))); (farr [] (f (2)), fins (f (2))); (farr [] (f (3)), fins (f (3)))]%list /\
  params [2%nat]%list [(farr [2%nat] (f ((0 + 4 * 3))), fun i => scal (4) (fins (f 3) i)); (farr [] (f (1 / 2)), fins (f (1 / 2))); (farr [] (f ((0 + / 4 * 2))), fun i => scal (/ 4) (fins (f 2) i)); (farr [] (f ((0 + 4 * 3))), fun i => scal (4) (fins (f 3) i))]%list.
Proof. cbv zeta. split; (split; [reflexivity|repeat constructor]). Qed.

(** the log-normal distribution, whose log location moves by ln c *)
Theorem C40_lognormal :
forall (obs mulog sigmalog obs' mulog' : arr) (s : list nat) (y m q : list nat -> num) (c : list nat -> R),
  params s [(obs, y); (mulog, m); (sigmalog, q)]%list ->
  params s [(obs', fun i => scal (c i) (y i)); (mulog', fun i => aff (ln (c i)) 1 (m i)); (sigmalog, q)]%list ->
  (forall i, inb s i -> 0 < c i) ->
  exists f, returns (crps_lognormal obs mulog sigmalog) s f /\
    returns (crps_lognormal obs' mulog' sigmalog) s (fun i => scal (c i) (f i)).
Proof. exact C40_lognormal_l. Qed.
Print Assumptions C40_lognormal.
Example C40_lognormal_ex : let f v := fun _ : list nat => v in
  params [2%nat]%list [(farr [2%nat] (f (3)), fins (f (3))); (farr [] (f (1)), fins (f (1))); (farr [] (f (1 / 2)), fins (f (1 / 2)))]%list /\
  params [2%nat]%list [(farr [2%nat] (f ((0 + 4 * 3))), fun i => scal (4) (fins (f 3) i)); (farr [] (f ((ln 4 + 1 * 1))), fun i => aff (ln (4)) 1 (fins (f 1) i)); (farr [] (f (1 / 2)), fins (f (1 / 2)))]%list.
Proof. cbv zeta. split; (split; [reflexivity|repeat constructor]). Qed.

(** the log-logistic distribution *)
Theorem C40_loglogistic :
forall (obs mulog sigmalog obs' mulog' : arr) (s : list nat) (y m q : list nat -> num) (c : list nat -> R),
  params s [(obs, y); (mulog, m); (sigmalog, q)]%list ->
  params s [(obs', fun i => scal (c i) (y i)); (mulog', fun i => aff (ln (c i)) 1 (m i)); (sigmalog, q)]%list ->
  (forall i, inb s i -> 0 < c i) ->
  exists f, returns (crps_loglogistic obs mulog sigmalog) s f /\
    returns (crps_loglogistic obs' mulog' sigmalog) s (fun i => scal (c i) (f i)).
Proof. exact C40_loglogistic_l. Qed.
Print Assumptions C40_loglogistic.
Example C40_loglogistic_ex : let f v := fun _ : list nat => v in
  params [2%nat]%list [(farr [2%nat] (f (3)), fins (f (3))); (farr [] (f (1)), fins (f (1))); (farr [] (f (1 / 2)), fins (f (1 / 2)))]%list /\
  params [2%nat]%list [(farr [2%nat] (f ((0 + 4 * 3))), fun i => scal (4) (fins (f 3) i)); (farr [] (f ((ln 4 + 1 * 1))), fun i => aff (ln (4)) 1 (fins (f 1) i)); (farr [] (f (1 / 2)), fins (f (1 / 2)))]%list.
Proof. cbv zeta. split; (split; [reflexivity|repeat constructor]). Qed.

(** the log-Laplace distribution *)
Theorem C40_loglaplace :
forall (obs locationlog scalelog obs' locationlog' : arr) (s : list nat) (y m q : list nat -> num) (c : list nat -> R),
  params s [(obs, y); (locationlog, m); (scalelog, q)]%list ->
  params s [(obs', fun i => scal (c i) (y i)); (locationlog', fun i => aff (ln (c i)) 1 (m i)); (scalelog, q)]%list ->
  (forall i, inb s i -> 0 < c i) ->
  exists f, returns (crps_loglaplace obs locationlog scalelog) s f /\
    returns (crps_loglaplace obs' locationlog' scalelog) s (fun i => scal (c i) (f i)).
Proof. exact C40_loglaplace_l. Qed.
Print Assumptions C40_loglaplace.
Example C40_loglaplace_ex : let f v := fun _ : list nat => v in
  params [2%nat]%list [(farr [2%nat] (f (3)), fins (f (3))); (farr [] (f (1)), fins (f (1))); (farr [] (f (1 / 2)), fins (f (1 / 2)))]%list /\
  params [2%nat]%list [(farr [2%nat] (f ((0 + 4 * 3))), fun i => scal (4) (fins (f 3) i)); (farr [] (f ((ln 4 + 1 * 1))), fun i => aff (ln (4)) 1 (fins (f 1) i)); (farr [] (f (1 / 2)), fins (f (1 / 2)))]%list.
Proof. cbv zeta. split; (split; [reflexivity|repeat constructor]). Qed.

(** the generalised extreme value distribution; a single score is returned as a float *)
Theorem C40_gev :
forall (obs shape location scale obs' location' scale' : arr) (s : list nat) (y xi m q : list nat -> num) (a c : R),
  params s [(obs, y); (shape, xi); (location, m); (scale, q)]%list ->
  params s [(obs', fun i => aff a c (y i)); (shape, xi); (location', fun i => aff a c (m i)); (scale', fun i => scal c (q i))]%list ->
  0 < c ->
  exists f, returns (crps_gev obs shape location scale) (float_shape s) f /\
    returns (crps_gev obs' shape location' scale') (float_shape s) (fun i => scal c (f i)).
Proof. exact C40_gev_l. Qed.
Print Assumptions C40_gev.
Example C40_gev_ex : let f v := fun _ : list nat => v in
  params [2%nat]%list [(farr [2%nat] (f 3), fins (f 3)); (farr [] (f (1 / 2)), fins (f (1 / 2))); (farr [] (f 1), fins (f 1)); (farr [] (f 2), fins (f 2))]%list.
Proof. cbv zeta. split; [reflexivity|repeat constructor]. Qed.

(** the exponential distribution with a point mass, for a float array of observations of the full shape *)
Theorem C40_exponentialM :
forall (obs mass location scale obs' location' scale' : arr) (s : list nat) (y p m q a c : list nat -> R),
  params s [(obs, fins y); (mass, fins p); (location, fins m); (scale, fins q)]%list -> dt obs = DFloat -> sh obs = s ->
  params s [(obs', fins (fun i => a i + c i * y i)); (mass, fins p); (location', fins (fun i => a i + c i * m i)); (scale', fins (fun i => c i * q i))]%list ->
  dt obs' = DFloat -> sh obs' = s ->
  (forall i, inb s i -> 0 < c i /\ 0 < q i) ->
  exists f, returns (crps_exponentialM obs mass location scale) s (fun i => Fin (f i)) /\
    returns (crps_exponentialM obs' mass location' scale') s (fun i => Fin (c i * f i)).
Proof. exact C40_exponentialM_l. Qed.
Print Assumptions C40_exponentialM.
Example C40_exponentialM_ex : let f v := fun _ : list nat => v in
  params [2%nat]%list [(farr [2%nat] (f 3), fins (f 3)); (farr [] (f (1 / 2)), fins (f (1 / 2))); (farr [] (f 1), fins (f 1)); (farr [] (f 2), fins (f 2))]%list.
Proof. cbv zeta. split; [reflexivity|repeat constructor]. Qed.

(** the beta distribution on [lower, upper]; the bounds may not enlarge the common shape of the
    other arguments *)
Theorem C40_beta :
forall (obs a b lower upper obs' lower' upper' : arr) (s t t' : list nat) (y p q : list nat -> num) (l u l0 u0 l1 u1 e c : list nat -> R),
  params s [(obs, y); (a, p); (b, q)]%list ->
  params s [(obs, y); (a, p); (b, q); (lower, fins l); (upper, fins u)]%list ->
  params t [(lower, fins l0); (upper, fins u0)]%list -> (forall i, inb t i -> l0 i < u0 i) ->
  params s [(obs', fun i => aff (e i) (c i) (y i)); (a, p); (b, q)]%list ->
  params s [(obs', fun i => aff (e i) (c i) (y i)); (a, p); (b, q); (lower', fins (fun i => e i + c i * l i)); (upper', fins (fun i => e i + c i * u i))]%list ->
  params t' [(lower', fins l1); (upper', fins u1)]%list -> (forall i, inb t' i -> l1 i < u1 i) ->
  (forall i, inb s i -> 0 < c i) ->
  exists f, returns (crps_beta obs a b lower upper) s f /\
    returns (crps_beta obs' a b lower' upper') s (fun i => scal (c i) (f i)).
Proof. exact C40_beta_l. Qed.
Print Assumptions C40_beta.
Example C40_beta_ex : let f v := fun _ : list nat => v in
  params [2%nat]%list [(farr [2%nat] (f 3), fins (f 3)); (farr [] (f (1 / 2)), fins (f (1 / 2))); (farr [] (f 1), fins (f 1)); (farr [] (f 2), fins (f 2)); (farr [] (f 5), fins (f 5))]%list /\
  params []%list [(farr [] (f 2), fins (f 2)); (farr [] (f 5), fins (f 5))]%list.
Proof. cbv zeta. split; (split; [reflexivity|repeat constructor]). Qed.
