(** Properties C01, C02, C04-C07, C47: the values returned by [crps_ensemble].
    [b] selects the implementation, [srt] is numpy's argsort (any sorting permutation),
    [s] the shape of the observations, [p] the position of the ensemble axis counted from
    the last axis, [M] the number of members, [y], [x] and [w] the entries of obs, fct and
    ens_w. *)
From Verif Require Import T_crps_value L_examples.
Open Scope R_scope.

(** C01.  nrg, qd and int return the integral over the real line of
    (F(t) - 1{obs <= t})^2, F the distribution function of the members. *)
Theorem C01_exact_crps :
  forall srt b obs fct ax s p M y x e sf pol,
  argsort_ok srt -> ens_args obs fct ax s p M y x -> (0 < M)%nat ->
  In e ["nrg"; "qd"; "int"]%string -> In pol ["propagate"; "raise"]%string ->
  (b = Numba -> dt obs = DFloat) -> sorted_if sf s p M x ->
  exists v, returns (crps_ensemble srt b obs fct ax None e sf pol) s (fun r => Fin (v r)) /\
            forall r, inb s r -> is_crps (ecdf M (member p x r)) (y r) (v r).
Proof. exact C01_exact_crps_l. Qed.
Print Assumptions C01_exact_crps.
(** two observations, three members with a tie, ensemble axis first *)
Example C01_case : argsort_ok asort /\ ens_args ex_obs ex_fct 0 [2%nat] 1 3 ex_y ex_x /\ (0 < 3)%nat /\
  (Numba = Numba -> dt ex_obs = DFloat) /\ sorted_if false [2%nat] 1 3 ex_x.
Proof. exact ex_ok. Qed.

(** C02.  fair and pwm return mean|x_i - y| - sum|x_i - x_j| / (2 M (M-1)). *)
Theorem C02_fair_crps :
  forall srt b obs fct ax s p M y x e sf pol,
  argsort_ok srt -> ens_args obs fct ax s p M y x -> (1 < M)%nat ->
  In e ["fair"; "pwm"]%string -> In pol ["propagate"; "raise"]%string ->
  (b = Numba -> dt obs = DFloat) -> sorted_if sf s p M x ->
  returns (crps_ensemble srt b obs fct ax None e sf pol) s
    (fun r => Fin (fair_crps M (y r) (member p x r))).
Proof. exact C02_fair_crps_l. Qed.
Print Assumptions C02_fair_crps.
Example C02_case : argsort_ok asort /\ ens_args ex_obs ex_fct 0 [2%nat] 1 3 ex_y ex_x /\ (1 < 3)%nat /\
  fair_crps 3 (ex_y [0%nat]) (member 1 ex_x [0%nat]) = 1 / 3.
Proof. exact ex_fair. Qed.

(** C02.  With one member the fair estimators are undefined: NaN. *)
Theorem C02_single_member :
  forall srt b obs fct ax s p y x e sf pol,
  argsort_ok srt -> ens_args obs fct ax s p 1 y x ->
  In e ["fair"; "pwm"]%string -> In pol ["propagate"; "raise"]%string ->
  (b = Numba -> dt obs = DFloat) ->
  returns (crps_ensemble srt b obs fct ax None e sf pol) s (fun _ => NaN).
Proof. exact C02_single_member_l. Qed.
Print Assumptions C02_single_member.
Example C02_single_case : ens_args (farr [] (fun _ => 1)) (real1 1 (fun _ => 2)) (-1) [] 0 1 (fun _ => 1) (fun _ => 2).
Proof. repeat split; simpl; auto. now left. Qed.

(** C04.  Both implementations return the same finite values for every estimator. *)
Theorem C04_backends_agree :
  forall srt obs fct ax s p M y x e sf pol,
  argsort_ok srt -> ens_args obs fct ax s p M y x -> (0 < M)%nat ->
  In e ["nrg"; "fair"; "pwm"; "qd"; "int"; "akr"; "akr_circperm"]%string ->
  (In e ["fair"; "pwm"]%string -> (1 < M)%nat) ->
  In pol ["propagate"; "raise"]%string -> dt obs = DFloat -> sorted_if sf s p M x ->
  exists v, returns (crps_ensemble srt Array obs fct ax None e sf pol) s (fun r => Fin (v r)) /\
            returns (crps_ensemble srt Numba obs fct ax None e sf pol) s (fun r => Fin (v r)).
Proof. exact C04_backends_agree_l. Qed.
Print Assumptions C04_backends_agree.
Example C04_case : argsort_ok asort /\ ens_args ex_obs ex_fct 0 [2%nat] 1 3 ex_y ex_x /\ (1 < 3)%nat /\
  dt ex_obs = DFloat /\ sorted_if false [2%nat] 1 3 ex_x.
Proof. exact ex_ok2. Qed.

(** C04.  The value of the approximate estimators: each member is paired with one other,
    the previous one (akr) or the one M/2 places before (akr_circperm), cyclically. *)
Theorem C04_akr_value :
  forall srt b obs fct ax s p M y x sf pol,
  argsort_ok srt -> ens_args obs fct ax s p M y x -> (0 < M)%nat ->
  In pol ["propagate"; "raise"]%string -> (b = Numba -> dt obs = DFloat) ->
  returns (crps_ensemble srt b obs fct ax None "akr" sf pol) s
    (fun r => Fin (mae M (y r) (member p x r)
      - / 2 * (sumn M (fun k => Rabs (member p x r k - member p x r ((k + M - 1) mod M)%nat)) / INR M))) /\
  returns (crps_ensemble srt b obs fct ax None "akr_circperm" sf pol) s
    (fun r => Fin (mae M (y r) (member p x r)
      - / 2 * (sumn M (fun k => Rabs (member p x r k - member p x r ((k + M - M / 2) mod M)%nat)) / INR M))).
Proof. exact C04_akr_value_l. Qed.
Print Assumptions C04_akr_value.

(** C04.  Any other estimator name raises ValueError on both implementations, except the
    two internal names ownrg and vrnrg (next theorem). *)
Theorem C04_unknown_estimator :
  forall srt b obs fct ax s p M y x e sf,
  ens_nums obs fct ax s p M y x ->
  ~ In e ["nrg"; "fair"; "pwm"; "qd"; "int"; "akr"; "akr_circperm"; "ownrg"; "vrnrg"]%string ->
  raises (crps_ensemble srt b obs fct ax None e sf "propagate") ValueError.
Proof. exact C04_unknown_estimator_l. Qed.
Print Assumptions C04_unknown_estimator.
Example C04_unknown_case :
  ~ In "energy"%string ["nrg"; "fair"; "pwm"; "qd"; "int"; "akr"; "akr_circperm"; "ownrg"; "vrnrg"]%string.
Proof. simpl. intuition discriminate. Qed.

(** C04 fails for the two internal names: the numba dictionary also holds the kernels of
    owcrps and vrcrps, so these names are found and the call fails with a TypeError. *)
Theorem C04_unknown_estimator_refuted :
  exists obs fct s M y x e, (forall srt sf,
    raises (crps_ensemble srt Numba obs fct (-1) None e sf "propagate") TypeError /\
    raises (crps_ensemble srt Array obs fct (-1) None e sf "propagate") ValueError) /\
  ens_args obs fct (-1) s 0 M y x /\
  ~ In e ["nrg"; "fair"; "pwm"; "qd"; "int"; "akr"; "akr_circperm"]%string.
Proof. exact C04_unknown_estimator_refuted_l. Qed.
Print Assumptions C04_unknown_estimator_refuted.

(** C05.  The same with weights; for akr_circperm the number of members must be odd. *)
Theorem C05_weighted_backends_agree :
  forall srt obs fct wt ax s p M y x w e sf pol,
  argsort_ok srt -> ens_args obs fct ax s p M y x -> (0 < M)%nat -> wts_args wt fct s p M w ->
  In e ["nrg"; "fair"; "pwm"; "qd"; "int"; "akr"; "akr_circperm"]%string ->
  (In e ["fair"; "pwm"]%string -> forall r, inb s r -> two_positive M (member p w r)) ->
  (e = "akr_circperm"%string -> Nat.odd M = true) ->
  In pol ["propagate"; "raise"]%string -> dt obs = DFloat -> sorted_if sf s p M x ->
  exists v, returns (crps_ensemble srt Array obs fct ax (Some wt) e sf pol) s (fun r => Fin (v r)) /\
            returns (crps_ensemble srt Numba obs fct ax (Some wt) e sf pol) s (fun r => Fin (v r)).
Proof. exact C05_weighted_backends_agree_l. Qed.
Print Assumptions C05_weighted_backends_agree.
Example C05_case : argsort_ok asort /\ ens_args ex_obs ex_fct 0 [2%nat] 1 3 ex_y ex_x /\
  wts_args ex_wt ex_fct [2%nat] 1 3 ex_w /\ (forall r, inb [2%nat] r -> two_positive 3 (member 1 ex_w r)) /\
  Nat.odd 3 = true.
Proof. exact ex_wok. Qed.

(** C05 fails for akr_circperm with an even number of members: the array code rolls by
    (M-1)/2, the numba code (and the unweighted array code) by M/2. *)
Theorem C05_circperm_refuted :
  exists obs fct wt s M y x w, ens_args obs fct (-1) s 0 M y x /\ wts_args wt fct s 0 M w /\ dt obs = DFloat /\
  exists u v, u <> v /\ forall srt, argsort_ok srt ->
    returns (crps_ensemble srt Array obs fct (-1) (Some wt) "akr_circperm" false "propagate") s (fun _ => Fin u) /\
    returns (crps_ensemble srt Numba obs fct (-1) (Some wt) "akr_circperm" false "propagate") s (fun _ => Fin v) /\
    returns (crps_ensemble srt Array obs fct (-1) None "akr_circperm" false "propagate") s (fun _ => Fin v) /\
    (forall r k, inb s r -> (k < M)%nat -> member 0 w r k = 1).
Proof. exact C05_circperm_refuted_l. Qed.
Print Assumptions C05_circperm_refuted.

(** C06.  Constant weights (one positive constant per grid point) reproduce the unweighted
    score; for akr_circperm on the array implementation with an odd number of members
    (C05_circperm_refuted shows the failure for weights all equal to one and M = 2). *)
Theorem C06_uniform_weights :
  forall srt b obs fct wt ax s p M y x w c e sf pol,
  argsort_ok srt -> ens_args obs fct ax s p M y x -> (0 < M)%nat -> wts_args wt fct s p M w ->
  (forall r k, inb s r -> (k < M)%nat -> member p w r k = c r) ->
  In e ["nrg"; "fair"; "pwm"; "qd"; "int"; "akr"; "akr_circperm"]%string ->
  (In e ["fair"; "pwm"]%string -> (1 < M)%nat) ->
  (e = "akr_circperm"%string -> b = Array -> Nat.odd M = true) ->
  In pol ["propagate"; "raise"]%string -> (b = Numba -> dt obs = DFloat) -> sorted_if sf s p M x ->
  exists v, returns (crps_ensemble srt b obs fct ax (Some wt) e sf pol) s (fun r => Fin (v r)) /\
            returns (crps_ensemble srt b obs fct ax None e sf pol) s (fun r => Fin (v r)).
Proof. exact C06_uniform_weights_l. Qed.
Print Assumptions C06_uniform_weights.
Example C06_case : wts_args (farr (insert_at 1 3%nat [2%nat]) (fun _ => 5)) ex_fct [2%nat] 1 3 (fun _ => 5) /\
  (forall r k, inb [2%nat] r -> (k < 3)%nat -> member 1 (fun _ => 5) r k = 5).
Proof. exact ex_unif. Qed.

(** C07.  With weights, nrg, qd and int return the CRPS integral of the distribution that
    puts mass w_i / sum w on member i. *)
Theorem C07_weighted_exact :
  forall srt b obs fct wt ax s p M y x w e sf pol,
  argsort_ok srt -> ens_args obs fct ax s p M y x -> (0 < M)%nat -> wts_args wt fct s p M w ->
  In e ["nrg"; "qd"; "int"]%string -> In pol ["propagate"; "raise"]%string ->
  (b = Numba -> dt obs = DFloat) -> sorted_if sf s p M x ->
  exists v, returns (crps_ensemble srt b obs fct ax (Some wt) e sf pol) s (fun r => Fin (v r)) /\
            forall r, inb s r -> is_crps (wcdf M (member p w r) (member p x r)) (y r) (v r).
Proof. exact C07_weighted_exact_l. Qed.
Print Assumptions C07_weighted_exact.
Example C07_case : argsort_ok asort /\ ens_args ex_obs ex_fct 0 [2%nat] 1 3 ex_y ex_x /\
  wts_args ex_wt ex_fct [2%nat] 1 3 ex_w /\ (forall r, inb [2%nat] r -> two_positive 3 (member 1 ex_w r)) /\
  Nat.odd 3 = true.
Proof. exact ex_wok. Qed.

(** C07.  With weights, fair divides the spread term by 1 - sum (w_i/sum w)^2. *)
Theorem C07_weighted_fair :
  forall srt b obs fct wt ax s p M y x w sf pol,
  argsort_ok srt -> ens_args obs fct ax s p M y x -> (0 < M)%nat -> wts_args wt fct s p M w ->
  (forall r, inb s r -> two_positive M (member p w r)) ->
  In pol ["propagate"; "raise"]%string -> (b = Numba -> dt obs = DFloat) ->
  returns (crps_ensemble srt b obs fct ax (Some wt) "fair" sf pol) s
    (fun r => Fin (wfair_crps M (nw M (member p w r)) (y r) (member p x r))).
Proof. exact C07_weighted_fair_l. Qed.
Print Assumptions C07_weighted_fair.

(** C07.  Weighted pwm is the weighted fair score plus a term that vanishes for equal weights
    but not in general (next theorem). *)
Theorem C07_weighted_pwm :
  forall srt b obs fct wt ax s p M y x w sf pol,
  argsort_ok srt -> ens_args obs fct ax s p M y x -> (0 < M)%nat -> wts_args wt fct s p M w ->
  (forall r, inb s r -> two_positive M (member p w r)) ->
  In pol ["propagate"; "raise"]%string -> (b = Numba -> dt obs = DFloat) -> sorted_if sf s p M x ->
  returns (crps_ensemble srt b obs fct ax (Some wt) "pwm" sf pol) s
    (fun r => let v := nw M (member p w r) in
       Fin (wfair_crps M v (y r) (member p x r) +
            (sumn M (fun k => v k * v k * member p x r k)
              - sumn M (fun k => v k * v k) * sumn M (fun k => v k * member p x r k))
            / (1 - sumn M (fun k => v k * v k)))).
Proof. exact C07_weighted_pwm_l. Qed.
Print Assumptions C07_weighted_pwm.

(** C07 fails for pwm: weighted pwm and weighted fair differ (both implementations). *)
Theorem C07_pwm_refuted :
  exists obs fct wt s M y x w, ens_args obs fct (-1) s 0 M y x /\ wts_args wt fct s 0 M w /\ dt obs = DFloat /\
  (forall r, inb s r -> two_positive M (member 0 w r)) /\
  exists u v, u <> v /\ forall srt b, argsort_ok srt ->
    returns (crps_ensemble srt b obs fct (-1) (Some wt) "pwm" false "propagate") s (fun _ => Fin u) /\
    returns (crps_ensemble srt b obs fct (-1) (Some wt) "fair" false "propagate") s (fun _ => Fin v).
Proof. exact C07_pwm_refuted_l. Qed.
Print Assumptions C07_pwm_refuted.

(** C47.  If all members are equal the exact estimators return the absolute error. *)
Theorem C47_point_forecast :
  forall srt b obs fct ax s p M y x z e sf pol,
  argsort_ok srt -> ens_args obs fct ax s p M y x -> (0 < M)%nat ->
  (forall r k, inb s r -> (k < M)%nat -> member p x r k = z r) ->
  In e ["nrg"; "qd"; "int"]%string -> In pol ["propagate"; "raise"]%string ->
  (b = Numba -> dt obs = DFloat) ->
  returns (crps_ensemble srt b obs fct ax None e sf pol) s (fun r => Fin (Rabs (z r - y r))).
Proof. exact C47_point_forecast_l. Qed.
Print Assumptions C47_point_forecast.
Example C47_case : ens_args (farr [] (fun _ => 1)) (real1 3 (fun _ => 2)) (-1) [] 0 3 (fun _ => 1) (fun _ => 2).
Proof. repeat split; simpl; auto. now left. Qed.

(** C47.  The exact estimators lie between 0 and the (weighted) mean absolute error. *)
Theorem C47_between :
  forall srt b obs fct wt ax s p M y x w e sf pol,
  argsort_ok srt -> ens_args obs fct ax s p M y x -> (0 < M)%nat -> wts_args wt fct s p M w ->
  In e ["nrg"; "qd"; "int"]%string -> In pol ["propagate"; "raise"]%string ->
  (b = Numba -> dt obs = DFloat) -> sorted_if sf s p M x ->
  (exists v, returns (crps_ensemble srt b obs fct ax None e sf pol) s (fun r => Fin (v r)) /\
     forall r, inb s r -> 0 <= v r <= mae M (y r) (member p x r)) /\
  (exists v, returns (crps_ensemble srt b obs fct ax (Some wt) e sf pol) s (fun r => Fin (v r)) /\
     forall r, inb s r -> 0 <= v r <= wmae M (nw M (member p w r)) (y r) (member p x r)).
Proof. exact C47_between_l. Qed.
Print Assumptions C47_between.
