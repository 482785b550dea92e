(** Property C58: the closed-form CRPS of the t distribution and of the truncated and censored t distributions
    is the integral of (F - 1{obs <= .})^2, for the distribution functions of S_cont.v.
    Bounds may be infinite; all arguments broadcast. *)
From Verif Require Import T_crpst.
From Coq Require Import Psatz.
From Coquelicot Require Import Rbar.
Open Scope R_scope.

(** the t distribution with more than one degree of freedom (with at most one the mean, hence the CRPS, is infinite) *)
Theorem C58_t :
forall (obs df location scale : arr) (s : list nat) (y n m c : list nat -> R),
  params s [(obs, fins y); (df, fins n); (location, fins m); (scale, fins c)]%list -> (forall i, inb s i -> 1 < n i /\ 0 < c i) ->
  exists f, returns (crps_t obs df location scale) s (fins f) /\
    forall i, inb s i -> is_crps (ls_cdf (t_cdf (n i)) (m i) (c i)) (y i) (f i).
Proof. exact C58_t_l. Qed.
Print Assumptions C58_t.
Example C58_t_ex : let f v := fun _ : list nat => v in
  params (2%nat :: nil) [(farr (2%nat :: nil) (f 3), fins (f 3)); (farr nil (f 3), fins (f 3)); (farr nil (f 1), fins (f 1)); (farr (1%nat :: nil) (f 2), fins (f 2))]%list /\ 1 < 3 /\ 0 < 2.
Proof. cbv zeta. split; [split; [reflexivity|repeat constructor]|]. repeat split; try lra. Qed.

(** the t distribution with point masses at its bounds, neither of which is the location *)
Theorem C58_gtct :
forall (obs df location scale lower upper lmass umass : arr) (s : list nat) (y n m c p q : list nat -> R) (l u : list nat -> Rbar),
  params s [(obs, fins y); (df, fins n); (location, fins m); (scale, fins c); (lower, fun i => rbn (l i)); (upper, fun i => rbn (u i)); (lmass, fins p); (umass, fins q)]%list ->
  (forall i, inb s i -> 1 < n i /\ 0 < c i /\ tc_ok (l i) (u i) (p i) (q i) /\ l i <> Finite (m i) /\ u i <> Finite (m i)) ->
  exists f, returns (crps_gtct obs df location scale lower upper lmass umass) s (fins f) /\
    forall i, inb s i -> is_crps (truncensx (ls_cdf (t_cdf (n i)) (m i) (c i)) (l i) (u i) (p i) (q i)) (y i) (f i).
Proof. exact C58_gtct_l. Qed.
Print Assumptions C58_gtct.
Example C58_gtct_ex : let f v := fun _ : list nat => v in
  params (2%nat :: nil) [(farr (2%nat :: nil) (f 3), fins (f 3)); (farr nil (f 3), fins (f 3)); (farr nil (f 1), fins (f 1)); (farr (1%nat :: nil) (f 2), fins (f 2)); (farr nil (f 0), fun i => rbn (Finite (f 0 i))); (mkArr DFloat nil (fun _ => PInf), fun _ => rbn p_infty); (farr nil (f (1 / 4)), fins (f (1 / 4))); (farr nil (f 0), fins (f 0))]%list /\ 1 < 3 /\ 0 < 2 /\ tc_ok 0 p_infty (1 / 4) 0 /\ Finite 0 <> Finite 1 /\ p_infty <> Finite 1.
Proof. cbv zeta. split; [split; [reflexivity|repeat constructor]|]. split; [lra|split; [lra|split; [unfold tc_ok; simpl; repeat split; try lra; discriminate|split; [intros E; inversion E; lra|discriminate]]]]. Qed.

(** the truncated t distribution *)
Theorem C58_tt :
forall (obs df location scale lower upper : arr) (s : list nat) (y n m c : list nat -> R) (l u : list nat -> Rbar),
  params s [(obs, fins y); (df, fins n); (location, fins m); (scale, fins c); (lower, fun i => rbn (l i)); (upper, fun i => rbn (u i))]%list ->
  (forall i, inb s i -> 1 < n i /\ 0 < c i /\ Rbar_lt (l i) (u i) /\ l i <> Finite (m i) /\ u i <> Finite (m i)) ->
  exists f, returns (crps_tt obs df location scale lower upper) s (fins f) /\
    forall i, inb s i -> is_crps (truncensx (ls_cdf (t_cdf (n i)) (m i) (c i)) (l i) (u i) 0 0) (y i) (f i).
Proof. exact C58_tt_l. Qed.
Print Assumptions C58_tt.
Example C58_tt_ex : let f v := fun _ : list nat => v in
  params (2%nat :: nil) [(farr (2%nat :: nil) (f 3), fins (f 3)); (farr nil (f 3), fins (f 3)); (farr nil (f 1), fins (f 1)); (farr (1%nat :: nil) (f 2), fins (f 2)); (farr nil (f 0), fun i => rbn (Finite (f 0 i))); (mkArr DFloat nil (fun _ => PInf), fun _ => rbn p_infty)]%list /\ 1 < 3 /\ 0 < 2 /\ Rbar_lt 0 p_infty /\ Finite 0 <> Finite 1 /\ p_infty <> Finite 1.
Proof. cbv zeta. split; [split; [reflexivity|repeat constructor]|]. repeat split; try lra; try exact I; try discriminate; try (intros E; inversion E; lra). Qed.

(** the censored t distribution *)
Theorem C58_ct :
forall (obs df location scale lower upper : arr) (s : list nat) (y n m c : list nat -> R) (l u : list nat -> Rbar),
  params s [(obs, fins y); (df, fins n); (location, fins m); (scale, fins c); (lower, fun i => rbn (l i)); (upper, fun i => rbn (u i))]%list ->
  (forall i, inb s i -> 1 < n i /\ 0 < c i /\ Rbar_lt (l i) (u i) /\ l i <> Finite (m i) /\ u i <> Finite (m i)) ->
  exists f, returns (crps_ct obs df location scale lower upper) s (fins f) /\
    forall i, inb s i -> is_crps (censored (ls_cdf (t_cdf (n i)) (m i) (c i)) (l i) (u i)) (y i) (f i).
Proof. exact C58_ct_l. Qed.
Print Assumptions C58_ct.
Example C58_ct_ex : let f v := fun _ : list nat => v in
  params (2%nat :: nil) [(farr (2%nat :: nil) (f 3), fins (f 3)); (farr nil (f 3), fins (f 3)); (farr nil (f 1), fins (f 1)); (farr (1%nat :: nil) (f 2), fins (f 2)); (farr nil (f 0), fun i => rbn (Finite (f 0 i))); (mkArr DFloat nil (fun _ => PInf), fun _ => rbn p_infty)]%list /\ 1 < 3 /\ 0 < 2 /\ Rbar_lt 0 p_infty /\ Finite 0 <> Finite 1 /\ p_infty <> Finite 1.
Proof. cbv zeta. split; [split; [reflexivity|repeat constructor]|]. repeat split; try lra; try exact I; try discriminate; try (intros E; inversion E; lra). Qed.

(** with a bound at the location the scores of the t distribution are NaN *)
Theorem C58_bound_at_location_nan :
forall (obs df location scale lower upper lmass umass : arr) (s : list nat) (y n m c p q : list nat -> R) (l u : list nat -> Rbar),
  params s [(obs, fins y); (df, fins n); (location, fins m); (scale, fins c); (lower, fun i => rbn (l i)); (upper, fun i => rbn (u i)); (lmass, fins p); (umass, fins q)]%list ->
  (forall i, inb s i -> 1 < n i /\ 0 < c i /\ Rbar_lt (l i) (u i) /\ (l i = Finite (m i) \/ u i = Finite (m i))) ->
  returns (crps_gtct obs df location scale lower upper lmass umass) s (fun _ => NaN).
Proof. exact C58_bound_at_location_nan_l. Qed.
Print Assumptions C58_bound_at_location_nan.
Example C58_bound_at_location_nan_ex : let f v := fun _ : list nat => v in
  params (2%nat :: nil) [(farr (2%nat :: nil) (f 3), fins (f 3)); (farr nil (f 3), fins (f 3)); (farr nil (f 0), fins (f 0)); (farr (1%nat :: nil) (f 2), fins (f 2));
    (farr nil (f 0), fun i => rbn (Finite (f 0 i))); (mkArr DFloat nil (fun _ => PInf), fun i => rbn p_infty); (farr nil (f 0), fins (f 0)); (farr nil (f 0), fins (f 0))]%list /\
  1 < 3 /\ 0 < 2 /\ Rbar_lt 0 p_infty /\ (Finite 0 = Finite 0 \/ p_infty = Finite 0).
Proof. cbv zeta. split; [split; [reflexivity|repeat constructor]|]. repeat split; auto; lra. Qed.

(** the score of a t distribution truncated at its location (here the half-t distribution on [0, inf)) is not the integral *)
Theorem C58_tt_at_location_refuted :
exists (obs df location scale lower upper : arr) (l u : Rbar),
  params nil [(obs, fun _ => Fin 1); (df, fun _ => Fin 3); (location, fun _ => Fin 0); (scale, fun _ => Fin 1); (lower, fun _ => rbn l); (upper, fun _ => rbn u)]%list /\
  Rbar_lt l u /\ (exists v, is_crps (truncensx (ls_cdf (t_cdf 3) 0 1) l u 0 0) 1 v) /\
  returns (crps_tt obs df location scale lower upper) nil (fun _ => NaN).
Proof. exact C58_tt_at_location_refuted_l. Qed.
Print Assumptions C58_tt_at_location_refuted.
