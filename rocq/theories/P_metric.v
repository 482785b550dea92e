(** Property C84: the square root of the CRPS is a distance.  [crps_call T s F y] (S_metric.v): T is a call of crps_ensemble
    with an exact estimator or of a closed form, F i its distribution function and y i the observation at the index i of the
    shape s. *)
From Verif Require Import T_metric L_crps_call L_examples.
From Coquelicot Require Import Coquelicot.
From Coq Require Import Psatz Lia.
Open Scope R_scope.

(** C84.  Every such call returns the CRPS integral of its distribution function. *)
Theorem C84_value :
forall T s F y, crps_call T s F y -> exists f, returns T s (fins f) /\ forall i, inb s i -> is_crps (F i) (y i) (f i).
Proof. exact C84_value_l. Qed.
Print Assumptions C84_value.
Example C84_value_case : crps_call (crps_ensemble asort Numba (farr nil (fun _ => 0)) (ens1 1) (-1) None "nrg" false "propagate") nil
  (fun r => ecdf 1 (member 0 (fun _ => 1) r)) (fun _ => 0).
Proof. apply ex_one. Qed.

(** C84.  The distribution functions of ensembles, with and without weights, satisfy the hypothesis of the next theorem. *)
Theorem C84_ensemble_df :
forall M x w, (0 < M)%nat -> is_df (ecdf M x) /\ ((forall k, (k < M)%nat -> 0 <= w k) -> 0 < sumn M w -> is_df (wcdf M w x)).
Proof. exact C84_ensemble_df_l. Qed.
Print Assumptions C84_ensemble_df.
Example C84_ensemble_df_case : is_df (ecdf 3 INR) /\ ecdf 3 INR 1 = 2 / 3.
Proof. split; [apply (C84_ensemble_df 3 INR INR); lia|]. unfold ecdf, sumn, Rsum, ind_le; simpl. repeat destruct Rle_dec; lra. Qed.

(** C84.  Two forecasts of the same observation: the integral d of the squared difference of their distribution functions exists, the square roots of the two scores differ by at most the square root of d, and this bounds the difference of the scores.  For an ensemble and a closed form: how far the score of a sample can be from the score of the distribution it was drawn from. *)
Theorem C84_triangle :
forall T T' s F G y, crps_call T s F y -> crps_call T' s G y -> (forall i, inb s i -> is_df (F i) /\ is_df (G i)) ->
  exists f g d, returns T s (fins f) /\ returns T' s (fins g) /\ forall i, inb s i ->
    is_sqdist (F i) (G i) (d i) /\ Rabs (sqrt (f i) - sqrt (g i)) <= sqrt (d i) /\
    Rabs (f i - g i) <= sqrt (d i) * (2 * sqrt (f i) + sqrt (d i)).
Proof. exact C84_triangle_l. Qed.
Print Assumptions C84_triangle.
(** the bound is attained: the ensembles 0 and 1 of one member and the observation 0 have the scores 0 and 1 at distance 1 *)
Example C84_triangle_case : crps_call (crps_logistic (farr nil (fun _ => 0)) (farr nil (fun _ => 1)) (farr nil (fun _ => 3))) nil (fun _ => logistic_cdf 1 3) (fun _ => 0) /\
  crps_call (crps_ensemble asort Numba (farr nil (fun _ => 0)) (ens1 1) (-1) None "nrg" false "propagate") nil (fun r => ecdf 1 (member 0 (fun _ => 1) r)) (fun _ => 0) /\
  is_df (logistic_cdf 1 3) /\ is_df (ecdf 1 (member 0 (fun _ => 1) nil)) /\ endist 1 (fun _ => 0) 1 (fun _ => 1) = 1.
Proof.
  split; [apply ex_logistic|]. split; [apply ex_one|]. split; [apply ex_logistic_df|]. split; [apply (C84_ensemble_df 1 _ (fun _ => 1)); lia|].
  unfold endist, sumn, Rsum; simpl. rewrite !Rminus_eq_0, Rabs_R0, (Rabs_left (0 - 1)) by lra. lra.
Qed.

(** C84.  For two ensembles, of any sizes and with either implementation, d is their energy distance. *)
Theorem C84_ensembles :
forall srt srt' b b' obs obs' fct fct' ax ax' s p p' M N y x z e e' sf sf' pol pol',
  argsort_ok srt -> argsort_ok srt' -> ens_args obs fct ax s p M y x -> ens_args obs' fct' ax' s p' N y z -> (0 < M)%nat -> (0 < N)%nat ->
  In e ("nrg" :: "qd" :: "int" :: nil)%string%list -> In e' ("nrg" :: "qd" :: "int" :: nil)%string%list ->
  In pol ("propagate" :: "raise" :: nil)%string%list -> In pol' ("propagate" :: "raise" :: nil)%string%list ->
  (b = Numba -> dt obs = DFloat) -> (b' = Numba -> dt obs' = DFloat) -> sorted_if sf s p M x -> sorted_if sf' s p' N z ->
  exists u v, returns (crps_ensemble srt b obs fct ax None e sf pol) s (fins u) /\ returns (crps_ensemble srt' b' obs' fct' ax' None e' sf' pol') s (fins v) /\
    forall i, inb s i -> is_sqdist (ecdf M (member p x i)) (ecdf N (member p' z i)) (endist M (member p x i) N (member p' z i)) /\
      Rabs (sqrt (u i) - sqrt (v i)) <= sqrt (endist M (member p x i) N (member p' z i)).
Proof. exact C84_ensembles_l. Qed.
Print Assumptions C84_ensembles.
Example C84_ensembles_case : argsort_ok asort /\ ens_args ex_obs ex_fct 0 [2%nat] 1 3 ex_y ex_x /\ (0 < 3)%nat /\ (Numba = Numba -> dt ex_obs = DFloat) /\ sorted_if false [2%nat] 1 3 ex_x.
Proof. exact ex_ok. Qed.

(** C84.  Moving the observation by h changes the square root of the score by at most the square root of h. *)
Theorem C84_observation :
forall T T' s F F' y y', crps_call T s F y -> crps_call T' s F' y' -> (forall i, inb s i -> forall t, F i t = F' i t) ->
  exists f f', returns T s (fins f) /\ returns T' s (fins f') /\ forall i, inb s i -> Rabs (sqrt (f i) - sqrt (f' i)) <= sqrt (Rabs (y i - y' i)).
Proof. exact C84_observation_l. Qed.
Print Assumptions C84_observation.
(** the logistic forecast and the observations 2 and 7 *)
Example C84_observation_case : forall y, crps_call (crps_logistic (farr nil (fun _ => y)) (farr nil (fun _ => 1)) (farr nil (fun _ => 3))) nil (fun _ => logistic_cdf 1 3) (fun _ => y).
Proof. exact ex_logistic. Qed.

(** C84.  The scores of two forecasts differ by at most twice the area between their distribution functions. *)
Theorem C84_area :
forall T T' s F G y d, crps_call T s F y -> crps_call T' s G y -> (forall i, inb s i -> forall t, 0 <= F i t <= 1 /\ 0 <= G i t <= 1) ->
  (forall i, inb s i -> is_area (F i) (G i) (d i)) ->
  exists f g, returns T s (fins f) /\ returns T' s (fins g) /\ forall i, inb s i -> Rabs (f i - g i) <= 2 * d i.
Proof. exact C84_area_l. Qed.
Print Assumptions C84_area.
(** two ensembles of one member, 0 and 1: the area between their distribution functions is 1 *)
Example C84_area_case : is_area (ecdf 1 (fun _ => 0)) (ecdf 1 (fun _ => 1)) 1.
Proof.
  pose proof (endist_sqdist 1 (fun _ => 0) 1 (fun _ => 1) ltac:(lia) ltac:(lia)) as K. eapply line_ext; [| |exact K].
  - intros t. unfold ecdf, sumn, Rsum, ind_le; simpl. repeat destruct Rle_dec; try lra; unfold Rabs; destruct Rcase_abs; lra.
  - unfold endist, sumn, Rsum; simpl. rewrite !Rminus_eq_0, Rabs_R0, (Rabs_left (0 - 1)) by lra. lra.
Qed.
