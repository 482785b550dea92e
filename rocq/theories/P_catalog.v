(** Property C69: what holds for every call listed in the catalogue S_catalog.v. *)
From Verif Require Import T_catalog L_crps_call.
From Coquelicot Require Import Coquelicot.
From Coq Require Import Psatz Lia.
Open Scope R_scope.

(** C69.  Every call of the catalogue returns the CRPS integral of its distribution function at every index. *)
Theorem C69_value :
forall T s F y, closed_crps T s F y -> exists f, returns T s (fins f) /\ forall i, inb s i -> is_crps (F i) (y i) (f i).
Proof. exact C69_value_l. Qed.
Print Assumptions C69_value.
Example C69_value_case : closed_crps (crps_normal (farr nil (fun _ => 2)) (farr nil (fun _ => 1)) (farr nil (fun _ => 3))) nil (fun _ => normal_cdf 1 3) (fun _ => 2).
Proof. apply (cc_normal _ _ _ nil (fun _ => 2) (fun _ => 1) (fun _ => 3)); [split; [reflexivity|repeat constructor]|intros; cbv beta; repeat split; lra]. Qed.

(** C69.  The returned scores are not negative. *)
Theorem C69_nonneg :
forall T s F y, closed_crps T s F y -> exists f, returns T s (fins f) /\ forall i, inb s i -> 0 <= f i.
Proof. exact C69_nonneg_l. Qed.
Print Assumptions C69_nonneg.
Example C69_nonneg_case : closed_crps (crps_poisson (farr nil (fun _ => 5 / 2)) (farr nil (fun _ => 3))) nil (fun _ => count_cdf (poisson_pmf 3)) (fun _ => 5 / 2).
Proof. apply (cc_poisson _ _ nil (fun _ => 5 / 2) (fun _ => 3)); [split; [reflexivity|repeat constructor]|intros; cbv beta; repeat split; lra]. Qed.

(** C69.  Moving the observation changes the score by the distance at most, when the distribution function has values
    between 0 and 1 (which fails only for point masses outside [0, 1]). *)
Theorem C69_lipschitz :
forall T T' s F y y', closed_crps T s F y -> closed_crps T' s F y' -> (forall i, inb s i -> forall t, 0 <= F i t <= 1) ->
  exists f f', returns T s (fins f) /\ returns T' s (fins f') /\ forall i, inb s i -> Rabs (f i - f' i) <= Rabs (y i - y' i).
Proof. exact C69_lipschitz_l. Qed.
Print Assumptions C69_lipschitz.
(** the same logistic forecast and the observations 2 and 7 *)
Example C69_lipschitz_case : (forall y, closed_crps (crps_logistic (farr nil (fun _ => y)) (farr nil (fun _ => 1)) (farr nil (fun _ => 3))) nil (fun _ => logistic_cdf 1 3) (fun _ => y)) /\
  forall t, 0 <= logistic_cdf 1 3 t <= 1.
Proof.
  split; [intros y; apply (cc_logistic _ _ _ nil (fun _ => y) (fun _ => 1) (fun _ => 3)); [split; [reflexivity|repeat constructor]|intros; cbv beta; repeat split; lra]|].
  intros t. unfold logistic_cdf. pose proof (exp_pos (- ((t - 1) / 3))) as P. split; [left; apply Rinv_0_lt_compat; lra|]. pose proof (Rinv_le_contravar 1 (1 + exp (- ((t - 1) / 3))) ltac:(lra) ltac:(lra)) as Q. rewrite Rinv_1 in Q. exact Q.
Qed.

(** C69.  Two calls whose distribution functions agree return the same array. *)
Theorem C69_same :
forall T T' s F F' y, closed_crps T s F y -> closed_crps T' s F' y -> (forall i, inb s i -> forall t, F i t = F' i t) ->
  exists f, returns T s (fins f) /\ returns T' s (fins f).
Proof. exact C69_same_l. Qed.
Print Assumptions C69_same.
Example C69_same_case : closed_crps (crps_2pnormal (farr nil (fun _ => 2)) (farr nil (fun _ => 3)) (farr nil (fun _ => 3)) (farr nil (fun _ => 1))) nil (fun _ => normal2p_cdf 3 3 1) (fun _ => 2) /\
  closed_crps (crps_normal (farr nil (fun _ => 2)) (farr nil (fun _ => 1)) (farr nil (fun _ => 3))) nil (fun _ => normal_cdf 1 3) (fun _ => 2) /\ forall t, normal2p_cdf 3 3 1 t = normal_cdf 1 3 t.
Proof. split; [|split; [|intros; apply two_piece_normal; lra]]; [apply (cc_2pnormal _ _ _ _ nil (fun _ => 2) (fun _ => 3) (fun _ => 3) (fun _ => 1)); [split; [reflexivity|repeat constructor]|intros; cbv beta; repeat split; lra]|apply (cc_normal _ _ _ nil (fun _ => 2) (fun _ => 1) (fun _ => 3)); [split; [reflexivity|repeat constructor]|intros; cbv beta; repeat split; lra]]. Qed.

(** C69.  A change of units: observation a + b y with b > 0 and the distribution function moved in the same way multiply
    the score by b. *)
Theorem C69_affine :
forall T T' s F F' y y' (a b : list nat -> R), closed_crps T s F y -> closed_crps T' s F' y' ->
  (forall i, inb s i -> 0 < b i /\ y' i = a i + b i * y i /\ forall t, F' i (a i + b i * t) = F i t) ->
  exists f, returns T s (fins f) /\ returns T' s (fins (fun i => b i * f i)).
Proof. exact C69_affine_l. Qed.
Print Assumptions C69_affine.
(** from degrees Celsius to Fahrenheit: 2 is 35.6, and the laplace forecast with location 1 and scale 3 becomes one with
    location 33.8 and scale 5.4 *)
Example C69_affine_case : closed_crps (crps_laplace (farr nil (fun _ => 2)) (farr nil (fun _ => 1)) (farr nil (fun _ => 3))) nil (fun _ => laplace_cdf 1 3) (fun _ => 2) /\
  closed_crps (crps_laplace (farr nil (fun _ => 178 / 5)) (farr nil (fun _ => 169 / 5)) (farr nil (fun _ => 27 / 5))) nil (fun _ => laplace_cdf (169 / 5) (27 / 5)) (fun _ => 178 / 5) /\
  178 / 5 = 32 + 9 / 5 * 2 /\ forall t, laplace_cdf (169 / 5) (27 / 5) (32 + 9 / 5 * t) = laplace_cdf 1 3 t.
Proof.
  split; [apply (cc_laplace _ _ _ nil (fun _ => 2) (fun _ => 1) (fun _ => 3)); [split; [reflexivity|repeat constructor]|intros; cbv beta; repeat split; lra]|]. split; [apply (cc_laplace _ _ _ nil (fun _ => 178 / 5) (fun _ => 169 / 5) (fun _ => 27 / 5)); [split; [reflexivity|repeat constructor]|intros; cbv beta; repeat split; lra]|].
  split; [lra|]. intros t. unfold laplace_cdf. replace ((32 + 9 / 5 * t - 169 / 5) / (27 / 5)) with ((t - 1) / 3) by field. destruct (Rlt_dec (32 + 9 / 5 * t) (169 / 5)), (Rlt_dec t 1); auto; lra.
Qed.

(** C69.  A change of sign of observation and forecast leaves the score unchanged.  The distribution function of -X is
    1 - F (-t) except at the points where F jumps, listed in L. *)
Theorem C69_reflect :
forall T T' s F F' y y' (L : list nat -> list R), closed_crps T s F y -> closed_crps T' s F' y' ->
  (forall i, inb s i -> y' i = - y i /\ forall t, ~ In t (L i) -> F' i (- t) = 1 - F i t) ->
  exists f, returns T s (fins f) /\ returns T' s (fins f).
Proof. exact C69_reflect_l. Qed.
Print Assumptions C69_reflect.
(** uniform forecast on [1, 3] with the point masses 1/4 at 1 and 1/8 at 3, and its reflection *)
Example C69_reflect_case : closed_crps (crps_uniform (farr nil (fun _ => 2)) (farr nil (fun _ => 1)) (farr nil (fun _ => 3)) (farr nil (fun _ => 1 / 4)) (farr nil (fun _ => 1 / 8))) nil (fun _ => uniform_cdf 1 3 (1 / 4) (1 / 8)) (fun _ => 2) /\
  closed_crps (crps_uniform (farr nil (fun _ => -2)) (farr nil (fun _ => -3)) (farr nil (fun _ => -1)) (farr nil (fun _ => 1 / 8)) (farr nil (fun _ => 1 / 4))) nil (fun _ => uniform_cdf (-3) (-1) (1 / 8) (1 / 4)) (fun _ => -2) /\
  forall t, ~ In t (1 :: 3 :: nil)%list -> uniform_cdf (-3) (-1) (1 / 8) (1 / 4) (- t) = 1 - uniform_cdf 1 3 (1 / 4) (1 / 8) t.
Proof.
  split; [apply (cc_uniform _ _ _ _ _ nil (fun _ => 2) (fun _ => 1) (fun _ => 3) (fun _ => 1 / 4) (fun _ => 1 / 8)); [split; [reflexivity|repeat constructor]|intros; cbv beta; repeat split; lra]|].
  split; [apply (cc_uniform _ _ _ _ _ nil (fun _ => -2) (fun _ => -3) (fun _ => -1) (fun _ => 1 / 8) (fun _ => 1 / 4)); [split; [reflexivity|repeat constructor]|intros; cbv beta; repeat split; lra]|].
  intros t Ht. simpl in Ht. assert (t <> 1 /\ t <> 3) as [] by (split; intros ->; tauto). unfold uniform_cdf. destruct (Rlt_dec (- t) (-3)), (Rlt_dec t 1), (Rlt_dec (- t) (-1)), (Rlt_dec t 3); lra.
Qed.

(** C69.  One forecast for n observations: its mean score exceeds the mean score that crps_ensemble gives to the
    observations themselves used as ensemble by the integral of the squared difference of the two distribution functions.
    No forecast scores better than the empirical distribution of the observations. *)
Theorem C69_insample :
forall srt b T n F G y obs fct ax p x e sf pol, closed_crps T (n :: nil) F y -> (forall i, inb (n :: nil) i -> forall t, F i t = G t) -> (0 < n)%nat ->
  argsort_ok srt -> ens_args obs fct ax (n :: nil) p n y x -> (forall i k, (i < n)%nat -> (k < n)%nat -> member p x (i :: nil) k = y (k :: nil)) ->
  In e ("nrg" :: "qd" :: "int" :: nil)%string%list -> In pol ("propagate" :: "raise" :: nil)%string%list -> (b = Numba -> dt obs = DFloat) -> sorted_if sf (n :: nil) p n x ->
  exists f u, returns T (n :: nil) (fins f) /\ returns (crps_ensemble srt b obs fct ax None e sf pol) (n :: nil) (fins u) /\
    is_RInt_gen (fun t => (G t - ecdf n (fun k => y (k :: nil)) t) ^ 2) (Rbar_locally m_infty) (Rbar_locally p_infty)
      (mean n (fun k => f (k :: nil)) - mean n (fun k => u (k :: nil))) /\
    mean n (fun k => u (k :: nil)) <= mean n (fun k => f (k :: nil)).
Proof. exact C69_insample_l. Qed.
Print Assumptions C69_insample.
(** the observations 0, 1, 2, a normal forecast with mean 1 and deviation 3, and the ensemble 0, 1, 2 for each of them *)
Example C69_insample_case : let y := fun i : list nat => INR (hd 0%nat i) in let x := fun i : list nat => INR (hd 0%nat i) in
  closed_crps (crps_normal (farr (3%nat :: nil) y) (farr nil (fun _ => 1)) (farr nil (fun _ => 3))) (3%nat :: nil) (fun _ => normal_cdf 1 3) y /\ argsort_ok asort /\
  ens_args (farr (3%nat :: nil) y) (farr (3%nat :: 3%nat :: nil) x) (-1) (3%nat :: nil) 0 3 y x /\ forall i k, member 0 x (i :: nil) k = y (k :: nil).
Proof.
  cbv zeta. split; [apply (cc_normal _ _ _ (3%nat :: nil) (fun i => INR (hd 0%nat i)) (fun _ => 1) (fun _ => 3)); [|intros; cbv beta; repeat split; lra]|].
  - split; [reflexivity|]. constructor; [|constructor; [|constructor; [|constructor]]]; intros i Hi; destruct i as [|k [|? ?]]; simpl in Hi; try tauto; reflexivity.
  - split; [exact asort_ok|]. split; [|reflexivity]. split; [split; [reflexivity|intros; reflexivity]|]. split; [split; [reflexivity|intros; reflexivity]|]. split; [simpl; lia|left; reflexivity].
Qed.
