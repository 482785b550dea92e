(** Property C59: the closed-form CRPS of the beta distribution on [lower, upper] is the integral of (F - 1{obs <= .})^2
    for observations in the support. *)
From Verif Require Import T_crpsbeta.
From Coq Require Import Psatz.
From Coquelicot Require Import Rbar.
Open Scope R_scope.

(** the beta distribution on [lower, upper] (the bounds alone have the shape t; when they are the numbers 0 and 1 the code ignores their shape) *)
Theorem C59_beta :
forall (obs a b lower upper : arr) (s t : list nat) (y p q l u l' u' : list nat -> R),
  params s [(obs, fins y); (a, fins p); (b, fins q)]%list ->
  params s [(obs, fins y); (a, fins p); (b, fins q); (lower, fins l); (upper, fins u)]%list ->
  params t [(lower, fins l'); (upper, fins u')]%list -> (forall i, inb t i -> l' i < u' i) ->
  (forall i, inb s i -> 0 < p i /\ 0 < q i /\ l i < u i /\ l i <= y i <= u i) ->
  exists f, returns (crps_beta obs a b lower upper) s (fins f) /\
    forall i, inb s i -> is_crps (ls_cdf (beta_cdf (p i) (q i)) (l i) (u i - l i)) (y i) (f i).
Proof. exact C59_beta_l. Qed.
Print Assumptions C59_beta.
Example C59_beta_ex : let f v := fun _ : list nat => v in
  params (2%nat :: nil) [(farr (2%nat :: nil) (f 3), fins (f 3)); (farr nil (f (1 / 2)), fins (f (1 / 2))); (farr nil (f 3), fins (f 3)); (farr nil (f 2), fins (f 2)); (farr nil (f 5), fins (f 5))]%list /\
  params nil [(farr nil (f 2), fins (f 2)); (farr nil (f 5), fins (f 5))]%list /\ 0 < 1 / 2 /\ 0 < 3 /\ 2 < 5 /\ 2 <= 3 <= 5.
Proof. cbv zeta. split; [|split; [|lra]]; (split; [reflexivity|repeat constructor]). Qed.

(** an observation outside the support gives NaN *)
Theorem C59_beta_outside_nan :
forall (obs a b lower upper : arr) (s t : list nat) (y p q l u l' u' : list nat -> R),
  params s [(obs, fins y); (a, fins p); (b, fins q)]%list ->
  params s [(obs, fins y); (a, fins p); (b, fins q); (lower, fins l); (upper, fins u)]%list ->
  params t [(lower, fins l'); (upper, fins u')]%list -> (forall i, inb t i -> l' i < u' i) ->
  (forall i, inb s i -> l i < u i /\ (y i < l i \/ u i < y i)) ->
  returns (crps_beta obs a b lower upper) s (fun _ => NaN).
Proof. exact C59_beta_outside_nan_l. Qed.
Print Assumptions C59_beta_outside_nan.
Example C59_beta_outside_nan_ex : let f v := fun _ : list nat => v in
  params (2%nat :: nil) [(farr (2%nat :: nil) (f 6), fins (f 6)); (farr nil (f (1 / 2)), fins (f (1 / 2))); (farr nil (f 3), fins (f 3)); (farr nil (f 2), fins (f 2)); (farr nil (f 5), fins (f 5))]%list /\
  params nil [(farr nil (f 2), fins (f 2)); (farr nil (f 5), fins (f 5))]%list /\ 2 < 5 /\ (6 < 2 \/ 5 < 6).
Proof. cbv zeta. split; [|split; [|lra]]; (split; [reflexivity|repeat constructor]). Qed.

(** where the CRPS is finite: the uniform distribution on [0, 1] and the observation 2 *)
Theorem C59_beta_outside_refuted :
exists obs a b lower upper : arr,
  params nil [(obs, fun _ => Fin 2); (a, fun _ => Fin 1); (b, fun _ => Fin 1); (lower, fun _ => Fin 0); (upper, fun _ => Fin 1)]%list /\
  (exists v, is_crps (beta_cdf 1 1) 2 v) /\ returns (crps_beta obs a b lower upper) nil (fun _ => NaN).
Proof. exact C59_beta_outside_refuted_l. Qed.
Print Assumptions C59_beta_outside_refuted.
