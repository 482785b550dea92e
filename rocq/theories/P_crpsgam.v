(** Property C62: the closed-form CRPS of the gamma distribution and of the gamma distribution shifted to the left and
    censored at zero is the integral of (F - 1{obs <= .})^2. *)
From Verif Require Import T_crpsgam.
From Coq Require Import Psatz.
From Coquelicot Require Import Rbar.
Open Scope R_scope.

(** the gamma distribution with given rate, for every observation *)
Theorem C62_gamma :
forall (obs shape rate : arr) (s : list nat) (y a r : list nat -> R),
  params s [(obs, fins y); (shape, fins a); (rate, fins r)]%list -> (forall i, inb s i -> 0 < a i /\ 0 < r i) ->
  exists f, returns (crps_gamma obs shape (Some rate) None) s (fins f) /\
    forall i, inb s i -> is_crps (gamma_cdf (a i) (r i)) (y i) (f i).
Proof. exact C62_gamma_l. Qed.
Print Assumptions C62_gamma.
Example C62_gamma_ex : let f v := fun _ : list nat => v in
  params (2%nat :: nil) [(farr (2%nat :: nil) (f 3), fins (f 3)); (farr nil (f (1 / 2)), fins (f (1 / 2))); (farr (1%nat :: nil) (f 2), fins (f 2))]%list /\ 0 < 1 / 2 /\ 0 < 2.
Proof. cbv zeta. split; [split; [reflexivity|repeat constructor]|repeat split; simpl; lra]. Qed.

(** the gamma distribution with given scale, the inverse of the rate, for every observation *)
Theorem C62_gamma_scale :
forall (obs shape scale : arr) (s : list nat) (y a c : list nat -> R),
  params s [(obs, fins y); (shape, fins a); (scale, fins c)]%list -> (forall i, inb s i -> 0 < a i /\ 0 < c i) ->
  exists f, returns (crps_gamma obs shape None (Some scale)) s (fins f) /\
    forall i, inb s i -> is_crps (gamma_cdf (a i) (1 / c i)) (y i) (f i).
Proof. exact C62_gamma_scale_l. Qed.
Print Assumptions C62_gamma_scale.
Example C62_gamma_scale_ex : let f v := fun _ : list nat => v in
  params (2%nat :: nil) [(farr (2%nat :: nil) (f 3), fins (f 3)); (farr nil (f (1 / 2)), fins (f (1 / 2))); (farr (1%nat :: nil) (f 2), fins (f 2))]%list /\ 0 < 1 / 2 /\ 0 < 2.
Proof. cbv zeta. split; [split; [reflexivity|repeat constructor]|repeat split; simpl; lra]. Qed.

(** the gamma distribution with given rate shifted to the left and censored at zero, for nonnegative observations *)
Theorem C62_csg0 :
forall (obs shape rate shift : arr) (s : list nat) (y a r d : list nat -> R),
  params s [(obs, fins y); (shape, fins a); (rate, fins r); (shift, fins d)]%list -> (forall i, inb s i -> 0 < a i /\ 0 < r i /\ 0 <= y i) ->
  exists f, returns (crps_csg0 obs shape (Some rate) None shift) s (fins f) /\
    forall i, inb s i -> is_crps (csg0_cdf (a i) (r i) (d i)) (y i) (f i).
Proof. exact C62_csg0_l. Qed.
Print Assumptions C62_csg0.
Example C62_csg0_ex : let f v := fun _ : list nat => v in
  params (2%nat :: nil) [(farr (2%nat :: nil) (f 3), fins (f 3)); (farr nil (f (1 / 2)), fins (f (1 / 2))); (farr (1%nat :: nil) (f 2), fins (f 2)); (farr nil (f 1), fins (f 1))]%list /\ 0 < 1 / 2 /\ 0 < 2 /\ 0 <= 3.
Proof. cbv zeta. split; [split; [reflexivity|repeat constructor]|repeat split; simpl; lra]. Qed.

(** the gamma distribution with given scale shifted to the left and censored at zero, for nonnegative observations *)
Theorem C62_csg0_scale :
forall (obs shape scale shift : arr) (s : list nat) (y a c d : list nat -> R),
  params s [(obs, fins y); (shape, fins a); (scale, fins c); (shift, fins d)]%list -> (forall i, inb s i -> 0 < a i /\ 0 < c i /\ 0 <= y i) ->
  exists f, returns (crps_csg0 obs shape None (Some scale) shift) s (fins f) /\
    forall i, inb s i -> is_crps (csg0_cdf (a i) (1 / c i) (d i)) (y i) (f i).
Proof. exact C62_csg0_scale_l. Qed.
Print Assumptions C62_csg0_scale.
Example C62_csg0_scale_ex : let f v := fun _ : list nat => v in
  params (2%nat :: nil) [(farr (2%nat :: nil) (f 3), fins (f 3)); (farr nil (f (1 / 2)), fins (f (1 / 2))); (farr (1%nat :: nil) (f 2), fins (f 2)); (farr nil (f 1), fins (f 1))]%list /\ 0 < 1 / 2 /\ 0 < 2 /\ 0 <= 3.
Proof. cbv zeta. split; [split; [reflexivity|repeat constructor]|repeat split; simpl; lra]. Qed.

(** for a negative observation the code's formula is not the CRPS: the shift is added before the observation is compared with the censoring point *)
Theorem C62_csg0_negative_refuted :
exists f v, returns (crps_csg0 (farr nil (fun _ => -1)) (farr nil (fun _ => 1)) (Some (farr nil (fun _ => 1))) None (farr nil (fun _ => 1))) nil (fins f) /\
  is_crps (csg0_cdf 1 1 1) (-1) v /\ f nil < v.
Proof. exact C62_csg0_negative_refuted_l. Qed.
Print Assumptions C62_csg0_negative_refuted.
