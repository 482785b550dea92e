(** Property C63: the closed-form CRPS of the generalised extreme value distribution with shape below one is the integral
    of (F - 1{obs <= .})^2; for shape zero, up to the rounding of Euler's constant in the code. *)
From Verif Require Import T_crpsgev.
From Coq Require Import Psatz.
Open Scope R_scope.

(** nonzero shape below one *)
Theorem C63_gev :
forall (obs shape location scale : arr) (s : list nat) (y k m c : list nat -> R),
  params s [(obs, fins y); (shape, fins k); (location, fins m); (scale, fins c)]%list -> (forall i, inb s i -> 0 < c i /\ k i < 1 /\ k i <> 0) ->
  exists f, returns (crps_gev obs shape location scale) (float_shape s) (fun i => Fin (f (float_index s i))) /\
    forall i, inb s i -> is_crps (ls_cdf (gev_cdf (k i)) (m i) (c i)) (y i) (f i).
Proof. exact C63_gev_l. Qed.
Print Assumptions C63_gev.
Example C63_gev_ex : let f v := fun _ : list nat => v in
  params (2%nat :: nil) [(farr (2%nat :: nil) (f 3), fins (f 3)); (farr nil (f (- (1 / 2))), fins (f (- (1 / 2)))); (farr (1%nat :: nil) (f 2), fins (f 2)); (farr nil (f 5), fins (f 5))]%list /\ 0 < 5 /\ - (1 / 2) < 1 /\ - (1 / 2) <> 0.
Proof. cbv zeta. split; [split; [reflexivity|repeat constructor]|repeat split; simpl; lra]. Qed.

(** zero shape: the returned value falls short of the CRPS by the scale times a constant below 2e-36 *)
Theorem C63_gumbel :
exists e, 0 < e < 2 / 10 ^ 36 /\
  forall (obs shape location scale : arr) (s : list nat) (y m c : list nat -> R),
  params s [(obs, fins y); (shape, fins (fun _ => 0)); (location, fins m); (scale, fins c)]%list -> (forall i, inb s i -> 0 < c i) ->
  exists f, returns (crps_gev obs shape location scale) (float_shape s) (fun i => Fin (f (float_index s i))) /\
    forall i, inb s i -> is_crps (ls_cdf (gev_cdf 0) (m i) (c i)) (y i) (f i + c i * e).
Proof. exact C63_gumbel_l. Qed.
Print Assumptions C63_gumbel.
Example C63_gumbel_ex : let f v := fun _ : list nat => v in
  params (2%nat :: nil) [(farr (2%nat :: nil) (f 3), fins (f 3)); (farr nil (f 0), fins (f 0)); (farr (1%nat :: nil) (f 2), fins (f 2)); (farr nil (f 5), fins (f 5))]%list /\ 0 < 5.
Proof. cbv zeta. split; [split; [reflexivity|repeat constructor]|repeat split; simpl; lra]. Qed.

(** shapes below one, some of them zero *)
Theorem C63_mixed :
exists e, 0 < e < 2 / 10 ^ 36 /\
  forall (obs shape location scale : arr) (s : list nat) (y k m c : list nat -> R),
  params s [(obs, fins y); (shape, fins k); (location, fins m); (scale, fins c)]%list -> (forall i, inb s i -> 0 < c i /\ k i < 1) ->
  exists f, returns (crps_gev obs shape location scale) (float_shape s) (fun i => Fin (f (float_index s i))) /\
    forall i, inb s i -> is_crps (ls_cdf (gev_cdf (k i)) (m i) (c i)) (y i) (f i + if Req_EM_T (k i) 0 then c i * e else 0).
Proof. exact C63_mixed_l. Qed.
Print Assumptions C63_mixed.
Example C63_mixed_ex : let f v := fun _ : list nat => v in
  params (2%nat :: nil) [(farr (2%nat :: nil) (f 3), fins (f 3)); (farr nil (f (1 / 2)), fins (f (1 / 2))); (farr (1%nat :: nil) (f 2), fins (f 2)); (farr nil (f 5), fins (f 5))]%list /\ 0 < 5 /\ 1 / 2 < 1.
Proof. cbv zeta. split; [split; [reflexivity|repeat constructor]|repeat split; simpl; lra]. Qed.

(** for shape zero the returned value is not the CRPS itself *)
Theorem C63_gumbel_exact_refuted :
exists f v, returns (crps_gev (farr nil (fun _ => 3)) (farr nil (fun _ => 0)) (farr nil (fun _ => 2)) (farr nil (fun _ => 5))) nil (fins f) /\
  is_crps (ls_cdf (gev_cdf 0) 2 5) 3 v /\ f nil < v.
Proof. exact C63_gumbel_exact_refuted_l. Qed.
Print Assumptions C63_gumbel_exact_refuted.

(** the code's constant is Euler's constant, the limit of 1 + 1/2 + ... + 1/n - ln n, rounded down to 35 decimals *)
Theorem C63_euler :
exists g, is_euler g /\ EULERMASCHERONI < g < EULERMASCHERONI + 2 / 10 ^ 36.
Proof. exact C63_euler_l. Qed.
Print Assumptions C63_euler.
