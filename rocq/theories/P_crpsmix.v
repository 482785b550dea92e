(** Property C61: the closed-form CRPS of a mixture of normal distributions is the integral of (F - 1{obs <= .})^2. *)
From Verif Require Import T_crpsmix.
From Coq Require Import Psatz.
From Coquelicot Require Import Rbar.
Open Scope R_scope.

(** a mixture of M normal distributions, the components along the axis m_axis, with given or equal weights *)
Theorem C61_mixnorm :
forall (obs m sd : arr) (w : option arr) (ax : Z) (s : list nat) (p M : nat) (y mu sg ww : list nat -> R),
  mix_args obs m sd w ax s p M y mu sg ww -> mix_ok s p M sg ww ->
  exists f, returns (crps_mixnorm obs m sd w ax) s (fins f) /\
    forall r, inb s r -> is_crps (mixture M (member p ww r) (fun k => normal_cdf (member p mu r k) (member p sg r k))) (y r) (f r).
Proof. exact C61_mixnorm_l. Qed.
Print Assumptions C61_mixnorm.
Example C61_mixnorm_ex : let f v := fun _ : list nat => v in
  mix_args (farr (2%nat :: nil) (f 1)) (farr (3%nat :: 2%nat :: nil) (fun i => INR (hd 0%nat i))) (farr (3%nat :: 2%nat :: nil) (f 2))
    None (-1) (2%nat :: nil) 0 3 (f 1) (fun i => INR (hd 0%nat i)) (f 2) (f (/ INR 3)) /\
  mix_ok (2%nat :: nil) 0 3 (f 2) (f (/ INR 3)).
Proof.
  cbv zeta. split.
  - split; [|split; [split; reflexivity|reflexivity]]. split; [split; reflexivity|]. split; [split; reflexivity|]. split; [simpl; lia|left; reflexivity].
  - intros r Hr. split; [intros k Hk|unfold member; rewrite sumn_const; simpl; field]. split; unfold member; simpl; lra.
Qed.
