(** Densities of the parametric families and log scores, independent of the code. *)
From Verif Require Export S_dist.
From Coquelicot Require Import Coquelicot.
Open Scope R_scope.

(** minus the logarithm of a density or probability p >= 0 *)
Definition logp (p : R) : num := if Rlt_dec 0 p then Fin (- ln p) else PInf.

(** approaching the ends of an interval from inside *)
Definition from_below (l : Rbar) : (R -> Prop) -> Prop := match l with Finite a => at_right a | _ => Rbar_locally l end.
Definition from_above (u : Rbar) : (R -> Prop) -> Prop := match u with Finite b => at_left b | _ => Rbar_locally u end.
(** [distribution F f l u]: f is a probability density on the interval from l to u (its integral is
    one, and it is 0 outside), and F is its distribution function.  Values at finite l and u
    are of no importance. *)
Definition distribution (F f : R -> R) (l u : Rbar) : Prop :=
  (forall t, 0 <= f t) /\
  (forall t : R, Rbar_lt t l -> f t = 0 /\ F t = 0) /\
  (forall t : R, Rbar_lt u t -> f t = 0 /\ F t = 1) /\
  (forall t : R, Rbar_lt l t -> Rbar_lt t u -> is_RInt_gen f (from_below l) (at_point t) (F t)) /\
  is_RInt_gen f (from_below l) (from_above u) 1.

Definition exponential_pdf (l t : R) : R := if Rlt_dec t 0 then 0 else l * exp (- (l * t)).
(** density of m + s X, for X with density f *)
Definition ls_pdf (f : R -> R) (m s t : R) : R := f ((t - m) / s) / s.
Definition ls_cdf (F : R -> R) (m s t : R) : R := F ((t - m) / s).
(** bounds of m + s X *)
Definition ls_end (m s : R) (b : Rbar) : Rbar := match b with Finite x => Finite (m + s * x) | _ => b end.
Definition exponential2p_pdf (s1 s2 m t : R) : R :=
  if Rlt_dec t m then exp ((t - m) / s1) / (s1 + s2) else exp (- ((t - m) / s2)) / (s1 + s2).
Definition laplace_pdf (m s t : R) : R := exp (- (Rabs (t - m) / s)) / (2 * s).
Definition logistic_pdf (m s t : R) : R := exp (- ((t - m) / s)) / (s * (1 + exp (- ((t - m) / s))) ^ 2).
Definition normal_pdf (m s t : R) : R := phi ((t - m) / s) / s.
Definition normal2p_pdf (s1 s2 m t : R) : R :=
  2 / (s1 + s2) * (if Rlt_dec t m then phi ((t - m) / s1) else phi ((t - m) / s2)).
Definition uniform_pdf (a b t : R) : R := if Rlt_dec t a then 0 else if Rlt_dec b t then 0 else / (b - a).
(** generalised Pareto distribution with shape k on [0, oo), or [0, -1/k] for k < 0 *)
Definition gpd_pdf (k x : R) : R :=
  if Rlt_dec x 0 then 0 else if Req_EM_T k 0 then exp (- x) else pow0 (1 + k * x) (- (1 / k) - 1).
Definition gpd_end (k : R) : Rbar := if Rlt_dec k 0 then Finite (- (1 / k)) else p_infty.
(** generalised extreme value distribution with shape k *)
Definition gev_pdf (k x : R) : R :=
  if Req_EM_T k 0 then exp (- x) * exp (- exp (- x))
  else if Rlt_dec 0 (1 + k * x) then Rpower (1 + k * x) (- (1 / k) - 1) * exp (- Rpower (1 + k * x) (- (1 / k))) else 0.
Definition gev_cdf (k x : R) : R :=
  if Req_EM_T k 0 then exp (- exp (- x))
  else if Rlt_dec 0 (1 + k * x) then exp (- Rpower (1 + k * x) (- (1 / k))) else if Rlt_dec 0 k then 0 else 1.
Definition gev_lower (k : R) : Rbar := if Rlt_dec 0 k then Finite (- (1 / k)) else m_infty.
Definition gev_upper (k : R) : Rbar := if Rlt_dec k 0 then Finite (- (1 / k)) else p_infty.
(** density and distribution function of exp X, for X with density f and distribution function F *)
Definition exp_pdf (f : R -> R) (t : R) : R := if Rle_dec t 0 then 0 else f (ln t) / t.
Definition exp_cdf (F : R -> R) (t : R) : R := if Rle_dec t 0 then 0 else F (ln t).
(** density truncated to [l, u] *)
Definition trunc_pdf (F f : R -> R) (l u : Rbar) (t : R) : R :=
  if Rbar_lt_dec t l then 0 else if Rbar_lt_dec u t then 0 else f t / (ext_cdf F u - ext_cdf F l).
(** mixture with weights w *)
Definition mixture (M : nat) (w : nat -> R) (f : nat -> R -> R) (t : R) : R := sumn M (fun k => w k * f k t).
(** component means, standard deviations and weights of mixtures of M normal distributions: the
    components are along axis [ax], and absent weights are equal *)
Definition mix_args (obs m sd : arr) (w : option arr) (ax : Z) (s : list nat) (p M : nat) (y mu sg ww : list nat -> R) : Prop :=
  ens_args obs m ax s p M y mu /\ real_arr sd (insert_at p M s) sg /\
  match w with Some w => real_arr w (insert_at p M s) ww | None => forall i, ww i = / INR M end.
(** admissible components *)
Definition mix_ok (s : list nat) (p M : nat) (sg ww : list nat -> R) : Prop :=
  forall r, inb s r -> (forall k, (k < M)%nat -> 0 < member p sg r k /\ 0 <= member p ww r k) /\ sumn M (member p ww r) = 1.
