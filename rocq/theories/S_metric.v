(** Distances between distribution functions, and the calls that return a CRPS integral: the closed forms of S_catalog.v
    and crps_ensemble with an exact estimator, with and without weights. *)
From Verif Require Export M_crps S_catalog.
From Coquelicot Require Import Coquelicot.
Open Scope R_scope.

(** nondecreasing with values in [0, 1] *)
Definition is_df (F : R -> R) : Prop := (forall s t, s <= t -> F s <= F t) /\ forall t, 0 <= F t <= 1.
(** d is the integral of (F - G)^2, or of |F - G|, over the real line *)
Definition is_sqdist (F G : R -> R) (d : R) : Prop :=
  is_RInt_gen (fun t => (F t - G t) ^ 2) (Rbar_locally m_infty) (Rbar_locally p_infty) d.
Definition is_area (F G : R -> R) (d : R) : Prop :=
  is_RInt_gen (fun t => Rabs (F t - G t)) (Rbar_locally m_infty) (Rbar_locally p_infty) d.
(** energy distance of two ensembles *)
Definition endist (M : nat) (x : nat -> R) (N : nat) (z : nat -> R) : R :=
  sumn M (fun i => sumn N (fun j => Rabs (x i - z j))) / (INR M * INR N)
  - sumn M (fun i => sumn M (fun j => Rabs (x i - x j))) / (2 * INR M * INR M)
  - sumn N (fun i => sumn N (fun j => Rabs (z i - z j))) / (2 * INR N * INR N).

Inductive crps_call : tensor -> list nat -> (list nat -> R -> R) -> (list nat -> R) -> Prop :=
| call_closed : forall T s F y, closed_crps T s F y -> crps_call T s F y
| call_ens : forall srt b obs fct ax s p M y x e sf pol,
    argsort_ok srt -> ens_args obs fct ax s p M y x -> (0 < M)%nat ->
    In e ("nrg" :: "qd" :: "int" :: nil)%string%list -> In pol ("propagate" :: "raise" :: nil)%string%list ->
    (b = Numba -> dt obs = DFloat) -> sorted_if sf s p M x ->
    crps_call (crps_ensemble srt b obs fct ax None e sf pol) s (fun r => ecdf M (member p x r)) y
| call_wens : forall srt b obs fct wt ax s p M y x w e sf pol,
    argsort_ok srt -> ens_args obs fct ax s p M y x -> (0 < M)%nat -> wts_args wt fct s p M w ->
    In e ("nrg" :: "qd" :: "int" :: nil)%string%list -> In pol ("propagate" :: "raise" :: nil)%string%list ->
    (b = Numba -> dt obs = DFloat) -> sorted_if sf s p M x ->
    crps_call (crps_ensemble srt b obs fct ax (Some wt) e sf pol) s (fun r => wcdf M (member p w r) (member p x r)) y.
