(** The distance belonging to the Gaussian kernel scores (maximum mean discrepancy), and the calls that return one. *)
From Verif Require Export M_kernels S_kernels.
Open Scope R_scope.

(** squared distance of the weighted point sets (w, x) and (v, z) in R^D *)
Definition mmd2 (D M : nat) (w : nat -> R) (x : nat -> nat -> R) (N : nat) (v : nat -> R) (z : nat -> nat -> R) : R :=
  sumn M (fun i => sumn M (fun j => w i * w j * gaussD D (x i) (x j)))
  + sumn N (fun i => sumn N (fun j => v i * v j * gaussD D (z i) (z j)))
  - 2 * sumn M (fun i => sumn N (fun j => w i * v j * gaussD D (x i) (z j))).

(** [kernel_call e T s D M w x y]: T is a call with the estimator e over the grid s whose forecast at grid point r has
    the M members [x r i] in R^D with weights [w r i], and whose observation there is [y r].  Left out: the weighted
    estimators that are wrong (C37_fair_weighted_refuted, C37_circperm_weighted_refuted). *)
Inductive kernel_call : string -> tensor -> list nat -> nat -> nat -> (list nat -> nat -> R) -> (list nat -> nat -> nat -> R) -> (list nat -> nat -> R) -> Prop :=
| kc_uv : forall b obs fct ax s p M y x e, ens_args obs fct ax s p M y x -> (0 < M)%nat -> (b = Numba -> dt obs = DFloat) ->
    In e ("nrg" :: "fair" :: "akr" :: "akr_circperm" :: nil)%string%list -> (e = "fair"%string -> (1 < M)%nat) ->
    kernel_call e (gksuv_ensemble b obs fct ax None e) s 1 M (fun _ _ => 1) (fun r i _ => member p x r i) (fun r _ => y r)
| kc_uvw : forall b obs fct wt ax s p M y x w e, ens_args obs fct ax s p M y x -> (0 < M)%nat -> (b = Numba -> dt obs = DFloat) ->
    uv_wts wt s p M w -> In e ("nrg" :: "fair" :: "akr" :: "akr_circperm" :: nil)%string%list ->
    (e = "fair"%string -> b = Numba /\ forall r, inb s r -> two_positive M (member p w r)) -> (e = "akr_circperm"%string -> b = Numba) ->
    kernel_call e (gksuv_ensemble b obs fct ax (Some wt) e) s 1 M (fun r => member p w r) (fun r i _ => member p x r i) (fun r _ => y r)
| kc_mv : forall b obs fct m v s p q M D y x e, mv_args obs fct m v s p q M D y x -> (0 < M)%nat -> (0 < D)%nat -> (b = Numba -> floats obs fct) ->
    In e ("nrg" :: "fair" :: "akr" :: "akr_circperm" :: nil)%string%list -> (e = "fair"%string -> (1 < M)%nat) ->
    kernel_call e (gksmv_ensemble b obs fct m v None e) s D M (fun _ _ => 1) (fun r => memv p q x r) (fun r => obsv q y r)
| kc_mvw : forall b obs fct wt m v s p q M D y x w e, mv_args obs fct m v s p q M D y x -> (0 < M)%nat -> (0 < D)%nat -> (b = Numba -> floats obs fct) ->
    (q < p)%nat -> mv_wts wt s (wpos p q) M w -> In e ("nrg" :: "fair" :: "akr" :: "akr_circperm" :: nil)%string%list ->
    (e = "fair"%string -> b = Numba /\ forall r, inb s r -> two_positive M (member (wpos p q) w r)) ->
    kernel_call e (gksmv_ensemble b obs fct m v (Some wt) e) s D M (fun r => member (wpos p q) w r) (fun r => memv p q x r) (fun r => obsv q y r).
