(** The distances belonging to the energy score, the variogram score and the ranked probability score, and the calls
    that return these scores. *)
From Verif Require Export M_energy M_vario M_prob S_mv S_vario S_prob.
Open Scope R_scope.

(** twice the energy distance of the weighted point sets (w, x) and (v, z) in R^D *)
Definition edist2 (D M : nat) (w : nat -> R) (x : nat -> nat -> R) (N : nat) (v : nat -> R) (z : nat -> nat -> R) : R :=
  2 * sumn M (fun i => sumn N (fun j => w i * v j * eucl D (x i) (z j)))
  - sumn M (fun i => sumn M (fun j => w i * w j * eucl D (x i) (x j)))
  - sumn N (fun i => sumn N (fun j => v i * v j * eucl D (z i) (z j))).
(** squared distance of the expected variograms *)
Definition vgap (D : nat) (h : nat -> nat -> R) (p : R) (M : nat) (w : nat -> R) (x : nat -> nat -> R) (N : nat) (v : nat -> R) (z : nat -> nat -> R) : R :=
  sumn D (fun i => sumn D (fun j => h i j * (sumn M (fun m => w m * vgram p (x m) i j) - sumn N (fun m => v m * vgram p (z m) i j)) ^ 2)).

(** [energy_call T s D M w x y]: T is a call over the grid s whose forecast at grid point r has the M members [x r i] in
    R^D with weights [w r i], and whose observation there is [y r] *)
Inductive energy_call : tensor -> list nat -> nat -> nat -> (list nat -> nat -> R) -> (list nat -> nat -> nat -> R) -> (list nat -> nat -> R) -> Prop :=
| ec_mv : forall b obs fct m v s p q M D y x, mv_args obs fct m v s p q M D y x -> (0 < M)%nat -> (0 < D)%nat -> (b = Numba -> floats obs fct) ->
    energy_call (es_ensemble b obs fct m v None "nrg") s D M (fun _ _ => 1) (fun r => memv p q x r) (fun r => obsv q y r)
| ec_mvw : forall b obs fct wt m v s p q M D y x w, mv_args obs fct m v s p q M D y x -> (0 < M)%nat -> (0 < D)%nat -> (b = Numba -> floats obs fct) ->
    (q < p)%nat -> mv_wts wt s (wpos p q) M w ->
    energy_call (es_ensemble b obs fct m v (Some wt) "nrg") s D M (fun r => member (wpos p q) w r) (fun r => memv p q x r) (fun r => obsv q y r).
(** the same for the variogram score of order [po] with the non-negative pair weights [h r i j] *)
Inductive vario_call : tensor -> list nat -> nat -> (list nat -> nat -> nat -> R) -> R -> nat -> (list nat -> nat -> R) -> (list nat -> nat -> nat -> R) -> (list nat -> nat -> R) -> Prop :=
| vc_mv : forall b obs fct hw m v s p q M D y x h po, mv_args obs fct m v s p q M D y x -> pair_wts hw s D h -> (0 < M)%nat -> (0 < D)%nat -> 0 < po ->
    (b = Numba -> dt obs = DFloat) -> (forall r i j, inb s r -> (i < D)%nat -> (j < D)%nat -> 0 <= h r i j) ->
    vario_call (vs_ensemble b obs fct hw m v None po "nrg") s D h po M (fun _ _ => 1) (fun r => memv p q x r) (fun r => obsv q y r)
| vc_mvw : forall b obs fct hw wt m v s p q M D y x h po w, mv_args obs fct m v s p q M D y x -> pair_wts hw s D h -> (0 < M)%nat -> (0 < D)%nat -> 0 < po ->
    (b = Numba -> dt obs = DFloat) -> (forall r i j, inb s r -> (i < D)%nat -> (j < D)%nat -> 0 <= h r i j) -> (q < p)%nat -> mv_wts wt s (wpos p q) M w ->
    vario_call (vs_ensemble b obs fct hw m v (Some wt) po "nrg") s D h po M (fun r => member (wpos p q) w r) (fun r => memv p q x r) (fun r => obsv q y r).
