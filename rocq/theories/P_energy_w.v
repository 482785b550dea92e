(** Properties C48 and C49: threshold-weighted, outcome-weighted and vertically re-scaled
    energy scores, and the input types the compiled implementation takes. *)
From Verif Require Import T_energy_w.
Open Scope R_scope.

(** C48.  The threshold-weighted score with a chaining function v that acts on the vectors
    at each grid point is the energy score of the transformed vectors. *)
Theorem C48_chain :
  forall b obs fct obs' fct' vf m v s p q M D y x y' x' h e,
  vf obs = Ok obs' -> vf fct = Ok fct' ->
  mv_args obs' fct' m v s p q M D y' x' -> (0 < M)%nat -> (0 < D)%nat -> (b = Numba -> floats obs' fct') ->
  (forall r k, inb s r -> (k < D)%nat -> obsv q y' r k = h (obsv q y r) k) ->
  (forall r i k, inb s r -> (i < M)%nat -> (k < D)%nat -> memv p q x' r i k = h (memv p q x r i) k) ->
  let er r := es_err D (h (obsv q y r)) (fun i => h (memv p q x r i)) in
  let d r := es_dist D (fun i => h (memv p q x r i)) in
  (e = "nrg"%string -> returns (twes_ensemble b obs fct vf m v None e) s (fun r => Fin (k_exact M (er r) (d r)))) /\
  (e = "fair"%string -> (1 < M)%nat -> returns (twes_ensemble b obs fct vf m v None e) s (fun r => Fin (k_fair M (er r) (d r)))) /\
  (e = "akr"%string -> returns (twes_ensemble b obs fct vf m v None e) s (fun r => Fin (k_lag M (lag1 M) (er r) (d r)))) /\
  (e = "akr_circperm"%string -> returns (twes_ensemble b obs fct vf m v None e) s (fun r => Fin (k_lag M (lagc M) (er r) (d r)))).
Proof. exact C48_chain_l. Qed.
Print Assumptions C48_chain.

(** C48.  The outcome-weighted score: both implementations weight member i by w(x_i) / sum w(x)
    and multiply the result by w(y). *)
Theorem C48_outcome_weighted :
  forall b obs fct wf g m v s p q M D y x,
  mv_args obs fct m v s p q M D y x -> (0 < M)%nat -> (0 < D)%nat -> ~ In 0%nat s -> (b = Numba -> floats obs fct) ->
  vweight D wf g ->
  let gx r k := g (memv p q x r k) in
  (forall r, inb s r -> 0 < sumn M (gx r)) ->
  returns (owes_ensemble b obs fct wf m v None) s
    (fun r => Fin (g (obsv q y r) * k_wexact M (nw M (gx r)) (es_err D (obsv q y r) (memv p q x r)) (es_dist D (memv p q x r)))).
Proof. exact C48_outcome_weighted_l. Qed.
Print Assumptions C48_outcome_weighted.
(** two members in the plane, weight 1 + u_0^2 *)
Example C48_case : vweight 2 (DFloat, fun u => nadd (Fin 1) (nsq (nth 0 u NaN))) (fun u => 1 + u 0%nat * u 0%nat) /\
  mv_args (real1 2 (fun _ => 0)) (real2 2 2 (fun i k => INR i)) (-2) (-1) [] 1 0 2 2
    (fun _ => 0) (fun i => INR (hd 0%nat (tl i))).
Proof. split; [intros u; split; [reflexivity|nra]|]. repeat split; simpl; auto; now left. Qed.

(** C48.  The vertically re-scaled score, both implementations. *)
Theorem C48_vertical :
  forall b obs fct wf g m v s p q M D y x,
  mv_args obs fct m v s p q M D y x -> (0 < M)%nat -> (0 < D)%nat -> ~ In 0%nat s -> (b = Numba -> floats obs fct) ->
  vweight D wf g ->
  returns (vres_ensemble b obs fct wf m v None) s
    (fun r => Fin (k_vr M (g (obsv q y r)) (fun k => g (memv p q x r k) / INR M)
       (es_err D (obsv q y r) (memv p q x r)) (es_dist D (memv p q x r))
       (enorm D (obsv q y r)) (fun k => enorm D (memv p q x r k)))).
Proof. exact C48_vertical_l. Qed.
Print Assumptions C48_vertical.

(** C48.  With ensemble weights, array implementation. *)
Theorem C48_weighted_array :
  forall obs fct wt wf g m v s p q M D y x w,
  mv_args obs fct m v s p q M D y x -> (0 < M)%nat -> (0 < D)%nat -> ~ In 0%nat s ->
  vweight D wf g -> (q < p)%nat -> mv_wts wt s (wpos p q) M w ->
  let u r k := g (memv p q x r k) * nw M (member (wpos p q) w r) k in
  ((forall r, inb s r -> 0 < sumn M (u r)) ->
   returns (owes_ensemble Array obs fct wf m v (Some wt)) s
    (fun r => Fin (g (obsv q y r) * k_wexact M (nw M (u r)) (es_err D (obsv q y r) (memv p q x r)) (es_dist D (memv p q x r))))) /\
  returns (vres_ensemble Array obs fct wf m v (Some wt)) s
    (fun r => Fin (k_vr M (g (obsv q y r)) (u r) (es_err D (obsv q y r) (memv p q x r)) (es_dist D (memv p q x r))
       (enorm D (obsv q y r)) (fun k => enorm D (memv p q x r k)))).
Proof. exact C48_weighted_array_l. Qed.
Print Assumptions C48_weighted_array.

(** C48.  The weight function 1 gives the energy score. *)
Theorem C48_unit :
  forall b obs fct wf m v s p q M D y x,
  mv_args obs fct m v s p q M D y x -> (0 < M)%nat -> (0 < D)%nat -> ~ In 0%nat s -> (b = Numba -> floats obs fct) ->
  vweight D wf (fun _ => 1) ->
  exists u, returns (es_ensemble b obs fct m v None "nrg") s (fun r => Fin (u r)) /\
            returns (owes_ensemble b obs fct wf m v None) s (fun r => Fin (u r)) /\
            returns (vres_ensemble b obs fct wf m v None) s (fun r => Fin (u r)).
Proof. exact C48_unit_l. Qed.
Print Assumptions C48_unit.

(** C48.  The outcome-weighted and the vertically re-scaled score are never negative. *)
Theorem C48_nonnegative :
  forall b obs fct wf g m v s p q M D y x,
  mv_args obs fct m v s p q M D y x -> (0 < M)%nat -> (0 < D)%nat -> ~ In 0%nat s -> (b = Numba -> floats obs fct) ->
  vweight D wf g ->
  ((forall r, inb s r -> 0 < sumn M (fun k => g (memv p q x r k))) ->
   exists u, returns (owes_ensemble b obs fct wf m v None) s (fun r => Fin (u r)) /\ forall r, inb s r -> 0 <= u r) /\
  exists u, returns (vres_ensemble b obs fct wf m v None) s (fun r => Fin (u r)) /\ forall r, 0 <= u r.
Proof. exact C48_nonnegative_l. Qed.
Print Assumptions C48_nonnegative.

(** C48 fails for the compiled implementation: with ensemble weights the outcome-weighted and
    vertically re-scaled energy scores always raise. *)
Theorem C48_numba_refuted :
  forall obs fct wt wf g m v s p q M D y x w,
  mv_args obs fct m v s p q M D y x -> (0 < M)%nat -> (0 < D)%nat -> ~ In 0%nat s ->
  vweight D wf g -> (q < p)%nat -> mv_wts wt s (wpos p q) M w ->
  raises (owes_ensemble Numba obs fct wf m v (Some wt)) NumbaError /\
  raises (vres_ensemble Numba obs fct wf m v (Some wt)) NumbaError.
Proof. exact C48_numba_refuted_l. Qed.
Print Assumptions C48_numba_refuted.
Example C48_case_weighted : mv_args (real1 2 (fun _ => 0)) (real2 2 2 (fun i k => INR i)) (-2) (-1) [] 1 0 2 2
    (fun _ => 0) (fun i => INR (hd 0%nat (tl i))) /\
  mv_wts (real1 2 (fun _ => 1)) [] (wpos 1 0) 2 (fun _ => 1) /\
  vweight 2 (DFloat, fun _ => Fin 1) (fun _ => 1).
Proof.
  split; [repeat split; simpl; auto; now left|]. split; [|intros u; split; [reflexivity|lra]].
  split; [repeat split|]. split; intros; [unfold member; lra|]. unfold sumn, Rsum, member; simpl. lra.
Qed.

(** C49.  The array implementation scores integer and boolean arrays by their values: the
    result depends on the inputs only through those values, whatever their types. *)
Theorem C49_array_types :
  forall obs fct obs' fct' m v s p q M D y x e,
  mv_args obs fct m v s p q M D y x -> mv_args obs' fct' m v s p q M D y x -> (0 < M)%nat -> (0 < D)%nat ->
  In e ["nrg"; "fair"; "akr"; "akr_circperm"]%string -> (e = "fair"%string -> (1 < M)%nat) ->
  exists u, returns (es_ensemble Array obs fct m v None e) s (fun r => Fin (u r)) /\
            returns (es_ensemble Array obs' fct' m v None e) s (fun r => Fin (u r)).
Proof. exact C49_array_types_l. Qed.
Print Assumptions C49_array_types.

(** C49 fails for the compiled implementation: integer observations or, for akr and
    akr_circperm, integer ensembles make every call raise. *)
Theorem C49_numba_types_refuted :
  forall obs fct m v s p q M D y x, mv_args obs fct m v s p q M D y x ->
  (dt obs <> DFloat -> raises (es_ensemble Numba obs fct m v None "nrg") TypeError /\
                       raises (es_ensemble Numba obs fct m v None "fair") TypeError) /\
  (dt fct <> DFloat -> raises (es_ensemble Numba obs fct m v None "akr") NumbaError /\
                       raises (es_ensemble Numba obs fct m v None "akr_circperm") NumbaError).
Proof. exact C49_numba_types_refuted_l. Qed.
Print Assumptions C49_numba_types_refuted.
