(** Properties C36, C51, C52: the variogram score.  In all theorems the batch shape, the
    position of the ensemble and the variable axis, and their python numbers (negative or
    not) are arbitrary; the pair weights are the default, one matrix, or a matrix for every
    grid point. *)
From Verif Require Import T_vario.
Open Scope R_scope.

(** C36.  What the two estimators compute, in both implementations: nrg is the weighted
    squared error of the mean variogram, fair is its unbiased version. *)
Theorem C36_values :
  forall b obs fct hw m v s p q M D y x h po,
  mv_args obs fct m v s p q M D y x -> pair_wts hw s D h -> (0 < M)%nat -> (0 < D)%nat -> 0 < po ->
  (b = Numba -> dt obs = DFloat) ->
  returns (vs_ensemble b obs fct hw m v None po "nrg") s
    (fun r => Fin (sumn D (fun i => sumn D (fun j => h r i j *
       (vpow (Rabs (obsv q y r i - obsv q y r j)) po
        - sumn M (fun k => vpow (Rabs (memv p q x r k i - memv p q x r k j)) po) / INR M) ^ 2)))) /\
  ((1 < M)%nat -> returns (vs_ensemble b obs fct hw m v None po "fair") s
    (fun r => Fin (k_fair M (fun k => vdist D (h r) po (memv p q x r k) (obsv q y r))
                            (fun k l => vdist D (h r) po (memv p q x r k) (memv p q x r l))))).
Proof. exact C36_values_l. Qed.
Print Assumptions C36_values.
(** two members in R^3, one matrix of pair weights, order 1/2 *)
Example C36_case : mv_args (real1 3 INR) (real2 2 3 (fun i k => INR (i * k))) (-2) (-1) [] 1 0 2 3
    (fun i => INR (hd 0%nat i)) (fun i => INR (hd 0%nat (tl i) * hd 0%nat i)) /\
  pair_wts (Some (real2 3 3 (fun i j => INR (i + j)))) [] 3 (fun _ i j => INR (i + j)) /\
  pair_wts None [] 3 (fun _ _ _ => 1) /\ vgram (/ 2) (fun k => INR (k * k)) 0 2 = 2.
Proof.
  split; [repeat split; simpl; auto; now left|]. split; [|split; [easy|]].
  - exists (fun i => INR (hd 0%nat (tl i) + hd 0%nat i)). left. repeat split.
  - unfold vgram, vpow. replace (INR (0 * 0) - INR (2 * 2)) with (Ropp 4) by (simpl; ring).
    rewrite Rabs_left, Ropp_involutive by lra. destruct (Req_EM_T 4 0); [lra|].
    rewrite Rpower_sqrt by lra. replace 4 with (2 * 2) by ring. apply sqrt_square; lra.
Qed.

(** C36.  The same with ensemble weights. *)
Theorem C36_values_weighted :
  forall b obs fct hw wt m v s p q M D y x h po w,
  mv_args obs fct m v s p q M D y x -> pair_wts hw s D h -> (0 < M)%nat -> (0 < D)%nat -> 0 < po ->
  (b = Numba -> dt obs = DFloat) -> (q < p)%nat -> mv_wts wt s (wpos p q) M w ->
  let wr r := nw M (member (wpos p q) w r) in
  returns (vs_ensemble b obs fct hw m v (Some wt) po "nrg") s
    (fun r => Fin (vs_score D (h r) po M (wr r) (obsv q y r) (memv p q x r))) /\
  ((forall r, inb s r -> two_positive M (member (wpos p q) w r)) ->
   returns (vs_ensemble b obs fct hw m v (Some wt) po "fair") s
    (fun r => Fin (k_wfair M (wr r) (fun k => vdist D (h r) po (memv p q x r k) (obsv q y r))
                            (fun k l => vdist D (h r) po (memv p q x r k) (memv p q x r l))))).
Proof. exact C36_values_weighted_l. Qed.
Print Assumptions C36_values_weighted.

(** C36.  The implementations agree, with and without ensemble weights. *)
Theorem C36_agree :
  forall obs fct hw m v s p q M D y x h po,
  mv_args obs fct m v s p q M D y x -> pair_wts hw s D h -> (0 < M)%nat -> (0 < D)%nat -> 0 < po -> dt obs = DFloat ->
  (forall e, In e ["nrg"; "fair"]%string -> (e = "fair"%string -> (1 < M)%nat) ->
   exists u, returns (vs_ensemble Array obs fct hw m v None po e) s (fun r => Fin (u r)) /\
             returns (vs_ensemble Numba obs fct hw m v None po e) s (fun r => Fin (u r))) /\
  (forall wt w e, (q < p)%nat -> mv_wts wt s (wpos p q) M w -> In e ["nrg"; "fair"]%string ->
   (e = "fair"%string -> forall r, inb s r -> two_positive M (member (wpos p q) w r)) ->
   exists u, returns (vs_ensemble Array obs fct hw m v (Some wt) po e) s (fun r => Fin (u r)) /\
             returns (vs_ensemble Numba obs fct hw m v (Some wt) po e) s (fun r => Fin (u r))).
Proof. exact C36_agree_l. Qed.
Print Assumptions C36_agree.

(** C36.  Leaving out the pair weights is the same as a matrix of ones. *)
Theorem C36_default :
  forall b obs fct hw m v s p q M D y x po e,
  mv_args obs fct m v s p q M D y x -> (0 < M)%nat -> (0 < D)%nat -> 0 < po -> (b = Numba -> dt obs = DFloat) ->
  real_arr hw [D; D] (fun _ => 1) -> In e ["nrg"; "fair"]%string -> (e = "fair"%string -> (1 < M)%nat) ->
  exists u, returns (vs_ensemble b obs fct None m v None po e) s (fun r => Fin (u r)) /\
            returns (vs_ensemble b obs fct (Some hw) m v None po e) s (fun r => Fin (u r)).
Proof. exact C36_default_l. Qed.
Print Assumptions C36_default.

(** C36.  The nrg score is a kernel score: the mean squared distance of the variograms of the
    members and the observation, minus half that of pairs of members. *)
Theorem C36_kernel :
  forall D h p M w y x, sumn M w = 1 ->
  vs_score D h p M w y x = k_wexact M w (fun k => vdist D h p (x k) y) (fun k l => vdist D h p (x k) (x l)).
Proof. exact C36_kernel_l. Qed.
Print Assumptions C36_kernel.

(** C36.  Equal ensemble weights reproduce the unweighted score. *)
Theorem C36_uniform :
  forall b obs fct hw wt m v s p q M D y x h po w c e,
  mv_args obs fct m v s p q M D y x -> pair_wts hw s D h -> (0 < M)%nat -> (0 < D)%nat -> 0 < po ->
  (b = Numba -> dt obs = DFloat) -> (q < p)%nat -> mv_wts wt s (wpos p q) M w ->
  (forall r k, inb s r -> (k < M)%nat -> member (wpos p q) w r k = c r) ->
  In e ["nrg"; "fair"]%string -> (e = "fair"%string -> (1 < M)%nat) ->
  exists u, returns (vs_ensemble b obs fct hw m v (Some wt) po e) s (fun r => Fin (u r)) /\
            returns (vs_ensemble b obs fct hw m v None po e) s (fun r => Fin (u r)).
Proof. exact C36_uniform_l. Qed.
Print Assumptions C36_uniform.

(** C36.  With non-negative pair weights the nrg score is never negative. *)
Theorem C36_nonnegative :
  forall b obs fct hw m v s p q M D y x h po,
  mv_args obs fct m v s p q M D y x -> pair_wts hw s D h -> (0 < M)%nat -> (0 < D)%nat -> 0 < po ->
  (b = Numba -> dt obs = DFloat) -> (forall r i j, inb s r -> (i < D)%nat -> (j < D)%nat -> 0 <= h r i j) ->
  (exists u, returns (vs_ensemble b obs fct hw m v None po "nrg") s (fun r => Fin (u r)) /\ forall r, inb s r -> 0 <= u r) /\
  (forall wt w, (q < p)%nat -> mv_wts wt s (wpos p q) M w ->
   exists u, returns (vs_ensemble b obs fct hw m v (Some wt) po "nrg") s (fun r => Fin (u r)) /\ forall r, inb s r -> 0 <= u r).
Proof. exact C36_nonnegative_l. Qed.
Print Assumptions C36_nonnegative.

(** C36.  An ensemble whose members all equal the observation up to a shift scores zero. *)
Theorem C36_perfect :
  forall b obs fct hw m v s p q M D y x h po t e,
  mv_args obs fct m v s p q M D y x -> pair_wts hw s D h -> (0 < M)%nat -> (0 < D)%nat -> 0 < po ->
  (b = Numba -> dt obs = DFloat) ->
  (forall r i k, inb s r -> (i < M)%nat -> (k < D)%nat -> memv p q x r i k = obsv q y r k + t r i) ->
  In e ["nrg"; "fair"]%string -> (e = "fair"%string -> (1 < M)%nat) ->
  returns (vs_ensemble b obs fct hw m v None po e) s (fun r => Fin 0).
Proof. exact C36_perfect_l. Qed.
Print Assumptions C36_perfect.

(** C36.  Adding a constant to every coordinate of the observation and the members leaves the
    score unchanged, and multiplying them by c multiplies it by (|c|^p)^2; shift and factor
    may differ between grid points. *)
Theorem C36_affine :
  forall b obs fct obs' fct' hw m v s p q M D y x y' x' h po c t e,
  mv_args obs fct m v s p q M D y x -> mv_args obs' fct' m v s p q M D y' x' -> pair_wts hw s D h ->
  (0 < M)%nat -> (0 < D)%nat -> 0 < po -> (b = Numba -> dt obs = DFloat /\ dt obs' = DFloat) ->
  (forall r k, inb s r -> (k < D)%nat -> obsv q y' r k = c r * obsv q y r k + t r) ->
  (forall r i k, inb s r -> (i < M)%nat -> (k < D)%nat -> memv p q x' r i k = c r * memv p q x r i k + t r) ->
  In e ["nrg"; "fair"]%string -> (e = "fair"%string -> (1 < M)%nat) ->
  exists u, returns (vs_ensemble b obs fct hw m v None po e) s (fun r => Fin (u r)) /\
            returns (vs_ensemble b obs' fct' hw m v None po e) s (fun r => Fin (vpow (Rabs (c r)) po ^ 2 * u r)).
Proof. exact C36_affine_l. Qed.
Print Assumptions C36_affine.
(** the factor is 1 for translations *)
Example C36_case_shift : forall p, vpow (Rabs 1) p ^ 2 = 1 /\ vpow (Rabs (Ropp 1)) p ^ 2 = 1.
Proof.
  intros p. assert (E : vpow 1 p = 1).
  { unfold vpow. destruct (Req_EM_T 1 0); [lra|]. unfold Rpower. rewrite ln_1, Rmult_0_r. apply exp_0. }
  rewrite Rabs_Ropp, Rabs_R1, E. split; ring.
Qed.

(** C36.  The same with ensemble weights. *)
Theorem C36_affine_weighted :
  forall b obs fct obs' fct' hw wt m v s p q M D y x y' x' h po w c t e,
  mv_args obs fct m v s p q M D y x -> mv_args obs' fct' m v s p q M D y' x' -> pair_wts hw s D h ->
  (0 < M)%nat -> (0 < D)%nat -> 0 < po -> (b = Numba -> dt obs = DFloat /\ dt obs' = DFloat) ->
  (q < p)%nat -> mv_wts wt s (wpos p q) M w ->
  (forall r k, inb s r -> (k < D)%nat -> obsv q y' r k = c r * obsv q y r k + t r) ->
  (forall r i k, inb s r -> (i < M)%nat -> (k < D)%nat -> memv p q x' r i k = c r * memv p q x r i k + t r) ->
  In e ["nrg"; "fair"]%string ->
  (e = "fair"%string -> forall r, inb s r -> two_positive M (member (wpos p q) w r)) ->
  exists u, returns (vs_ensemble b obs fct hw m v (Some wt) po e) s (fun r => Fin (u r)) /\
            returns (vs_ensemble b obs' fct' hw m v (Some wt) po e) s (fun r => Fin (vpow (Rabs (c r)) po ^ 2 * u r)).
Proof. exact C36_affine_weighted_l. Qed.
Print Assumptions C36_affine_weighted.

(** C36.  The order of the members does not matter. *)
Theorem C36_permutation :
  forall b obs fct fct' hw m v s p q M D y x x' h po g e,
  mv_args obs fct m v s p q M D y x -> mv_args obs fct' m v s p q M D y x' -> pair_wts hw s D h ->
  (0 < M)%nat -> (0 < D)%nat -> 0 < po -> (b = Numba -> dt obs = DFloat) ->
  (forall r, inb s r -> reorders M (g r)) ->
  (forall r i k, inb s r -> (i < M)%nat -> (k < D)%nat -> memv p q x' r i k = memv p q x r (g r i) k) ->
  In e ["nrg"; "fair"]%string -> (e = "fair"%string -> (1 < M)%nat) ->
  exists u, returns (vs_ensemble b obs fct hw m v None po e) s (fun r => Fin (u r)) /\
            returns (vs_ensemble b obs fct' hw m v None po e) s (fun r => Fin (u r)).
Proof. exact C36_permutation_l. Qed.
Print Assumptions C36_permutation.

(** C36.  The observation takes value z j in R^D with probability g j / sum g.  The mean nrg
    score of any forecast ensemble x with weights f is at least that of the ensemble z with
    weights g. *)
Theorem C36_proper :
  forall b D M f x N g z h po, (0 < D)%nat -> 0 < po ->
  (forall i j, (i < D)%nat -> (j < D)%nat -> 0 <= h i j) ->
  (forall k, (k < M)%nat -> 0 <= f k) -> 0 < sumn M f ->
  (forall j, (j < N)%nat -> 0 <= g j) -> 0 < sumn N g ->
  exists S T : nat -> R,
    (forall j, (j < N)%nat -> returns (vs_ensemble b (real1 D (z j)) (real2 M D x) (Some (real2 D D h)) (-2) (-1)
       (Some (real1 M f)) po "nrg") [] (fun _ => Fin (S j))) /\
    (forall j, (j < N)%nat -> returns (vs_ensemble b (real1 D (z j)) (real2 N D z) (Some (real2 D D h)) (-2) (-1)
       (Some (real1 N g)) po "nrg") [] (fun _ => Fin (T j))) /\
    sumn N (fun j => g j / sumn N g * T j) <= sumn N (fun j => g j / sumn N g * S j).
Proof. exact C36_proper_l. Qed.
Print Assumptions C36_proper.

(** C51.  The threshold-weighted score with a chaining function that acts on the vectors at
    each grid point is the variogram score of the transformed vectors. *)
Theorem C51_chain :
  forall b obs fct obs' fct' vf hw m v s p q M D y x y' x' h po t,
  vf obs = Ok obs' -> vf fct = Ok fct' ->
  mv_args obs' fct' m v s p q M D y' x' -> pair_wts hw s D h -> (0 < M)%nat -> (0 < D)%nat -> 0 < po ->
  (b = Numba -> dt obs' = DFloat) ->
  (forall r k, inb s r -> (k < D)%nat -> obsv q y' r k = t (obsv q y r) k) ->
  (forall r i k, inb s r -> (i < M)%nat -> (k < D)%nat -> memv p q x' r i k = t (memv p q x r i) k) ->
  returns (twvs_ensemble b obs fct vf hw m v None po "nrg") s
    (fun r => Fin (vs_score D (h r) po M (fun _ => / INR M) (t (obsv q y r)) (fun i => t (memv p q x r i)))) /\
  ((1 < M)%nat -> returns (twvs_ensemble b obs fct vf hw m v None po "fair") s
    (fun r => Fin (k_fair M (fun k => vdist D (h r) po (t (memv p q x r k)) (t (obsv q y r)))
                            (fun k l => vdist D (h r) po (t (memv p q x r k)) (t (memv p q x r l)))))).
Proof. exact C51_chain_l. Qed.
Print Assumptions C51_chain.

(** C51.  The outcome-weighted score: both implementations weight member i by w(x_i) / sum w(x)
    and multiply the variogram score by w(y). *)
Theorem C51_outcome_weighted :
  forall b obs fct wf g hw m v s p q M D y x h po,
  mv_args obs fct m v s p q M D y x -> pair_wts hw s D h -> (0 < M)%nat -> (0 < D)%nat -> 0 < po -> ~ In 0%nat s ->
  (b = Numba -> dt obs = DFloat) -> vweight D wf g ->
  let gx r k := g (memv p q x r k) in
  (forall r, inb s r -> 0 < sumn M (gx r)) ->
  returns (owvs_ensemble b obs fct wf hw m v None po) s
    (fun r => Fin (g (obsv q y r) * vs_score D (h r) po M (nw M (gx r)) (obsv q y r) (memv p q x r))).
Proof. exact C51_outcome_weighted_l. Qed.
Print Assumptions C51_outcome_weighted.

(** C51.  The vertically re-scaled score, both implementations: the squared error of the
    weighted mean variogram as a forecast of the weighted variogram of the observation. *)
Theorem C51_vertical :
  forall b obs fct wf g hw m v s p q M D y x h po,
  mv_args obs fct m v s p q M D y x -> pair_wts hw s D h -> (0 < M)%nat -> (0 < D)%nat -> 0 < po -> ~ In 0%nat s ->
  (b = Numba -> dt obs = DFloat) -> vweight D wf g ->
  returns (vrvs_ensemble b obs fct wf hw m v None po) s
    (fun r => Fin (sumn D (fun i => sumn D (fun j => h r i j *
       (g (obsv q y r) * vgram po (obsv q y r) i j
        - sumn M (fun k => g (memv p q x r k) / INR M * vgram po (memv p q x r k) i j)) ^ 2)))).
Proof. exact C51_vertical_l. Qed.
Print Assumptions C51_vertical.

(** C51.  With ensemble weights, both implementations. *)
Theorem C51_weighted :
  forall b obs fct wt wf g hw m v s p q M D y x h po w,
  mv_args obs fct m v s p q M D y x -> pair_wts hw s D h -> (0 < M)%nat -> (0 < D)%nat -> 0 < po -> ~ In 0%nat s ->
  (b = Numba -> dt obs = DFloat) -> vweight D wf g -> (q < p)%nat -> mv_wts wt s (wpos p q) M w ->
  let u r k := g (memv p q x r k) * nw M (member (wpos p q) w r) k in
  ((forall r, inb s r -> 0 < sumn M (u r)) ->
   returns (owvs_ensemble b obs fct wf hw m v (Some wt) po) s
    (fun r => Fin (g (obsv q y r) * vs_score D (h r) po M (nw M (u r)) (obsv q y r) (memv p q x r)))) /\
  returns (vrvs_ensemble b obs fct wf hw m v (Some wt) po) s
    (fun r => Fin (sumn D (fun i => sumn D (fun j => h r i j *
       (g (obsv q y r) * vgram po (obsv q y r) i j
        - sumn M (fun k => u r k * vgram po (memv p q x r k) i j)) ^ 2)))).
Proof. exact C51_weighted_l. Qed.
Print Assumptions C51_weighted.
Example C51_case : vweight 2 (DFloat, fun u => nadd (Fin 1) (nsq (nth 0 u NaN))) (fun u => 1 + u 0%nat * u 0%nat) /\
  mv_args (real1 2 (fun _ => 0)) (real2 2 2 (fun i k => INR i)) (-2) (-1) [] 1 0 2 2
    (fun _ => 0) (fun i => INR (hd 0%nat (tl i))) /\ pair_wts None [] 2 (fun _ _ _ => 1) /\
  mv_wts (real1 2 (fun _ => 1)) [] (wpos 1 0) 2 (fun _ => 1).
Proof.
  split; [intros u; split; [reflexivity|nra]|]. split; [repeat split; simpl; auto; now left|]. split; [easy|].
  split; [repeat split|]. split; intros; [unfold member; lra|]. unfold sumn, Rsum, member; simpl. lra.
Qed.

(** C51.  The weight function 1 gives the variogram score. *)
Theorem C51_unit :
  forall b obs fct wf hw m v s p q M D y x h po,
  mv_args obs fct m v s p q M D y x -> pair_wts hw s D h -> (0 < M)%nat -> (0 < D)%nat -> 0 < po -> ~ In 0%nat s ->
  (b = Numba -> dt obs = DFloat) -> vweight D wf (fun _ => 1) ->
  exists u, returns (vs_ensemble b obs fct hw m v None po "nrg") s (fun r => Fin (u r)) /\
            returns (owvs_ensemble b obs fct wf hw m v None po) s (fun r => Fin (u r)) /\
            returns (vrvs_ensemble b obs fct wf hw m v None po) s (fun r => Fin (u r)).
Proof. exact C51_unit_l. Qed.
Print Assumptions C51_unit.

(** C51.  With non-negative pair weights both are never negative. *)
Theorem C51_nonnegative :
  forall b obs fct wf g hw m v s p q M D y x h po,
  mv_args obs fct m v s p q M D y x -> pair_wts hw s D h -> (0 < M)%nat -> (0 < D)%nat -> 0 < po -> ~ In 0%nat s ->
  (b = Numba -> dt obs = DFloat) -> vweight D wf g ->
  (forall r i j, inb s r -> (i < D)%nat -> (j < D)%nat -> 0 <= h r i j) ->
  ((forall r, inb s r -> 0 < sumn M (fun k => g (memv p q x r k))) ->
   exists u, returns (owvs_ensemble b obs fct wf hw m v None po) s (fun r => Fin (u r)) /\ forall r, inb s r -> 0 <= u r) /\
  exists u, returns (vrvs_ensemble b obs fct wf hw m v None po) s (fun r => Fin (u r)) /\ forall r, inb s r -> 0 <= u r.
Proof. exact C51_nonnegative_l. Qed.
Print Assumptions C51_nonnegative.

(** C52.  The array implementation scores integer arrays by their values. *)
Theorem C52_array_types :
  forall obs fct obs' fct' hw m v s p q M D y x h po e,
  mv_args obs fct m v s p q M D y x -> mv_args obs' fct' m v s p q M D y x -> pair_wts hw s D h ->
  (0 < M)%nat -> (0 < D)%nat -> 0 < po ->
  In e ["nrg"; "fair"]%string -> (e = "fair"%string -> (1 < M)%nat) ->
  exists u, returns (vs_ensemble Array obs fct hw m v None po e) s (fun r => Fin (u r)) /\
            returns (vs_ensemble Array obs' fct' hw m v None po e) s (fun r => Fin (u r)).
Proof. exact C52_array_types_l. Qed.
Print Assumptions C52_array_types.

(** C52 fails for the compiled implementation: with an integer observation the score is
    truncated to an integer.  Observation (0, 1), one member (0, 1/2), order 1: the score is
    1/2, the compiled implementation returns 0. *)
Theorem C52_numba_integer_refuted :
  exists obs fct y x, mv_args obs fct (-2) (-1) [] 1 0 1 2 y x /\ dt obs = DInt /\
    returns (vs_ensemble Array obs fct None (-2) (-1) None 1 "nrg") [] (fun _ => Fin (/ 2)) /\
    returns (vs_ensemble Numba obs fct None (-2) (-1) None 1 "nrg") [] (fun _ => Fin 0).
Proof. exact C52_numba_integer_refuted_l. Qed.
Print Assumptions C52_numba_integer_refuted.
