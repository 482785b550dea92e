(** Properties C32-C35, C46, C48: the energy score.  In all theorems the batch shape, the
    position of the ensemble and the variable axis, and their python numbers (negative or
    not) are arbitrary. *)
From Verif Require Import T_energy.
Open Scope R_scope.

(** C32.  With a single variable the energy score is the CRPS, for all four estimators. *)
Theorem C32_energy_crps :
  forall srt b obs fct m v s p q M y x obs1 fct1 ax p1 y1 x1 e,
  argsort_ok srt -> mv_args obs fct m v s p q M 1 y x -> ens_args obs1 fct1 ax s p1 M y1 x1 -> (0 < M)%nat ->
  (forall r, inb s r -> obsv q y r 0 = y1 r) ->
  (forall r i, inb s r -> (i < M)%nat -> memv p q x r i 0 = member p1 x1 r i) ->
  In e ["nrg"; "fair"; "akr"; "akr_circperm"]%string -> (e = "fair"%string -> (1 < M)%nat) ->
  (b = Numba -> floats obs fct /\ dt obs1 = DFloat) ->
  exists u, returns (es_ensemble b obs fct m v None e) s (fun r => Fin (u r)) /\
            returns (crps_ensemble srt b obs1 fct1 ax None e false "propagate") s (fun r => Fin (u r)).
Proof. exact C32_energy_crps_l. Qed.
Print Assumptions C32_energy_crps.
Example C32_case : mv_args (real1 1 (fun _ => 1)) (real2 2 1 (fun i _ => INR i)) (-2) (-1) [] 1 0 2 1
    (fun i => 1) (fun i => INR (hd 0%nat (tl i))) /\
  ens_args (num0 (Fin 1)) (real1 2 INR) (-1) [] 0 2 (fun _ => 1) (fun i => INR (hd 0%nat i)).
Proof. repeat split; simpl; auto; now left. Qed.

(** C32.  The same with ensemble weights (akr_circperm differs, see C05_circperm_refuted and
    C33_circperm_refuted). *)
Theorem C32_energy_crps_weighted :
  forall srt b obs fct wt m v s p q M y x w obs1 fct1 wt1 ax p1 y1 x1 w1 e,
  argsort_ok srt -> mv_args obs fct m v s p q M 1 y x -> ens_args obs1 fct1 ax s p1 M y1 x1 -> (0 < M)%nat ->
  (q < p)%nat -> mv_wts wt s (wpos p q) M w -> wts_args wt1 fct1 s p1 M w1 ->
  (forall r, inb s r -> obsv q y r 0 = y1 r) ->
  (forall r i, inb s r -> (i < M)%nat -> memv p q x r i 0 = member p1 x1 r i) ->
  (forall r i, inb s r -> (i < M)%nat -> member (wpos p q) w r i = member p1 w1 r i) ->
  In e ["nrg"; "fair"; "akr"]%string ->
  (e = "fair"%string -> forall r, inb s r -> two_positive M (member p1 w1 r)) ->
  (b = Numba -> floats obs fct /\ dt obs1 = DFloat) ->
  exists u, returns (es_ensemble b obs fct m v (Some wt) e) s (fun r => Fin (u r)) /\
            returns (crps_ensemble srt b obs1 fct1 ax (Some wt1) e false "propagate") s (fun r => Fin (u r)).
Proof. exact C32_energy_crps_weighted_l. Qed.
Print Assumptions C32_energy_crps_weighted.

(** C33.  What the estimators compute.  The akr_circperm partner of member i is i + M/2 in one
    implementation and i - M/2 in the other; this makes no difference to the sum. *)
Theorem C33_values :
  forall b obs fct m v s p q M D y x e,
  mv_args obs fct m v s p q M D y x -> (0 < M)%nat -> (0 < D)%nat -> (b = Numba -> floats obs fct) ->
  let er r := es_err D (obsv q y r) (memv p q x r) in
  let d r := es_dist D (memv p q x r) in
  (e = "nrg"%string -> returns (es_ensemble b obs fct m v None e) s (fun r => Fin (k_exact M (er r) (d r)))) /\
  (e = "fair"%string -> (1 < M)%nat -> returns (es_ensemble b obs fct m v None e) s (fun r => Fin (k_fair M (er r) (d r)))) /\
  (e = "akr"%string -> returns (es_ensemble b obs fct m v None e) s (fun r => Fin (k_lag M (lag1 M) (er r) (d r)))) /\
  (e = "akr_circperm"%string -> returns (es_ensemble b obs fct m v None e) s (fun r => Fin (k_lag M (lagc M) (er r) (d r)))).
Proof. exact C33_values_l. Qed.
Print Assumptions C33_values.
(** three members in the plane, 0, (3,4), (0,0); observation (0, 0) *)
Example C33_case : mv_args (real1 2 (fun _ => 0)) (real2 3 2 (fun i k => match i, k with 1%nat, 0%nat => 3 | 1%nat, 1%nat => 4 | _, _ => 0 end))
   (-2) (-1) [] 1 0 3 2 (fun _ => 0) (fun i => match hd 0%nat (tl i), hd 0%nat i with 1%nat, 0%nat => 3 | 1%nat, 1%nat => 4 | _, _ => 0 end) /\
  es_err 2 (fun _ => 0) (fun i k => match i, k with 1%nat, 0%nat => 3 | 1%nat, 1%nat => 4 | _, _ => 0 end) 1 = 5.
Proof.
  split; [repeat split; simpl; auto; now left|].
  unfold es_err, eucl, sumn, Rsum; simpl. match goal with |- sqrt ?t = _ => replace t with (5 * 5) by (unfold Rsum; simpl; ring) end.
  apply sqrt_square; lra.
Qed.

(** C33.  The implementations agree on every estimator. *)
Theorem C33_agree :
  forall obs fct m v s p q M D y x e,
  mv_args obs fct m v s p q M D y x -> (0 < M)%nat -> (0 < D)%nat -> floats obs fct ->
  In e ["nrg"; "fair"; "akr"; "akr_circperm"]%string -> (e = "fair"%string -> (1 < M)%nat) ->
  exists u, returns (es_ensemble Array obs fct m v None e) s (fun r => Fin (u r)) /\
            returns (es_ensemble Numba obs fct m v None e) s (fun r => Fin (u r)).
Proof. exact C33_agree_l. Qed.
Print Assumptions C33_agree.

(** C33.  With weights: nrg, fair and akr, and akr_circperm for an even number of members. *)
Theorem C33_agree_weighted :
  forall obs fct wt m v s p q M D y x w e,
  mv_args obs fct m v s p q M D y x -> (0 < M)%nat -> (0 < D)%nat -> floats obs fct ->
  (q < p)%nat -> mv_wts wt s (wpos p q) M w ->
  In e ["nrg"; "fair"; "akr"; "akr_circperm"]%string ->
  (e = "fair"%string -> forall r, inb s r -> two_positive M (member (wpos p q) w r)) ->
  (e = "akr_circperm"%string -> Nat.even M = true) ->
  exists u, returns (es_ensemble Array obs fct m v (Some wt) e) s (fun r => Fin (u r)) /\
            returns (es_ensemble Numba obs fct m v (Some wt) e) s (fun r => Fin (u r)).
Proof. exact C33_agree_weighted_l. Qed.
Print Assumptions C33_agree_weighted.

(** C33 fails for akr_circperm with weights and an odd number of members. *)
Theorem C33_circperm_refuted :
  exists obs fct wt M D y x w, mv_args obs fct (-2) (-1) [] 1 0 M D y x /\ mv_wts wt [] (wpos 1 0) M w /\ floats obs fct /\
  exists u v, u <> v /\
    returns (es_ensemble Array obs fct (-2) (-1) (Some wt) "akr_circperm") [] (fun _ => Fin u) /\
    returns (es_ensemble Numba obs fct (-2) (-1) (Some wt) "akr_circperm") [] (fun _ => Fin v).
Proof. exact C33_circperm_refuted_l. Qed.
Print Assumptions C33_circperm_refuted.

(** C33.  Equal weights reproduce the unweighted score, for every estimator. *)
Theorem C33_uniform :
  forall b obs fct wt m v s p q M D y x w c e,
  mv_args obs fct m v s p q M D y x -> (0 < M)%nat -> (0 < D)%nat -> (b = Numba -> floats obs fct) ->
  (q < p)%nat -> mv_wts wt s (wpos p q) M w ->
  (forall r k, inb s r -> (k < M)%nat -> member (wpos p q) w r k = c r) ->
  In e ["nrg"; "fair"; "akr"; "akr_circperm"]%string -> (e = "fair"%string -> (1 < M)%nat) ->
  exists u, returns (es_ensemble b obs fct m v (Some wt) e) s (fun r => Fin (u r)) /\
            returns (es_ensemble b obs fct m v None e) s (fun r => Fin (u r)).
Proof. exact C33_uniform_l. Qed.
Print Assumptions C33_uniform.

(** C34.  A map of R^D that multiplies all distances by c, applied to the observation and all
    members, multiplies the score by c; map and c may differ between grid points. *)
Theorem C34_similarity :
  forall b obs fct obs' fct' m v s p q M D y x y' x' c h e,
  mv_args obs fct m v s p q M D y x -> mv_args obs' fct' m v s p q M D y' x' -> (0 < M)%nat -> (0 < D)%nat ->
  (b = Numba -> floats obs fct /\ floats obs' fct') ->
  (forall r, inb s r -> similarity D (c r) (h r)) ->
  (forall r k, inb s r -> (k < D)%nat -> obsv q y' r k = h r (obsv q y r) k) ->
  (forall r i k, inb s r -> (i < M)%nat -> (k < D)%nat -> memv p q x' r i k = h r (memv p q x r i) k) ->
  In e ["nrg"; "fair"; "akr"; "akr_circperm"]%string -> (e = "fair"%string -> (1 < M)%nat) ->
  exists u, returns (es_ensemble b obs fct m v None e) s (fun r => Fin (u r)) /\
            returns (es_ensemble b obs' fct' m v None e) s (fun r => Fin (c r * u r)).
Proof. exact C34_similarity_l. Qed.
Print Assumptions C34_similarity.

(** C34.  The same with ensemble weights. *)
Theorem C34_similarity_weighted :
  forall b obs fct obs' fct' wt m v s p q M D y x y' x' w c h e,
  mv_args obs fct m v s p q M D y x -> mv_args obs' fct' m v s p q M D y' x' -> (0 < M)%nat -> (0 < D)%nat ->
  (b = Numba -> floats obs fct /\ floats obs' fct') -> (q < p)%nat -> mv_wts wt s (wpos p q) M w ->
  (forall r, inb s r -> similarity D (c r) (h r)) ->
  (forall r k, inb s r -> (k < D)%nat -> obsv q y' r k = h r (obsv q y r) k) ->
  (forall r i k, inb s r -> (i < M)%nat -> (k < D)%nat -> memv p q x' r i k = h r (memv p q x r i) k) ->
  In e ["nrg"; "fair"; "akr"; "akr_circperm"]%string ->
  (e = "fair"%string -> forall r, inb s r -> two_positive M (member (wpos p q) w r)) ->
  exists u, returns (es_ensemble b obs fct m v (Some wt) e) s (fun r => Fin (u r)) /\
            returns (es_ensemble b obs' fct' m v (Some wt) e) s (fun r => Fin (c r * u r)).
Proof. exact C34_similarity_weighted_l. Qed.
Print Assumptions C34_similarity_weighted.

(** C34.  u |-> c A u + b with A orthogonal is such a map, with factor |c|: in particular
    translations (A the identity, c = 1), rotations and reflections (c = 1, b = 0) and changes
    of units (A the identity, b = 0). *)
Theorem C34_orthogonal_maps :
  forall D c A b, orthogonal D A -> similarity D (Rabs c) (affine_map D c A b).
Proof. exact C34_orthogonal_maps_l. Qed.
Print Assumptions C34_orthogonal_maps.
(** the identity, and a rotation of the plane by a right angle *)
Example C34_case : orthogonal 3 (fun i j => if (i =? j)%nat then 1 else 0) /\
  orthogonal 2 (fun i j => match i, j with 0%nat, 1%nat => -1 | 1%nat, 0%nat => 1 | _, _ => 0 end).
Proof.
  split; intros i j Hi Hj.
  - destruct i as [|[|[|i]]], j as [|[|[|j]]]; try lia; unfold sumn, Rsum; simpl; ring.
  - destruct i as [|[|i]], j as [|[|j]]; try lia; unfold sumn, Rsum; simpl; ring.
Qed.

(** C34.  nrg and fair: the order of the members does not matter. *)
Theorem C34_permutation :
  forall b obs fct fct' m v s p q M D y x x' g e,
  mv_args obs fct m v s p q M D y x -> mv_args obs fct' m v s p q M D y x' -> (0 < M)%nat -> (0 < D)%nat ->
  (b = Numba -> floats obs fct /\ floats obs fct') ->
  (forall r, inb s r -> reorders M (g r)) ->
  (forall r i k, inb s r -> (i < M)%nat -> (k < D)%nat -> memv p q x' r i k = memv p q x r (g r i) k) ->
  In e ["nrg"; "fair"]%string -> (e = "fair"%string -> (1 < M)%nat) ->
  exists u, returns (es_ensemble b obs fct m v None e) s (fun r => Fin (u r)) /\
            returns (es_ensemble b obs fct' m v None e) s (fun r => Fin (u r)).
Proof. exact C34_permutation_l. Qed.
Print Assumptions C34_permutation.
Example C34_case_perm : reorders 3 (fun i => nth i [2; 0; 1]%nat 0%nat).
Proof.
  unfold reorders. simpl. apply (perm_trans (l' := [0; 2; 1]%nat)); [apply perm_swap|]. apply perm_skip, perm_swap.
Qed.

(** C34.  The same for members together with their weights. *)
Theorem C34_permutation_weighted :
  forall b obs fct fct' wt wt' m v s p q M D y x x' w w' g e,
  mv_args obs fct m v s p q M D y x -> mv_args obs fct' m v s p q M D y x' -> (0 < M)%nat -> (0 < D)%nat ->
  (b = Numba -> floats obs fct /\ floats obs fct') ->
  (q < p)%nat -> mv_wts wt s (wpos p q) M w -> mv_wts wt' s (wpos p q) M w' ->
  (forall r, inb s r -> reorders M (g r)) ->
  (forall r i k, inb s r -> (i < M)%nat -> (k < D)%nat -> memv p q x' r i k = memv p q x r (g r i) k) ->
  (forall r i, inb s r -> (i < M)%nat -> member (wpos p q) w' r i = member (wpos p q) w r (g r i)) ->
  In e ["nrg"; "fair"]%string ->
  (e = "fair"%string -> forall r, inb s r -> two_positive M (member (wpos p q) w r) /\ two_positive M (member (wpos p q) w' r)) ->
  exists u, returns (es_ensemble b obs fct m v (Some wt) e) s (fun r => Fin (u r)) /\
            returns (es_ensemble b obs fct' m v (Some wt') e) s (fun r => Fin (u r)).
Proof. exact C34_permutation_weighted_l. Qed.
Print Assumptions C34_permutation_weighted.

(** C35.  The nrg energy score is never negative, with or without weights. *)
Theorem C35_nonnegative :
  forall b obs fct m v s p q M D y x,
  mv_args obs fct m v s p q M D y x -> (0 < M)%nat -> (0 < D)%nat -> (b = Numba -> floats obs fct) ->
  (exists u, returns (es_ensemble b obs fct m v None "nrg") s (fun r => Fin (u r)) /\ forall r, 0 <= u r) /\
  (forall wt w, (q < p)%nat -> mv_wts wt s (wpos p q) M w ->
   exists u, returns (es_ensemble b obs fct m v (Some wt) "nrg") s (fun r => Fin (u r)) /\ forall r, inb s r -> 0 <= u r).
Proof. exact C35_nonnegative_l. Qed.
Print Assumptions C35_nonnegative.

(** C35.  The observation takes value z j in R^D with probability g j / sum g.  The mean score
    of any forecast ensemble x with weights f is at least that of the ensemble z with weights g. *)
Theorem C35_proper :
  forall b D M f x N g z, (0 < D)%nat ->
  (forall k, (k < M)%nat -> 0 <= f k) -> 0 < sumn M f ->
  (forall j, (j < N)%nat -> 0 <= g j) -> 0 < sumn N g ->
  exists S T : nat -> R,
    (forall j, (j < N)%nat -> returns (es_ensemble b (real1 D (z j)) (real2 M D x) (-2) (-1) (Some (real1 M f)) "nrg")
       [] (fun _ => Fin (S j))) /\
    (forall j, (j < N)%nat -> returns (es_ensemble b (real1 D (z j)) (real2 N D z) (-2) (-1) (Some (real1 N g)) "nrg")
       [] (fun _ => Fin (T j))) /\
    sumn N (fun j => g j / sumn N g * T j) <= sumn N (fun j => g j / sumn N g * S j).
Proof. exact C35_proper_l. Qed.
Print Assumptions C35_proper.
Example C35_case : (forall k, (k < 2)%nat -> 0 <= (fun k => nth k [1; 2] 0) k) /\ 0 < sumn 2 (fun k => nth k [1; 2] 0).
Proof. split; [intros [|[|k]] H; [simpl; lra|simpl; lra|lia]|]. unfold sumn, Rsum; simpl. lra. Qed.

(** C46.  When the ensemble axis precedes the variable axis (in python's order), weights with
    the shape of fct without the variable axis are used as documented. *)
Theorem C46_weights :
  forall b obs fct wt m v s p q M D y x w,
  mv_args obs fct m v s p q M D y x -> (0 < M)%nat -> (0 < D)%nat -> (b = Numba -> floats obs fct) ->
  (q < p)%nat -> mv_wts wt s (wpos p q) M w ->
  let er r := es_err D (obsv q y r) (memv p q x r) in
  let d r := es_dist D (memv p q x r) in
  let wr r := nw M (member (wpos p q) w r) in
  returns (es_ensemble b obs fct m v (Some wt) "nrg") s (fun r => Fin (k_wexact M (wr r) (er r) (d r))) /\
  ((forall r, inb s r -> two_positive M (member (wpos p q) w r)) ->
   returns (es_ensemble b obs fct m v (Some wt) "fair") s (fun r => Fin (k_wfair M (wr r) (er r) (d r)))) /\
  returns (es_ensemble b obs fct m v (Some wt) "akr") s (fun r => Fin (k_wlag M (lag1 M) (wr r) (er r) (d r))).
Proof. exact C46_weights_l. Qed.
Print Assumptions C46_weights.
Example C46_case : mv_wts (real1 2 (fun k => INR (S k))) [] (wpos 1 0) 2 (fun i => INR (S (hd 0%nat i))).
Proof.
  split; [repeat split|]. split.
  - intros r k _ _. apply pos_INR.
  - intros r _. unfold member, sumn, Rsum; simpl. lra.
Qed.

(** C46 fails when the ensemble axis is the last one: every call with weights raises. *)
Theorem C46_last_axis_refuted :
  forall b obs fct wt m v s q M D y x e,
  mv_args obs fct m v s 0 q M D y x -> length (sh wt) = S (length s) ->
  raises (es_ensemble b obs fct m v (Some wt) e) AxisError.
Proof. exact C46_last_axis_refuted_l. Qed.
Print Assumptions C46_last_axis_refuted.
(** fct of shape (2, 3) with v_axis = 0 and m_axis = 1, weights of shape (3) *)
Example C46_case_last : mv_args (real1 2 (fun _ => 0)) (farr [3; 2]%nat (fun _ => 0)) 1 0 [] 0 0 3 2 (fun _ => 0) (fun _ => 0) /\
  length (sh (real1 3 (fun _ => 1))) = 1%nat.
Proof. repeat split; simpl; auto; now right. Qed.

(** C46 fails silently when the variable axis precedes the ensemble axis and a batch axis
    follows: fct of shape (1, 2, 2) with axes (variable, member, grid), documented weights of
    shape (member, grid) that select the first member; the code weights both members equally. *)
Theorem C46_transposed_refuted :
  exists obs fct wt y x w, mv_args obs fct 1 0 [2%nat] 1 1 2 1 y x /\ mv_wts wt [2%nat] (wpos 1 1) 2 w /\ floats obs fct /\
  exists f, (forall b, returns (es_ensemble b obs fct 1 0 (Some wt) "nrg") [2%nat] f) /\
    f [0%nat] = Fin (/ 4) /\
    k_wexact 2 (nw 2 (member (wpos 1 1) w [0%nat])) (es_err 1 (obsv 1 y [0%nat]) (memv 1 1 x [0%nat]))
      (es_dist 1 (memv 1 1 x [0%nat])) = 0.
Proof. exact C46_transposed_refuted_l. Qed.
Print Assumptions C46_transposed_refuted.
