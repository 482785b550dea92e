(** Properties C37 and C53: the Gaussian kernel scores.  In all theorems the batch shape, the
    positions of the ensemble and the variable axis, and their python numbers (negative or not)
    are arbitrary. *)
From Verif Require Import T_kernels.
Open Scope R_scope.

(** C37.  Univariate kernel score: the value of each estimator, both implementations. *)
Theorem C37_uv_values :
  forall b obs fct ax s p M y x e,
  ens_args obs fct ax s p M y x -> (0 < M)%nat -> (b = Numba -> dt obs = DFloat) ->
  let A r := kobs1 (y r) (member p x r) in let B r := kmem1 (member p x r) in
  (e = "nrg"%string -> returns (gksuv_ensemble b obs fct ax None e) s (fun r => Fin (gk_exact M (A r) (B r)))) /\
  (e = "fair"%string -> (1 < M)%nat -> returns (gksuv_ensemble b obs fct ax None e) s (fun r => Fin (gk_fair M (A r) (B r)))) /\
  (e = "akr"%string -> returns (gksuv_ensemble b obs fct ax None e) s (fun r => Fin (gk_lag M (lag1 M) (A r) (B r)))) /\
  (e = "akr_circperm"%string -> returns (gksuv_ensemble b obs fct ax None e) s (fun r => Fin (gk_lag M (lagc M) (A r) (B r)))).
Proof. exact C37_uv_values_l. Qed.
Print Assumptions C37_uv_values.
(** observation 0, members 0 and 2; 1/2 - (1 + k)/2 + (2 + 2 k)/8 with k = exp(-2) *)
Example C37_case : ens_args (num0 (Fin 0)) (real1 2 (fun k => 2 * INR k)) (-1) [] 0 2 (fun _ => 0) (fun i => 2 * INR (hd 0%nat i)) /\
  gk_exact 2 (kobs1 0 (fun k => 2 * INR k)) (kmem1 (fun k => 2 * INR k)) = (1 - exp (- 2)) / 4.
Proof.
  split; [repeat split; simpl; auto; now left|].
  unfold gk_exact, kobs1, kmem1, gauss1, sumn, Rsum. simpl.
  replace (- ((2 * 0 - 0) * ((2 * 0 - 0) * 1)) / 2) with 0 by field.
  replace (- ((2 * 1 - 0) * ((2 * 1 - 0) * 1)) / 2) with (- 2) by field.
  replace (- ((2 * 0 - 2 * 0) * ((2 * 0 - 2 * 0) * 1)) / 2) with 0 by field.
  replace (- ((2 * 0 - 2 * 1) * ((2 * 0 - 2 * 1) * 1)) / 2) with (- 2) by field.
  replace (- ((2 * 1 - 2 * 0) * ((2 * 1 - 2 * 0) * 1)) / 2) with (- 2) by field.
  replace (- ((2 * 1 - 2 * 1) * ((2 * 1 - 2 * 1) * 1)) / 2) with 0 by field.
  rewrite exp_0. lra.
Qed.

(** C37.  Multivariate kernel score. *)
Theorem C37_mv_values :
  forall b obs fct m v s p q M D y x e,
  mv_args obs fct m v s p q M D y x -> (0 < M)%nat -> (0 < D)%nat -> (b = Numba -> floats obs fct) ->
  let A r := kobsD D (obsv q y r) (memv p q x r) in let B r := kmemD D (memv p q x r) in
  (e = "nrg"%string -> returns (gksmv_ensemble b obs fct m v None e) s (fun r => Fin (gk_exact M (A r) (B r)))) /\
  (e = "fair"%string -> (1 < M)%nat -> returns (gksmv_ensemble b obs fct m v None e) s (fun r => Fin (gk_fair M (A r) (B r)))) /\
  (e = "akr"%string -> returns (gksmv_ensemble b obs fct m v None e) s (fun r => Fin (gk_lag M (lag1 M) (A r) (B r)))) /\
  (e = "akr_circperm"%string -> returns (gksmv_ensemble b obs fct m v None e) s (fun r => Fin (gk_lag M (lagc M) (A r) (B r)))).
Proof. exact C37_mv_values_l. Qed.
Print Assumptions C37_mv_values.

(** C37.  Without weights the two implementations agree, for all four estimators. *)
Theorem C37_agree :
  forall e, In e ["nrg"; "fair"; "akr"; "akr_circperm"]%string ->
  (forall obs fct ax s p M y x, ens_args obs fct ax s p M y x -> (0 < M)%nat -> dt obs = DFloat -> (e = "fair"%string -> (1 < M)%nat) ->
   exists u, returns (gksuv_ensemble Array obs fct ax None e) s (fun r => Fin (u r)) /\
             returns (gksuv_ensemble Numba obs fct ax None e) s (fun r => Fin (u r))) /\
  (forall obs fct m v s p q M D y x, mv_args obs fct m v s p q M D y x -> (0 < M)%nat -> (0 < D)%nat -> floats obs fct ->
   (e = "fair"%string -> (1 < M)%nat) ->
   exists u, returns (gksmv_ensemble Array obs fct m v None e) s (fun r => Fin (u r)) /\
             returns (gksmv_ensemble Numba obs fct m v None e) s (fun r => Fin (u r))).
Proof. exact C37_agree_l. Qed.
Print Assumptions C37_agree.

(** C37.  Univariate, with ensemble weights: nrg and akr in both implementations, fair and
    akr_circperm in the compiled one. *)
Theorem C37_uv_weighted :
  forall b obs fct wt ax s p M y x w e,
  ens_args obs fct ax s p M y x -> (0 < M)%nat -> (b = Numba -> dt obs = DFloat) -> uv_wts wt s p M w ->
  let A r := kobs1 (y r) (member p x r) in let B r := kmem1 (member p x r) in let W r := nw M (member p w r) in
  (e = "nrg"%string -> returns (gksuv_ensemble b obs fct ax (Some wt) e) s (fun r => Fin (gk_wexact M (W r) (A r) (B r)))) /\
  (e = "akr"%string -> returns (gksuv_ensemble b obs fct ax (Some wt) e) s (fun r => Fin (gk_wlag M (lag1 M) (W r) (A r) (B r)))) /\
  (b = Numba -> e = "akr_circperm"%string ->
     returns (gksuv_ensemble b obs fct ax (Some wt) e) s (fun r => Fin (gk_wlag M (lagc M) (W r) (A r) (B r)))) /\
  (b = Numba -> e = "fair"%string -> (forall r, inb s r -> two_positive M (member p w r)) ->
     returns (gksuv_ensemble b obs fct ax (Some wt) e) s (fun r => Fin (gk_wfair M (W r) (A r) (B r)))).
Proof. exact C37_uv_weighted_l. Qed.
Print Assumptions C37_uv_weighted.
Example C37_case_weighted : uv_wts (real1 2 (fun k => INR k)) [] 0 2 (fun i => INR (hd 0%nat i)).
Proof. repeat split; [intros r [|[|k]] Hr Hk; unfold member, insert_at; simpl; try lra; lia|]. intros r Hr. unfold sumn, Rsum, member; simpl. lra. Qed.

(** C37.  Multivariate, with ensemble weights: nrg, akr and akr_circperm in both
    implementations, fair in the compiled one. *)
Theorem C37_mv_weighted :
  forall b obs fct wt m v s p q M D y x w e,
  mv_args obs fct m v s p q M D y x -> (0 < M)%nat -> (0 < D)%nat -> (b = Numba -> floats obs fct) ->
  (q < p)%nat -> mv_wts wt s (wpos p q) M w ->
  let A r := kobsD D (obsv q y r) (memv p q x r) in let B r := kmemD D (memv p q x r) in let W r := nw M (member (wpos p q) w r) in
  (e = "nrg"%string -> returns (gksmv_ensemble b obs fct m v (Some wt) e) s (fun r => Fin (gk_wexact M (W r) (A r) (B r)))) /\
  (e = "akr"%string -> returns (gksmv_ensemble b obs fct m v (Some wt) e) s (fun r => Fin (gk_wlag M (lag1 M) (W r) (A r) (B r)))) /\
  (e = "akr_circperm"%string ->
     returns (gksmv_ensemble b obs fct m v (Some wt) e) s (fun r => Fin (gk_wlag M (lagc M) (W r) (A r) (B r)))) /\
  (b = Numba -> e = "fair"%string -> (forall r, inb s r -> two_positive M (member (wpos p q) w r)) ->
     returns (gksmv_ensemble b obs fct m v (Some wt) e) s (fun r => Fin (gk_wfair M (W r) (A r) (B r)))).
Proof. exact C37_mv_weighted_l. Qed.
Print Assumptions C37_mv_weighted.

(** C37.  What the array implementation of the weighted fair estimator returns: the documented
    value plus sum w^2 / (2 (1 - sum w^2)), for the normalised weights w, because the pairs
    (i, i) are not removed from the double sum. *)
Theorem C37_fair_weighted_array :
  (forall obs fct wt ax s p M y x w,
   ens_args obs fct ax s p M y x -> (0 < M)%nat -> uv_wts wt s p M w -> (forall r, inb s r -> two_positive M (member p w r)) ->
   returns (gksuv_ensemble Array obs fct ax (Some wt) "fair") s (fun r =>
     let W := nw M (member p w r) in
     Fin (gk_wfair M W (kobs1 (y r) (member p x r)) (kmem1 (member p x r))
          + sumn M (fun i => W i * W i) / (2 * (1 - sumn M (fun i => W i * W i)))))) /\
  (forall obs fct wt m v s p q M D y x w,
   mv_args obs fct m v s p q M D y x -> (0 < M)%nat -> (0 < D)%nat -> (q < p)%nat -> mv_wts wt s (wpos p q) M w ->
   (forall r, inb s r -> two_positive M (member (wpos p q) w r)) ->
   returns (gksmv_ensemble Array obs fct m v (Some wt) "fair") s (fun r =>
     let W := nw M (member (wpos p q) w r) in
     Fin (gk_wfair M W (kobsD D (obsv q y r) (memv p q x r)) (kmemD D (memv p q x r))
          + sumn M (fun i => W i * W i) / (2 * (1 - sumn M (fun i => W i * W i)))))).
Proof. exact C37_fair_weighted_array_l. Qed.
Print Assumptions C37_fair_weighted_array.

(** C37 fails for the weighted fair estimator: two members, both equal to the observation, with
    equal weights.  The compiled implementation returns 0, the array implementation 1/2. *)
Theorem C37_fair_weighted_refuted :
  exists obs fct wt : arr, ens_args obs fct (-1) [] 0 2 (fun _ => 3) (fun _ => 3) /\ uv_wts wt [] 0 2 (fun _ => 1) /\
  returns (gksuv_ensemble Numba obs fct (-1) (Some wt) "fair") [] (fun _ => Fin 0) /\
  returns (gksuv_ensemble Array obs fct (-1) (Some wt) "fair") [] (fun _ => Fin (/ 2)).
Proof. exact C37_fair_weighted_refuted_l. Qed.
Print Assumptions C37_fair_weighted_refuted.

(** C37 fails for the weighted univariate akr_circperm estimator: the array implementation
    always raises ValueError (a misspelt name in its list of estimators) where the compiled one
    returns a value. *)
Theorem C37_circperm_weighted_refuted :
  forall obs fct wt ax s p M y x w,
  ens_args obs fct ax s p M y x -> (0 < M)%nat -> dt obs = DFloat -> uv_wts wt s p M w ->
  raises (gksuv_ensemble Array obs fct ax (Some wt) "akr_circperm") ValueError /\
  exists u, returns (gksuv_ensemble Numba obs fct ax (Some wt) "akr_circperm") s (fun r => Fin (u r)).
Proof. exact C37_circperm_weighted_refuted_l. Qed.
Print Assumptions C37_circperm_weighted_refuted.
Example C37_case_circperm : ens_args (num0 (Fin 0)) (real1 2 INR) (-1) [] 0 2 (fun _ => 0) (fun i => INR (hd 0%nat i)) /\
  uv_wts (real1 2 (fun _ => 1)) [] 0 2 (fun _ => 1).
Proof.
  split; [repeat split; simpl; auto; now left|]. repeat split; intros; unfold member; [lra|]. unfold sumn, Rsum; simpl; lra.
Qed.

(** C37.  Equal positive weights change nothing (where the weighted estimator is right). *)
Theorem C37_uniform :
  forall b e, In e ["nrg"; "fair"; "akr"; "akr_circperm"]%string -> (b = Array -> e <> "fair"%string) ->
  (forall obs fct wt ax s p M y x c, ens_args obs fct ax s p M y x -> (0 < M)%nat -> (b = Numba -> dt obs = DFloat) ->
   (e = "fair"%string -> (1 < M)%nat) -> (b = Array -> e <> "akr_circperm"%string) ->
   real_arr wt (insert_at p M s) (fun _ => c) -> 0 < c ->
   exists u, returns (gksuv_ensemble b obs fct ax None e) s (fun r => Fin (u r)) /\
             returns (gksuv_ensemble b obs fct ax (Some wt) e) s (fun r => Fin (u r))) /\
  (forall obs fct wt m v s p q M D y x c, mv_args obs fct m v s p q M D y x -> (0 < M)%nat -> (0 < D)%nat -> (b = Numba -> floats obs fct) ->
   (e = "fair"%string -> (1 < M)%nat) -> (q < p)%nat ->
   real_arr wt (insert_at (wpos p q) M s) (fun _ => c) -> 0 < c ->
   exists u, returns (gksmv_ensemble b obs fct m v None e) s (fun r => Fin (u r)) /\
             returns (gksmv_ensemble b obs fct m v (Some wt) e) s (fun r => Fin (u r))).
Proof. exact C37_uniform_l. Qed.
Print Assumptions C37_uniform.

(** C37.  The score of the whole forecast (estimator nrg) is at least 0 and less than 1, with or
    without weights. *)
Theorem C37_bounds :
  (forall b obs fct ax s p M y x, ens_args obs fct ax s p M y x -> (0 < M)%nat -> (b = Numba -> dt obs = DFloat) ->
   (exists u, returns (gksuv_ensemble b obs fct ax None "nrg") s (fun r => Fin (u r)) /\ forall r, inb s r -> 0 <= u r < 1) /\
   (forall wt w, uv_wts wt s p M w ->
    exists u, returns (gksuv_ensemble b obs fct ax (Some wt) "nrg") s (fun r => Fin (u r)) /\ forall r, inb s r -> 0 <= u r < 1)) /\
  (forall b obs fct m v s p q M D y x, mv_args obs fct m v s p q M D y x -> (0 < M)%nat -> (0 < D)%nat -> (b = Numba -> floats obs fct) ->
   (exists u, returns (gksmv_ensemble b obs fct m v None "nrg") s (fun r => Fin (u r)) /\ forall r, inb s r -> 0 <= u r < 1) /\
   (forall wt w, (q < p)%nat -> mv_wts wt s (wpos p q) M w ->
    exists u, returns (gksmv_ensemble b obs fct m v (Some wt) "nrg") s (fun r => Fin (u r)) /\ forall r, inb s r -> 0 <= u r < 1)).
Proof. exact C37_bounds_l. Qed.
Print Assumptions C37_bounds.

(** C37.  An ensemble all of whose members equal the observation scores 0. *)
Theorem C37_perfect :
  forall b e, In e ["nrg"; "fair"; "akr"; "akr_circperm"]%string ->
  (forall obs fct ax s p M y x, ens_args obs fct ax s p M y x -> (0 < M)%nat -> (b = Numba -> dt obs = DFloat) ->
   (e = "fair"%string -> (1 < M)%nat) -> (forall r k, inb s r -> (k < M)%nat -> member p x r k = y r) ->
   returns (gksuv_ensemble b obs fct ax None e) s (fun _ => Fin 0)) /\
  (forall obs fct m v s p q M D y x, mv_args obs fct m v s p q M D y x -> (0 < M)%nat -> (0 < D)%nat -> (b = Numba -> floats obs fct) ->
   (e = "fair"%string -> (1 < M)%nat) -> (forall r i k, inb s r -> (i < M)%nat -> (k < D)%nat -> memv p q x r i k = obsv q y r k) ->
   returns (gksmv_ensemble b obs fct m v None e) s (fun _ => Fin 0)).
Proof. exact C37_perfect_l. Qed.
Print Assumptions C37_perfect.

(** C37.  nrg and fair: the order of the members does not matter. *)
Theorem C37_permutation :
  forall b e, In e ["nrg"; "fair"]%string ->
  (forall obs fct fct' ax s p M y x x' g,
   ens_args obs fct ax s p M y x -> ens_args obs fct' ax s p M y x' -> (0 < M)%nat -> (b = Numba -> dt obs = DFloat) ->
   (e = "fair"%string -> (1 < M)%nat) -> (forall r, inb s r -> reorders M (g r)) ->
   (forall r i, inb s r -> (i < M)%nat -> member p x' r i = member p x r (g r i)) ->
   exists u, returns (gksuv_ensemble b obs fct ax None e) s (fun r => Fin (u r)) /\
             returns (gksuv_ensemble b obs fct' ax None e) s (fun r => Fin (u r))) /\
  (forall obs fct fct' m v s p q M D y x x' g,
   mv_args obs fct m v s p q M D y x -> mv_args obs fct' m v s p q M D y x' -> (0 < M)%nat -> (0 < D)%nat ->
   (b = Numba -> floats obs fct /\ floats obs fct') ->
   (e = "fair"%string -> (1 < M)%nat) -> (forall r, inb s r -> reorders M (g r)) ->
   (forall r i k, inb s r -> (i < M)%nat -> (k < D)%nat -> memv p q x' r i k = memv p q x r (g r i) k) ->
   exists u, returns (gksmv_ensemble b obs fct m v None e) s (fun r => Fin (u r)) /\
             returns (gksmv_ensemble b obs fct' m v None e) s (fun r => Fin (u r))).
Proof. exact C37_permutation_l. Qed.
Print Assumptions C37_permutation.

(** C37.  Moving observation and members by the same isometry (h keeps all distances) changes no
    estimator; on the line the isometries are t -> c t + d with c = 1 or -1. *)
Theorem C37_isometry :
  forall b e, In e ["nrg"; "fair"; "akr"; "akr_circperm"]%string ->
  (forall obs fct obs' fct' ax s p M y x y' x' c d,
   ens_args obs fct ax s p M y x -> ens_args obs' fct' ax s p M y' x' -> (0 < M)%nat ->
   (b = Numba -> dt obs = DFloat /\ dt obs' = DFloat) -> (e = "fair"%string -> (1 < M)%nat) -> c * c = 1 ->
   (forall r, inb s r -> y' r = c * y r + d) -> (forall r i, inb s r -> (i < M)%nat -> member p x' r i = c * member p x r i + d) ->
   exists u, returns (gksuv_ensemble b obs fct ax None e) s (fun r => Fin (u r)) /\
             returns (gksuv_ensemble b obs' fct' ax None e) s (fun r => Fin (u r))) /\
  (forall obs fct obs' fct' m v s p q M D y x y' x' h,
   mv_args obs fct m v s p q M D y x -> mv_args obs' fct' m v s p q M D y' x' -> (0 < M)%nat -> (0 < D)%nat ->
   (b = Numba -> floats obs fct /\ floats obs' fct') -> (e = "fair"%string -> (1 < M)%nat) -> similarity D 1 h ->
   (forall r k, inb s r -> (k < D)%nat -> obsv q y' r k = h (obsv q y r) k) ->
   (forall r i k, inb s r -> (i < M)%nat -> (k < D)%nat -> memv p q x' r i k = h (memv p q x r i) k) ->
   exists u, returns (gksmv_ensemble b obs fct m v None e) s (fun r => Fin (u r)) /\
             returns (gksmv_ensemble b obs' fct' m v None e) s (fun r => Fin (u r))).
Proof. exact C37_isometry_l. Qed.
Print Assumptions C37_isometry.
Example C37_case_isometry : similarity 2 1 (fun u k => match k with 0%nat => u 1%nat + 3 | _ => - u 0%nat end).
Proof. intros u v. unfold eucl. rewrite Rmult_1_l. f_equal. unfold sumn, Rsum; simpl. ring. Qed.

(** C37.  With a single variable the multivariate score is the univariate one. *)
Theorem C37_one_variable :
  forall b obs fct m v s p q M y x obs1 fct1 ax p1 y1 x1 e,
  mv_args obs fct m v s p q M 1 y x -> ens_args obs1 fct1 ax s p1 M y1 x1 -> (0 < M)%nat ->
  (forall r, inb s r -> obsv q y r 0 = y1 r) ->
  (forall r i, inb s r -> (i < M)%nat -> memv p q x r i 0 = member p1 x1 r i) ->
  In e ["nrg"; "fair"; "akr"; "akr_circperm"]%string -> (e = "fair"%string -> (1 < M)%nat) ->
  (b = Numba -> floats obs fct /\ dt obs1 = DFloat) ->
  exists u, returns (gksmv_ensemble b obs fct m v None e) s (fun r => Fin (u r)) /\
            returns (gksuv_ensemble b obs1 fct1 ax None e) s (fun r => Fin (u r)).
Proof. exact C37_one_variable_l. Qed.
Print Assumptions C37_one_variable.

(** C37.  The observation takes value z j with probability g j / sum g.  The mean score of any
    forecast ensemble x with weights f is at least that of the ensemble z with weights g. *)
Theorem C37_proper :
  forall b M f N g,
  (forall k, (k < M)%nat -> 0 <= f k) -> 0 < sumn M f ->
  (forall j, (j < N)%nat -> 0 <= g j) -> 0 < sumn N g ->
  (forall x z, exists S T : nat -> R,
    (forall j, (j < N)%nat -> returns (gksuv_ensemble b (num0 (Fin (z j))) (real1 M x) (-1) (Some (real1 M f)) "nrg")
       [] (fun _ => Fin (S j))) /\
    (forall j, (j < N)%nat -> returns (gksuv_ensemble b (num0 (Fin (z j))) (real1 N z) (-1) (Some (real1 N g)) "nrg")
       [] (fun _ => Fin (T j))) /\
    sumn N (fun j => g j / sumn N g * T j) <= sumn N (fun j => g j / sumn N g * S j)) /\
  (forall D x z, (0 < D)%nat -> exists S T : nat -> R,
    (forall j, (j < N)%nat -> returns (gksmv_ensemble b (real1 D (z j)) (real2 M D x) (-2) (-1) (Some (real1 M f)) "nrg")
       [] (fun _ => Fin (S j))) /\
    (forall j, (j < N)%nat -> returns (gksmv_ensemble b (real1 D (z j)) (real2 N D z) (-2) (-1) (Some (real1 N g)) "nrg")
       [] (fun _ => Fin (T j))) /\
    sumn N (fun j => g j / sumn N g * T j) <= sumn N (fun j => g j / sumn N g * S j)).
Proof. exact C37_proper_l. Qed.
Print Assumptions C37_proper.

(** C37 fails for integer observations: the compiled univariate score is stored in an array of
    the observations' type, and since it is at least 0 and less than 1 the result is 0 whatever
    the forecast.  The array implementation returns the score. *)
Theorem C37_numba_integer_refuted :
  (forall obs fct ax s p M y x, ens_args obs fct ax s p M y x -> (0 < M)%nat -> dt obs = DInt ->
   returns (gksuv_ensemble Numba obs fct ax None "nrg") s (fun _ => Fin 0)) /\
  (exists obs fct : arr, dt obs = DInt /\ ens_args obs fct (-1) [] 0 1 (fun _ => 0) (fun _ => 1) /\
   returns (gksuv_ensemble Array obs fct (-1) None "nrg") [] (fun _ => Fin (1 - exp (- / 2)))).
Proof. exact C37_numba_integer_refuted_l. Qed.
Print Assumptions C37_numba_integer_refuted.

(** C53.  The threshold-weighted univariate score without a chaining function is the kernel
    score of the observation and members moved to the nearest point of [a, b]; with a chaining
    function v it is the kernel score of the values of v (a and b are ignored).  Inputs may have
    any dtype. *)
Theorem C53_chain :
  forall b obs fct a c ax s p M y x e f vf, ens_args obs fct ax s p M y x -> (0 < M)%nat ->
  (thresholds a c /\ clips a c f /\ vf = None \/ exists h, vf = Some h /\ forall t, h (Fin t) = Fin (f t)) ->
  let A r := kobs1 (f (y r)) (fun i => f (member p x r i)) in let B r := kmem1 (fun i => f (member p x r i)) in
  (e = "nrg"%string -> returns (twgksuv_ensemble b obs fct a c ax None vf e) s (fun r => Fin (gk_exact M (A r) (B r)))) /\
  (e = "fair"%string -> (1 < M)%nat -> returns (twgksuv_ensemble b obs fct a c ax None vf e) s (fun r => Fin (gk_fair M (A r) (B r)))) /\
  (e = "akr"%string -> returns (twgksuv_ensemble b obs fct a c ax None vf e) s (fun r => Fin (gk_lag M (lag1 M) (A r) (B r)))) /\
  (e = "akr_circperm"%string -> returns (twgksuv_ensemble b obs fct a c ax None vf e) s (fun r => Fin (gk_lag M (lagc M) (A r) (B r)))).
Proof. exact C53_chain_l. Qed.
Print Assumptions C53_chain.
Example C53_case : thresholds (Fin 0) PInf /\ clips (Fin 0) PInf (Rmax 0).
Proof.
  split; [exact I|]. intros t. unfold below, above. split; [|split]; intros H.
  - apply Rmax_right. tauto.
  - f_equal. apply Rmax_left. lra.
  - tauto.
Qed.

(** C53.  The same with ensemble weights, estimators nrg and akr. *)
Theorem C53_chain_weighted :
  forall b obs fct wt a c ax s p M y x w e f vf, ens_args obs fct ax s p M y x -> (0 < M)%nat -> uv_wts wt s p M w ->
  (thresholds a c /\ clips a c f /\ vf = None \/ exists h, vf = Some h /\ forall t, h (Fin t) = Fin (f t)) ->
  let A r := kobs1 (f (y r)) (fun i => f (member p x r i)) in let B r := kmem1 (fun i => f (member p x r i)) in
  let W r := nw M (member p w r) in
  (e = "nrg"%string -> returns (twgksuv_ensemble b obs fct a c ax (Some wt) vf e) s (fun r => Fin (gk_wexact M (W r) (A r) (B r)))) /\
  (e = "akr"%string -> returns (twgksuv_ensemble b obs fct a c ax (Some wt) vf e) s (fun r => Fin (gk_wlag M (lag1 M) (W r) (A r) (B r)))).
Proof. exact C53_chain_weighted_l. Qed.
Print Assumptions C53_chain_weighted.

(** C53.  With the default thresholds -inf and inf the threshold-weighted score of float
    observations is the kernel score, all estimators. *)
Theorem C53_default :
  forall b obs fct ax s p M y x e, ens_args obs fct ax s p M y x -> (0 < M)%nat -> dt obs = DFloat ->
  In e ["nrg"; "fair"; "akr"; "akr_circperm"]%string -> (e = "fair"%string -> (1 < M)%nat) ->
  exists u, returns (gksuv_ensemble b obs fct ax None e) s (fun r => Fin (u r)) /\
            returns (twgksuv_ensemble b obs fct NInf PInf ax None None e) s (fun r => Fin (u r)).
Proof. exact C53_default_l. Qed.
Print Assumptions C53_default.

(** C53.  Multivariate: with a chaining function v that acts on the vectors at each grid point,
    the kernel score of the transformed vectors. *)
Theorem C53_mv_chain :
  forall b obs fct obs' fct' vf m v s p q M D y x y' x' h e,
  vf obs = Ok obs' -> vf fct = Ok fct' ->
  mv_args obs' fct' m v s p q M D y' x' -> (0 < M)%nat -> (0 < D)%nat -> (b = Numba -> floats obs' fct') ->
  (forall r k, inb s r -> (k < D)%nat -> obsv q y' r k = h (obsv q y r) k) ->
  (forall r i k, inb s r -> (i < M)%nat -> (k < D)%nat -> memv p q x' r i k = h (memv p q x r i) k) ->
  let A r := kobsD D (h (obsv q y r)) (fun i => h (memv p q x r i)) in let B r := kmemD D (fun i => h (memv p q x r i)) in
  (e = "nrg"%string -> returns (twgksmv_ensemble b obs fct vf m v None e) s (fun r => Fin (gk_exact M (A r) (B r)))) /\
  (e = "fair"%string -> (1 < M)%nat -> returns (twgksmv_ensemble b obs fct vf m v None e) s (fun r => Fin (gk_fair M (A r) (B r)))) /\
  (e = "akr"%string -> returns (twgksmv_ensemble b obs fct vf m v None e) s (fun r => Fin (gk_lag M (lag1 M) (A r) (B r)))) /\
  (e = "akr_circperm"%string -> returns (twgksmv_ensemble b obs fct vf m v None e) s (fun r => Fin (gk_lag M (lagc M) (A r) (B r)))).
Proof. exact C53_mv_chain_l. Qed.
Print Assumptions C53_mv_chain.

(** C53.  Outcome-weighted scores: member i has probability w(x_i) / sum w(x), and the result is
    multiplied by w(y).  w is the indicator of [a, c] or a user function. *)
Theorem C53_outcome :
  (forall b obs fct a c wf g ax s p M y x, ens_args obs fct ax s p M y x -> (0 < M)%nat -> (b = Numba -> dt obs = DFloat) ->
   weighting a c wf g -> (forall t, 0 <= g t) ->
   let gx r k := g (member p x r k) in (forall r, inb s r -> 0 < sumn M (gx r)) ->
   returns (owgksuv_ensemble b obs fct a c ax None wf) s
     (fun r => Fin (g (y r) * gk_wexact M (nw M (gx r)) (kobs1 (y r) (member p x r)) (kmem1 (member p x r))))) /\
  (forall b obs fct wf g m v s p q M D y x, mv_args obs fct m v s p q M D y x -> (0 < M)%nat -> (0 < D)%nat -> ~ In 0%nat s ->
   (b = Numba -> floats obs fct) -> vweight D wf g ->
   let gx r k := g (memv p q x r k) in (forall r, inb s r -> 0 < sumn M (gx r)) ->
   returns (owgksmv_ensemble b obs fct wf m v None) s
     (fun r => Fin (g (obsv q y r) * gk_wexact M (nw M (gx r)) (kobsD D (obsv q y r) (memv p q x r)) (kmemD D (memv p q x r))))).
Proof. exact C53_outcome_l. Qed.
Print Assumptions C53_outcome.
(** weight 1 on [0, inf), members 0 and 1 *)
Example C53_case_outcome : weighting (Fin 0) PInf None (fun t => if Rle_dec 0 t then 1 else 0) /\
  0 < sumn 2 (fun k => (fun t => if Rle_dec 0 t then 1 else 0) (INR k)).
Proof.
  split.
  - intros t. unfold below, above. destruct (Rle_dec 0 t); split; auto; tauto.
  - unfold sumn, Rsum. simpl. repeat destruct (Rle_dec _ _); lra.
Qed.

(** C53.  Vertically re-scaled scores. *)
Theorem C53_vertical :
  (forall b obs fct a c wf g ax s p M y x, ens_args obs fct ax s p M y x -> (0 < M)%nat -> (b = Numba -> dt obs = DFloat) ->
   weighting a c wf g -> (forall t, 0 <= g t) ->
   returns (vrgksuv_ensemble b obs fct a c ax None wf) s
     (fun r => Fin (gk_vr M (g (y r)) (fun k => g (member p x r k) / INR M) (kobs1 (y r) (member p x r)) (kmem1 (member p x r))))) /\
  (forall b obs fct wf g m v s p q M D y x, mv_args obs fct m v s p q M D y x -> (0 < M)%nat -> (0 < D)%nat -> ~ In 0%nat s ->
   (b = Numba -> floats obs fct) -> vweight D wf g ->
   returns (vrgksmv_ensemble b obs fct wf m v None) s
     (fun r => Fin (gk_vr M (g (obsv q y r)) (fun k => g (memv p q x r k) / INR M) (kobsD D (obsv q y r) (memv p q x r)) (kmemD D (memv p q x r))))).
Proof. exact C53_vertical_l. Qed.
Print Assumptions C53_vertical.

(** C53.  With ensemble weights: univariate, both implementations. *)
Theorem C53_weighted :
  forall b obs fct wt a c wf g ax s p M y x w, ens_args obs fct ax s p M y x -> (0 < M)%nat -> (b = Numba -> dt obs = DFloat) ->
  weighting a c wf g -> (forall t, 0 <= g t) -> uv_wts wt s p M w ->
  let u r k := g (member p x r k) * nw M (member p w r) k in
  ((forall r, inb s r -> 0 < sumn M (u r)) ->
   returns (owgksuv_ensemble b obs fct a c ax (Some wt) wf) s
     (fun r => Fin (g (y r) * gk_wexact M (nw M (u r)) (kobs1 (y r) (member p x r)) (kmem1 (member p x r))))) /\
  returns (vrgksuv_ensemble b obs fct a c ax (Some wt) wf) s
    (fun r => Fin (gk_vr M (g (y r)) (u r) (kobs1 (y r) (member p x r)) (kmem1 (member p x r)))).
Proof. exact C53_weighted_l. Qed.
Print Assumptions C53_weighted.

(** C53.  With ensemble weights: multivariate, array implementation. *)
Theorem C53_mv_weighted :
  forall obs fct wt wf g m v s p q M D y x w,
  mv_args obs fct m v s p q M D y x -> (0 < M)%nat -> (0 < D)%nat -> ~ In 0%nat s ->
  vweight D wf g -> (q < p)%nat -> mv_wts wt s (wpos p q) M w ->
  let u r k := g (memv p q x r k) * nw M (member (wpos p q) w r) k in
  ((forall r, inb s r -> 0 < sumn M (u r)) ->
   returns (owgksmv_ensemble Array obs fct wf m v (Some wt)) s
    (fun r => Fin (g (obsv q y r) * gk_wexact M (nw M (u r)) (kobsD D (obsv q y r) (memv p q x r)) (kmemD D (memv p q x r))))) /\
  returns (vrgksmv_ensemble Array obs fct wf m v (Some wt)) s
    (fun r => Fin (gk_vr M (g (obsv q y r)) (u r) (kobsD D (obsv q y r) (memv p q x r)) (kmemD D (memv p q x r)))).
Proof. exact C53_mv_weighted_l. Qed.
Print Assumptions C53_mv_weighted.

(** C53 fails for the compiled implementation: with ensemble weights the multivariate
    outcome-weighted and vertically re-scaled kernel scores always raise.  The first indexes a
    scalar; the second lacks its decorator and is called as a plain function. *)
Theorem C53_mv_numba_refuted :
  forall obs fct wt wf g m v s p q M D y x w,
  mv_args obs fct m v s p q M D y x -> (0 < M)%nat -> (0 < D)%nat -> ~ In 0%nat s ->
  vweight D wf g -> (q < p)%nat -> mv_wts wt s (wpos p q) M w ->
  raises (owgksmv_ensemble Numba obs fct wf m v (Some wt)) NumbaError /\
  (raises (vrgksmv_ensemble Numba obs fct wf m v (Some wt)) IndexError \/
   raises (vrgksmv_ensemble Numba obs fct wf m v (Some wt)) TypeError).
Proof. exact C53_mv_numba_refuted_l. Qed.
Print Assumptions C53_mv_numba_refuted.
Example C53_case_numba : mv_args (real1 2 (fun _ => 0)) (real2 2 2 (fun i k => INR i)) (-2) (-1) [] 1 0 2 2
    (fun _ => 0) (fun i => INR (hd 0%nat (tl i))) /\
  mv_wts (real1 2 (fun _ => 1)) [] (wpos 1 0) 2 (fun _ => 1) /\ vweight 2 (DFloat, fun _ => Fin 1) (fun _ => 1).
Proof.
  split; [repeat split; simpl; auto; now left|]. split; [|intros u; split; [reflexivity|lra]].
  split; [repeat split|]. split; intros; [unfold member; lra|]. unfold sumn, Rsum, member; simpl. lra.
Qed.

(** C53.  The weight function 1 gives the kernel score. *)
Theorem C53_unit :
  (forall b obs fct a c wf ax s p M y x, ens_args obs fct ax s p M y x -> (0 < M)%nat -> (b = Numba -> dt obs = DFloat) ->
   weighting a c wf (fun _ => 1) ->
   exists u, returns (gksuv_ensemble b obs fct ax None "nrg") s (fun r => Fin (u r)) /\
             returns (owgksuv_ensemble b obs fct a c ax None wf) s (fun r => Fin (u r)) /\
             returns (vrgksuv_ensemble b obs fct a c ax None wf) s (fun r => Fin (u r))) /\
  (forall b obs fct wf m v s p q M D y x, mv_args obs fct m v s p q M D y x -> (0 < M)%nat -> (0 < D)%nat -> ~ In 0%nat s ->
   (b = Numba -> floats obs fct) -> vweight D wf (fun _ => 1) ->
   exists u, returns (gksmv_ensemble b obs fct m v None "nrg") s (fun r => Fin (u r)) /\
             returns (owgksmv_ensemble b obs fct wf m v None) s (fun r => Fin (u r)) /\
             returns (vrgksmv_ensemble b obs fct wf m v None) s (fun r => Fin (u r))).
Proof. exact C53_unit_l. Qed.
Print Assumptions C53_unit.

(** C53.  The outcome-weighted and the vertically re-scaled scores are never negative. *)
Theorem C53_nonnegative :
  (forall b obs fct a c wf g ax s p M y x, ens_args obs fct ax s p M y x -> (0 < M)%nat -> (b = Numba -> dt obs = DFloat) ->
   weighting a c wf g -> (forall t, 0 <= g t) ->
   ((forall r, inb s r -> 0 < sumn M (fun k => g (member p x r k))) ->
    exists u, returns (owgksuv_ensemble b obs fct a c ax None wf) s (fun r => Fin (u r)) /\ forall r, inb s r -> 0 <= u r) /\
   exists u, returns (vrgksuv_ensemble b obs fct a c ax None wf) s (fun r => Fin (u r)) /\ forall r, 0 <= u r) /\
  (forall b obs fct wf g m v s p q M D y x, mv_args obs fct m v s p q M D y x -> (0 < M)%nat -> (0 < D)%nat -> ~ In 0%nat s ->
   (b = Numba -> floats obs fct) -> vweight D wf g ->
   ((forall r, inb s r -> 0 < sumn M (fun k => g (memv p q x r k))) ->
    exists u, returns (owgksmv_ensemble b obs fct wf m v None) s (fun r => Fin (u r)) /\ forall r, inb s r -> 0 <= u r) /\
   exists u, returns (vrgksmv_ensemble b obs fct wf m v None) s (fun r => Fin (u r)) /\ forall r, 0 <= u r).
Proof. exact C53_nonnegative_l. Qed.
Print Assumptions C53_nonnegative.
