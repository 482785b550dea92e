(** Property C91: the Gaussian kernel scores are half the squared distance of the forecast from the observation, and
    hence continuous in both.  [kernel_call] lists the calls; [nw] divides the weights by their total. *)
From Verif Require Import T_kmetric.
From Coq Require Import Psatz.
Open Scope R_scope.

(** C91.  With the estimator nrg the score is half the squared distance of the forecast, as a weighted point set, from the observation. *)
Theorem C91_value :
forall T s D M w x y, kernel_call "nrg" T s D M w x y ->
  exists u, returns T s (fun r => Fin (u r)) /\ forall r, inb s r -> u r = mmd2 D M (nw M (w r)) (x r) 1 (fun _ => 1) (fun _ => y r) / 2.
Proof. exact C91_value_l. Qed.
Print Assumptions C91_value.
(** the points 0 and 1 on the line *)
Example C91_value_ex : mmd2 1 1 (fun _ => 1) (fun _ _ => 0) 1 (fun _ => 1) (fun _ _ => 1) = 2 * (1 - exp (- (1 / 2))) /\
  kernel_call "nrg" (gksuv_ensemble Numba (num0 (Fin 3)) (real1 2 INR) (-1) (Some (real1 2 (fun k => INR k + 1))) "nrg") nil 1 2
    (fun r => member 0 (fun i => INR (hd 0%nat i) + 1) r) (fun r i _ => member 0 (fun i => INR (hd 0%nat i)) r i) (fun _ _ => 3).
Proof. split; [|apply ex_uvw; now left]. rewrite mmd2_points. unfold gaussD. rewrite sumn_S, sumn_0. do 3 f_equal. field. Qed.

(** C91.  The square root of mmd2 is a distance between weighted point sets, up to sets at distance zero. *)
Theorem C91_distance :
forall D M w x N v z L u t, 0 <= mmd2 D M w x N v z /\ mmd2 D M w x M w x = 0 /\ mmd2 D M w x N v z = mmd2 D N v z M w x /\
  sqrt (mmd2 D M w x L u t) <= sqrt (mmd2 D M w x N v z) + sqrt (mmd2 D N v z L u t).
Proof. exact C91_distance_l. Qed.
Print Assumptions C91_distance.
(** not zero: the points 0 and 1 *)
Example C91_distance_ex : 0 < mmd2 1 1 (fun _ => 1) (fun _ _ => 0) 1 (fun _ => 1) (fun _ _ => 1).
Proof. rewrite mmd2_points. unfold gaussD. rewrite sumn_S, sumn_0. pose proof (exp_increasing (- (0 + (0 - 1) ^ 2) / 2) 0 ltac:(lra)) as H. rewrite exp_0 in H. lra. Qed.

(** C91.  Two forecasts of the same observation, with ensembles of any sizes and any weights: the square roots of the scores differ by at most the distance of the forecasts divided by the square root of 2. *)
Theorem C91_triangle :
forall T T' s D M N w v x z y y', kernel_call "nrg" T s D M w x y -> kernel_call "nrg" T' s D N v z y' ->
  (forall r k, inb s r -> (k < D)%nat -> y' r k = y r k) ->
  exists f g, returns T s (fun r => Fin (f r)) /\ returns T' s (fun r => Fin (g r)) /\ forall r, inb s r ->
    Rabs (sqrt (f r) - sqrt (g r)) <= sqrt (mmd2 D M (nw M (w r)) (x r) N (nw N (v r)) (z r) / 2).
Proof. exact C91_triangle_l. Qed.
Print Assumptions C91_triangle.
Example C91_triangle_ex : kernel_call "nrg" (gksmv_ensemble Array (real1 2 INR) (real2 2 2 (fun i k => INR (i * k))) (-2) (-1) None "nrg") nil 2 2 (fun _ _ => 1)
  (fun r => memv 1 0 (fun i => INR (hd 0%nat (tl i) * hd 0%nat i)) r) (fun r => obsv 0 (fun i => INR (hd 0%nat i)) r).
Proof. exact (ex_mv Array INR). Qed.

(** C91.  The same forecast of two observations: the square root of the score moves by at most the square root of 1 - k(y, y'), hence by at most the distance of the observations divided by the square root of 2. *)
Theorem C91_observation :
forall T T' s D M w x x' y y', kernel_call "nrg" T s D M w x y -> kernel_call "nrg" T' s D M w x' y' ->
  (forall r i k, inb s r -> (i < M)%nat -> (k < D)%nat -> x' r i k = x r i k) ->
  exists f g, returns T s (fun r => Fin (f r)) /\ returns T' s (fun r => Fin (g r)) /\ forall r, inb s r ->
    Rabs (sqrt (g r) - sqrt (f r)) <= sqrt (1 - gaussD D (y r) (y' r)) /\ sqrt (1 - gaussD D (y r) (y' r)) <= eucl D (y r) (y' r) / sqrt 2.
Proof. exact C91_observation_l. Qed.
Print Assumptions C91_observation.
Example C91_observation_ex : forall y, kernel_call "nrg" (gksuv_ensemble Numba (num0 (Fin y)) (real1 2 INR) (-1) (Some (real1 2 (fun k => INR k + 1))) "nrg") nil 1 2
    (fun r => member 0 (fun i => INR (hd 0%nat i) + 1) r) (fun r i _ => member 0 (fun i => INR (hd 0%nat i)) r i) (fun _ _ => y).
Proof. intros y. apply ex_uvw. now left. Qed.

(** C91.  With every estimator: if the observation moves by at most dy and no member by more than dx, the score moves by at most (dy + 2 dx) / sqrt e. *)
Theorem C91_lipschitz :
forall e T T' s D M w x x' y y' dy dx, kernel_call e T s D M w x y -> kernel_call e T' s D M w x' y' ->
  (forall r, inb s r -> eucl D (y' r) (y r) <= dy r) -> (forall r i, inb s r -> (i < M)%nat -> eucl D (x' r i) (x r i) <= dx r) ->
  exists f g, returns T s (fun r => Fin (f r)) /\ returns T' s (fun r => Fin (g r)) /\ forall r, inb s r ->
    Rabs (g r - f r) <= exp (- / 2) * (dy r + 2 * dx r).
Proof. exact C91_lipschitz_l. Qed.
Print Assumptions C91_lipschitz.
Example C91_lipschitz_ex : forall b y, kernel_call "akr" (gksuv_ensemble b (num0 (Fin y)) (real1 2 INR) (-1) (Some (real1 2 (fun k => INR k + 1))) "akr") nil 1 2
    (fun r => member 0 (fun i => INR (hd 0%nat i) + 1) r) (fun r i _ => member 0 (fun i => INR (hd 0%nat i)) r i) (fun _ _ => y).
Proof. intros b y. apply ex_uvw. now right. Qed.

(** C91.  The constant 1 / sqrt e cannot be improved: for one member at 0, near the observation 1. *)
Theorem C91_slope_sharp :
forall c, (forall b y y' f g, returns (gksuv_ensemble b (num0 (Fin y)) (real1 1 (fun _ => 0)) (-1) None "nrg") nil (fun _ => Fin f) ->
    returns (gksuv_ensemble b (num0 (Fin y')) (real1 1 (fun _ => 0)) (-1) None "nrg") nil (fun _ => Fin g) -> Rabs (g - f) <= c * Rabs (y' - y)) -> exp (- / 2) <= c.
Proof. exact C91_slope_sharp_l. Qed.
Print Assumptions C91_slope_sharp.
(** the difference of the scores of the observations 1 and 2 *)
Example C91_slope_sharp_ex : ens_args (num0 (Fin 2)) (real1 1 (fun _ => 0)) (-1) nil 0 1 (fun _ => 2) (fun _ => 0).
Proof. apply (uv_real_args 1 2 (fun _ => 0)). Qed.

(** C91.  With every estimator: the score is at most 1 - exp(-R^2/2) if no member is further than R from the observation, and at least 1/2 - exp(-R^2/2) if no member is closer. *)
Theorem C91_range :
forall e T s D M w x y R, kernel_call e T s D M w x y -> 0 <= R ->
  exists f, returns T s (fun r => Fin (f r)) /\ forall r, inb s r ->
    ((forall i, (i < M)%nat -> eucl D (x r i) (y r) <= R) -> f r <= 1 - exp (- R ^ 2 / 2)) /\
    ((forall i, (i < M)%nat -> R <= eucl D (x r i) (y r)) -> / 2 - exp (- R ^ 2 / 2) <= f r).
Proof. exact C91_range_l. Qed.
Print Assumptions C91_range.
Example C91_range_ex : forall b, kernel_call "nrg" (gksmv_ensemble b (real1 2 INR) (real2 2 2 (fun i k => INR (i * k))) (-2) (-1) None "nrg") nil 2 2 (fun _ _ => 1)
  (fun r => memv 1 0 (fun i => INR (hd 0%nat (tl i) * hd 0%nat i)) r) (fun r => obsv 0 (fun i => INR (hd 0%nat i)) r).
Proof. intros b. apply ex_mv. Qed.
