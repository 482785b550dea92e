(** Property C92: the energy, variogram and ranked probability scores are squared distances of the forecast from the
    observation.  [energy_call] and [vario_call] list the calls; [nw] divides the weights by their total. *)
From Verif Require Import T_emetric.
From Coq Require Import Psatz.
Open Scope R_scope.

(** C92.  The energy score (nrg) is half of edist2 between the forecast, as a weighted point set, and the observation. *)
Theorem C92_energy_value :
forall T s D M w x y, energy_call T s D M w x y ->
  exists u, returns T s (fun r => Fin (u r)) /\ forall r, inb s r -> u r = edist2 D M (nw M (w r)) (x r) 1 (fun _ => 1) (fun _ => y r) / 2.
Proof. exact C92_energy_value_l. Qed.
Print Assumptions C92_energy_value.
Example C92_energy_value_ex : energy_call (es_ensemble Numba (real1 2 INR) (real2 2 2 (fun i k => INR (i * k))) (-2) (-1) (Some (real1 2 (fun k => INR k + 1))) "nrg") nil 2 2
  (fun r => member (wpos 1 0) (fun i => INR (hd 0%nat i) + 1) r) (fun r => memv 1 0 (fun i => INR (hd 0%nat (tl i) * hd 0%nat i)) r) (fun r => obsv 0 (fun i => INR (hd 0%nat i)) r).
Proof. apply (ex_ec Numba INR). Qed.

(** C92.  The square root of edist2 is a distance between point sets of the same total weight, up to sets at distance zero. *)
Theorem C92_energy_distance :
forall D M w x N v z L u t, sumn M w = sumn N v -> sumn N v = sumn L u ->
  0 <= edist2 D M w x N v z /\ edist2 D M w x M w x = 0 /\ edist2 D M w x N v z = edist2 D N v z M w x /\
  sqrt (edist2 D M w x L u t) <= sqrt (edist2 D M w x N v z) + sqrt (edist2 D N v z L u t).
Proof. exact C92_energy_distance_l. Qed.
Print Assumptions C92_energy_distance.
(** the points 0 and 3 on the line are at squared distance 6 *)
Example C92_energy_distance_ex : edist2 1 1 (fun _ => 1) (fun _ _ => 0) 1 (fun _ => 1) (fun _ _ => 3) = 6.
Proof. rewrite edist2_points, eucl_1. rewrite Rabs_left; lra. Qed.

(** C92.  Two forecasts of the same observation, with ensembles of any sizes and any weights: the square roots of the energy scores differ by at most the square root of half of edist2 of the forecasts. *)
Theorem C92_energy_triangle :
forall T T' s D M N w v x z y y', energy_call T s D M w x y -> energy_call T' s D N v z y' ->
  (forall r k, inb s r -> (k < D)%nat -> y' r k = y r k) ->
  exists f g, returns T s (fun r => Fin (f r)) /\ returns T' s (fun r => Fin (g r)) /\ forall r, inb s r ->
    Rabs (sqrt (f r) - sqrt (g r)) <= sqrt (edist2 D M (nw M (w r)) (x r) N (nw N (v r)) (z r) / 2).
Proof. exact C92_energy_triangle_l. Qed.
Print Assumptions C92_energy_triangle.
Example C92_energy_triangle_ex : forall b, energy_call (es_ensemble b (real1 2 INR) (real2 2 2 (fun i k => INR (i * k))) (-2) (-1) (Some (real1 2 (fun k => INR k + 1))) "nrg") nil 2 2
  (fun r => member (wpos 1 0) (fun i => INR (hd 0%nat i) + 1) r) (fun r => memv 1 0 (fun i => INR (hd 0%nat (tl i) * hd 0%nat i)) r) (fun r => obsv 0 (fun i => INR (hd 0%nat i)) r).
Proof. intros b. apply (ex_ec b INR). Qed.

(** C92.  The same forecast of two observations: the square root of the energy score moves by at most the square root of their distance. *)
Theorem C92_energy_observation :
forall T T' s D M w x x' y y', energy_call T s D M w x y -> energy_call T' s D M w x' y' ->
  (forall r i k, inb s r -> (i < M)%nat -> (k < D)%nat -> x' r i k = x r i k) ->
  exists f g, returns T s (fun r => Fin (f r)) /\ returns T' s (fun r => Fin (g r)) /\ forall r, inb s r ->
    Rabs (sqrt (g r) - sqrt (f r)) <= sqrt (eucl D (y' r) (y r)).
Proof. exact C92_energy_observation_l. Qed.
Print Assumptions C92_energy_observation.
Example C92_energy_observation_ex : forall b y, energy_call (es_ensemble b (real1 2 y) (real2 2 2 (fun i k => INR (i * k))) (-2) (-1) (Some (real1 2 (fun k => INR k + 1))) "nrg") nil 2 2
  (fun r => member (wpos 1 0) (fun i => INR (hd 0%nat i) + 1) r) (fun r => memv 1 0 (fun i => INR (hd 0%nat (tl i) * hd 0%nat i)) r) (fun r => obsv 0 (fun i => y (hd 0%nat i)) r).
Proof. exact ex_ec. Qed.

(** C92.  Two forecasts of the same observation: the square roots of the variogram scores (nrg, non-negative pair weights) differ by at most the distance of the expected variograms. *)
Theorem C92_vario_triangle :
forall T T' s D h po M N w v x z y y', vario_call T s D h po M w x y -> vario_call T' s D h po N v z y' ->
  (forall r k, inb s r -> (k < D)%nat -> y' r k = y r k) ->
  exists f g, returns T s (fun r => Fin (f r)) /\ returns T' s (fun r => Fin (g r)) /\ forall r, inb s r ->
    Rabs (sqrt (f r) - sqrt (g r)) <= sqrt (vgap D (h r) po M (nw M (w r)) (x r) N (nw N (v r)) (z r)).
Proof. exact C92_vario_triangle_l. Qed.
Print Assumptions C92_vario_triangle.
Example C92_vario_triangle_ex : forall b, vario_call (vs_ensemble b (real1 3 INR) (real2 2 3 (fun i k => INR (i * k))) None (-2) (-1) None (/ 2) "nrg") nil 3 (fun _ _ _ => 1) (/ 2) 2
  (fun _ _ => 1) (fun r => memv 1 0 (fun i => INR (hd 0%nat (tl i) * hd 0%nat i)) r) (fun r => obsv 0 (fun i => INR (hd 0%nat i)) r).
Proof. intros b. apply (ex_vc b INR). Qed.

(** C92.  Variogram scores of order at most one: if no coordinate of the observation moves by more than dy and none of a member by more than dx, the square root of the score moves by at most ((2 dy)^p + (2 dx)^p) times the square root of the sum of the pair weights off the diagonal. *)
Theorem C92_vario_stable :
forall T T' s D h po M w x x' y y' dy dx, vario_call T s D h po M w x y -> vario_call T' s D h po M w x' y' -> po <= 1 ->
  (forall r k, inb s r -> (k < D)%nat -> Rabs (y' r k - y r k) <= dy r) -> (forall r i k, inb s r -> (i < M)%nat -> (k < D)%nat -> Rabs (x' r i k - x r i k) <= dx r) ->
  exists f g, returns T s (fun r => Fin (f r)) /\ returns T' s (fun r => Fin (g r)) /\ forall r, inb s r ->
    Rabs (sqrt (g r) - sqrt (f r)) <= (vpow (2 * dy r) po + vpow (2 * dx r) po) * sqrt (offdiag D (h r)).
Proof. exact C92_vario_stable_l. Qed.
Print Assumptions C92_vario_stable.
Example C92_vario_stable_ex : (forall b y, vario_call (vs_ensemble b (real1 3 y) (real2 2 3 (fun i k => INR (i * k))) None (-2) (-1) None (/ 2) "nrg") nil 3 (fun _ _ _ => 1) (/ 2) 2
  (fun _ _ => 1) (fun r => memv 1 0 (fun i => INR (hd 0%nat (tl i) * hd 0%nat i)) r) (fun r => obsv 0 (fun i => y (hd 0%nat i)) r)) /\ offdiag 3 (fun _ _ => 1) = 6.
Proof. split; [exact ex_vc|]. unfold offdiag, sumn, Rsum. simpl. ring. Qed.

(** C92.  Ranked probability scores of two forecasts of the same category: the square roots differ by at most the Euclidean distance of the cumulative probabilities; of one forecast and two categories c and c': by at most the square root of |c - c'|. *)
Theorem C92_rps :
forall obs obs' fct fct' ax s p K c c' x x', cat_args obs fct ax s p K c x -> probs s p K x -> (forall r, inb s r -> (0 < c r)%nat) ->
  cat_args obs' fct' ax s p K c' x' -> probs s p K x' -> (forall r, inb s r -> (0 < c' r)%nat) ->
  exists f g, returns (rps_score obs fct ax false) s (fun r => Fin (f r)) /\ returns (rps_score obs' fct' ax false) s (fun r => Fin (g r)) /\ forall r, inb s r ->
    Rabs (sqrt (f r) - sqrt (g r)) <= sqrt (sumn K (fun k => (cum (member p x r) k - cum (member p x' r) k) ^ 2)) + sqrt (Rabs (INR (c r) - INR (c' r))).
Proof. exact C92_rps_l. Qed.
Print Assumptions C92_rps.
Example C92_rps_ex : cat_args (num0 (Fin (INR 2))) (real1 3 (fun k => (INR k + 1) / 6)) (-1) nil 0 3 (fun _ => 2%nat) (fun i => (INR (hd 0%nat i) + 1) / 6) /\
  probs nil 0 3 (fun i => (INR (hd 0%nat i) + 1) / 6).
Proof.
  split; [apply (cat0_args 2 3 (fun k => (INR k + 1) / 6))|]. intros r k Hr Hk. unfold member. cbn [insert_at hd]. destruct k as [|[|[|k]]]; [| | |lia]; simpl; lra.
Qed.
