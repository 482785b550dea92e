(** Properties C75 and C76: how far a score moves when its arguments move, convexity in the
    observation, and pooling of ensembles.  [y r] is the observation at grid point [r],
    [member p x r i] member i of the ensemble there. *)
From Verif Require Import T_stab L_examples.
From Coq Require Import Psatz.
Open Scope R_scope.

(** C75.  If the observation moves by at most dy and no member by more than dx, crps_ensemble moves by at most dy + 2 dx, with every estimator. *)
Theorem C75_crps :
forall srt b obs fct obs' fct' ax s p M y x y' x' dy dx e sf pol,
  argsort_ok srt -> ens_args obs fct ax s p M y x -> ens_args obs' fct' ax s p M y' x' ->
  (0 < M)%nat -> In e ["nrg"; "fair"; "pwm"; "qd"; "int"; "akr"; "akr_circperm"]%string -> (In e ["fair"; "pwm"]%string -> (1 < M)%nat) -> In pol ["propagate"; "raise"]%string ->
  (b = Numba -> dt obs = DFloat /\ dt obs' = DFloat) -> sorted_if sf s p M x -> sorted_if sf s p M x' ->
  (forall r, inb s r -> Rabs (y' r - y r) <= dy r) ->
  (forall r i, inb s r -> (i < M)%nat -> Rabs (member p x' r i - member p x r i) <= dx r) ->
  exists v v', returns (crps_ensemble srt b obs fct ax None e sf pol) s (fun r => Fin (v r)) /\
    returns (crps_ensemble srt b obs' fct' ax None e sf pol) s (fun r => Fin (v' r)) /\
    forall r, inb s r -> Rabs (v' r - v r) <= dy r + 2 * dx r.
Proof. exact C75_crps_l. Qed.
Print Assumptions C75_crps.
(** two grid points, three members; the observations moved by 1 and the members by 2 *)
Example C75_crps_case : argsort_ok asort /\ ens_args ex_obs ex_fct 0 (2%nat :: nil) 1 3 ex_y ex_x /\ (1 < 3)%nat /\ sorted_if false (2%nat :: nil) 1 3 ex_x /\
  ens_args (farr (2%nat :: nil) (fun r => ex_y r + 1)) (farr (insert_at 1 3%nat (2%nat :: nil)) (fun i => ex_x i - 2)) 0 (2%nat :: nil) 1 3 (fun r => ex_y r + 1) (fun i => ex_x i - 2) /\
  (forall r, Rabs (ex_y r + 1 - ex_y r) <= 1) /\ forall r i, Rabs (member 1 (fun i => ex_x i - 2) r i - member 1 ex_x r i) <= 2.
Proof.
  split; [apply asort_ok|]. split; [apply ex_args|]. split; [lia|]. split; [easy|]. split; [repeat split; simpl; auto; now right|].
  split; intros; apply Rabs_le; unfold member; lra.
Qed.

(** C75.  With ensemble weights the bound is the same, except for the pwm estimator: dy + 3 dx. *)
Theorem C75_crps_weighted :
forall srt b obs fct obs' fct' wt wt' ax s p M y x y' x' w dy dx e sf pol,
  argsort_ok srt -> ens_args obs fct ax s p M y x -> ens_args obs' fct' ax s p M y' x' ->
  wts_args wt fct s p M w -> wts_args wt' fct' s p M w ->
  (0 < M)%nat -> In e ["nrg"; "fair"; "pwm"; "qd"; "int"; "akr"; "akr_circperm"]%string -> (In e ["fair"; "pwm"]%string -> forall r, inb s r -> two_positive M (member p w r)) -> In pol ["propagate"; "raise"]%string ->
  (b = Numba -> dt obs = DFloat /\ dt obs' = DFloat) -> sorted_if sf s p M x -> sorted_if sf s p M x' ->
  (forall r, inb s r -> Rabs (y' r - y r) <= dy r) ->
  (forall r i, inb s r -> (i < M)%nat -> Rabs (member p x' r i - member p x r i) <= dx r) ->
  exists v v', returns (crps_ensemble srt b obs fct ax (Some wt) e sf pol) s (fun r => Fin (v r)) /\
    returns (crps_ensemble srt b obs' fct' ax (Some wt') e sf pol) s (fun r => Fin (v' r)) /\
    forall r, inb s r -> Rabs (v' r - v r) <= dy r + (if String.eqb e "pwm" then 3 else 2) * dx r.
Proof. exact C75_crps_weighted_l. Qed.
Print Assumptions C75_crps_weighted.
(** weights 1, 2, 0 *)
Example C75_crps_weighted_case : ens_args ex_obs ex_fct 0 (2%nat :: nil) 1 3 ex_y ex_x /\ wts_args ex_wt ex_fct (2%nat :: nil) 1 3 ex_w /\ (forall r, Rabs (ex_y r - ex_y r) <= 0).
Proof. split; [apply ex_args|]. split; [apply ex_wargs|]. intros r. rewrite Rminus_eq_0, Rabs_R0. lra. Qed.

(** C75.  If the observation moves by a distance of at most dy and no member by more than dx, the energy score moves by at most dy + 2 dx. *)
Theorem C75_energy :
forall b obs fct obs' fct' m v s p q M D y x y' x' dy dx e,
  mv_args obs fct m v s p q M D y x -> mv_args obs' fct' m v s p q M D y' x' ->
  (0 < M)%nat -> (0 < D)%nat -> (b = Numba -> floats obs fct /\ floats obs' fct') ->
  In e ["nrg"; "fair"; "akr"; "akr_circperm"]%string -> (e = "fair"%string -> (1 < M)%nat) ->
  (forall r, inb s r -> eucl D (obsv q y' r) (obsv q y r) <= dy r) ->
  (forall r i, inb s r -> (i < M)%nat -> eucl D (memv p q x' r i) (memv p q x r i) <= dx r) ->
  exists u u', returns (es_ensemble b obs fct m v None e) s (fun r => Fin (u r)) /\
    returns (es_ensemble b obs' fct' m v None e) s (fun r => Fin (u' r)) /\
    forall r, inb s r -> Rabs (u' r - u r) <= dy r + 2 * dx r.
Proof. exact C75_energy_l. Qed.
Print Assumptions C75_energy.
(** two members in the plane *)
Example C75_energy_case : mv_args (real1 2 INR) (real2 2 2 (fun i k => INR (i * k))) (-2) (-1) nil 1 0 2 2 (fun i => INR (hd 0%nat i)) (fun i => INR (hd 0%nat (tl i) * hd 0%nat i)) /\ eucl 2 INR INR <= 0.
Proof. split; [apply real2_args|]. rewrite eucl_refl. lra. Qed.

(** C75.  The same with ensemble weights. *)
Theorem C75_energy_weighted :
forall b obs fct obs' fct' wt wt' m v s p q M D y x y' x' w dy dx e,
  mv_args obs fct m v s p q M D y x -> mv_args obs' fct' m v s p q M D y' x' ->
  (0 < M)%nat -> (0 < D)%nat -> (b = Numba -> floats obs fct /\ floats obs' fct') ->
  (q < p)%nat -> mv_wts wt s (wpos p q) M w -> mv_wts wt' s (wpos p q) M w ->
  In e ["nrg"; "fair"; "akr"; "akr_circperm"]%string -> (e = "fair"%string -> forall r, inb s r -> two_positive M (member (wpos p q) w r)) ->
  (forall r, inb s r -> eucl D (obsv q y' r) (obsv q y r) <= dy r) ->
  (forall r i, inb s r -> (i < M)%nat -> eucl D (memv p q x' r i) (memv p q x r i) <= dx r) ->
  exists u u', returns (es_ensemble b obs fct m v (Some wt) e) s (fun r => Fin (u r)) /\
    returns (es_ensemble b obs' fct' m v (Some wt') e) s (fun r => Fin (u' r)) /\
    forall r, inb s r -> Rabs (u' r - u r) <= dy r + 2 * dx r.
Proof. exact C75_energy_weighted_l. Qed.
Print Assumptions C75_energy_weighted.
(** weights 1 and 2 *)
Example C75_energy_weighted_case : mv_wts (real1 2 (fun k => INR k + 1)) nil (wpos 1 0) 2 (fun i => INR (hd 0%nat i) + 1) /\ (0 < 1)%nat.
Proof. split; [|lia]. apply (real1_wts 2 (fun k => INR k + 1)); [intros k _; pose proof (pos_INR k); lra|unfold sumn, Rsum; simpl; lra]. Qed.

(** C75.  quantile_score moves by at most max(alpha, 1 - alpha) times the moves of forecast and observation. *)
Theorem C75_quantile :
forall obs fct obs' fct' al s sa y x y' x' a,
  real_arr obs s y -> real_arr fct s x -> real_arr obs' s y' -> real_arr fct' s x' -> real_arr al sa a -> scalar_or sa s ->
  (forall i, inb sa i -> 0 <= a i <= 1) ->
  exists v v', returns (quantile_score obs fct al) s (fun r => Fin (v r)) /\ returns (quantile_score obs' fct' al) s (fun r => Fin (v' r)) /\
    forall r, inb s r -> Rabs (v' r - v r) <= Rmax (entry sa a r) (1 - entry sa a r) * (Rabs (x' r - x r) + Rabs (y' r - y r)).
Proof. exact C75_quantile_l. Qed.
Print Assumptions C75_quantile.
(** level 1/4 *)
Example C75_quantile_case : real_arr ex_obs (2%nat :: nil) ex_y /\ real_arr (num0 (Fin (1/4))) nil (fun _ => 1/4) /\ scalar_or nil (2%nat :: nil) /\ 0 <= 1/4 <= 1.
Proof. repeat split; auto; try lra. now left. Qed.

(** C75.  interval_score moves by at most 1 + 2/alpha times the moves of the bounds and 4/alpha times the move of the observation. *)
Theorem C75_interval :
forall obs lower upper obs' lower' upper' al s sa y l u y' l' u' a,
  real_arr obs s y -> real_arr lower s l -> real_arr upper s u -> real_arr obs' s y' -> real_arr lower' s l' -> real_arr upper' s u' ->
  real_arr al sa a -> scalar_or sa s -> length sa <> 1%nat -> (forall i, inb sa i -> 0 < a i) ->
  exists v v', returns_squeezed (interval_score obs lower upper al) s (fun r => Fin (v r)) /\
    returns_squeezed (interval_score obs' lower' upper' al) s (fun r => Fin (v' r)) /\
    forall r, inb s r -> Rabs (v' r - v r) <= (1 + 2 / entry sa a r) * (Rabs (l' r - l r) + Rabs (u' r - u r)) + 4 / entry sa a r * Rabs (y' r - y r).
Proof. exact C75_interval_l. Qed.
Print Assumptions C75_interval.
(** level 1/4 *)
Example C75_interval_case : real_arr ex_obs (2%nat :: nil) ex_y /\ real_arr (num0 (Fin (1/4))) nil (fun _ => 1/4) /\ scalar_or nil (2%nat :: nil) /\ 0 < 1/4.
Proof. repeat split; auto; try lra. now left. Qed.

(** C76.  crps_ensemble is convex in the observation, with every estimator. *)
Theorem C76_crps_obs :
forall srt b obs obs1 obs2 fct ax s p M y1 y2 x t e sf pol,
  argsort_ok srt -> ens_args obs1 fct ax s p M y1 x -> ens_args obs2 fct ax s p M y2 x ->
  ens_args obs fct ax s p M (fun r => t r * y1 r + (1 - t r) * y2 r) x -> (forall r, inb s r -> 0 <= t r <= 1) ->
  (0 < M)%nat -> In e ["nrg"; "fair"; "pwm"; "qd"; "int"; "akr"; "akr_circperm"]%string -> (In e ["fair"; "pwm"]%string -> (1 < M)%nat) -> In pol ["propagate"; "raise"]%string ->
  (b = Numba -> dt obs = DFloat /\ dt obs1 = DFloat /\ dt obs2 = DFloat) -> sorted_if sf s p M x ->
  exists v v1 v2, returns (crps_ensemble srt b obs fct ax None e sf pol) s (fun r => Fin (v r)) /\
    returns (crps_ensemble srt b obs1 fct ax None e sf pol) s (fun r => Fin (v1 r)) /\
    returns (crps_ensemble srt b obs2 fct ax None e sf pol) s (fun r => Fin (v2 r)) /\
    forall r, inb s r -> v r <= t r * v1 r + (1 - t r) * v2 r.
Proof. exact C76_crps_obs_l. Qed.
Print Assumptions C76_crps_obs.
(** the observation 1 halfway between 0 and 2 *)
Example C76_crps_obs_case : ens_args ex_obs ex_fct 0 (2%nat :: nil) 1 3 ex_y ex_x /\ 0 <= 1/2 <= 1 /\ exact_crps 2 1 INR <= 1/2 * exact_crps 2 0 INR + 1/2 * exact_crps 2 2 INR.
Proof.
  split; [apply ex_args|]. split; [lra|]. replace (exact_crps 2 1 INR) with (exact_crps 2 (1/2 * 0 + (1 - 1/2) * 2) INR) by (f_equal; field).
  pose proof (real_un_convex Nrg 2 0 2 INR (1/2) ltac:(lia) ltac:(discriminate) ltac:(lra)) as H. cbn [real_un] in H. lra.
Qed.

(** C76.  The same with ensemble weights. *)
Theorem C76_crps_obs_weighted :
forall srt b obs obs1 obs2 fct wt ax s p M y1 y2 x w t e sf pol,
  argsort_ok srt -> ens_args obs1 fct ax s p M y1 x -> ens_args obs2 fct ax s p M y2 x ->
  ens_args obs fct ax s p M (fun r => t r * y1 r + (1 - t r) * y2 r) x -> (forall r, inb s r -> 0 <= t r <= 1) -> wts_args wt fct s p M w ->
  (0 < M)%nat -> In e ["nrg"; "fair"; "pwm"; "qd"; "int"; "akr"; "akr_circperm"]%string -> (In e ["fair"; "pwm"]%string -> forall r, inb s r -> two_positive M (member p w r)) -> In pol ["propagate"; "raise"]%string ->
  (b = Numba -> dt obs = DFloat /\ dt obs1 = DFloat /\ dt obs2 = DFloat) -> sorted_if sf s p M x ->
  exists v v1 v2, returns (crps_ensemble srt b obs fct ax (Some wt) e sf pol) s (fun r => Fin (v r)) /\
    returns (crps_ensemble srt b obs1 fct ax (Some wt) e sf pol) s (fun r => Fin (v1 r)) /\
    returns (crps_ensemble srt b obs2 fct ax (Some wt) e sf pol) s (fun r => Fin (v2 r)) /\
    forall r, inb s r -> v r <= t r * v1 r + (1 - t r) * v2 r.
Proof. exact C76_crps_obs_weighted_l. Qed.
Print Assumptions C76_crps_obs_weighted.
Example C76_crps_obs_weighted_case : ens_args ex_obs ex_fct 0 (2%nat :: nil) 1 3 ex_y ex_x /\ wts_args ex_wt ex_fct (2%nat :: nil) 1 3 ex_w /\ 0 <= 1/2 <= 1.
Proof. split; [apply ex_args|]. split; [apply ex_wargs|lra]. Qed.

(** C76.  The energy score is convex in the observation. *)
Theorem C76_energy_obs :
forall b obs obs1 obs2 fct m v s p q M D y y1 y2 x t e,
  mv_args obs fct m v s p q M D y x -> mv_args obs1 fct m v s p q M D y1 x -> mv_args obs2 fct m v s p q M D y2 x ->
  (forall r k, inb s r -> (k < D)%nat -> obsv q y r k = t r * obsv q y1 r k + (1 - t r) * obsv q y2 r k) -> (forall r, inb s r -> 0 <= t r <= 1) ->
  (0 < M)%nat -> (0 < D)%nat -> (b = Numba -> floats obs fct /\ floats obs1 fct /\ floats obs2 fct) ->
  In e ["nrg"; "fair"; "akr"; "akr_circperm"]%string -> (e = "fair"%string -> (1 < M)%nat) ->
  exists u u1 u2, returns (es_ensemble b obs fct m v None e) s (fun r => Fin (u r)) /\
    returns (es_ensemble b obs1 fct m v None e) s (fun r => Fin (u1 r)) /\
    returns (es_ensemble b obs2 fct m v None e) s (fun r => Fin (u2 r)) /\
    forall r, inb s r -> u r <= t r * u1 r + (1 - t r) * u2 r.
Proof. exact C76_energy_obs_l. Qed.
Print Assumptions C76_energy_obs.
Example C76_energy_obs_case : mv_args (real1 2 INR) (real2 2 2 (fun i k => INR (i * k))) (-2) (-1) nil 1 0 2 2 (fun i => INR (hd 0%nat i)) (fun i => INR (hd 0%nat (tl i) * hd 0%nat i)) /\ 0 <= 1/2 <= 1.
Proof. split; [apply real2_args|lra]. Qed.

(** C76.  Pooling an ensemble of M and one of N members scores no worse than the mean of their scores, weighted by their sizes. *)
Theorem C76_crps_pool :
forall srt b obs fct fct1 fct2 ax s p M N y x x1 x2 e sf pol,
  argsort_ok srt -> ens_args obs fct ax s p (M + N) y x -> ens_args obs fct1 ax s p M y x1 -> ens_args obs fct2 ax s p N y x2 ->
  (forall r i, inb s r -> (i < M)%nat -> member p x r i = member p x1 r i) ->
  (forall r i, inb s r -> (i < N)%nat -> member p x r (M + i) = member p x2 r i) ->
  (0 < M)%nat -> (0 < N)%nat -> In e ["nrg"; "qd"; "int"]%string -> In pol ["propagate"; "raise"]%string -> (b = Numba -> dt obs = DFloat) ->
  sorted_if sf s p (M + N) x -> sorted_if sf s p M x1 -> sorted_if sf s p N x2 ->
  exists v v1 v2, returns (crps_ensemble srt b obs fct ax None e sf pol) s (fun r => Fin (v r)) /\
    returns (crps_ensemble srt b obs fct1 ax None e sf pol) s (fun r => Fin (v1 r)) /\
    returns (crps_ensemble srt b obs fct2 ax None e sf pol) s (fun r => Fin (v2 r)) /\
    forall r, inb s r -> v r <= (INR M * v1 r + INR N * v2 r) / (INR M + INR N).
Proof. exact C76_crps_pool_l. Qed.
Print Assumptions C76_crps_pool.
(** members 0 and 1 as two ensembles of one member *)
Example C76_crps_pool_case : argsort_ok asort /\ ens_args (farr nil (fun _ => 1)) (real1 (1 + 1) INR) (-1) nil 0 (1 + 1) (fun _ => 1) (fun i => INR (hd 0%nat i)) /\ ens_args (farr nil (fun _ => 1)) (real1 1 INR) (-1) nil 0 1 (fun _ => 1) (fun i => INR (hd 0%nat i)) /\
  member 0 (fun i => INR (hd 0%nat i)) nil (1 + 0)%nat = member 0 (fun i => INR (hd 0%nat i) + 1) nil 0%nat.
Proof. split; [apply asort_ok|]. split; [apply real0_args|]. split; [apply real0_args|]. unfold member; simpl. ring. Qed.

(** C76.  With ensemble weights, the ensembles count by their total weights. *)
Theorem C76_crps_pool_weighted :
forall srt b obs fct fct1 fct2 wt wt1 wt2 ax s p M N y x x1 x2 w w1 w2 e sf pol,
  argsort_ok srt -> ens_args obs fct ax s p (M + N) y x -> ens_args obs fct1 ax s p M y x1 -> ens_args obs fct2 ax s p N y x2 ->
  wts_args wt fct s p (M + N) w -> wts_args wt1 fct1 s p M w1 -> wts_args wt2 fct2 s p N w2 ->
  (forall r i, inb s r -> (i < M)%nat -> member p x r i = member p x1 r i) ->
  (forall r i, inb s r -> (i < N)%nat -> member p x r (M + i) = member p x2 r i) ->
  (forall r i, inb s r -> (i < M)%nat -> member p w r i = member p w1 r i) ->
  (forall r i, inb s r -> (i < N)%nat -> member p w r (M + i) = member p w2 r i) ->
  In e ["nrg"; "qd"; "int"]%string -> In pol ["propagate"; "raise"]%string -> (b = Numba -> dt obs = DFloat) ->
  sorted_if sf s p (M + N) x -> sorted_if sf s p M x1 -> sorted_if sf s p N x2 -> (0 < M)%nat -> (0 < N)%nat ->
  exists v v1 v2, returns (crps_ensemble srt b obs fct ax (Some wt) e sf pol) s (fun r => Fin (v r)) /\
    returns (crps_ensemble srt b obs fct1 ax (Some wt1) e sf pol) s (fun r => Fin (v1 r)) /\
    returns (crps_ensemble srt b obs fct2 ax (Some wt2) e sf pol) s (fun r => Fin (v2 r)) /\
    forall r, inb s r -> let A := sumn M (member p w1 r) in let B := sumn N (member p w2 r) in
      v r <= (A * v1 r + B * v2 r) / (A + B).
Proof. exact C76_crps_pool_weighted_l. Qed.
Print Assumptions C76_crps_pool_weighted.
(** one member of weight 1 and one of weight 2 *)
Example C76_crps_pool_weighted_case : wts_args (real1 (1 + 1) (fun k => INR k + 1)) (real1 (1 + 1) INR) nil 0 (1 + 1) (fun i => INR (hd 0%nat i) + 1).
Proof. apply (real0_wts (1 + 1) INR (fun k => INR k + 1)); [intros k _; pose proof (pos_INR k); lra|unfold sumn, Rsum; simpl; lra]. Qed.

(** C76.  The same for the energy score. *)
Theorem C76_energy_pool :
forall b obs fct fct1 fct2 m v s p q M N D y x x1 x2,
  mv_args obs fct m v s p q (M + N) D y x -> mv_args obs fct1 m v s p q M D y x1 -> mv_args obs fct2 m v s p q N D y x2 ->
  (forall r i k, inb s r -> (i < M)%nat -> (k < D)%nat -> memv p q x r i k = memv p q x1 r i k) ->
  (forall r i k, inb s r -> (i < N)%nat -> (k < D)%nat -> memv p q x r (M + i) k = memv p q x2 r i k) ->
  (0 < M)%nat -> (0 < N)%nat -> (0 < D)%nat -> (b = Numba -> floats obs fct /\ floats obs fct1 /\ floats obs fct2) ->
  exists u u1 u2, returns (es_ensemble b obs fct m v None "nrg") s (fun r => Fin (u r)) /\
    returns (es_ensemble b obs fct1 m v None "nrg") s (fun r => Fin (u1 r)) /\
    returns (es_ensemble b obs fct2 m v None "nrg") s (fun r => Fin (u2 r)) /\
    forall r, inb s r -> u r <= (INR M * u1 r + INR N * u2 r) / (INR M + INR N).
Proof. exact C76_energy_pool_l. Qed.
Print Assumptions C76_energy_pool.
Example C76_energy_pool_case : mv_args (real1 2 INR) (real2 (1 + 1) 2 (fun i k => INR (i * k))) (-2) (-1) nil 1 0 (1 + 1) 2 (fun i => INR (hd 0%nat i)) (fun i => INR (hd 0%nat (tl i) * hd 0%nat i)).
Proof. apply real2_args. Qed.

(** C76.  The same with ensemble weights. *)
Theorem C76_energy_pool_weighted :
forall b obs fct fct1 fct2 wt wt1 wt2 m v s p q M N D y x x1 x2 w w1 w2,
  mv_args obs fct m v s p q (M + N) D y x -> mv_args obs fct1 m v s p q M D y x1 -> mv_args obs fct2 m v s p q N D y x2 ->
  (q < p)%nat -> mv_wts wt s (wpos p q) (M + N) w -> mv_wts wt1 s (wpos p q) M w1 -> mv_wts wt2 s (wpos p q) N w2 ->
  (forall r i k, inb s r -> (i < M)%nat -> (k < D)%nat -> memv p q x r i k = memv p q x1 r i k) ->
  (forall r i k, inb s r -> (i < N)%nat -> (k < D)%nat -> memv p q x r (M + i) k = memv p q x2 r i k) ->
  (forall r i, inb s r -> (i < M)%nat -> member (wpos p q) w r i = member (wpos p q) w1 r i) ->
  (forall r i, inb s r -> (i < N)%nat -> member (wpos p q) w r (M + i) = member (wpos p q) w2 r i) ->
  (0 < M)%nat -> (0 < N)%nat -> (0 < D)%nat -> (b = Numba -> floats obs fct /\ floats obs fct1 /\ floats obs fct2) ->
  exists u u1 u2, returns (es_ensemble b obs fct m v (Some wt) "nrg") s (fun r => Fin (u r)) /\
    returns (es_ensemble b obs fct1 m v (Some wt1) "nrg") s (fun r => Fin (u1 r)) /\
    returns (es_ensemble b obs fct2 m v (Some wt2) "nrg") s (fun r => Fin (u2 r)) /\
    forall r, inb s r -> let A := sumn M (member (wpos p q) w1 r) in let B := sumn N (member (wpos p q) w2 r) in
      u r <= (A * u1 r + B * u2 r) / (A + B).
Proof. exact C76_energy_pool_weighted_l. Qed.
Print Assumptions C76_energy_pool_weighted.
Example C76_energy_pool_weighted_case : mv_wts (real1 (1 + 1) (fun k => INR k + 1)) nil (wpos 1 0) (1 + 1) (fun i => INR (hd 0%nat i) + 1) /\ (0 < 1)%nat.
Proof. split; [|lia]. apply (real1_wts (1 + 1) (fun k => INR k + 1)); [intros k _; pose proof (pos_INR k); lra|unfold sumn, Rsum; simpl; lra]. Qed.

(** C76.  The fair estimator can punish pooling: the members 0 and 1 pooled with the members 0 and 1 score worse than each pair. *)
Theorem C76_fair_pool_refuted :
exists v1 v, v1 < v /\ forall srt b, argsort_ok srt ->
  returns (crps_ensemble srt b (farr nil (fun _ => 0)) (real1 2 INR) (-1) None "fair" false "propagate") nil (fun _ => Fin v1) /\
  returns (crps_ensemble srt b (farr nil (fun _ => 0)) (real1 4 (fun k => INR (k mod 2))) (-1) None "fair" false "propagate") nil (fun _ => Fin v).
Proof. exact C76_fair_pool_refuted_l. Qed.
Print Assumptions C76_fair_pool_refuted.
