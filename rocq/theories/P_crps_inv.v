(** Properties C03, C08-C13, C18 of [crps_ensemble]. *)
From Verif Require Import T_crps_inv L_examples.
Open Scope R_scope.

(** C03.  Average of the fair score over all M-samples (with replacement) of a population
    v 0, ..., v (N-1) = exact CRPS of the population. *)
Theorem C03_fair_unbiased :
  forall srt b N M y v sf,
  argsort_ok srt -> (0 < N)%nat -> (1 < M)%nat ->
  exists S : list nat -> R,
    (forall t, In t (samples N M) ->
       returns (crps_ensemble srt b (farr [] (fun _ => y)) (real1 M (fun k => v (nth k t 0%nat))) (-1) None "fair" sf "propagate")
         [] (fun _ => Fin (S t))) /\
    is_crps (ecdf N v) y (average S (samples N M)).
Proof. exact C03_fair_unbiased_l. Qed.
Print Assumptions C03_fair_unbiased.
(** four samples of size 2 from a population of size 2 *)
Example C03_case : samples 2 2 = [[0; 0]; [1; 0]; [0; 1]; [1; 1]]%nat.
Proof. reflexivity. Qed.

(** C03.  The exact estimators are biased by (mean absolute difference) / (2 M). *)
Theorem C03_nrg_bias :
  forall srt b N M y v e,
  argsort_ok srt -> (0 < N)%nat -> (0 < M)%nat -> In e ["nrg"; "qd"; "int"]%string ->
  exists S : list nat -> R,
    (forall t, In t (samples N M) ->
       returns (crps_ensemble srt b (farr [] (fun _ => y)) (real1 M (fun k => v (nth k t 0%nat))) (-1) None e false "propagate")
         [] (fun _ => Fin (S t))) /\
    is_crps (ecdf N v) y (average S (samples N M) - pairsum N v / (INR N * INR N) / (2 * INR M)).
Proof. exact C03_nrg_bias_l. Qed.
Print Assumptions C03_nrg_bias.

(** C08.  Multiplying the weights of a grid point by a positive constant changes nothing. *)
Theorem C08_weight_scale :
  forall srt b obs fct wt wt' ax s p M y x w c e sf pol,
  argsort_ok srt -> ens_args obs fct ax s p M y x -> (0 < M)%nat ->
  wts_args wt fct s p M w -> (forall r, inb s r -> 0 < c r) ->
  wts_args wt' fct s p M (fun i => c (remove_at p i) * w i) ->
  In e ["nrg"; "fair"; "pwm"; "qd"; "int"; "akr"; "akr_circperm"]%string ->
  (In e ["fair"; "pwm"]%string -> forall r, inb s r -> two_positive M (member p w r)) ->
  In pol ["propagate"; "raise"]%string -> (b = Numba -> dt obs = DFloat) -> sorted_if sf s p M x ->
  exists v, returns (crps_ensemble srt b obs fct ax (Some wt) e sf pol) s (fun r => Fin (v r)) /\
            returns (crps_ensemble srt b obs fct ax (Some wt') e sf pol) s (fun r => Fin (v r)).
Proof. exact C08_weight_scale_l. Qed.
Print Assumptions C08_weight_scale.
Example C08_case : wts_args ex_wt ex_fct [2%nat] 1 3 ex_w /\
  wts_args (farr (insert_at 1 3%nat [2%nat]) (fun i => (INR (hd 0%nat (remove_at 1 i)) + 1) * ex_w i)) ex_fct [2%nat] 1 3
     (fun i => (INR (hd 0%nat (remove_at 1 i)) + 1) * ex_w i).
Proof. exact ex_scale. Qed.

(** C08.  A negative weight anywhere raises ValueError, whatever the other inputs. *)
Theorem C08_negative_weight :
  forall srt b obs fct wt ax s p M y x w e sf r k,
  argsort_ok srt -> ens_nums obs fct ax s p M y x -> sh wt = insert_at p M s -> dt fct = DFloat ->
  (forall i, inb (insert_at p M s) i -> at_ wt i = w i) ->
  In e ["nrg"; "fair"; "pwm"; "qd"; "int"; "akr"; "akr_circperm"]%string ->
  inb s r -> (k < M)%nat -> (exists q, member p w r k = Fin q /\ q < 0) \/ member p w r k = NInf ->
  raises (crps_ensemble srt b obs fct ax (Some wt) e sf "propagate") ValueError.
Proof. exact C08_negative_weight_l. Qed.
Print Assumptions C08_negative_weight.
Example C08_negative_case : ens_nums ex_obs ex_fct 0 [2%nat] 1 3 (fun r => Fin (ex_y r)) (fun i => Fin (ex_x i)) /\
  member 1 (fun _ => Fin (-1)) [0%nat] 2 = Fin (-1).
Proof. split; [apply args_nums, ex_args|reflexivity]. Qed.

(** C08.  A weight array with another shape is rejected: ValueError if it has as many axes as
    fct; with another number of axes the error may also be numpy's AxisError. *)
Theorem C08_wrong_shape :
  forall srt b obs fct wt ax s p M y x e sf,
  argsort_ok srt -> ens_nums obs fct ax s p M y x -> sh wt <> sh fct ->
  (length (sh wt) = length (sh fct) -> raises (crps_ensemble srt b obs fct ax (Some wt) e sf "propagate") ValueError) /\
  (raises (crps_ensemble srt b obs fct ax (Some wt) e sf "propagate") ValueError \/
   raises (crps_ensemble srt b obs fct ax (Some wt) e sf "propagate") AxisError).
Proof. exact C08_wrong_shape_l. Qed.
Print Assumptions C08_wrong_shape.
Example C08_wrong_shape_case : sh (farr [2%nat; 2%nat] (fun _ => 1)) <> sh ex_fct.
Proof. discriminate. Qed.

(** C08.  The weights used are non-negative and sum to one at every grid point. *)
Theorem C08_normalised :
  forall wt fct M s w,
  sh fct = M :: s -> real_arr wt (M :: s) w -> (forall i, inb (M :: s) i -> 0 <= w i) ->
  (forall r, inb s r -> 0 < sumn M (fun k => w (k :: r))) ->
  exists v, returns (univariate_weight_check wt fct (-1)) (M :: s) (fun i => Fin (v i)) /\
    (forall i, inb (M :: s) i -> 0 <= v i) /\ (forall r, inb s r -> sumn M (fun k => v (k :: r)) = 1).
Proof. exact C08_normalised_l. Qed.
Print Assumptions C08_normalised.
Example C08_normalised_case : real_arr (real1 2 INR) [2%nat] (fun i => INR (hd 0%nat i)) /\
  (forall r, inb [] r -> 0 < sumn 2 (fun k => INR (hd 0%nat (k :: r)))).
Proof. repeat split; auto. intros; unfold sumn, Rsum; simpl; lra. Qed.

(** C09.  Deleting members of weight zero changes nothing: the second call uses the members
    listed in [keep] only, and every member not listed has weight zero. *)
Theorem C09_zero_weights :
  forall srt b obs fct wt fct' wt' ax s p M y x w keep x' w' e pol,
  argsort_ok srt -> ens_args obs fct ax s p M y x -> (0 < M)%nat -> wts_args wt fct s p M w ->
  ens_args obs fct' ax s p (length keep) y x' -> wts_args wt' fct' s p (length keep) w' ->
  (0 < length keep)%nat -> NoDup keep -> (forall k, In k keep -> (k < M)%nat) ->
  (forall r k, inb s r -> (k < M)%nat -> ~ In k keep -> member p w r k = 0) ->
  (forall r j, inb s r -> (j < length keep)%nat ->
     member p x' r j = member p x r (nth j keep 0%nat) /\ member p w' r j = member p w r (nth j keep 0%nat)) ->
  In e ["nrg"; "fair"; "pwm"; "qd"; "int"]%string ->
  (In e ["fair"; "pwm"]%string -> forall r, inb s r -> two_positive M (member p w r)) ->
  In pol ["propagate"; "raise"]%string -> (b = Numba -> dt obs = DFloat) ->
  exists v, returns (crps_ensemble srt b obs fct ax (Some wt) e false pol) s (fun r => Fin (v r)) /\
            returns (crps_ensemble srt b obs fct' ax (Some wt') e false pol) s (fun r => Fin (v r)).
Proof. exact C09_zero_weights_l. Qed.
Print Assumptions C09_zero_weights.
Example C09_case : wts_args ex_wt ex_fct [2%nat] 1 3 ex_w /\ NoDup [1; 0]%nat /\
  (forall r k, inb [2%nat] r -> (k < 3)%nat -> ~ In k [1; 0]%nat -> member 1 ex_w r k = 0).
Proof. exact ex_zero. Qed.

(** C09.  Integer weights mean repetition: an unweighted ensemble in which member k occurs
    c r k times (in any order) scores like the ensemble weighted by c. *)
Theorem C09_repetition :
  forall srt b obs fct wt fct' ax s p M N y x c x' e sf pol,
  argsort_ok srt -> ens_args obs fct ax s p M y x -> (0 < M)%nat ->
  wts_args wt fct s p M (fun i => INR (c i)) ->
  ens_args obs fct' ax s p N y x' -> (0 < N)%nat ->
  (forall r, inb s r -> Permutation (map (member p x' r) (seq 0 N))
      (flat_map (fun k => repeat (member p x r k) (member p c r k)) (seq 0 M))) ->
  In e ["nrg"; "qd"; "int"]%string -> In pol ["propagate"; "raise"]%string ->
  (b = Numba -> dt obs = DFloat) -> sorted_if sf s p M x -> sorted_if sf s p N x' ->
  exists v, returns (crps_ensemble srt b obs fct ax (Some wt) e sf pol) s (fun r => Fin (v r)) /\
            returns (crps_ensemble srt b obs fct' ax None e sf pol) s (fun r => Fin (v r)).
Proof. exact C09_repetition_l. Qed.
Print Assumptions C09_repetition.
Example C09_repetition_case : Permutation (map (fun k => nth k [5; 7; 5] 0) (seq 0 3))
  (flat_map (fun k => repeat (nth k [5; 7] 0) (nth k [2; 1]%nat 0%nat)) (seq 0 2)).
Proof. simpl. apply perm_skip, perm_swap. Qed.

(** C10.  Reordering the members of each grid point changes nothing. *)
Theorem C10_permutation :
  forall srt b obs fct fct' ax s p M y x x' e sf pol,
  argsort_ok srt -> ens_args obs fct ax s p M y x -> ens_args obs fct' ax s p M y x' -> (0 < M)%nat ->
  (forall r, inb s r -> Permutation (map (member p x r) (seq 0 M)) (map (member p x' r) (seq 0 M))) ->
  In e ["nrg"; "fair"; "pwm"; "qd"; "int"]%string -> (In e ["fair"; "pwm"]%string -> (1 < M)%nat) ->
  In pol ["propagate"; "raise"]%string -> (b = Numba -> dt obs = DFloat) ->
  sorted_if sf s p M x -> sorted_if sf s p M x' ->
  exists v, returns (crps_ensemble srt b obs fct ax None e sf pol) s (fun r => Fin (v r)) /\
            returns (crps_ensemble srt b obs fct' ax None e sf pol) s (fun r => Fin (v r)).
Proof. exact C10_permutation_l. Qed.
Print Assumptions C10_permutation.
Example C10_case : Permutation (map (fun k => nth k [5; 7; 5] 0) (seq 0 3)) (map (fun k => nth k [7; 5; 5] 0) (seq 0 3)).
Proof. simpl. apply perm_swap. Qed.

(** C10.  The same for members together with their weights. *)
Theorem C10_permutation_weighted :
  forall srt b obs fct fct' wt wt' ax s p M y x x' w w' e sf pol,
  argsort_ok srt -> ens_args obs fct ax s p M y x -> ens_args obs fct' ax s p M y x' -> (0 < M)%nat ->
  wts_args wt fct s p M w -> wts_args wt' fct' s p M w' ->
  (forall r, inb s r -> Permutation (map (fun k => (member p x r k, member p w r k)) (seq 0 M))
                                    (map (fun k => (member p x' r k, member p w' r k)) (seq 0 M))) ->
  In e ["nrg"; "fair"; "pwm"; "qd"; "int"]%string ->
  (In e ["fair"; "pwm"]%string -> forall r, inb s r -> two_positive M (member p w r) /\ two_positive M (member p w' r)) ->
  In pol ["propagate"; "raise"]%string -> (b = Numba -> dt obs = DFloat) ->
  sorted_if sf s p M x -> sorted_if sf s p M x' ->
  exists v, returns (crps_ensemble srt b obs fct ax (Some wt) e sf pol) s (fun r => Fin (v r)) /\
            returns (crps_ensemble srt b obs fct' ax (Some wt') e sf pol) s (fun r => Fin (v r)).
Proof. exact C10_permutation_weighted_l. Qed.
Print Assumptions C10_permutation_weighted.

(** C10 does not hold for akr: reordering three members changes the value. *)
Theorem C10_akr_order_refuted :
  exists y x x', Permutation (map x (seq 0 4)) (map x' (seq 0 4)) /\
  exists u v : R, u <> v /\ forall srt b, argsort_ok srt ->
    returns (crps_ensemble srt b (farr [] (fun _ => y)) (real1 4 x) (-1) None "akr" false "propagate") [] (fun _ => Fin u) /\
    returns (crps_ensemble srt b (farr [] (fun _ => y)) (real1 4 x') (-1) None "akr" false "propagate") [] (fun _ => Fin v).
Proof. exact C10_akr_order_refuted_l. Qed.
Print Assumptions C10_akr_order_refuted.

(** C11.  crps(a*obs + c, a*fct + c) = |a| * crps(obs, fct) for every estimator; a and c may
    differ between grid points and a may be negative or zero. *)
Theorem C11_affine :
  forall srt b obs fct obs' fct' ax s p M y x a c e sf pol,
  argsort_ok srt -> ens_args obs fct ax s p M y x ->
  ens_args obs' fct' ax s p M (fun r => a r * y r + c r) (fun i => a (remove_at p i) * x i + c (remove_at p i)) ->
  (0 < M)%nat -> In e ["nrg"; "fair"; "pwm"; "qd"; "int"; "akr"; "akr_circperm"]%string ->
  (In e ["fair"; "pwm"]%string -> (1 < M)%nat) -> In pol ["propagate"; "raise"]%string ->
  (b = Numba -> dt obs = DFloat /\ dt obs' = DFloat) -> sorted_if sf s p M x ->
  (sf = true -> forall r, inb s r -> 0 <= a r) ->
  exists v, returns (crps_ensemble srt b obs fct ax None e sf pol) s (fun r => Fin (v r)) /\
            returns (crps_ensemble srt b obs' fct' ax None e sf pol) s (fun r => Fin (Rabs (a r) * v r)).
Proof. exact C11_affine_l. Qed.
Print Assumptions C11_affine.
Example C11_case : ens_args (farr [] (fun _ => -2 * 1 + 3)) (real1 2 (fun k => -2 * INR k + 3)) (-1) [] 0 2
  (fun r => -2 * 1 + 3) (fun i => -2 * INR (hd 0%nat i) + 3).
Proof. repeat split; simpl; auto. now left. Qed.

(** C11.  The same with weights; for pwm the factor must be non-negative. *)
Theorem C11_affine_weighted :
  forall srt b obs fct obs' fct' wt ax s p M y x w a c e sf pol,
  argsort_ok srt -> ens_args obs fct ax s p M y x ->
  ens_args obs' fct' ax s p M (fun r => a r * y r + c r) (fun i => a (remove_at p i) * x i + c (remove_at p i)) ->
  (0 < M)%nat -> wts_args wt fct s p M w -> dt fct' = DFloat ->
  In e ["nrg"; "fair"; "pwm"; "qd"; "int"; "akr"; "akr_circperm"]%string ->
  (In e ["fair"; "pwm"]%string -> forall r, inb s r -> two_positive M (member p w r)) ->
  (e = "pwm"%string \/ sf = true -> forall r, inb s r -> 0 <= a r) ->
  In pol ["propagate"; "raise"]%string -> (b = Numba -> dt obs = DFloat /\ dt obs' = DFloat) -> sorted_if sf s p M x ->
  exists v, returns (crps_ensemble srt b obs fct ax (Some wt) e sf pol) s (fun r => Fin (v r)) /\
            returns (crps_ensemble srt b obs' fct' ax (Some wt) e sf pol) s (fun r => Fin (Rabs (a r) * v r)).
Proof. exact C11_affine_weighted_l. Qed.
Print Assumptions C11_affine_weighted.

(** C11 fails for weighted pwm and a negative factor. *)
Theorem C11_pwm_negative_refuted :
  exists x w, (forall k, 0 < w k) /\ exists u v : R, v <> u /\ forall srt b, argsort_ok srt ->
    returns (crps_ensemble srt b (farr [] (fun _ => 0)) (real1 2 x) (-1) (Some (real1 2 w)) "pwm" false "propagate") [] (fun _ => Fin u) /\
    returns (crps_ensemble srt b (farr [] (fun _ => -1 * 0)) (real1 2 (fun k => -1 * x k)) (-1) (Some (real1 2 w)) "pwm" false "propagate") [] (fun _ => Fin v).
Proof. exact C11_pwm_negative_refuted_l. Qed.
Print Assumptions C11_pwm_negative_refuted.

(** C12.  nrg, qd and int are never negative, and zero exactly when every member equals the
    observation. *)
Theorem C12_nonnegative :
  forall srt b obs fct ax s p M y x e sf pol,
  argsort_ok srt -> ens_args obs fct ax s p M y x -> (0 < M)%nat ->
  In e ["nrg"; "qd"; "int"]%string -> In pol ["propagate"; "raise"]%string ->
  (b = Numba -> dt obs = DFloat) -> sorted_if sf s p M x ->
  exists v, returns (crps_ensemble srt b obs fct ax None e sf pol) s (fun r => Fin (v r)) /\
    forall r, inb s r -> 0 <= v r /\ (v r = 0 <-> forall k, (k < M)%nat -> member p x r k = y r).
Proof. exact C12_nonnegative_l. Qed.
Print Assumptions C12_nonnegative.
Example C12_case : argsort_ok asort /\ ens_args ex_obs ex_fct 0 [2%nat] 1 3 ex_y ex_x /\ (0 < 3)%nat /\
  (Numba = Numba -> dt ex_obs = DFloat) /\ sorted_if false [2%nat] 1 3 ex_x.
Proof. exact ex_ok. Qed.

(** C12.  With weights only the members of positive weight matter. *)
Theorem C12_nonnegative_weighted :
  forall srt b obs fct wt ax s p M y x w e sf pol,
  argsort_ok srt -> ens_args obs fct ax s p M y x -> (0 < M)%nat -> wts_args wt fct s p M w ->
  In e ["nrg"; "qd"; "int"]%string -> In pol ["propagate"; "raise"]%string ->
  (b = Numba -> dt obs = DFloat) -> sorted_if sf s p M x ->
  exists v, returns (crps_ensemble srt b obs fct ax (Some wt) e sf pol) s (fun r => Fin (v r)) /\
    forall r, inb s r -> 0 <= v r /\
      (v r = 0 <-> forall k, (k < M)%nat -> 0 < member p w r k -> member p x r k = y r).
Proof. exact C12_nonnegative_weighted_l. Qed.
Print Assumptions C12_nonnegative_weighted.

(** C12.  Without weights no estimator is ever negative. *)
Theorem C12_all_nonnegative :
  forall srt b obs fct ax s p M y x e sf pol,
  argsort_ok srt -> ens_args obs fct ax s p M y x -> (0 < M)%nat ->
  In e ["nrg"; "fair"; "pwm"; "qd"; "int"; "akr"; "akr_circperm"]%string ->
  (In e ["fair"; "pwm"]%string -> (1 < M)%nat) -> In pol ["propagate"; "raise"]%string ->
  (b = Numba -> dt obs = DFloat) -> sorted_if sf s p M x ->
  exists v, returns (crps_ensemble srt b obs fct ax None e sf pol) s (fun r => Fin (v r)) /\
    forall r, inb s r -> 0 <= v r.
Proof. exact C12_all_nonnegative_l. Qed.
Print Assumptions C12_all_nonnegative.

(** C12.  The fair score can be zero for an imperfect ensemble. *)
Theorem C12_fair_zero_refuted :
  exists y x, (exists k, (k < 2)%nat /\ x k <> y) /\ forall srt b, argsort_ok srt ->
    returns (crps_ensemble srt b (farr [] (fun _ => y)) (real1 2 x) (-1) None "fair" false "propagate") [] (fun _ => Fin 0).
Proof. exact C12_fair_zero_refuted_l. Qed.
Print Assumptions C12_fair_zero_refuted.

(** C12.  The weighted fair score can be negative. *)
Theorem C12_fair_weighted_refuted :
  exists y x w v, v < 0 /\ (forall k, 0 < w k) /\ forall srt b, argsort_ok srt ->
    returns (crps_ensemble srt b (farr [] (fun _ => y)) (real1 2 x) (-1) (Some (real1 2 w)) "fair" false "propagate") [] (fun _ => Fin v).
Proof. exact C12_fair_weighted_refuted_l. Qed.
Print Assumptions C12_fair_weighted_refuted.

(** C13.  The observation takes value v j with probability g j / sum g.  The mean score of
    any forecast ensemble x with weights f is at least that of the ensemble v with weights g,
    with equality only if both have the same distribution function. *)
Theorem C13_proper :
  forall srt b M f x N g v e sf,
  argsort_ok srt -> (forall k, (k < M)%nat -> 0 <= f k) -> 0 < sumn M f ->
  (forall j, (j < N)%nat -> 0 <= g j) -> 0 < sumn N g ->
  In e ["nrg"; "qd"; "int"]%string ->
  sorted_if sf [] 0 M (fun i => x (hd 0%nat i)) -> sorted_if sf [] 0 N (fun i => v (hd 0%nat i)) ->
  exists S T : nat -> R,
    (forall j, (j < N)%nat -> returns (crps_ensemble srt b (farr [] (fun _ => v j)) (real1 M x) (-1) (Some (real1 M f)) e sf "propagate")
       [] (fun _ => Fin (S j))) /\
    (forall j, (j < N)%nat -> returns (crps_ensemble srt b (farr [] (fun _ => v j)) (real1 N v) (-1) (Some (real1 N g)) e sf "propagate")
       [] (fun _ => Fin (T j))) /\
    sumn N (fun j => g j / sumn N g * T j) <= sumn N (fun j => g j / sumn N g * S j) /\
    (sumn N (fun j => g j / sumn N g * S j) = sumn N (fun j => g j / sumn N g * T j) ->
     forall t, wcdf M f x t = wcdf N g v t).
Proof. exact C13_proper_l. Qed.
Print Assumptions C13_proper.
Example C13_case : (forall k, (k < 2)%nat -> 0 <= (fun k => nth k [1; 2] 0) k) /\ 0 < sumn 2 (fun k => nth k [1; 2] 0).
Proof. exact ex_pos12. Qed.

(** C18.  On ensembles in ascending order the flag makes no difference, with or without
    weights. *)
Theorem C18_sorted_flag :
  forall srt b obs fct ax s p M y x e pol,
  argsort_ok srt -> ens_args obs fct ax s p M y x -> (0 < M)%nat ->
  In e ["nrg"; "fair"; "pwm"; "qd"; "int"; "akr"; "akr_circperm"]%string ->
  (In e ["fair"; "pwm"]%string -> (1 < M)%nat) ->
  In pol ["propagate"; "raise"]%string -> (b = Numba -> dt obs = DFloat) -> sorted_if true s p M x ->
  (exists v, returns (crps_ensemble srt b obs fct ax None e true pol) s (fun r => Fin (v r)) /\
             returns (crps_ensemble srt b obs fct ax None e false pol) s (fun r => Fin (v r))) /\
  forall wt w, wts_args wt fct s p M w ->
   (In e ["fair"; "pwm"]%string -> forall r, inb s r -> two_positive M (member p w r)) ->
   exists v, returns (crps_ensemble srt b obs fct ax (Some wt) e true pol) s (fun r => Fin (v r)) /\
             returns (crps_ensemble srt b obs fct ax (Some wt) e false pol) s (fun r => Fin (v r)).
Proof. exact C18_sorted_flag_l. Qed.
Print Assumptions C18_sorted_flag.
Example C18_case : sorted_if true [] 0 3 (fun i => INR (hd 0%nat i)).
Proof. intros _ r Hr i j [H _]. unfold member. simpl. now apply le_INR. Qed.

(** C18.  nrg, fair, akr and akr_circperm ignore the flag, for any inputs. *)
Theorem C18_flag_ignored :
  forall srt b obs fct ax ow e sf sf' pol,
  In e ["nrg"; "fair"; "akr"; "akr_circperm"]%string ->
  crps_ensemble srt b obs fct ax ow e sf pol = crps_ensemble srt b obs fct ax ow e sf' pol.
Proof. exact C18_flag_ignored_l. Qed.
Print Assumptions C18_flag_ignored.
