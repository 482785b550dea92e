(** Properties C14-C17 of [crps_ensemble]: NaN policies, batching, axes. *)
From Verif Require Import T_crps_nan L_examples.
Open Scope R_scope.

(** C14.  omit, no weights: at every grid point the score of the members that are not NaN (those
    are the reals xs), computed as a forecast of its own; NaN if there is none.  Observations may
    be NaN too. *)
Theorem C14_omit_deletes :
  forall srt b obs fct ax s p M y x e,
  argsort_ok srt -> ens_nums obs fct ax s p M y x -> (0 < M)%nat ->
  (forall r, inb s r -> fin_or_nan (y r)) ->
  (forall r k, inb s r -> (k < M)%nat -> fin_or_nan (member p x r k)) ->
  In e ["nrg"; "fair"; "pwm"; "qd"]%string -> (b = Numba -> dt obs = DFloat) ->
  exists v, returns (crps_ensemble srt b obs fct ax None e false "omit") s v /\
    forall r, inb s r -> forall xs : list R, map Fin xs = present M (member p x r) ->
      (xs = [] -> v r = NaN) /\
      (xs <> [] -> returns (crps_ensemble srt b (num0 (y r)) (real1 (length xs) (fun k => nth k xs 0)) (-1) None e false "propagate")
                     [] (fun _ => v r)).
Proof. exact C14_omit_deletes_l. Qed.
Print Assumptions C14_omit_deletes.
Example C14_case : present 3 (fun k => nth k [Fin 4; NaN; Fin 7] NaN) = map Fin [4; 7] /\
  (forall k, (k < 3)%nat -> fin_or_nan (nth k [Fin 4; NaN; Fin 7] NaN)).
Proof. split; [reflexivity|]. intros [|[|[|k]]] H; unfold fin_or_nan; simpl; eauto; destruct k; auto. Qed.

(** C14.  omit with weights: a member is deleted if its value or its weight is NaN; xs lists the
    remaining (value, weight) pairs.  A remaining total weight of zero also gives NaN. *)
Theorem C14_omit_deletes_weighted :
  forall srt b obs fct wt ax s p M y x w e,
  argsort_ok srt -> ens_nums obs fct ax s p M y x -> (0 < M)%nat ->
  (forall r, inb s r -> fin_or_nan (y r)) ->
  (forall r k, inb s r -> (k < M)%nat -> fin_or_nan (member p x r k)) ->
  dt fct = DFloat -> sh wt = insert_at p M s -> (forall i, inb (insert_at p M s) i -> at_ wt i = w i) ->
  (forall r k, inb s r -> (k < M)%nat -> member p w r k = NaN \/ exists c, member p w r k = Fin c /\ 0 <= c) ->
  In e ["nrg"; "fair"; "pwm"; "qd"]%string -> (b = Numba -> dt obs = DFloat) ->
  exists v, returns (crps_ensemble srt b obs fct ax (Some wt) e false "omit") s v /\
    forall r, inb s r -> forall xs : list (R * R),
      map (fun q => (Fin (fst q), Fin (snd q))) xs = present2 M (member p x r) (member p w r) ->
      (xs = [] -> v r = NaN) /\
      (xs <> [] -> returns (crps_ensemble srt b (num0 (y r)) (real1 (length xs) (fun k => nth k (map fst xs) 0)) (-1)
                              (Some (real1 (length xs) (fun k => nth k (map snd xs) 0))) e false "propagate")
                     [] (fun _ => v r)).
Proof. exact C14_omit_deletes_weighted_l. Qed.
Print Assumptions C14_omit_deletes_weighted.
Example C14_weighted_case : present2 3 (fun k => nth k [Fin 4; NaN; Fin 7] NaN) (fun k => nth k [Fin 1; Fin 1; NaN] NaN)
   = map (fun q => (Fin (fst q), Fin (snd q))) [(4, 1)].
Proof. reflexivity. Qed.

(** C15.  Default policy, no weights, entries real or NaN: NaN exactly at the grid points where
    the observation or some member is NaN. *)
Theorem C15_propagate :
  forall srt b obs fct ax s p M y x e,
  argsort_ok srt -> ens_nums obs fct ax s p M y x -> (0 < M)%nat ->
  (forall r, inb s r -> fin_or_nan (y r)) ->
  (forall r k, inb s r -> (k < M)%nat -> fin_or_nan (member p x r k)) ->
  In e ["nrg"; "fair"; "pwm"; "qd"; "int"; "akr"; "akr_circperm"]%string ->
  (In e ["fair"; "pwm"]%string -> (1 < M)%nat) -> (b = Numba -> dt obs = DFloat) ->
  exists v, returns (crps_ensemble srt b obs fct ax None e false "propagate") s v /\
    forall r, inb s r -> (v r = NaN <-> y r = NaN \/ exists k, (k < M)%nat /\ member p x r k = NaN).
Proof. exact C15_propagate_l. Qed.
Print Assumptions C15_propagate.
Example C15_case : fin_or_nan NaN /\ fin_or_nan (Fin 3).
Proof. split; unfold fin_or_nan; eauto. Qed.

(** C15.  A NaN observation or member makes the score NaN for arbitrary other entries (infinities
    included), with or without weights, and whatever the sorted_ensemble flag. *)
Theorem C15_propagate_any :
  forall srt b obs fct ax s p M y x e sf,
  argsort_ok srt -> ens_nums obs fct ax s p M y x -> (0 < M)%nat ->
  In e ["nrg"; "fair"; "pwm"; "qd"; "int"; "akr"; "akr_circperm"]%string -> (b = Numba -> dt obs = DFloat) ->
  (exists v, returns (crps_ensemble srt b obs fct ax None e sf "propagate") s v /\
    forall r, inb s r -> (y r = NaN \/ exists k, (k < M)%nat /\ member p x r k = NaN) -> v r = NaN) /\
  forall wt w, dt fct = DFloat -> sh wt = insert_at p M s ->
   (forall i, inb (insert_at p M s) i -> at_ wt i = w i) ->
   (forall r k, inb s r -> (k < M)%nat -> nltb (member p w r k) (Fin 0) = false) ->
   exists v, returns (crps_ensemble srt b obs fct ax (Some wt) e sf "propagate") s v /\
    forall r, inb s r -> (y r = NaN \/ exists k, (k < M)%nat /\ member p x r k = NaN) -> v r = NaN.
Proof. exact C15_propagate_any_l. Qed.
Print Assumptions C15_propagate_any.

(** C15.  A NaN weight makes the score of its grid point NaN (nrg, fair, pwm, qd). *)
Theorem C15_weight_nan :
  forall srt b obs fct wt ax s p M y x w e sf,
  argsort_ok srt -> ens_nums obs fct ax s p M y x ->
  dt fct = DFloat -> sh wt = insert_at p M s -> (forall i, inb (insert_at p M s) i -> at_ wt i = w i) ->
  (forall r k, inb s r -> (k < M)%nat -> nltb (member p w r k) (Fin 0) = false) ->
  In e ["nrg"; "fair"; "pwm"; "qd"]%string -> (b = Numba -> dt obs = DFloat) ->
  exists v, returns (crps_ensemble srt b obs fct ax (Some wt) e sf "propagate") s v /\
    forall r, inb s r -> (exists k, (k < M)%nat /\ member p w r k = NaN) -> v r = NaN.
Proof. exact C15_weight_nan_l. Qed.
Print Assumptions C15_weight_nan.
Example C15_weight_case : nltb NaN (Fin 0) = false.
Proof. reflexivity. Qed.

(** C16.  raise: a NaN anywhere in obs, fct or ens_w raises ValueError, whatever the estimator. *)
Theorem C16_raise_error :
  forall srt b obs fct ax s p M y x e sf,
  argsort_ok srt -> ens_nums obs fct ax s p M y x ->
  ((exists r, inb s r /\ y r = NaN) \/ (exists r k, inb s r /\ (k < M)%nat /\ member p x r k = NaN) ->
   raises (crps_ensemble srt b obs fct ax None e sf "raise") ValueError) /\
  forall wt w, dt fct = DFloat -> sh wt = insert_at p M s ->
   (forall i, inb (insert_at p M s) i -> at_ wt i = w i) ->
   ((exists r, inb s r /\ y r = NaN) \/
    (exists r k, inb s r /\ (k < M)%nat /\ (member p x r k = NaN \/ member p w r k = NaN))) ->
   raises (crps_ensemble srt b obs fct ax (Some wt) e sf "raise") ValueError.
Proof. exact C16_raise_error_l. Qed.
Print Assumptions C16_raise_error.
Example C16_case : ens_nums (num0 NaN) (num1 2 (fun _ => Fin 1)) (-1) [] 0 2 (fun _ => NaN) (fun _ => Fin 1) /\ inb [] [].
Proof. repeat split; auto. now left. Qed.

(** C16.  raise without any NaN: the same result (or the same error) as propagate. *)
Theorem C16_raise_same :
  forall srt b obs fct ax s p M y x e sf,
  argsort_ok srt -> ens_nums obs fct ax s p M y x ->
  (forall r, inb s r -> y r <> NaN) -> (forall r k, inb s r -> (k < M)%nat -> member p x r k <> NaN) ->
  crps_ensemble srt b obs fct ax None e sf "raise" = crps_ensemble srt b obs fct ax None e sf "propagate" /\
  forall wt w, dt fct = DFloat -> sh wt = insert_at p M s ->
   (forall i, inb (insert_at p M s) i -> at_ wt i = w i) ->
   (forall r k, inb s r -> (k < M)%nat -> member p w r k <> NaN) ->
   crps_ensemble srt b obs fct ax (Some wt) e sf "raise" = crps_ensemble srt b obs fct ax (Some wt) e sf "propagate".
Proof. exact C16_raise_same_l. Qed.
Print Assumptions C16_raise_same.

(** C16.  Other policy names raise ValueError; omit with int, akr, akr_circperm raises
    NotImplementedError (weights, if any, have the shape of fct). *)
Theorem C16_policy_names :
  forall srt b obs fct ow ax s p M y x e sf pol,
  ens_nums obs fct ax s p M y x ->
  (ow = None \/ exists wt, ow = Some wt /\ sh wt = insert_at p M s) ->
  (~ In pol ["propagate"; "omit"; "raise"]%string -> raises (crps_ensemble srt b obs fct ax ow e sf pol) ValueError) /\
  (In e ["int"; "akr"; "akr_circperm"]%string ->
   raises (crps_ensemble srt b obs fct ax ow e sf "omit") NotImplementedError).
Proof. exact C16_policy_names_l. Qed.
Print Assumptions C16_policy_names.
Example C16_names_case : ~ In "warn"%string ["propagate"; "omit"; "raise"]%string.
Proof. simpl. intuition discriminate. Qed.

(** C17.  The result has the shape of obs, and its entry at r is the score of the observation and
    the members at r alone (same dtypes); any entries, any axis, any estimator. *)
Theorem C17_batching :
  forall srt b obs fct ax s p M y x e sf,
  argsort_ok srt -> ens_nums obs fct ax s p M y x ->
  In e ["nrg"; "fair"; "pwm"; "qd"; "int"; "akr"; "akr_circperm"]%string ->
  exists v, returns (crps_ensemble srt b obs fct ax None e sf "propagate") s v /\
    forall r, inb s r ->
      returns (crps_ensemble srt b (mkArr (dt obs) [] (fun _ => y r)) (mkArr (dt fct) [M] (fun i => member p x r (hd 0%nat i)))
                 (-1) None e sf "propagate") [] (fun _ => v r).
Proof. exact C17_batching_l. Qed.
Print Assumptions C17_batching.
Example C17_case : ens_nums ex_obs ex_fct 0 [2%nat] 1 3 (fun r => Fin (ex_y r)) (fun i => Fin (ex_x i)).
Proof. apply args_nums, ex_args. Qed.

(** C17.  The same with weights that are not negative. *)
Theorem C17_batching_weighted :
  forall srt b obs fct wt ax s p M y x w e sf,
  argsort_ok srt -> ens_nums obs fct ax s p M y x ->
  dt fct = DFloat -> sh wt = insert_at p M s -> (forall i, inb (insert_at p M s) i -> at_ wt i = w i) ->
  (forall r k, inb s r -> (k < M)%nat -> nltb (member p w r k) (Fin 0) = false) ->
  In e ["nrg"; "fair"; "pwm"; "qd"; "int"; "akr"; "akr_circperm"]%string ->
  exists v, returns (crps_ensemble srt b obs fct ax (Some wt) e sf "propagate") s v /\
    forall r, inb s r ->
      returns (crps_ensemble srt b (mkArr (dt obs) [] (fun _ => y r)) (num1 M (member p x r))
                 (-1) (Some (num1 M (member p w r))) e sf "propagate") [] (fun _ => v r).
Proof. exact C17_batching_weighted_l. Qed.
Print Assumptions C17_batching_weighted.

(** C17.  If ax is an axis of fct and removing it does not leave the shape of obs, the call
    raises ValueError, whatever the other arguments. *)
Theorem C17_bad_shape :
  forall srt b obs fct ax k ow e sf pol,
  (k < length (sh fct))%nat -> (ax = Z.of_nat k \/ ax = (Z.of_nat k - Z.of_nat (length (sh fct)))%Z) ->
  remove_at (length (sh fct) - 1 - k) (sh fct) <> sh obs ->
  raises (crps_ensemble srt b obs fct ax ow e sf pol) ValueError.
Proof. exact C17_bad_shape_l. Qed.
Print Assumptions C17_bad_shape.
Example C17_bad_case : remove_at (length (sh ex_fct) - 1 - 1) (sh ex_fct) <> sh ex_obs.
Proof. discriminate. Qed.

(** C17.  An axis argument outside the valid range is not always rejected: -3 is accepted for
    square two-dimensional forecasts and means the last axis. *)
Theorem C17_axis_range_refuted :
  exists obs fct, length (sh fct) = 2%nat /\ forall srt b e sf,
    crps_ensemble srt b obs fct (-3) None e sf "propagate" = crps_ensemble srt b obs fct (-1) None e sf "propagate".
Proof. exact C17_axis_range_refuted_l. Qed.
Print Assumptions C17_axis_range_refuted.
