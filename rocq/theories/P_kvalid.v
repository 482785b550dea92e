(** Property C54: inputs the Gaussian kernel scores reject.  Entries are arbitrary: NaN and
    infinities included. *)
From Verif Require Import T_kvalid.
Open Scope R_scope.

(** C54.  If ax is an axis of fct and removing it does not leave the shape of obs, the
    univariate scores raise ValueError, whatever the other arguments. *)
Theorem C54_uv_shapes :
  forall b obs fct ax k a c wf ow e,
  (k < length (sh fct))%nat -> (ax = Z.of_nat k \/ ax = (Z.of_nat k - Z.of_nat (length (sh fct)))%Z) ->
  remove_at (length (sh fct) - 1 - k) (sh fct) <> sh obs ->
  raises (gksuv_ensemble b obs fct ax ow e) ValueError /\ raises (owgksuv_ensemble b obs fct a c ax ow wf) ValueError /\
  raises (vrgksuv_ensemble b obs fct a c ax ow wf) ValueError.
Proof. exact C54_uv_shapes_l. Qed.
Print Assumptions C54_uv_shapes.
Example C54_uv_shapes_case : let obs := real1 3 (fun _ => 0) in let fct := real2 2 2 (fun _ _ => 0) in
  (1 < length (sh fct))%nat /\ remove_at (length (sh fct) - 1 - 1) (sh fct) <> sh obs.
Proof. split; [simpl; lia|discriminate]. Qed.

(** C54.  The same for the multivariate scores. *)
Theorem C54_mv_shapes :
  forall b obs fct m v k wf ow e,
  (k < length (sh fct))%nat -> (m = Z.of_nat k \/ m = (Z.of_nat k - Z.of_nat (length (sh fct)))%Z) ->
  remove_at (length (sh fct) - 1 - k) (sh fct) <> sh obs ->
  raises (gksmv_ensemble b obs fct m v ow e) ValueError /\ raises (owgksmv_ensemble b obs fct wf m v ow) ValueError /\
  raises (vrgksmv_ensemble b obs fct wf m v ow) ValueError.
Proof. exact C54_mv_shapes_l. Qed.
Print Assumptions C54_mv_shapes.
Example C54_mv_shapes_case : let obs := real1 3 (fun _ => 0) in let fct := real2 2 2 (fun _ _ => 0) in
  (0 < length (sh fct))%nat /\ remove_at (length (sh fct) - 1 - 0) (sh fct) <> sh obs.
Proof. split; [simpl; lia|discriminate]. Qed.

(** C54.  A weight function that is negative at an observation or a member raises ValueError in
    the outcome-weighted and the vertically re-scaled scores. *)
Theorem C54_negative_function :
  (forall b obs fct ax s p M y x a c d f ow,
   ens_nums obs fct ax s p M y x ->
   (exists r, inb s r /\ nltb (f (y r)) (Fin 0) = true) \/
   (exists r i, inb s r /\ (i < M)%nat /\ nltb (f (member p x r i)) (Fin 0) = true) ->
   raises (owgksuv_ensemble b obs fct a c ax ow (Some (d, f))) ValueError /\
   raises (vrgksuv_ensemble b obs fct a c ax ow (Some (d, f))) ValueError) /\
  (forall b obs fct m v s p q M D y x d f ow,
   mv_nums obs fct m v s p q M D y x ->
   (exists r, inb s r /\ nltb (f (obsl q D y r)) (Fin 0) = true) \/
   (exists r i, inb s r /\ (i < M)%nat /\ nltb (f (meml p q D x r i)) (Fin 0) = true) ->
   raises (owgksmv_ensemble b obs fct (d, f) m v ow) ValueError /\ raises (vrgksmv_ensemble b obs fct (d, f) m v ow) ValueError).
Proof. exact C54_negative_function_l. Qed.
Print Assumptions C54_negative_function.
(** one member, observation -1, and the identity as weight function *)
Example C54_negative_function_case :
  ens_nums (mkArr DFloat [] (fun _ => Fin (-1))) (real1 1 (fun _ => 0)) (-1) [] 0 1 (fun _ => Fin (-1)) (fun _ => Fin 0) /\
  nltb ((fun t => t) (Fin (-1))) (Fin 0) = true.
Proof. split; [repeat split; simpl; auto; now left|]. apply rltb_true. lra. Qed.

(** C54.  A negative ensemble weight anywhere raises ValueError in every score (in the
    multivariate scores for the arrangements of axes in which weights work at all, see C46). *)
Theorem C54_negative_weight :
  (forall b obs fct wt ax s p M y x w a c wf e,
   ens_nums obs fct ax s p M y x -> sh wt = insert_at p M s -> (forall i, inb (sh wt) i -> at_ wt i = w i) ->
   (exists r k, inb s r /\ (k < M)%nat /\ nltb (member p w r k) (Fin 0) = true) ->
   raises (gksuv_ensemble b obs fct ax (Some wt) e) ValueError /\ raises (owgksuv_ensemble b obs fct a c ax (Some wt) wf) ValueError /\
   raises (vrgksuv_ensemble b obs fct a c ax (Some wt) wf) ValueError) /\
  (forall b obs fct wt m v s p q M D y x w wf e,
   mv_nums obs fct m v s p q M D y x -> (q < p)%nat -> sh wt = insert_at (wpos p q) M s ->
   (forall i, inb (sh wt) i -> at_ wt i = w i) ->
   (exists r k, inb s r /\ (k < M)%nat /\ nltb (member (wpos p q) w r k) (Fin 0) = true) ->
   raises (gksmv_ensemble b obs fct m v (Some wt) e) ValueError /\ raises (owgksmv_ensemble b obs fct wf m v (Some wt)) ValueError /\
   raises (vrgksmv_ensemble b obs fct wf m v (Some wt)) ValueError).
Proof. exact C54_negative_weight_l. Qed.
Print Assumptions C54_negative_weight.
Example C54_negative_weight_case :
  ens_nums (mkArr DFloat [] (fun _ => NaN)) (real1 2 (fun _ => 0)) (-1) [] 0 2 (fun _ => NaN) (fun _ => Fin 0) /\
  sh (real1 2 (fun k => - INR k)) = insert_at 0 2%nat [] /\
  nltb (member 0 (fun i => Fin (- INR (hd 0%nat i))) [] 1) (Fin 0) = true.
Proof. split; [repeat split; simpl; auto; now left|]. split; [reflexivity|]. apply rltb_true. simpl. lra. Qed.

(** C54.  Ensemble weights of the right number of axes but another shape raise ValueError. *)
Theorem C54_weight_shape :
  (forall b obs fct wt ax s p M y x M' s' a c wf e,
   ens_nums obs fct ax s p M y x -> sh wt = insert_at p M' s' -> length s' = length s -> (M', s') <> (M, s) ->
   raises (gksuv_ensemble b obs fct ax (Some wt) e) ValueError /\ raises (owgksuv_ensemble b obs fct a c ax (Some wt) wf) ValueError /\
   raises (vrgksuv_ensemble b obs fct a c ax (Some wt) wf) ValueError) /\
  (forall b obs fct wt m v s p q M D y x M' s' wf e,
   mv_nums obs fct m v s p q M D y x -> (q < p)%nat -> sh wt = insert_at (wpos p q) M' s' -> length s' = length s ->
   (M', s') <> (M, s) ->
   raises (gksmv_ensemble b obs fct m v (Some wt) e) ValueError /\ raises (owgksmv_ensemble b obs fct wf m v (Some wt)) ValueError /\
   raises (vrgksmv_ensemble b obs fct wf m v (Some wt)) ValueError).
Proof. exact C54_weight_shape_l. Qed.
Print Assumptions C54_weight_shape.
Example C54_weight_shape_case : sh (real1 3 (fun _ => 1)) = insert_at 0 3%nat [] /\ (3%nat, @nil nat) <> (2%nat, []).
Proof. split; [reflexivity|discriminate]. Qed.

(** C54.  Unknown estimator names raise ValueError in both implementations, with or without
    ensemble weights.  ("akr_circperm_w" is a name only the array code for weights knows.) *)
Theorem C54_estimator :
  forall b e,
  ~ In e ["nrg"; "fair"; "akr"; "akr_circperm"; "akr_circperm_w"; "ow"; "vr"]%string ->
  (forall obs fct ax s p M y x, ens_nums obs fct ax s p M y x ->
     raises (gksuv_ensemble b obs fct ax None e) ValueError) /\
  (forall obs fct wt ax s p M y x w, ens_args obs fct ax s p M y x -> (0 < M)%nat -> uv_wts wt s p M w ->
     raises (gksuv_ensemble b obs fct ax (Some wt) e) ValueError) /\
  (forall obs fct m v s p q M D y x, mv_nums obs fct m v s p q M D y x ->
     raises (gksmv_ensemble b obs fct m v None e) ValueError /\
     forall wt w, (q < p)%nat -> mv_wts wt s (wpos p q) M w -> raises (gksmv_ensemble b obs fct m v (Some wt) e) ValueError).
Proof. exact C54_estimator_l. Qed.
Print Assumptions C54_estimator.
Example C54_estimator_case : ~ In "pwm"%string ["nrg"; "fair"; "akr"; "akr_circperm"; "akr_circperm_w"; "ow"; "vr"]%string.
Proof. simpl; intuition discriminate. Qed.

(** C54.  "ow" and "vr" name internal kernels of the compiled code that cannot be called this
    way (TypeError); the array code does not know them (ValueError). *)
Theorem C54_internal_names :
  forall e, In e ["ow"; "vr"]%string ->
  (forall obs fct ax s p M y x, ens_nums obs fct ax s p M y x ->
     raises (gksuv_ensemble Array obs fct ax None e) ValueError /\ raises (gksuv_ensemble Numba obs fct ax None e) TypeError) /\
  (forall obs fct wt ax s p M y x w, ens_args obs fct ax s p M y x -> (0 < M)%nat -> uv_wts wt s p M w ->
     raises (gksuv_ensemble Array obs fct ax (Some wt) e) ValueError /\ raises (gksuv_ensemble Numba obs fct ax (Some wt) e) TypeError) /\
  (forall obs fct m v s p q M D y x, mv_nums obs fct m v s p q M D y x ->
     raises (gksmv_ensemble Array obs fct m v None e) ValueError /\ raises (gksmv_ensemble Numba obs fct m v None e) TypeError).
Proof. exact C54_internal_names_l. Qed.
Print Assumptions C54_internal_names.

(** C54.  Univariate score without weights: where the observation or a member is NaN the score
    is NaN, in both implementations. *)
Theorem C54_nan :
  forall b obs fct ax s p M y x e,
  ens_nums obs fct ax s p M y x -> dt obs = DFloat -> dt fct = DFloat -> (0 < M)%nat ->
  In e ["nrg"; "fair"; "akr"; "akr_circperm"]%string ->
  exists v, returns (gksuv_ensemble b obs fct ax None e) s v /\
    forall r, inb s r -> (y r = NaN \/ exists k, (k < M)%nat /\ member p x r k = NaN) -> v r = NaN.
Proof. exact C54_nan_l. Qed.
Print Assumptions C54_nan.
Example C54_nan_case :
  ens_nums (mkArr DFloat [] (fun _ => Fin 0)) (mkArr DFloat [2%nat] (fun i => match i with [1%nat] => NaN | _ => PInf end)) (-1) [] 0 2
    (fun _ => Fin 0) (fun i => match i with [1%nat] => NaN | _ => PInf end) /\
  member 0 (fun i => match i with [1%nat] => NaN | _ => PInf end) [] 1 = NaN.
Proof. split; [repeat split; simpl; auto; now left|reflexivity]. Qed.
