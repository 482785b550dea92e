(** Property C50: inputs the energy and variogram scores reject.  Entries are arbitrary: NaN
    and infinities included. *)
From Verif Require Import T_mvvalid.
Open Scope R_scope.

(** C50.  If m is an axis of fct and removing it does not leave the shape of obs, every score
    raises ValueError, whatever the other arguments. *)
Theorem C50_shapes :
  forall b obs fct m v k wf hw ow po e,
  (k < length (sh fct))%nat -> (m = Z.of_nat k \/ m = (Z.of_nat k - Z.of_nat (length (sh fct)))%Z) ->
  remove_at (length (sh fct) - 1 - k) (sh fct) <> sh obs ->
  raises (es_ensemble b obs fct m v ow e) ValueError /\ raises (owes_ensemble b obs fct wf m v ow) ValueError /\
  raises (vres_ensemble b obs fct wf m v ow) ValueError /\ raises (vs_ensemble b obs fct hw m v ow po e) ValueError /\
  raises (owvs_ensemble b obs fct wf hw m v ow po) ValueError /\ raises (vrvs_ensemble b obs fct wf hw m v ow po) ValueError.
Proof. exact C50_shapes_l. Qed.
Print Assumptions C50_shapes.
Example C50_shapes_case : let obs := real1 3 (fun _ => 0) in let fct := real2 2 2 (fun _ _ => 0) in
  (0 < length (sh fct))%nat /\ remove_at (length (sh fct) - 1 - 0) (sh fct) <> sh obs.
Proof. split; [simpl; lia|discriminate]. Qed.

(** C50.  A weight function that is negative at an observation or a member raises ValueError in
    the four outcome-weighted and vertically re-scaled scores. *)
Theorem C50_negative_function :
  forall b obs fct m v s p q M D y x d f hw ow po,
  mv_nums obs fct m v s p q M D y x ->
  (exists r, inb s r /\ nltb (f (obsl q D y r)) (Fin 0) = true) \/
  (exists r i, inb s r /\ (i < M)%nat /\ nltb (f (meml p q D x r i)) (Fin 0) = true) ->
  raises (owes_ensemble b obs fct (d, f) m v ow) ValueError /\ raises (vres_ensemble b obs fct (d, f) m v ow) ValueError /\
  raises (owvs_ensemble b obs fct (d, f) hw m v ow po) ValueError /\ raises (vrvs_ensemble b obs fct (d, f) hw m v ow po) ValueError.
Proof. exact C50_negative_function_l. Qed.
Print Assumptions C50_negative_function.
(** one member in R^2, observation (0, NaN), and a function that is negative on it *)
Example C50_negative_case :
  mv_nums (mkArr DFloat [2%nat] (fun i => match i with [0%nat] => Fin 0 | _ => NaN end)) (real2 1 2 (fun _ _ => 0)) (-2) (-1) [] 1 0 1 2
    (fun i => match i with [0%nat] => Fin 0 | _ => NaN end) (fun _ => Fin 0) /\
  nltb ((fun l => nadd (nth 0 l NaN) (Fin (-1))) (obsl 0 2 (fun i => match i with [0%nat] => Fin 0 | _ => NaN end) [])) (Fin 0) = true.
Proof.
  split; [repeat split; simpl; auto; now left|]. apply rltb_true. lra.
Qed.

(** C50.  A negative ensemble weight anywhere raises ValueError in every score (for the
    arrangements of axes in which weights work at all, see C46). *)
Theorem C50_negative_weight :
  forall b obs fct wt m v s p q M D y x w wf hw po e,
  mv_nums obs fct m v s p q M D y x -> (q < p)%nat -> sh wt = insert_at (wpos p q) M s ->
  (forall i, inb (sh wt) i -> at_ wt i = w i) ->
  (exists r k, inb s r /\ (k < M)%nat /\ nltb (member (wpos p q) w r k) (Fin 0) = true) ->
  raises (es_ensemble b obs fct m v (Some wt) e) ValueError /\ raises (owes_ensemble b obs fct wf m v (Some wt)) ValueError /\
  raises (vres_ensemble b obs fct wf m v (Some wt)) ValueError /\ raises (vs_ensemble b obs fct hw m v (Some wt) po e) ValueError /\
  raises (owvs_ensemble b obs fct wf hw m v (Some wt) po) ValueError /\ raises (vrvs_ensemble b obs fct wf hw m v (Some wt) po) ValueError.
Proof. exact C50_negative_weight_l. Qed.
Print Assumptions C50_negative_weight.

(** C50.  Ensemble weights of the right number of axes but another shape raise ValueError. *)
Theorem C50_weight_shape :
  forall b obs fct wt m v s p q M D y x M' s' wf hw po e,
  mv_nums obs fct m v s p q M D y x -> (q < p)%nat -> sh wt = insert_at (wpos p q) M' s' -> length s' = length s ->
  (M', s') <> (M, s) ->
  raises (es_ensemble b obs fct m v (Some wt) e) ValueError /\ raises (owes_ensemble b obs fct wf m v (Some wt)) ValueError /\
  raises (vres_ensemble b obs fct wf m v (Some wt)) ValueError /\ raises (vs_ensemble b obs fct hw m v (Some wt) po e) ValueError /\
  raises (owvs_ensemble b obs fct wf hw m v (Some wt) po) ValueError /\ raises (vrvs_ensemble b obs fct wf hw m v (Some wt) po) ValueError.
Proof. exact C50_weight_shape_l. Qed.
Print Assumptions C50_weight_shape.

(** C50.  Unknown estimator names raise ValueError, with or without ensemble weights.  The
    compiled implementation has two more names, of internal kernels that cannot be called this
    way: TypeError. *)
Theorem C50_estimator :
  forall b obs fct m v s p q M D y x hw po e,
  mv_nums obs fct m v s p q M D y x -> ~ In e ["ownrg"; "vrnrg"]%string ->
  (~ In e ["nrg"; "fair"; "akr"; "akr_circperm"]%string ->
     raises (es_ensemble b obs fct m v None e) ValueError /\
     forall wt w, (q < p)%nat -> mv_wts wt s (wpos p q) M w -> raises (es_ensemble b obs fct m v (Some wt) e) ValueError) /\
  (~ In e ["nrg"; "fair"]%string ->
     raises (vs_ensemble b obs fct hw m v None po e) ValueError /\
     forall wt w, (q < p)%nat -> mv_wts wt s (wpos p q) M w -> raises (vs_ensemble b obs fct hw m v (Some wt) po e) ValueError).
Proof. exact C50_estimator_l. Qed.
Print Assumptions C50_estimator.
Example C50_estimator_case : ~ In "qd"%string ["ownrg"; "vrnrg"]%string /\
  ~ In "qd"%string ["nrg"; "fair"; "akr"; "akr_circperm"]%string.
Proof. split; simpl; intuition discriminate. Qed.

(** C50.  The two internal names. *)
Theorem C50_internal_names :
  forall obs fct m v s p q M D y x hw po e,
  mv_nums obs fct m v s p q M D y x -> In e ["ownrg"; "vrnrg"]%string ->
  raises (es_ensemble Array obs fct m v None e) ValueError /\ raises (es_ensemble Numba obs fct m v None e) TypeError /\
  raises (vs_ensemble Array obs fct hw m v None po e) ValueError /\ raises (vs_ensemble Numba obs fct hw m v None po e) TypeError.
Proof. exact C50_internal_names_l. Qed.
Print Assumptions C50_internal_names.
