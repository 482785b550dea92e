(** Properties C20-C22: [owcrps_ensemble] and [vrcrps_ensemble]. *)
From Verif Require Import L_examples T_crps_ow.
Open Scope R_scope.

(** C20.  w(obs) times the CRPS of the ensemble with mass proportional to w(member); NaN where
    that mass is zero. *)
Theorem C20_value :
  forall be obs fct a b ax s p M y x wf g pol,
  ens_args obs fct ax s p M y x -> (0 < M)%nat -> (be = Numba -> dt obs = DFloat) ->
  weighting a b wf g -> (forall t, 0 <= g t) -> In pol ["propagate"; "raise"]%string ->
  exists v, returns (owcrps_ensemble be obs fct a b ax None wf pol) s v /\
    forall r, inb s r -> let q k := g (member p x r k) in
      (0 < sumn M q -> exists u, is_crps (wcdf M q (member p x r)) (y r) u /\ v r = Fin (g (y r) * u)) /\
      (sumn M q = 0 -> v r = NaN).
Proof. exact C20_value_l. Qed.
Print Assumptions C20_value.
Example C20_case : ens_args ex_obs ex_fct 0 [2%nat] 1 3 ex_y ex_x /\
  weighting (Fin 0) PInf None (fun t => ind_le 0 t) /\ (forall t, 0 <= ind_le 0 t) /\
  0 < sumn 3 (fun k => ind_le 0 (member 1 ex_x [1%nat] k)).
Proof.
  split; [apply ex_args|]. split; [|split].
  - intros t. simpl. unfold ind_le. destruct (Rle_dec 0 t); split; auto; intuition.
  - intros t. unfold ind_le. destruct (Rle_dec 0 t); lra.
  - unfold sumn, Rsum, member, ind_le; simpl. repeat destruct (Rle_dec _ _); lra.
Qed.

(** C20.  The same with ensemble weights: mass proportional to weight times w(member). *)
Theorem C20_value_weighted :
  forall be obs fct wt a b ax s p M y x w wf g,
  ens_args obs fct ax s p M y x -> (0 < M)%nat -> (be = Numba -> dt obs = DFloat) -> wts_args wt fct s p M w ->
  weighting a b wf g -> (forall t, 0 <= g t) ->
  exists v, returns (owcrps_ensemble be obs fct a b ax (Some wt) wf "propagate") s v /\
    forall r, inb s r -> let q k := member p w r k * g (member p x r k) in
      (0 < sumn M q -> exists u, is_crps (wcdf M q (member p x r)) (y r) u /\ v r = Fin (g (y r) * u)) /\
      (sumn M q = 0 -> v r = NaN).
Proof. exact C20_value_weighted_l. Qed.
Print Assumptions C20_value_weighted.
Example C20_weighted_case : wts_args ex_wt ex_fct [2%nat] 1 3 ex_w /\
  0 < sumn 3 (fun k => member 1 ex_w [1%nat] k * ind_le 0 (member 1 ex_x [1%nat] k)).
Proof.
  split; [apply ex_wargs|]. unfold sumn, Rsum, member, ind_le; simpl. repeat destruct (Rle_dec _ _); lra.
Qed.

(** C20.  With weight identically one: the nrg CRPS, with or without ensemble weights. *)
Theorem C20_unit :
  forall srt be obs fct a b ax s p M y x wf,
  argsort_ok srt -> ens_args obs fct ax s p M y x -> (0 < M)%nat -> (be = Numba -> dt obs = DFloat) ->
  weighting a b wf (fun _ => 1) ->
  (exists v, returns (owcrps_ensemble be obs fct a b ax None wf "propagate") s v /\
             returns (crps_ensemble srt be obs fct ax None "nrg" false "propagate") s v) /\
  forall wt w, wts_args wt fct s p M w ->
   exists v, returns (owcrps_ensemble be obs fct a b ax (Some wt) wf "propagate") s v /\
             returns (crps_ensemble srt be obs fct ax (Some wt) "nrg" false "propagate") s v.
Proof. exact C20_unit_l. Qed.
Print Assumptions C20_unit.
Example C20_unit_case : weighting NInf PInf None (fun _ => 1).
Proof. intros t. simpl. intuition. Qed.

(** C20.  The two implementations return the same numbers (float observations). *)
Theorem C20_agree :
  forall obs fct a b ax s p M y x wf g,
  ens_args obs fct ax s p M y x -> (0 < M)%nat -> dt obs = DFloat -> weighting a b wf g -> (forall t, 0 <= g t) ->
  (exists v, returns (owcrps_ensemble Array obs fct a b ax None wf "propagate") s v /\
             returns (owcrps_ensemble Numba obs fct a b ax None wf "propagate") s v) /\
  forall wt w, wts_args wt fct s p M w ->
   exists v, returns (owcrps_ensemble Array obs fct a b ax (Some wt) wf "propagate") s v /\
             returns (owcrps_ensemble Numba obs fct a b ax (Some wt) wf "propagate") s v.
Proof. exact C20_agree_l. Qed.
Print Assumptions C20_agree.

(** C20.  A weight function (any, NaN and infinities included) that is negative at an observation
    or a member raises ValueError, for owcrps and vrcrps, whatever the other arguments. *)
Theorem C20_negative :
  forall be obs fct a b ax s p M y x d f ow pol,
  ens_nums obs fct ax s p M y x ->
  (exists r, inb s r /\ nltb (f (y r)) (Fin 0) = true) \/
  (exists r k, inb s r /\ (k < M)%nat /\ nltb (f (member p x r k)) (Fin 0) = true) ->
  raises (owcrps_ensemble be obs fct a b ax ow (Some (d, f)) pol) ValueError /\
  raises (vrcrps_ensemble be obs fct a b ax ow (Some (d, f)) pol) ValueError.
Proof. exact C20_negative_l. Qed.
Print Assumptions C20_negative.
Example C20_negative_case : nltb (Fin (-1)) (Fin 0) = true.
Proof. apply rltb_true. lra. Qed.

(** C21.  vrcrps is the integral of the squared difference of the re-scaled distribution
    functions, hence non-negative.  Without ensemble weights the array implementation gets this
    right for two-dimensional forecasts only. *)
Theorem C21_value :
  forall be obs fct a b ax s p M y x wf g pol,
  ens_args obs fct ax s p M y x -> (0 < M)%nat -> (be = Numba -> dt obs = DFloat) ->
  (be = Array -> length s = 1%nat) ->
  weighting a b wf g -> (forall t, 0 <= g t) -> In pol ["propagate"; "raise"]%string ->
  exists v, returns (vrcrps_ensemble be obs fct a b ax None wf pol) s (fun r => Fin (v r)) /\
    forall r, inb s r -> 0 <= v r /\
      is_vrcrps M (fun _ => / INR M) (fun k => g (member p x r k)) (g (y r)) (y r) (member p x r) (v r).
Proof. exact C21_value_l. Qed.
Print Assumptions C21_value.

(** C21.  With ensemble weights: both implementations, any number of axes. *)
Theorem C21_value_weighted :
  forall be obs fct wt a b ax s p M y x w wf g,
  ens_args obs fct ax s p M y x -> (0 < M)%nat -> (be = Numba -> dt obs = DFloat) -> wts_args wt fct s p M w ->
  weighting a b wf g -> (forall t, 0 <= g t) ->
  exists v, returns (vrcrps_ensemble be obs fct a b ax (Some wt) wf "propagate") s (fun r => Fin (v r)) /\
    forall r, inb s r -> 0 <= v r /\
      is_vrcrps M (nw M (member p w r)) (fun k => g (member p x r k)) (g (y r)) (y r) (member p x r) (v r).
Proof. exact C21_value_weighted_l. Qed.
Print Assumptions C21_value_weighted.

(** C21.  With weight identically one: the nrg CRPS. *)
Theorem C21_unit :
  forall srt be obs fct a b ax s p M y x wf,
  argsort_ok srt -> ens_args obs fct ax s p M y x -> (0 < M)%nat -> (be = Numba -> dt obs = DFloat) ->
  weighting a b wf (fun _ => 1) ->
  ((be = Array -> length s = 1%nat) ->
   exists v, returns (vrcrps_ensemble be obs fct a b ax None wf "propagate") s v /\
             returns (crps_ensemble srt be obs fct ax None "nrg" false "propagate") s v) /\
  forall wt w, wts_args wt fct s p M w ->
   exists v, returns (vrcrps_ensemble be obs fct a b ax (Some wt) wf "propagate") s v /\
             returns (crps_ensemble srt be obs fct ax (Some wt) "nrg" false "propagate") s v.
Proof. exact C21_unit_l. Qed.
Print Assumptions C21_unit.

(** C21.  One observation with its ensemble (one-dimensional fct): the array implementation
    raises AxisError for every input, the numba implementation returns a score. *)
Theorem C21_rank1_refuted :
  exists obs fct y x, ens_args obs fct (-1) [] 0 3 y x /\ dt obs = DFloat /\
    raises (vrcrps_ensemble Array obs fct NInf PInf (-1) None None "propagate") AxisError /\
    exists v, returns (vrcrps_ensemble Numba obs fct NInf PInf (-1) None None "propagate") [] (fun _ => Fin v).
Proof. exact C21_rank1_refuted_l. Qed.
Print Assumptions C21_rank1_refuted.

(** C21.  Three-dimensional fct: with two grid points and two members the array implementation
    silently returns another value than the numba implementation. *)
Theorem C21_rank3_refuted :
  exists obs fct y x, ens_args obs fct (-1) [2; 1]%nat 0 2 y x /\ dt obs = DFloat /\
    (exists v, returns (vrcrps_ensemble Array obs fct (Fin 0) PInf (-1) None None "propagate") [2; 1]%nat (fun r => Fin (v r)) /\ v [0; 0]%nat = 3 / 2) /\
    (exists v, returns (vrcrps_ensemble Numba obs fct (Fin 0) PInf (-1) None None "propagate") [2; 1]%nat (fun r => Fin (v r)) /\ v [0; 0]%nat = 1).
Proof. exact C21_rank3_refuted_l. Qed.
Print Assumptions C21_rank3_refuted.

(** C22.  omit with the ensemble axis last: at every grid point the score of the members that
    are not NaN (the reals xs); NaN if there is none, or (owcrps) if they carry no mass. *)
Theorem C22_omit_last :
  forall be obs fct a b ax s M y x wf g,
  ens_nums obs fct ax s 0 M (fun r => Fin (y r)) x -> (0 < M)%nat -> (be = Numba -> dt obs = DFloat) ->
  weighting a b wf g -> (forall t, 0 <= g t) -> (forall d f, wf = Some (d, f) -> f NaN = NaN) ->
  (forall r k, inb s r -> (k < M)%nat -> fin_or_nan (member 0 x r k)) ->
  exists vo vr, returns (owcrps_ensemble be obs fct a b ax None wf "omit") s vo /\
    returns (vrcrps_ensemble be obs fct a b ax None wf "omit") s vr /\
    forall r, inb s r -> forall xs : list R, map Fin xs = present M (member 0 x r) ->
      let X k := nth k xs 0 in let q k := g (nth k xs 0) in
      (xs = [] -> vo r = NaN /\ vr r = NaN) /\
      (0 < sumn (length xs) q -> exists u, is_crps (wcdf (length xs) q X) (y r) u /\ vo r = Fin (g (y r) * u)) /\
      (sumn (length xs) q = 0 -> vo r = NaN) /\
      (xs <> [] -> exists u, is_vrcrps (length xs) (fun _ => / INR (length xs)) q (g (y r)) (y r) X u /\ vr r = Fin u).
Proof. exact C22_omit_last_l. Qed.
Print Assumptions C22_omit_last.
Example C22_case : present 3 (fun k => nth k [Fin 4; NaN; Fin 7] NaN) = map Fin [4; 7] /\
  weighting NInf PInf None (fun _ => 1).
Proof. split; [reflexivity|intros t; simpl; intuition]. Qed.

(** C22.  Ensemble axis first, two grid points, three members, no NaN at all: propagate returns
    scores, omit raises ValueError (the mask is moved twice). *)
Theorem C22_axis_refuted :
  exists obs fct y x, ens_args obs fct 0 [2%nat] 1 3 y x /\ dt obs = DFloat /\ forall be,
    (exists v, returns (owcrps_ensemble be obs fct NInf PInf 0 None None "propagate") [2%nat] v) /\
    raises (owcrps_ensemble be obs fct NInf PInf 0 None None "omit") ValueError /\
    raises (vrcrps_ensemble be obs fct NInf PInf 0 None None "omit") ValueError.
Proof. exact C22_axis_refuted_l. Qed.
Print Assumptions C22_axis_refuted.

(** C22.  Two grid points and two members, ensemble axis first, one NaN at the other grid point:
    the mask is transposed, and the member 2 of the complete ensemble 2, 4 is dropped. *)
Theorem C22_axis_silent_refuted :
  exists obs fct obs' fct' y x x', ens_nums obs fct 0 [2%nat] 1 2 y x /\ ens_nums obs' fct' (-1) [2%nat] 0 2 y x' /\
    dt obs = DFloat /\ dt obs' = DFloat /\
    (forall r k, member 1 x r k = member 0 x' r k) /\ forall be,
    (exists v, returns (owcrps_ensemble be obs fct NInf PInf 0 None None "omit") [2%nat] v /\ v [1%nat] = Fin 4) /\
    (exists v, returns (owcrps_ensemble be obs' fct' NInf PInf (-1) None None "omit") [2%nat] v /\ v [1%nat] = Fin (5 / 2)).
Proof. exact C22_axis_silent_refuted_l. Qed.
Print Assumptions C22_axis_silent_refuted.
