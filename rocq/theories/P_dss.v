(** Property C38: dssuv_ensemble and error_spread_score.  In all theorems the batch shape, the
    position of the ensemble axis and its python number (negative or not) are arbitrary. *)
From Verif Require Import T_dss.
Open Scope R_scope.

(** C38.  Where the members are not all equal: (y - mean)^2 / var + log var. *)
Theorem C38_dss_value :
  forall b obs fct ax s p M y x bias,
  ens_args obs fct ax s p M y x -> (b = Numba -> dt obs = DFloat) -> (0 < M)%nat ->
  (forall r, inb s r -> spread M (member p x r)) ->
  returns (dssuv_ensemble b obs fct ax bias) s
    (fun r => Fin (ds_score (mean M (member p x r)) (variance bias M (member p x r)) (y r))).
Proof. exact C38_dss_value_l. Qed.
Print Assumptions C38_dss_value.
(** observation 1, members 0 and 2: mean 1, unbiased variance 2 *)
Example C38_dss_case : ens_args (num0 (Fin 1)) (real1 2 (fun k => 2 * INR k)) (-1) [] 0 2 (fun _ => 1) (fun i => 2 * INR (hd 0%nat i)) /\
  spread 2 (member 0 (fun i => 2 * INR (hd 0%nat i)) []) /\
  ds_score (mean 2 (fun k => 2 * INR k)) (variance false 2 (fun k => 2 * INR k)) 1 = ln 2.
Proof.
  split; [exact (real0_dss 1 2 (fun k => 2 * INR k))|]. split.
  - exists 0%nat, 1%nat. unfold member, insert_at. simpl. repeat split; auto; lra.
  - unfold ds_score, variance, mean, sumn, Rsum, Rsqr. simpl. replace ((_ + (_ + 0)) / (1 + 1 - 1)) with 2 by field.
    replace ((1 - _) * _) with 0 by field. lra.
Qed.

(** C38.  The two implementations return the same array for any float input: NaN, infinities,
    equal members and single members included. *)
Theorem C38_dss_agree :
  forall obs fct ax s p M y x bias,
  ens_nums obs fct ax s p M y x -> dt obs = DFloat -> (0 < M)%nat ->
  exists v, returns (dssuv_ensemble Array obs fct ax bias) s v /\ returns (dssuv_ensemble Numba obs fct ax bias) s v.
Proof. exact C38_dss_agree_l. Qed.
Print Assumptions C38_dss_agree.

(** C38.  Where all members are equal (also for a single member) the score is NaN, whatever the
    finite observation. *)
Theorem C38_dss_equal_members :
  forall b obs fct ax s p M y x bias r,
  ens_args obs fct ax s p M y x -> (b = Numba -> dt obs = DFloat) -> (0 < M)%nat ->
  inb s r -> ~ spread M (member p x r) ->
  exists v, returns (dssuv_ensemble b obs fct ax bias) s v /\ v r = NaN.
Proof. exact C38_dss_equal_members_l. Qed.
Print Assumptions C38_dss_equal_members.
Example C38_dss_equal_case : ~ spread 3 (fun _ => 7) /\ ~ spread 1 (fun k => INR k).
Proof. split; intros (i & j & Hi & Hj & N); [easy|]. assert (i = j) by lia. congruence. Qed.

(** C38.  The order of the members does not matter. *)
Theorem C38_dss_permutation :
  forall b obs fct fct' ax s p M y x x' bias g,
  ens_args obs fct ax s p M y x -> ens_args obs fct' ax s p M y x' -> (b = Numba -> dt obs = DFloat) -> (0 < M)%nat ->
  (forall r, inb s r -> spread M (member p x r)) -> (forall r, inb s r -> reorders M (g r)) ->
  (forall r i, inb s r -> (i < M)%nat -> member p x' r i = member p x r (g r i)) ->
  exists u, returns (dssuv_ensemble b obs fct ax bias) s (fun r => Fin (u r)) /\
            returns (dssuv_ensemble b obs fct' ax bias) s (fun r => Fin (u r)).
Proof. exact C38_dss_permutation_l. Qed.
Print Assumptions C38_dss_permutation.

(** C38.  Replacing observation and members by a + c times them, c <> 0, adds log c^2: in
    particular the score is invariant under shifts and under c = -1. *)
Theorem C38_dss_affine :
  forall b obs fct obs' fct' ax s p M y x y' x' bias a c,
  ens_args obs fct ax s p M y x -> ens_args obs' fct' ax s p M y' x' ->
  (b = Numba -> dt obs = DFloat /\ dt obs' = DFloat) -> (0 < M)%nat ->
  (forall r, inb s r -> spread M (member p x r)) -> (forall r, inb s r -> c r <> 0) ->
  (forall r, inb s r -> y' r = a r + c r * y r) ->
  (forall r i, inb s r -> (i < M)%nat -> member p x' r i = a r + c r * member p x r i) ->
  exists u, returns (dssuv_ensemble b obs fct ax bias) s (fun r => Fin (u r)) /\
            returns (dssuv_ensemble b obs' fct' ax bias) s (fun r => Fin (u r + ln (c r)²)).
Proof. exact C38_dss_affine_l. Qed.
Print Assumptions C38_dss_affine.

(** C38.  bias=True: the observation is drawn uniformly from z 0, ..., z (N-1).  The mean score of
    any forecast ensemble x is at least that of the ensemble z. *)
Theorem C38_dss_proper :
  forall b M x N z,
  spread M x -> spread N z -> exists S T : nat -> R,
    (forall j, (j < N)%nat -> returns (dssuv_ensemble b (num0 (Fin (z j))) (real1 M x) (-1) true) [] (fun _ => Fin (S j))) /\
    (forall j, (j < N)%nat -> returns (dssuv_ensemble b (num0 (Fin (z j))) (real1 N z) (-1) true) [] (fun _ => Fin (T j))) /\
    sumn N T <= sumn N S.
Proof. exact C38_dss_proper_l. Qed.
Print Assumptions C38_dss_proper.
Example C38_dss_proper_case : spread 2 (fun k => INR k) /\ spread 3 (fun k => 2 * INR k).
Proof. split; exists 0%nat, 1%nat; simpl; repeat split; auto; lra. Qed.

(** C38.  With bias=False (the default) the score is not proper in this sense: the observation is
    0 or 1 with probability 1/2, and another ensemble of two members does better than {0, 1}. *)
Theorem C38_dss_unbiased_refuted :
  exists x z : nat -> R, spread 2 x /\ spread 2 z /\ forall b, exists S T : nat -> R,
    (forall j, (j < 2)%nat -> returns (dssuv_ensemble b (num0 (Fin (z j))) (real1 2 x) (-1) false) [] (fun _ => Fin (S j))) /\
    (forall j, (j < 2)%nat -> returns (dssuv_ensemble b (num0 (Fin (z j))) (real1 2 z) (-1) false) [] (fun _ => Fin (T j))) /\
    sumn 2 S < sumn 2 T.
Proof. exact C38_dss_unbiased_refuted_l. Qed.
Print Assumptions C38_dss_unbiased_refuted.

(** C38.  For integer observations the implementations disagree: the compiled score is stored in
    an array of the observations' type.  Observation 1, members 0 and 2. *)
Theorem C38_dss_numba_integer_refuted :
  exists obs fct : arr, dt obs = DInt /\ ens_args obs fct (-1) [] 0 2 (fun _ => 1) (fun i => 2 * INR (hd 0%nat i)) /\
  returns (dssuv_ensemble Array obs fct (-1) false) [] (fun _ => Fin (ln 2)) /\
  returns (dssuv_ensemble Numba obs fct (-1) false) [] (fun _ => Fin 0) /\ ln 2 <> 0.
Proof. exact C38_dss_numba_integer_refuted_l. Qed.
Print Assumptions C38_dss_numba_integer_refuted.

(** C38.  Error-spread score of three or more members that are not all equal:
    (s^2 - e^2 - e s g)^2 with s^2 the unbiased variance, e the error of the mean and g the
    skewness.  The array implementation removes axes of length one, see below. *)
Theorem C38_ess_value :
  forall b obs fct ax s p M y x,
  ens_args obs fct ax s p M y x -> (b = Numba -> dt obs = DFloat) -> (2 < M)%nat -> (b = Array -> no_unit s) ->
  (forall r, inb s r -> spread M (member p x r)) ->
  returns (error_spread_score b obs fct ax) s
    (fun r => Fin (es_score (skew_code M (member p x r)) M (member p x r) (y r))).
Proof. exact C38_ess_value_l. Qed.
Print Assumptions C38_ess_value.
(** members 0, 0, 3, observation 1: mean 1, variance 3, e = 0, score 9 *)
Example C38_ess_case :
  let x := fun k => match k with 2%nat => 3 | _ => 0 end in
  ens_args (num0 (Fin 1)) (real1 3 x) (-1) [] 0 3 (fun _ => 1) (fun i => x (hd 0%nat i)) /\
  no_unit [] /\ spread 3 x /\ es_score (skew_code 3 x) 3 x 1 = 9.
Proof.
  intros x. split; [exact (real0_dss 1 3 x)|]. split; [intros d []|]. split.
  - exists 0%nat, 2%nat. simpl. repeat split; auto; lra.
  - assert (M : mean 3 x = 1) by (unfold mean, x, sumn, Rsum; simpl; field).
    assert (V : variance false 3 x = 3) by (unfold variance; rewrite M; unfold x, sumn, Rsum, Rsqr; simpl; field).
    unfold es_score. rewrite M, V. unfold Rsqr. ring.
Qed.

(** C38.  For finite float inputs without batch axes of length one the implementations return
    the same array, NaN results included. *)
Theorem C38_ess_agree :
  forall obs fct ax s p M y x,
  ens_args obs fct ax s p M y x -> dt obs = DFloat -> (0 < M)%nat -> no_unit s ->
  exists v, returns (error_spread_score Array obs fct ax) s v /\ returns (error_spread_score Numba obs fct ax) s v.
Proof. exact C38_ess_agree_l. Qed.
Print Assumptions C38_ess_agree.

(** C38.  With a batch axis of length one the array implementation returns another shape than the
    compiled one: it squeezes its result. *)
Theorem C38_ess_unit_axis :
  forall obs fct M y x, ens_args obs fct (-1) (1%nat :: nil) 0 M y x -> dt obs = DFloat -> (0 < M)%nat ->
  exists u v, returns (error_spread_score Array obs fct (-1)) [] u /\ returns (error_spread_score Numba obs fct (-1)) (1%nat :: nil) v /\
    u [] = v (0%nat :: nil).
Proof. exact C38_ess_unit_axis_l. Qed.
Print Assumptions C38_ess_unit_axis.
Example C38_ess_unit_axis_case : ens_args (real1 1 (fun _ => 0)) (real2 1 3 (fun _ k => INR k)) (-1) (1%nat :: nil) 0 3 (fun _ => 0) (fun i => INR (hd 0%nat i)).
Proof. repeat split; simpl; auto. now left. Qed.

(** C38.  So the two implementations do not always agree, not even on the shape. *)
Theorem C38_ess_shape_refuted :
  exists obs fct M y x, ens_args obs fct (-1) (1%nat :: nil) 0 M y x /\ dt obs = DFloat /\ (2 < M)%nat /\
  forall s v, ~ (returns (error_spread_score Array obs fct (-1)) s v /\ returns (error_spread_score Numba obs fct (-1)) s v).
Proof. exact C38_ess_shape_refuted_l. Qed.
Print Assumptions C38_ess_shape_refuted.

(** C38.  The score of one or two members, or of equal members, is NaN. *)
Theorem C38_ess_undefined :
  forall b obs fct ax s p M y x r,
  ens_args obs fct ax s p M y x -> (b = Numba -> dt obs = DFloat) -> (0 < M)%nat -> (b = Array -> no_unit s) ->
  inb s r -> ((M <= 2)%nat \/ ~ spread M (member p x r)) ->
  exists v, returns (error_spread_score b obs fct ax) s v /\ v r = NaN.
Proof. exact C38_ess_undefined_l. Qed.
Print Assumptions C38_ess_undefined.

(** C38.  The order of the members does not matter (any finite input, NaN results included). *)
Theorem C38_ess_permutation :
  forall b obs fct fct' ax s p M y x x' g,
  ens_args obs fct ax s p M y x -> ens_args obs fct' ax s p M y x' -> (b = Numba -> dt obs = DFloat) -> (0 < M)%nat ->
  (b = Array -> no_unit s) -> (forall r, inb s r -> reorders M (g r)) ->
  (forall r i, inb s r -> (i < M)%nat -> member p x' r i = member p x r (g r i)) ->
  exists v, returns (error_spread_score b obs fct ax) s v /\ returns (error_spread_score b obs fct' ax) s v.
Proof. exact C38_ess_permutation_l. Qed.
Print Assumptions C38_ess_permutation.

(** C38.  Replacing observation and members by a + c times them, c <> 0, multiplies the score by
    c^4: in particular it is invariant under shifts and under c = -1. *)
Theorem C38_ess_affine :
  forall b obs fct obs' fct' ax s p M y x y' x' a c,
  ens_args obs fct ax s p M y x -> ens_args obs' fct' ax s p M y' x' ->
  (b = Numba -> dt obs = DFloat /\ dt obs' = DFloat) -> (2 < M)%nat -> (b = Array -> no_unit s) ->
  (forall r, inb s r -> spread M (member p x r)) -> (forall r, inb s r -> c r <> 0) ->
  (forall r, inb s r -> y' r = a r + c r * y r) ->
  (forall r i, inb s r -> (i < M)%nat -> member p x' r i = a r + c r * member p x r i) ->
  exists u, returns (error_spread_score b obs fct ax) s (fun r => Fin (u r)) /\
            returns (error_spread_score b obs' fct' ax) s (fun r => Fin (c r ^ 4 * u r)).
Proof. exact C38_ess_affine_l. Qed.
Print Assumptions C38_ess_affine.

(** C38.  Wherever the score is defined it is non-negative. *)
Theorem C38_ess_nonnegative :
  forall b obs fct ax s p M y x,
  ens_args obs fct ax s p M y x -> (b = Numba -> dt obs = DFloat) -> (2 < M)%nat -> (b = Array -> no_unit s) ->
  (forall r, inb s r -> spread M (member p x r)) ->
  exists u, returns (error_spread_score b obs fct ax) s (fun r => Fin (u r)) /\ forall r, 0 <= u r.
Proof. exact C38_ess_nonnegative_l. Qed.
Print Assumptions C38_ess_nonnegative.

(** C55.  If the sum of the cubes is zero (for instance for a symmetric ensemble) the score is
    the published one. *)
Theorem C55_symmetric :
  forall b obs fct ax s p M y x,
  ens_args obs fct ax s p M y x -> (b = Numba -> dt obs = DFloat) -> (2 < M)%nat -> (b = Array -> no_unit s) ->
  (forall r, inb s r -> spread M (member p x r) /\ cubes M (member p x r) = 0) ->
  returns (error_spread_score b obs fct ax) s
    (fun r => Fin (es_score (skew_paper M (member p x r)) M (member p x r) (y r))).
Proof. exact C55_symmetric_l. Qed.
Print Assumptions C55_symmetric.
Example C55_symmetric_case : let x := fun k => INR k in spread 3 x /\ cubes 3 x = 0.
Proof.
  intros x. assert (S : spread 3 x) by (exists 0%nat, 1%nat; unfold x; simpl; repeat split; auto; lra). split; [auto|].
  pose proof (sqrt_lt_R0 _ (variance_pos 3 x false S)). unfold cubes. set (q := sqrt _) in *. clearbody q.
  unfold mean, sumn, Rsum, x. simpl. field. lra.
Qed.

(** C55.  The score is not the published one for skewed ensembles: members 0, 0, 3 and
    observation -1.  The code lacks the factor M in the skewness. *)
Theorem C55_skewness_refuted :
  exists M x y, (2 < M)%nat /\ spread M x /\ forall b, exists u,
    returns (error_spread_score b (num0 (Fin y)) (real1 M x) (-1)) [] (fun _ => Fin u) /\
    u <> es_score (skew_paper M x) M x y.
Proof. exact C55_skewness_refuted_l. Qed.
Print Assumptions C55_skewness_refuted.
