(** Properties C23-C28: dtypes, [crps_quantile], [quantile_score], [interval_score] and
    [weighted_interval_score]. *)
From Verif Require Import L_examples T_quant.
Open Scope R_scope.

(** C23.  On the array implementation the element types do not matter: obs and fct may be
    replaced by arrays of any other dtype with the same entries. *)
Theorem C23_array :
  forall srt obs fct obs' fct' ax s p M y x e sf,
  argsort_ok srt -> ens_nums obs fct ax s p M y x -> ens_nums obs' fct' ax s p M y x ->
  In e ["nrg"; "fair"; "pwm"; "qd"; "int"; "akr"; "akr_circperm"]%string ->
  exists v, returns (crps_ensemble srt Array obs fct ax None e sf "propagate") s v /\
            returns (crps_ensemble srt Array obs' fct' ax None e sf "propagate") s v.
Proof. exact C23_array_l. Qed.
Print Assumptions C23_array.
Example C23_case : ens_nums (mkArr DInt nil (fun _ => Fin 0)) (mkArr DInt (2%nat :: nil) (fun i => nofnat (hd 0%nat i))) (-1) nil 0 2
    (fun _ => Fin 0) (fun i => nofnat (hd 0%nat i)) /\
  ens_nums (num0 (Fin 0)) (num1 2 nofnat) (-1) nil 0 2 (fun _ => Fin 0) (fun i => nofnat (hd 0%nat i)).
Proof. repeat split; simpl; auto; now left. Qed.

(** C23.  On the numba implementation the dtype of the forecasts does not matter; neither does
    that of the observations for nrg, fair and qd. *)
Theorem C23_numba :
  forall srt obs fct obs' fct' ax s p M y x e sf,
  argsort_ok srt -> ens_nums obs fct ax s p M y x -> ens_nums obs' fct' ax s p M y x ->
  In e ["nrg"; "fair"; "pwm"; "qd"; "int"; "akr"; "akr_circperm"]%string ->
  (In e ["nrg"; "fair"; "qd"]%string \/ dt obs = dt obs') ->
  exists v, returns (crps_ensemble srt Numba obs fct ax None e sf "propagate") s v /\
            returns (crps_ensemble srt Numba obs' fct' ax None e sf "propagate") s v.
Proof. exact C23_numba_l. Qed.
Print Assumptions C23_numba.

(** C23 fails: with integer observations the numba estimator pwm truncates the score to an
    integer (obs = 0, members 1, 2, 3: 4/3 becomes 1). *)
Theorem C23_obs_refuted :
  exists obs obs' fct y x, real_arr obs nil y /\ real_arr obs' nil y /\ real_arr fct (3%nat :: nil) x /\
  exists v v', v <> v' /\ forall srt, argsort_ok srt ->
    returns (crps_ensemble srt Numba obs fct (-1) None "pwm" false "propagate") nil (fun _ => Fin v) /\
    returns (crps_ensemble srt Numba obs' fct (-1) None "pwm" false "propagate") nil (fun _ => Fin v').
Proof. exact C23_obs_refuted_l. Qed.
Print Assumptions C23_obs_refuted.

(** C23 fails: with integer forecasts fractional weights are truncated
    (obs = 0, members 0, 1, weights 1/2, 3/2: 9/16 becomes 1). *)
Theorem C23_weights_refuted :
  exists fct fct' wt x w, real_arr fct (2%nat :: nil) x /\ real_arr fct' (2%nat :: nil) x /\ real_arr wt (2%nat :: nil) w /\
  exists v v', v <> v' /\ forall srt b, argsort_ok srt ->
    returns (crps_ensemble srt b (farr nil (fun _ => 0)) fct (-1) (Some wt) "nrg" false "propagate") nil (fun _ => Fin v) /\
    returns (crps_ensemble srt b (farr nil (fun _ => 0)) fct' (-1) (Some wt) "nrg" false "propagate") nil (fun _ => Fin v').
Proof. exact C23_weights_refuted_l. Qed.
Print Assumptions C23_weights_refuted.

(** C24.  crps_quantile is twice the mean pinball loss, on both implementations and for every
    ensemble axis. *)
Theorem C24_value :
  forall be obs fct al ax s p K y x a,
  ens_args obs fct ax s p K y x -> (0 < K)%nat -> real_arr al (K :: nil) a ->
  (forall k, (k < K)%nat -> 0 < a (k :: nil) < 1) -> (be = Numba -> dt obs = DFloat) ->
  returns (crps_quantile be obs fct al ax) s
    (fun r => Fin (2 / INR K * sumn K (fun k => pinball (a (k :: nil)) (member p x r k) (y r)))).
Proof. exact C24_value_l. Qed.
Print Assumptions C24_value.
Example C24_case : ens_args ex_obs ex_fct 0 (2%nat :: nil) 1 3 ex_y ex_x /\
  real_arr (real1 3 (fun k => (INR k + 1) / 4)) (3%nat :: nil) (fun i => (INR (hd 0%nat i) + 1) / 4) /\
  (forall k, (k < 3)%nat -> 0 < (INR (hd 0%nat (k :: nil)) + 1) / 4 < 1).
Proof.
  split; [apply ex_args|]. split; [repeat split|]. intros k Hk. cbn [hd].
  destruct k as [|[|[|k]]]; [| | |lia]; simpl; lra.
Qed.

(** C24.  A level outside (0, 1) is a ValueError. *)
Theorem C24_level :
  forall be obs fct al ax s p M y x sa a,
  ens_args obs fct ax s p M y x -> real_arr al sa a -> (exists i, inb sa i /\ (a i <= 0 \/ 1 <= a i)) ->
  raises (crps_quantile be obs fct al ax) ValueError.
Proof. exact C24_level_l. Qed.
Print Assumptions C24_level.
Example C24_level_case : real_arr (real1 2 INR) (2%nat :: nil) (fun i => INR (hd 0%nat i)) /\
  exists i, inb (2%nat :: nil) i /\ (INR (hd 0%nat i) <= 0 \/ 1 <= INR (hd 0%nat i)).
Proof. split; [repeat split|]. exists (1%nat :: nil). split; [simpl; lia|right; simpl; lra]. Qed.

(** C24.  A number of levels other than the number of quantiles is a ValueError. *)
Theorem C24_length :
  forall be obs fct al ax s p M y x sa K a,
  ens_args obs fct ax s p M y x -> real_arr al (K :: sa) a -> K <> M ->
  raises (crps_quantile be obs fct al ax) ValueError.
Proof. exact C24_length_l. Qed.
Print Assumptions C24_length.

(** C24.  For an ascending ensemble and the levels (k + 1/2)/M, k = 0, ..., M-1, the value is the CRPS of the
    ensemble. *)
Theorem C24_ensemble :
  forall be obs fct al ax s p M y x,
  ens_args obs fct ax s p M y x -> (0 < M)%nat -> real_arr al (M :: nil) (fun i => (INR (hd 0%nat i) + / 2) / INR M) ->
  (be = Numba -> dt obs = DFloat) -> (forall r, inb s r -> ascending M (member p x r)) ->
  exists v, returns (crps_quantile be obs fct al ax) s (fun r => Fin (v r)) /\
    forall r, inb s r -> is_crps (ecdf M (member p x r)) (y r) (v r).
Proof. exact C24_ensemble_l. Qed.
Print Assumptions C24_ensemble.
Example C24_ensemble_case : ens_args (farr nil (fun _ => 1)) (real1 2 INR) (-1) nil 0 2 (fun _ => 1) (fun i => INR (hd 0%nat i)) /\
  ascending 2 (member 0 (fun i => INR (hd 0%nat i)) nil).
Proof. split; [apply real0_args|]. intros i j H. unfold member; simpl. apply le_INR. lia. Qed.

(** C25.  quantile_score is the pinball loss; a scalar or element-wise level in [0, 1]. *)
Theorem C25_value :
  forall obs fct al s sa y x a,
  real_arr obs s y -> real_arr fct s x -> real_arr al sa a -> scalar_or sa s ->
  (forall i, inb sa i -> 0 <= a i <= 1) ->
  returns (quantile_score obs fct al) s (fun r => Fin (pinball (entry sa a r) (x r) (y r))).
Proof. exact C25_value_l. Qed.
Print Assumptions C25_value.
Example C25_case : real_arr ex_obs (2%nat :: nil) ex_y /\ real_arr (num0 (Fin (1/4))) nil (fun _ => 1/4) /\
  scalar_or nil (2%nat :: nil) /\ pinball (1/4) 1 3 = 1/2.
Proof. repeat split; auto. - now left. - unfold pinball. destruct (Rle_dec 3 1); lra. Qed.

(** C25.  The pinball loss is not negative; for levels inside (0, 1) it vanishes only at the
    observation. *)
Theorem C25_sign :
  forall al q y,
  (0 <= al <= 1 -> 0 <= pinball al q y) /\ (0 < al < 1 -> (pinball al q y = 0 <-> q = y)).
Proof. exact C25_sign_l. Qed.
Print Assumptions C25_sign.

(** C25.  A level outside [0, 1] is a ValueError. *)
Theorem C25_level :
  forall obs fct al sa a,
  real_arr al sa a -> (exists i, inb sa i /\ (a i < 0 \/ 1 < a i)) ->
  raises (quantile_score obs fct al) ValueError.
Proof. exact C25_level_l. Qed.
Print Assumptions C25_level.
Example C25_level_case : real_arr (num0 (Fin 2)) nil (fun _ => 2) /\ exists i, inb nil i /\ (2 < 0 \/ 1 < 2).
Proof. split; [repeat split|]. exists nil. split; [exact I|right; lra]. Qed.

(** C25.  The score is consistent for the quantile: with mass g j on the outcome v j, a forecast q minimises
    the mean score if and only if it is a quantile of that distribution. *)
Theorem C25_consistent :
  forall n g v al q, masses n g -> 0 <= al <= 1 ->
  exists S : R -> nat -> R,
    (forall q' j, returns (quantile_score (num0 (Fin (v j))) (num0 (Fin q')) (num0 (Fin al))) nil (fun _ => Fin (S q' j))) /\
    (is_quantile n g v al q <-> forall q', mean_under n g (S q) <= mean_under n g (S q')).
Proof. exact C25_consistent_l. Qed.
Print Assumptions C25_consistent.
Example C25_consistent_case : masses 3 (fun _ => 1/3) /\ is_quantile 3 (fun _ => 1/3) INR (1/2) 1.
Proof.
  split; [split; [intros; lra|unfold sumn, Rsum; simpl; lra]|].
  unfold is_quantile, sumn, Rsum, ind_lt, ind_le; simpl.
  repeat (destruct (Rlt_dec _ _); try lra); repeat (destruct (Rle_dec _ _); try lra).
Qed.

(** C26.  interval_score with one level, or one level per point, returns the interval score
    (axes of length one are dropped).  A one-dimensional alpha is the next theorem. *)
Theorem C26_value :
  forall obs lower upper al s sa y l u a,
  real_arr obs s y -> real_arr lower s l -> real_arr upper s u -> real_arr al sa a ->
  scalar_or sa s -> length sa <> 1%nat -> (forall i, inb sa i -> a i <> 0) ->
  returns_squeezed (interval_score obs lower upper al) s
    (fun r => Fin (winkler (entry sa a r) (l r) (u r) (y r))).
Proof. exact C26_value_l. Qed.
Print Assumptions C26_value.
Example C26_case : real_arr ex_obs (2%nat :: nil) ex_y /\ real_arr (num0 (Fin (1/4))) nil (fun _ => 1/4) /\
  scalar_or nil (2%nat :: nil) /\ winkler (1/4) 0 1 3 = 17.
Proof. repeat split; auto. - now left. - unfold winkler. destruct (Rlt_dec 3 0), (Rlt_dec 1 3); lra. Qed.

(** C26.  With K levels the intervals are along the last axis and the observation is shared. *)
Theorem C26_levels :
  forall obs lower upper al s K y l u a,
  real_arr obs s y -> real_arr lower (K :: s) l -> real_arr upper (K :: s) u -> real_arr al (K :: nil) a ->
  (forall k, (k < K)%nat -> a (k :: nil) <> 0) ->
  returns_squeezed (interval_score obs lower upper al) (K :: s)
    (fun i => Fin (winkler (a (hd 0%nat i :: nil)) (l i) (u i) (y (tl i)))).
Proof. exact C26_levels_l. Qed.
Print Assumptions C26_levels.

(** C26.  Bounds of different shapes, or a number of intervals other than the number of levels:
    ValueError. *)
Theorem C26_shapes :
  forall obs lower upper al,
  (sh lower <> sh upper -> raises (interval_score obs lower upper al) ValueError) /\
  (forall s K K', sh lower = K' :: s -> sh upper = K' :: s -> sh al = K :: nil -> K' <> K ->
     raises (interval_score obs lower upper al) ValueError).
Proof. exact C26_shapes_l. Qed.
Print Assumptions C26_shapes.

(** C26.  Interval score = 2/alpha times the sum of the quantile scores of the two ends;
    both sides are results of calls. *)
Theorem C26_decomposition :
  forall obs lower upper al s y l u a,
  real_arr obs s y -> real_arr lower s l -> real_arr upper s u -> 0 < a < 1 -> real_arr al nil (fun _ => a) ->
  exists q1 q2 : list nat -> R,
    returns (quantile_score obs lower (num0 (Fin (a / 2)))) s (fun r => Fin (q1 r)) /\
    returns (quantile_score obs upper (num0 (Fin (1 - a / 2)))) s (fun r => Fin (q2 r)) /\
    returns_squeezed (interval_score obs lower upper al) s (fun r => Fin (2 / a * (q1 r + q2 r))).
Proof. exact C26_decomposition_l. Qed.
Print Assumptions C26_decomposition.

(** C26.  The mean interval score is minimised exactly by the intervals whose ends are quantiles of levels
    alpha/2 and 1 - alpha/2. *)
Theorem C26_proper :
  forall n g v a l u, masses n g -> 0 < a < 1 ->
  exists S : R -> R -> nat -> R,
    (forall l' u' j, returns (interval_score (num0 (Fin (v j))) (num0 (Fin l')) (num0 (Fin u')) (num0 (Fin a))) nil (fun _ => Fin (S l' u' j))) /\
    (is_quantile n g v (a / 2) l /\ is_quantile n g v (1 - a / 2) u <->
     forall l' u', mean_under n g (S l u) <= mean_under n g (S l' u')).
Proof. exact C26_proper_l. Qed.
Print Assumptions C26_proper.
Example C26_proper_case : masses 4 (fun _ => 1/4) /\ is_quantile 4 (fun _ => 1/4) INR (1/2/2) 1 /\
  is_quantile 4 (fun _ => 1/4) INR (1 - 1/2/2) 2.
Proof.
  split; [split; [intros; lra|unfold sumn, Rsum; simpl; lra]|].
  unfold is_quantile, sumn, Rsum, ind_lt, ind_le; simpl. split.
  all: repeat (destruct (Rlt_dec _ _); try lra); repeat (destruct (Rle_dec _ _); try lra).
Qed.

(** C27 fails: for obs = median = 1 and the interval [0, 2] at level 1/2 the numba
    implementation returns 1/3 and the array implementation 2/3. *)
Theorem C27_agree_refuted :
  exists obs med lower upper al y m l u a,
    real_arr obs nil y /\ real_arr med nil m /\ real_arr lower (1%nat :: nil) l /\ real_arr upper (1%nat :: nil) u /\
    real_arr al (1%nat :: nil) a /\ dt obs = DFloat /\ dt al = DFloat /\
    returns (weighted_interval_score Numba obs med lower upper al None None) nil (fun _ => Fin (1/3)) /\
    returns (weighted_interval_score Array obs med lower upper al None None) nil (fun _ => Fin (2/3)).
Proof. exact C27_agree_refuted_l. Qed.
Print Assumptions C27_agree_refuted.

(** C27.  What the array implementation returns: the median enters as w_median * median instead of
    w_median * |obs - median|. *)
Theorem C27_array_value :
  forall obs med lower upper al s K y m l u a wm wa cm w,
  real_arr obs s y -> real_arr med s m -> real_arr lower (K :: s) l -> real_arr upper (K :: s) u ->
  real_arr al (K :: nil) a -> (forall k, (k < K)%nat -> a (k :: nil) <> 0) -> wis_weights K a wm wa cm w ->
  returns_squeezed (weighted_interval_score Array obs med lower upper al wm wa) s
    (fun r => Fin ((sumn K (fun k => w k * winkler (a (k :: nil)) (l (k :: r)) (u (k :: r)) (y r)) + cm * m r)
                    / (INR K + 1 / 2))).
Proof. exact C27_array_value_l. Qed.
Print Assumptions C27_array_value.

(** C28.  The numba weighted interval score is the documented weighted sum, for any weights. *)
Theorem C28_value :
  forall obs med lower upper al s K y m l u a wm wa cm w,
  real_arr obs s y -> real_arr med s m -> real_arr lower (K :: s) l -> real_arr upper (K :: s) u ->
  real_arr al (K :: nil) a -> (forall k, (k < K)%nat -> a (k :: nil) <> 0) -> dt obs = DFloat ->
  wis_weights K a wm wa cm w ->
  returns (weighted_interval_score Numba obs med lower upper al wm wa) s
    (fun r => Fin ((cm * Rabs (y r - m r) + sumn K (fun k => w k * winkler (a (k :: nil)) (l (k :: r)) (u (k :: r)) (y r)))
                    / (INR K + 1 / 2))).
Proof. exact C28_value_l. Qed.
Print Assumptions C28_value.

(** C28.  With the default weights it is twice the mean pinball loss over the 2K+1 levels
    alpha_k/2, 1 - alpha_k/2 and 1/2. *)
Theorem C28_quantiles :
  forall obs med lower upper al s K y m l u a,
  real_arr obs s y -> real_arr med s m -> real_arr lower (K :: s) l -> real_arr upper (K :: s) u ->
  real_arr al (K :: nil) a -> (forall k, (k < K)%nat -> a (k :: nil) <> 0) -> dt obs = DFloat ->
  returns (weighted_interval_score Numba obs med lower upper al None None) s
    (fun r => Fin (2 * ((pinball (/ 2) (m r) (y r) +
        sumn K (fun k => pinball (a (k :: nil) / 2) (l (k :: r)) (y r) + pinball (1 - a (k :: nil) / 2) (u (k :: r)) (y r)))
                    / (2 * INR K + 1)))).
Proof. exact C28_quantiles_l. Qed.
Print Assumptions C28_quantiles.
Example C28_case : real_arr ex_obs (2%nat :: nil) ex_y /\ real_arr ex_fct (insert_at 1 3%nat (2%nat :: nil)) ex_x /\
  dt ex_obs = DFloat /\ wis_weights 2 (fun _ => 1/2) None (Some (real1 2 (fun _ => 3))) (/2) (fun _ => 3).
Proof. repeat split; auto. Qed.
