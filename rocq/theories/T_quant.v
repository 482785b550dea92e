(** Proofs of the quantile and interval score properties (statements in P_quant.v). *)
From Verif Require Export L_interval T_crps_ow.
Open Scope R_scope.
Definition idx1 (k : nat) : list nat := k :: nil.
Lemma C23_array_l :
  forall srt obs fct obs' fct' ax s p M y x e sf,
  argsort_ok srt -> ens_nums obs fct ax s p M y x -> ens_nums obs' fct' ax s p M y x ->
  In e ["nrg"; "fair"; "pwm"; "qd"; "int"; "akr"; "akr_circperm"]%string ->
  exists v, returns (crps_ensemble srt Array obs fct ax None e sf "propagate") s v /\
            returns (crps_ensemble srt Array obs' fct' ax None e sf "propagate") s v.
Proof.
  intros srt obs fct obs' fct' ax s p M y x e sf Hs H H' He. destruct (name_est e He) as (e' & ->).
  eexists; split; eapply returns_is.
  - exact (api_un srt Hs Array _ _ _ _ _ _ _ _ _ _ (nums_inputs _ _ _ _ _ _ _ _ H) e' sf).
  - exact (api_un srt Hs Array _ _ _ _ _ _ _ _ _ _ (nums_inputs _ _ _ _ _ _ _ _ H') e' sf).
Qed.
Lemma C23_numba_l :
  forall srt obs fct obs' fct' ax s p M y x e sf,
  argsort_ok srt -> ens_nums obs fct ax s p M y x -> ens_nums obs' fct' ax s p M y x ->
  In e ["nrg"; "fair"; "pwm"; "qd"; "int"; "akr"; "akr_circperm"]%string ->
  (In e ["nrg"; "fair"; "qd"]%string \/ dt obs = dt obs') ->
  exists v, returns (crps_ensemble srt Numba obs fct ax None e sf "propagate") s v /\
            returns (crps_ensemble srt Numba obs' fct' ax None e sf "propagate") s v.
Proof.
  intros srt obs fct obs' fct' ax s p M y x e sf Hs H H' He Hd. destruct (name_est e He) as (e' & ->).
  assert (E : odt Numba e' (dt obs) = odt Numba e' (dt obs')).
  { destruct Hd as [Hd| ->]; auto. destruct e'; try reflexivity; exfalso; simpl in Hd; intuition congruence. }
  eexists; split; eapply returns_is.
  - exact (api_un srt Hs Numba _ _ _ _ _ _ _ _ _ _ (nums_inputs _ _ _ _ _ _ _ _ H) e' sf).
  - rewrite E. exact (api_un srt Hs Numba _ _ _ _ _ _ _ _ _ _ (nums_inputs _ _ _ _ _ _ _ _ H') e' sf).
Qed.
Lemma C23_obs_refuted_l :
  exists obs obs' fct y x, real_arr obs nil y /\ real_arr obs' nil y /\ real_arr fct (3%nat :: nil) x /\
  exists v v', v <> v' /\ forall srt, argsort_ok srt ->
    returns (crps_ensemble srt Numba obs fct (-1) None "pwm" false "propagate") nil (fun _ => Fin v) /\
    returns (crps_ensemble srt Numba obs' fct (-1) None "pwm" false "propagate") nil (fun _ => Fin v').
Proof.
  exists (farr nil (fun _ => 0)), (mkArr DInt nil (fun _ => Fin 0)), (real1 3 (fun k => INR k + 1)),
    (fun _ => 0), (fun i => INR (hd 0%nat i) + 1).
  split; [repeat split|]. split; [repeat split|]. split; [repeat split|].
  assert (V : fair_crps 3 0 (fun k => INR k + 1) = 4 / 3).
  { unfold fair_crps, mae, pairsum, sumn, Rsum. simpl. unfold Rsum; simpl. rcalc. }
  assert (Hin : ens_args (mkArr DInt nil (fun _ => Fin 0)) (real1 3 (fun k => INR k + 1)) (-1) nil 0 3 (fun _ => 0)
    (fun i => INR (hd 0%nat i) + 1)) by (repeat split; simpl; auto; now left).
  exists (4/3), 1. split; [lra|]. intros srt Hs. split.
  - eapply returns_ext; [eapply returns_is, (call_un srt Numba _ _ _ _ _ _ _ _ Pwm false "propagate" Hs
      (real0_args 0 3 (fun k => INR k + 1))); try easy; [lia|now left|intros; lia]|].
    intros r Hr. cbv beta. f_equal. exact V.
  - eapply returns_ext; [eapply returns_is, (ens_real srt Hs Numba _ _ _ _ _ _ _ _ _ _ (fun _ => 0) (fun i => INR (hd 0%nat i) + 1)
      (nums_inputs _ _ _ _ _ _ _ _ (args_nums _ _ _ _ _ _ _ _ Hin)) ltac:(lia) ltac:(reflexivity) ltac:(reflexivity) Pwm false "propagate");
      [now left|intros; lia|easy]|].
    intros r Hr. cbv beta. cbn [real_un odt dt].
    change (fair_crps 3 0 (fun k => INR (hd 0%nat (insert_at 0 k r)) + 1)) with (fair_crps 3 0 (fun k => INR k + 1)).
    rewrite V. simpl. do 2 f_equal. unfold rtrunc. destruct (Rle_dec 0 (4/3)); [|lra].
    unfold Int_part. rewrite <- (up_tech (4/3) 1); [reflexivity|lra|simpl; lra].
Qed.
Lemma C23_weights_refuted_l :
  exists fct fct' wt x w, real_arr fct (2%nat :: nil) x /\ real_arr fct' (2%nat :: nil) x /\ real_arr wt (2%nat :: nil) w /\
  exists v v', v <> v' /\ forall srt b, argsort_ok srt ->
    returns (crps_ensemble srt b (farr nil (fun _ => 0)) fct (-1) (Some wt) "nrg" false "propagate") nil (fun _ => Fin v) /\
    returns (crps_ensemble srt b (farr nil (fun _ => 0)) fct' (-1) (Some wt) "nrg" false "propagate") nil (fun _ => Fin v').
Proof.
  exists (real1 2 INR), (mkArr DInt (2%nat :: nil) (fun i => Fin (INR (hd 0%nat i)))), (real1 2 (fun k => INR k + 1 / 2)),
    (fun i => INR (hd 0%nat i)), (fun i => INR (hd 0%nat i) + 1 / 2).
  split; [repeat split|]. split; [repeat split|]. split; [repeat split|].
  exists (9/16), 1. split; [lra|]. intros srt b Hs. split.
  - eapply returns_ext; [eapply returns_is, (call_w srt b _ _ _ _ _ _ _ _ _ _ Nrg false "propagate" Hs (real0_args 0 2 INR)
     (real0_wts 2 INR (fun k => INR k + 1 / 2) ltac:(intros; pose proof (pos_INR k); lra) ltac:(unfold sumn, Rsum; simpl; lra)));
     try easy; [now left|lia]|].
    intros r Hr. cbv beta. f_equal. cbn [real_w]. unfold wexact_crps, wmae, wpairsum, nw, sumn, Rsum, member; simpl; unfold Rsum; simpl. rcalc.
  - assert (Hin : ens_args (farr nil (fun _ => 0)) (mkArr DInt (2%nat :: nil) (fun i => Fin (INR (hd 0%nat i)))) (-1) nil 0 2 (fun _ => 0)
      (fun i => INR (hd 0%nat i))) by (repeat split; simpl; auto; now left).
    assert (I0 : rtrunc (INR 0 + 1 / 2) = 0%Z).
    { unfold rtrunc; simpl. destruct (Rle_dec _ _); [|lra]. unfold Int_part. rewrite <- (up_tech _ 0); [reflexivity|simpl; lra|simpl; lra]. }
    assert (I1 : rtrunc (INR 1 + 1 / 2) = 1%Z).
    { unfold rtrunc; simpl. destruct (Rle_dec _ _); [|lra]. unfold Int_part. rewrite <- (up_tech _ 1); [reflexivity|simpl; lra|simpl; lra]. }
    eapply returns_ext; [eapply returns_is, (ens_w_real srt Hs b _ _ _ _ _ _ _ _ _ _ (fun _ => 0) (fun i => INR (hd 0%nat i))
      (nums_inputs _ _ _ _ _ _ _ _ (args_nums _ _ _ _ _ _ _ _ Hin)) ltac:(reflexivity) ltac:(reflexivity)
      (real1 2 (fun k => INR k + 1 / 2)) DFloat (fun i => Fin (INR (hd 0%nat i) + 1 / 2)) (fun i => INR (hd 0%nat i)) Nrg false "propagate");
      [now left|repeat split| | |easy|easy]|].
    + intros r k Hr Hk. cbn [ncast dt insert_at hd]. split; [|apply pos_INR]. destruct k as [|[|k]]; [now rewrite I0|now rewrite I1|lia].
    + intros r Hr. unfold sumn, Rsum; simpl. lra.
    + intros r Hr. cbv beta. cbn [real_w]. rewrite (ncast_id (odt_w b _)) by now destruct b. f_equal.
      unfold wexact_crps, wmae, wpairsum, nw, sumn, Rsum, member; simpl; unfold Rsum; simpl. rcalc.
Qed.
Lemma C24_value_l :
  forall be obs fct al ax s p K y x a,
  ens_args obs fct ax s p K y x -> (0 < K)%nat -> real_arr al (K :: nil) a ->
  (forall k, (k < K)%nat -> 0 < a (k :: nil) < 1) -> (be = Numba -> dt obs = DFloat) ->
  returns (crps_quantile be obs fct al ax) s
    (fun r => Fin (2 / INR K * sumn K (fun k => pinball (a (k :: nil)) (member p x r k) (y r)))).
Proof.
  intros. now apply quantile_value.
Qed.
Lemma C24_level_l :
  forall be obs fct al ax s p M y x sa a,
  ens_args obs fct ax s p M y x -> real_arr al sa a -> (exists i, inb sa i /\ (a i <= 0 \/ 1 <= a i)) ->
  raises (crps_quantile be obs fct al ax) ValueError.
Proof.
  intros. now apply (quantile_level be obs fct al ax s p M y x sa a).
Qed.
Lemma C24_length_l :
  forall be obs fct al ax s p M y x sa K a,
  ens_args obs fct ax s p M y x -> real_arr al (K :: sa) a -> K <> M ->
  raises (crps_quantile be obs fct al ax) ValueError.
Proof.
  intros. now apply (quantile_length be obs fct al ax s p M y x sa K a).
Qed.
Lemma C24_ensemble_l :
  forall be obs fct al ax s p M y x,
  ens_args obs fct ax s p M y x -> (0 < M)%nat -> real_arr al (M :: nil) (fun i => (INR (hd 0%nat i) + / 2) / INR M) ->
  (be = Numba -> dt obs = DFloat) -> (forall r, inb s r -> ascending M (member p x r)) ->
  exists v, returns (crps_quantile be obs fct al ax) s (fun r => Fin (v r)) /\
    forall r, inb s r -> is_crps (ecdf M (member p x r)) (y r) (v r).
Proof.
  intros be obs fct al ax s p M y x Ha HM Hal Hd Hasc. assert (0 < INR M) by (apply lt_0_INR; lia).
  exists (fun r => exact_crps M (y r) (member p x r)). split.
  - eapply returns_ext; [apply (quantile_value be obs fct al ax s p M y x _ Ha HM Hal); auto|].
    + intros k Hk. cbn [hd]. pose proof (pos_INR k). pose proof (lt_INR _ _ Hk). pose proof (le_INR (S k) M ltac:(lia)) as L. rewrite S_INR in L.
      split; [apply Rdiv_lt_0_compat; lra|]. apply (Rmult_lt_reg_r (INR M)); auto. unfold Rdiv. rewrite Rmult_assoc, Rinv_l by lra. lra.
    + intros r Hr. cbv beta. f_equal. cbn [hd]. apply pinball_midpoints; auto.
  - intros r Hr. now apply is_crps_ecdf.
Qed.
Lemma C25_value_l :
  forall obs fct al s sa y x a,
  real_arr obs s y -> real_arr fct s x -> real_arr al sa a -> scalar_or sa s ->
  (forall i, inb sa i -> 0 <= a i <= 1) ->
  returns (quantile_score obs fct al) s (fun r => Fin (pinball (entry sa a r) (x r) (y r))).
Proof.
  intros. now apply qs_value.
Qed.
Lemma C25_sign_l :
  forall al q y,
  (0 <= al <= 1 -> 0 <= pinball al q y) /\ (0 < al < 1 -> (pinball al q y = 0 <-> q = y)).
Proof.
  intros. split; intros; [now apply pinball_nonneg|now apply pinball_zero].
Qed.
Lemma C25_level_l :
  forall obs fct al sa a,
  real_arr al sa a -> (exists i, inb sa i /\ (a i < 0 \/ 1 < a i)) ->
  raises (quantile_score obs fct al) ValueError.
Proof.
  intros. now apply (qs_level obs fct al sa a).
Qed.
Lemma C25_consistent_l :
  forall n g v al q, masses n g -> 0 <= al <= 1 ->
  exists S : R -> nat -> R,
    (forall q' j, returns (quantile_score (num0 (Fin (v j))) (num0 (Fin q')) (num0 (Fin al))) nil (fun _ => Fin (S q' j))) /\
    (is_quantile n g v al q <-> forall q', mean_under n g (S q) <= mean_under n g (S q')).
Proof.
  intros n g v al q Hg Hal. exists (fun q j => pinball al q (v j)). split.
  - intros q' j. apply (qs_value (num0 (Fin (v j))) (num0 (Fin q')) (num0 (Fin al)) nil nil (fun _ => v j) (fun _ => q') (fun _ => al)); repeat split; try lra; now left.
  - split; [intros H q'; now apply quantile_optimal|now apply optimal_quantile].
Qed.
Lemma C26_value_l :
  forall obs lower upper al s sa y l u a,
  real_arr obs s y -> real_arr lower s l -> real_arr upper s u -> real_arr al sa a ->
  scalar_or sa s -> length sa <> 1%nat -> (forall i, inb sa i -> a i <> 0) ->
  returns_squeezed (interval_score obs lower upper al) s
    (fun r => Fin (winkler (entry sa a r) (l r) (u r) (y r))).
Proof.
  intros. now apply is_scalar.
Qed.
Lemma C26_levels_l :
  forall obs lower upper al s K y l u a,
  real_arr obs s y -> real_arr lower (K :: s) l -> real_arr upper (K :: s) u -> real_arr al (K :: nil) a ->
  (forall k, (k < K)%nat -> a (k :: nil) <> 0) ->
  returns_squeezed (interval_score obs lower upper al) (K :: s)
    (fun i => Fin (winkler (a (hd 0%nat i :: nil)) (l i) (u i) (y (tl i)))).
Proof.
  intros. now apply is_levels_call.
Qed.
Lemma C26_shapes_l :
  forall obs lower upper al,
  (sh lower <> sh upper -> raises (interval_score obs lower upper al) ValueError) /\
  (forall s K K', sh lower = K' :: s -> sh upper = K' :: s -> sh al = K :: nil -> K' <> K ->
     raises (interval_score obs lower upper al) ValueError).
Proof.
  intros. split; [now apply is_shapes|]. intros s K K' H1 H2 H3 H4. now apply (is_count obs lower upper al s K K').
Qed.
Lemma C26_decomposition_l :
  forall obs lower upper al s y l u a,
  real_arr obs s y -> real_arr lower s l -> real_arr upper s u -> 0 < a < 1 -> real_arr al nil (fun _ => a) ->
  exists q1 q2 : list nat -> R,
    returns (quantile_score obs lower (num0 (Fin (a / 2)))) s (fun r => Fin (q1 r)) /\
    returns (quantile_score obs upper (num0 (Fin (1 - a / 2)))) s (fun r => Fin (q2 r)) /\
    returns_squeezed (interval_score obs lower upper al) s (fun r => Fin (2 / a * (q1 r + q2 r))).
Proof.
  intros obs lower upper al s y l u a Ho Hl Hu Ha Hal.
  exists (fun r => pinball (a / 2) (l r) (y r)), (fun r => pinball (1 - a / 2) (u r) (y r)). split; [|split].
  - apply (qs_value obs lower (num0 (Fin (a/2))) s nil y l (fun _ => a / 2)); auto; [repeat split|now left|intros; lra].
  - apply (qs_value obs upper (num0 (Fin (1 - a/2))) s nil y u (fun _ => 1 - a / 2)); auto; [repeat split|now left|intros; lra].
  - destruct (is_scalar obs lower upper al s y l u (fun _ => a) nil) as (o & E & Hs & H); auto; [now left|intros; lra|].
    exists o. repeat split; auto. intros i Hi. rewrite H by auto. cbn [entry]. f_equal. apply winkler_pinball. lra.
Qed.
Lemma C26_proper_l :
  forall n g v a l u, masses n g -> 0 < a < 1 ->
  exists S : R -> R -> nat -> R,
    (forall l' u' j, returns (interval_score (num0 (Fin (v j))) (num0 (Fin l')) (num0 (Fin u')) (num0 (Fin a))) nil (fun _ => Fin (S l' u' j))) /\
    (is_quantile n g v (a / 2) l /\ is_quantile n g v (1 - a / 2) u <->
     forall l' u', mean_under n g (S l u) <= mean_under n g (S l' u')).
Proof.
  intros n g v a l u Hg Ha. exists (fun l u j => winkler a l u (v j)). split.
  - intros l' u' j. destruct (is_scalar (num0 (Fin (v j))) (num0 (Fin l')) (num0 (Fin u')) (num0 (Fin a)) nil (fun _ => v j) (fun _ => l') (fun _ => u') (fun _ => a) nil)
      as (o & E & Hs & H); try (repeat split; fail); [now left|easy|intros; lra|].
    exists (dt o), o. split; auto. repeat split; auto. intros i Hi. pose proof (inb_nil_inv _ Hi); subst. apply (H nil I).
  - assert (D : forall l u, mean_under n g (fun j => winkler a l u (v j)) =
        2 / a * (mean_under n g (fun j => pinball (a / 2) l (v j)) + mean_under n g (fun j => pinball (1 - a / 2) u (v j)))).
    { intros l0 u0. unfold mean_under. rewrite <- sumn_plus, <- sumn_scal. apply sumn_ext. intros j Hj.
      rewrite winkler_pinball by lra. ring. }
    assert (P : 0 < 2 / a) by (apply Rdiv_lt_0_compat; lra). split.
    + intros [H1 H2] l' u'. rewrite !D. apply Rmult_le_compat_l; [lra|].
      pose proof (quantile_optimal n g v (a/2) l l' Hg H1). pose proof (quantile_optimal n g v (1 - a/2) u u' Hg H2). lra.
    + intros H. split; apply optimal_quantile; auto; intros q'.
      * specialize (H q' u). rewrite !D in H. apply Rmult_le_reg_l in H; lra.
      * specialize (H l q'). rewrite !D in H. apply Rmult_le_reg_l in H; lra.
Qed.
Lemma C27_agree_refuted_l :
  exists obs med lower upper al y m l u a,
    real_arr obs nil y /\ real_arr med nil m /\ real_arr lower (1%nat :: nil) l /\ real_arr upper (1%nat :: nil) u /\
    real_arr al (1%nat :: nil) a /\ dt obs = DFloat /\ dt al = DFloat /\
    returns (weighted_interval_score Numba obs med lower upper al None None) nil (fun _ => Fin (1/3)) /\
    returns (weighted_interval_score Array obs med lower upper al None None) nil (fun _ => Fin (2/3)).
Proof.
  set (c := fun v : R => farr (1%nat :: nil) (fun _ => v)).
  assert (Hc : forall v, real_arr (c v) (1%nat :: nil) (fun _ => v)) by (repeat split).
  assert (H0 : forall v, real_arr (num0 (Fin v)) nil (fun _ => v)) by (repeat split).
  exists (num0 (Fin 1)), (num0 (Fin 1)), (c 0), (c 2), (c (1/2)), (fun _ => 1), (fun _ => 1), (fun _ => 0), (fun _ => 2), (fun _ => 1/2).
  do 5 (split; [auto|]). do 2 (split; [reflexivity|]).
  assert (W : wis_weights 1 (fun _ => 1/2) None None (/2) (fun _ => 1/2/2)) by (split; auto).
  assert (N : forall k, (k < 1)%nat -> 1 / 2 <> 0) by (intros; lra).
  split.
  - eapply returns_ext; [apply (wis_numba_call (num0 (Fin 1)) (num0 (Fin 1)) (c 0) (c 2) (c (1/2)) nil 1 (fun _ => 1) (fun _ => 1) (fun _ => 0) (fun _ => 2) (fun _ => 1/2)
      (H0 1) (H0 1) (Hc 0) (Hc 2) (Hc (1/2)) N None None (/2) (fun _ => 1/2/2) eq_refl W)|].
    intros r Hr. cbv beta. f_equal. unfold sumn, Rsum, winkler; simpl. repeat (destruct (Rlt_dec _ _); try lra). rcalc.
  - destruct (wis_array_call (num0 (Fin 1)) (num0 (Fin 1)) (c 0) (c 2) (c (1/2)) nil 1 (fun _ => 1) (fun _ => 1) (fun _ => 0) (fun _ => 2) (fun _ => 1/2)
      (H0 1) (H0 1) (Hc 0) (Hc 2) (Hc (1/2)) N None None (/2) (fun _ => 1/2/2) W) as (o & E & Hs & H).
    exists (dt o), o. split; auto. repeat split; auto. intros i Hi. pose proof (inb_nil_inv _ Hi); subst.
    etransitivity; [exact (H nil I)|]. cbv beta. f_equal. unfold sumn, Rsum, winkler; simpl. repeat (destruct (Rlt_dec _ _); try lra).
Qed.
Lemma C27_array_value_l :
  forall obs med lower upper al s K y m l u a wm wa cm w,
  real_arr obs s y -> real_arr med s m -> real_arr lower (K :: s) l -> real_arr upper (K :: s) u ->
  real_arr al (K :: nil) a -> (forall k, (k < K)%nat -> a (k :: nil) <> 0) -> wis_weights K a wm wa cm w ->
  returns_squeezed (weighted_interval_score Array obs med lower upper al wm wa) s
    (fun r => Fin ((sumn K (fun k => w k * winkler (a (k :: nil)) (l (k :: r)) (u (k :: r)) (y r)) + cm * m r)
                    / (INR K + 1 / 2))).
Proof.
  intros. now apply wis_array_call.
Qed.
Lemma C28_value_l :
  forall obs med lower upper al s K y m l u a wm wa cm w,
  real_arr obs s y -> real_arr med s m -> real_arr lower (K :: s) l -> real_arr upper (K :: s) u ->
  real_arr al (K :: nil) a -> (forall k, (k < K)%nat -> a (k :: nil) <> 0) -> dt obs = DFloat ->
  wis_weights K a wm wa cm w ->
  returns (weighted_interval_score Numba obs med lower upper al wm wa) s
    (fun r => Fin ((cm * Rabs (y r - m r) + sumn K (fun k => w k * winkler (a (k :: nil)) (l (k :: r)) (u (k :: r)) (y r)))
                    / (INR K + 1 / 2))).
Proof.
  intros obs med lower upper al s K y m l u a wm wa cm w Ho Hm Hl Hu Ha H0 Hd Hw.
  eapply returns_ext; [apply (wis_numba_call obs med lower upper al s K y m l u a Ho Hm Hl Hu Ha H0 wm wa cm w Hd Hw)|].
  intros r Hr. cbv beta. f_equal. f_equal. ring.
Qed.
Lemma C28_quantiles_l :
  forall obs med lower upper al s K y m l u a,
  real_arr obs s y -> real_arr med s m -> real_arr lower (K :: s) l -> real_arr upper (K :: s) u ->
  real_arr al (K :: nil) a -> (forall k, (k < K)%nat -> a (k :: nil) <> 0) -> dt obs = DFloat ->
  returns (weighted_interval_score Numba obs med lower upper al None None) s
    (fun r => Fin (2 * ((pinball (/ 2) (m r) (y r) +
        sumn K (fun k => pinball (a (k :: nil) / 2) (l (k :: r)) (y r) + pinball (1 - a (k :: nil) / 2) (u (k :: r)) (y r)))
                    / (2 * INR K + 1)))).
Proof.
  intros obs med lower upper al s K y m l u a Ho Hm Hl Hu Ha H0 Hd.
  eapply returns_ext; [apply (wis_numba_call obs med lower upper al s K y m l u a Ho Hm Hl Hu Ha H0 None None (/2) (fun k => a (k :: nil) / 2) Hd); split; auto|].
  intros r Hr. cbv beta. f_equal. pose proof (pos_INR K).
  rewrite (sumn_ext K _ (fun k => pinball (a (k :: nil) / 2) (l (k :: r)) (y r) + pinball (1 - a (k :: nil) / 2) (u (k :: r)) (y r))).
  2:{ intros k Hk. rewrite winkler_pinball by auto. field. auto. }
  replace (/ 2 * Rabs (y r - m r)) with (pinball (/ 2) (m r) (y r)); [field; lra|].
  unfold pinball, Rabs. destruct (Rle_dec (y r) (m r)), (Rcase_abs (y r - m r)); lra.
Qed.
