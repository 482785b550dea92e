(** Property C71: identities between different scores of the library. *)
From Verif Require Import L_examples T_cross.
From Coq Require Import Psatz Lia.
From Coquelicot Require Import Coquelicot.
Open Scope R_scope.

(** C71.  The CRPS of an ensemble is the integral over all thresholds t of the Brier score of the forecast that the
    outcome is at most t, with the fraction of the members at most t as probability. *)
Theorem C71_brier :
forall srt b obs fct ax s p M y x e sf pol,
  argsort_ok srt -> ens_args obs fct ax s p M y x -> (0 < M)%nat ->
  In e ["nrg"; "qd"; "int"]%string -> In pol ["propagate"; "raise"]%string -> (b = Numba -> dt obs = DFloat) -> sorted_if sf s p M x ->
  exists v, returns (crps_ensemble srt b obs fct ax None e sf pol) s (fun r => Fin (v r)) /\
    forall r, inb s r -> exists S : R -> R,
      (forall t, returns (brier_score (num0 (Fin (ind_le (y r) t))) (num0 (Fin (ecdf M (member p x r) t)))) nil (fun _ => Fin (S t))) /\
      is_RInt_gen S (Rbar_locally m_infty) (Rbar_locally p_infty) (v r).
Proof. exact C71_brier_l. Qed.
Print Assumptions C71_brier.
Example C71_brier_case : argsort_ok L_crps_call.asort /\ ens_args ex_obs ex_fct 0 [2%nat] 1 3 ex_y ex_x /\ ind_le 1 2 = 1 /\ ecdf 2 INR (1 / 2) = 1 / 2.
Proof.
  split; [apply asort_ok|]. split; [apply ex_args|]. unfold ecdf, ind_le. rewrite !sumn_S, sumn_0. simpl. repeat destruct (Rle_dec _ _); lra.
Qed.

(** C71.  The same for the closed-form scores of the catalogue whose distribution functions have values in [0, 1]. *)
Theorem C71_brier_closed :
forall T s F y, closed_crps T s F y -> (forall i, inb s i -> forall t, 0 <= F i t <= 1) ->
  exists f, returns T s (fins f) /\
    forall i, inb s i -> exists S : R -> R,
      (forall t, returns (brier_score (num0 (Fin (ind_le (y i) t))) (num0 (Fin (F i t)))) nil (fun _ => Fin (S t))) /\
      is_RInt_gen S (Rbar_locally m_infty) (Rbar_locally p_infty) (f i).
Proof. exact C71_brier_closed_l. Qed.
Print Assumptions C71_brier_closed.
Example C71_brier_closed_case : closed_crps (crps_exponential (farr nil (fun _ => 2)) (farr nil (fun _ => 3))) nil (fun _ => exponential_cdf 3) (fun _ => 2) /\ forall t, 0 <= exponential_cdf 3 t <= 1.
Proof.
  split; [apply (cc_exponential _ _ nil (fun _ => 2) (fun _ => 3)); [split; [reflexivity|repeat constructor]|intros; lra]|].
  intros t. unfold exponential_cdf. destruct (Rlt_dec t 0); [lra|]. pose proof (exp_pos (- (3 * t))). assert (exp (- (3 * t)) <= 1); [|lra].
  rewrite <- exp_0. destruct (Req_dec t 0) as [-> | E]; [rewrite Rmult_0_r, Ropp_0; lra|]. left. apply exp_increasing. lra.
Qed.

(** C71.  Threshold-weighted scores of adjacent intervals add up; the two scores below and above any threshold b add up
    to the score of crps_ensemble. *)
Theorem C71_partition :
forall srt be obs fct a b c ax s p M y x e pol,
  argsort_ok srt -> ens_args obs fct ax s p M y x -> (0 < M)%nat -> thresholds a (Fin b) -> thresholds (Fin b) c ->
  In e ["nrg"; "qd"; "int"]%string -> In pol ["propagate"; "raise"]%string ->
  exists v w, returns (twcrps_ensemble srt be obs fct a (Fin b) ax None None e false pol) s (fins v) /\
    returns (twcrps_ensemble srt be obs fct (Fin b) c ax None None e false pol) s (fins w) /\
    returns (twcrps_ensemble srt be obs fct a c ax None None e false pol) s (fins (fun r => v r + w r)) /\
    (a = NInf -> c = PInf -> (be = Numba -> dt obs = DFloat) -> returns (crps_ensemble srt be obs fct ax None e false pol) s (fins (fun r => v r + w r))).
Proof. exact C71_partition_l. Qed.
Print Assumptions C71_partition.
Example C71_partition_case : argsort_ok L_crps_call.asort /\ ens_args ex_obs ex_fct 0 [2%nat] 1 3 ex_y ex_x /\ thresholds NInf (Fin 0) /\ thresholds (Fin 0) PInf /\ thresholds (Fin (-1)) (Fin 0) /\ thresholds (Fin 0) (Fin 2).
Proof. split; [apply asort_ok|]. split; [apply ex_args|]. simpl. lra. Qed.

(** C71.  The same for weighted ensembles. *)
Theorem C71_partition_weighted :
forall srt be obs fct wt a b c ax s p M y x w e pol,
  argsort_ok srt -> ens_args obs fct ax s p M y x -> (0 < M)%nat -> thresholds a (Fin b) -> thresholds (Fin b) c -> wts_args wt fct s p M w ->
  In e ["nrg"; "qd"; "int"]%string -> In pol ["propagate"; "raise"]%string ->
  exists v u, returns (twcrps_ensemble srt be obs fct a (Fin b) ax (Some wt) None e false pol) s (fins v) /\
    returns (twcrps_ensemble srt be obs fct (Fin b) c ax (Some wt) None e false pol) s (fins u) /\
    returns (twcrps_ensemble srt be obs fct a c ax (Some wt) None e false pol) s (fins (fun r => v r + u r)) /\
    (a = NInf -> c = PInf -> (be = Numba -> dt obs = DFloat) -> returns (crps_ensemble srt be obs fct ax (Some wt) e false pol) s (fins (fun r => v r + u r))).
Proof. exact C71_partition_weighted_l. Qed.
Print Assumptions C71_partition_weighted.
Example C71_partition_weighted_case : argsort_ok L_crps_call.asort /\ ens_args ex_obs ex_fct 0 [2%nat] 1 3 ex_y ex_x /\ wts_args ex_wt ex_fct [2%nat] 1 3 ex_w /\ thresholds NInf (Fin 0) /\ thresholds (Fin 0) PInf.
Proof. split; [apply asort_ok|]. split; [apply ex_args|]. split; [apply ex_scale|]. simpl. lra. Qed.

(** C71.  The ranked probability score of K ordered categories is the CRPS of the weighted ensemble that consists of the
    category numbers 1, ..., K with the forecast probabilities as weights. *)
Theorem C71_rps_crps :
forall srt be obs fct ax s p K c x obs1 fct1 ax1 p1 x1 w1 wt e sf pol,
  argsort_ok srt -> cat_args obs fct ax s p K c x -> probs s p K x -> (forall r, inb s r -> sumn K (member p x r) = 1 /\ (0 < c r <= K)%nat) -> (0 < K)%nat ->
  ens_args obs1 fct1 ax1 s p1 K (fun r => INR (c r)) x1 -> wts_args wt fct1 s p1 K w1 ->
  (forall r k, inb s r -> (k < K)%nat -> member p1 x1 r k = INR (k + 1) /\ member p1 w1 r k = member p x r k) ->
  In e ["nrg"; "qd"; "int"]%string -> In pol ["propagate"; "raise"]%string -> (be = Numba -> dt obs1 = DFloat) -> sorted_if sf s p1 K x1 ->
  exists v, returns (rps_score obs fct ax false) s (fins v) /\ returns (crps_ensemble srt be obs1 fct1 ax1 (Some wt) e sf pol) s (fins v).
Proof. exact C71_rps_crps_l. Qed.
Print Assumptions C71_rps_crps.
(** category 2 of 3 with the probabilities 1/6, 1/3, 1/2 *)
Example C71_rps_crps_case : let q := fun i : list nat => (INR (hd 0%nat i) + 1) / 6 in let x1 := fun i : list nat => INR (hd 0%nat i + 1) in
  cat_args (num0 (Fin (INR 2))) (farr (3%nat :: nil) q) (-1) nil 0 3 (fun _ => 2%nat) q /\ sumn 3 (member 0 q nil) = 1 /\
  ens_args (num0 (Fin (INR 2))) (farr (3%nat :: nil) x1) (-1) nil 0 3 (fun _ => INR 2) x1 /\ wts_args (farr (3%nat :: nil) q) (farr (3%nat :: nil) x1) nil 0 3 q /\ rps 3 (member 0 q nil) 2 = 5 / 18.
Proof.
  cbv zeta. assert (sumn 3 (fun k => (INR k + 1) / 6) = 1) as E by (rewrite !sumn_S, sumn_0; simpl; field).
  split; [split; [split; [reflexivity|intros; reflexivity]|split; [split; [reflexivity|intros; reflexivity]|split; [simpl; lia|left; reflexivity]]]|]. split; [exact E|].
  split; [split; [split; [reflexivity|intros; reflexivity]|split; [split; [reflexivity|intros; reflexivity]|split; [simpl; lia|left; reflexivity]]]|]. split.
  - split; [split; [reflexivity|intros; reflexivity]|]. split; [reflexivity|]. split; [intros r k _ Hk; unfold member; simpl; pose proof (pos_INR k); lra|]. intros r Hr. destruct r; [|destruct Hr]. change (sumn 3 (member 0 _ nil)) with (sumn 3 (fun k => (INR k + 1) / 6)). rewrite E. lra.
  - unfold rps, cum, ind_cat, member. rewrite !sumn_S, !sumn_0. simpl. field.
Qed.

(** C71.  With two categories, rps_score is brier_score and rls_score is log_score of the probability of the first category. *)
Theorem C71_two_categories :
forall obs fct ax s p c x obs1 fct1, cat_args obs fct ax s p 2 c x -> (forall r, inb s r -> inner_probs 2 (member p x r) /\ (c r = 1%nat \/ c r = 2%nat)) ->
  real_arr obs1 s (fun r => if (c r =? 1)%nat then 1 else 0) -> real_arr fct1 s (fun r => member p x r 0) ->
  (exists v, returns (rps_score obs fct ax false) s v /\ returns (brier_score obs1 fct1) s v) /\
  (forall onehot, onehot_args onehot fct ax s p 2 c x -> exists v, returns (rls_score obs fct ax false) s v /\ returns (rls_score onehot fct ax true) s v /\ returns (M_prob.log_score obs1 fct1) s v).
Proof. exact C71_two_categories_l. Qed.
Print Assumptions C71_two_categories.
Example C71_two_categories_case : let q := fun i : list nat => (INR (hd 0%nat i) + 1) / 3 in
  cat_args (num0 (Fin (INR 2))) (farr (2%nat :: nil) q) (-1) nil 0 2 (fun _ => 2%nat) q /\ inner_probs 2 (member 0 q nil) /\ real_arr (farr nil (fun _ => 0)) nil (fun _ => if (2 =? 1)%nat then 1 else 0) /\
  real_arr (farr nil (fun _ => (0 + 1) / 3)) nil (fun r => member 0 q r 0).
Proof.
  cbv zeta. split; [split; [split; [reflexivity|intros; reflexivity]|split; [split; [reflexivity|intros; reflexivity]|split; [simpl; lia|left; reflexivity]]]|].
  split; [split; [intros k Hk; unfold member; simpl; pose proof (pos_INR k); lra|rewrite !sumn_S, sumn_0; unfold member; simpl; field]|]. split; split; try reflexivity; intros i Hi; destruct i; try destruct Hi; reflexivity.
Qed.

(** C71.  The weighted interval score of the numba backend with default weights is crps_quantile of the 2 K + 1 quantiles:
    the lower ends at the levels alpha / 2, the median at 1/2 and the upper ends at 1 - alpha / 2. *)
Theorem C71_wis_quantile :
forall be obs med lower upper al fct lv ax s p K y m l u a x b,
  real_arr obs s y -> real_arr med s m -> real_arr lower (K :: s) l -> real_arr upper (K :: s) u -> real_arr al (K :: nil) a ->
  (forall k, (k < K)%nat -> 0 < a (k :: nil) < 2) -> dt obs = DFloat ->
  ens_args obs fct ax s p (K + S K) y x -> real_arr lv ((K + S K)%nat :: nil) b ->
  (forall k, (k < K)%nat -> b (k :: nil) = a (k :: nil) / 2 /\ b ((K + S k)%nat :: nil) = 1 - a (k :: nil) / 2) -> b (K :: nil) = / 2 ->
  (forall r, inb s r -> (forall k, (k < K)%nat -> member p x r k = l (k :: r) /\ member p x r (K + S k) = u (k :: r)) /\ member p x r K = m r) ->
  exists v, returns (weighted_interval_score Numba obs med lower upper al None None) s (fins v) /\ returns (crps_quantile be obs fct lv ax) s (fins v).
Proof. exact C71_wis_quantile_l. Qed.
Print Assumptions C71_wis_quantile.
(** one interval [0, 4] at level 1/2 and the median 1, and the quantiles 0, 1, 4 at the levels 1/4, 1/2, 3/4 *)
Example C71_wis_quantile_case : let x := fun i : list nat => INR (hd 0%nat i * hd 0%nat i) in let b := fun i : list nat => (INR (hd 0%nat i) + 1) / 4 in
  ens_args (farr nil (fun _ => 3)) (farr (3%nat :: nil) x) (-1) nil 0 3 (fun _ => 3) x /\ b (0%nat :: nil) = (1 / 2) / 2 /\ b (2%nat :: nil) = 1 - (1 / 2) / 2 /\ b (1%nat :: nil) = / 2 /\ member 0 x nil 0 = 0 /\ member 0 x nil 1 = 1 /\ member 0 x nil 2 = 4.
Proof. cbv zeta. split; [split; [split; [reflexivity|intros; reflexivity]|split; [split; [reflexivity|intros; reflexivity]|split; [simpl; lia|left; reflexivity]]]|]. unfold member. simpl. lra. Qed.

(** C71.  The Dawid-Sebastiani score of an ensemble is twice the logarithmic score of the normal distribution with its
    mean and standard deviation, minus ln (2 pi). *)
Theorem C71_dss_logs :
forall b obs fct mu sigma ax s p M y x bias,
  ens_args obs fct ax s p M y x -> (b = Numba -> dt obs = DFloat) -> (0 < M)%nat -> (forall r, inb s r -> spread M (member p x r)) ->
  params s [(obs, fins y); (mu, fins (fun r => mean M (member p x r))); (sigma, fins (fun r => sqrt (variance bias M (member p x r))))]%list ->
  exists g, returns (logs_normal obs mu sigma true) s (fins g) /\ returns (dssuv_ensemble b obs fct ax bias) s (fins (fun r => 2 * g r - ln (2 * PI))).
Proof. exact C71_dss_logs_l. Qed.
Print Assumptions C71_dss_logs.
(** observation 1, members 0 and 2: mean 1, unbiased variance 2 *)
Example C71_dss_logs_case : ens_args (num0 (Fin 1)) (real1 2 (fun k => 2 * INR k)) (-1) [] 0 2 (fun _ => 1) (fun i => 2 * INR (hd 0%nat i)) /\
  spread 2 (member 0 (fun i => 2 * INR (hd 0%nat i)) []) /\ mean 2 (member 0 (fun i => 2 * INR (hd 0%nat i)) []) = 1 /\ variance false 2 (member 0 (fun i => 2 * INR (hd 0%nat i)) []) = 2 /\
  params nil [(num0 (Fin 1), fins (fun _ => 1)); (num0 (Fin 1), fins (fun _ => 1)); (num0 (Fin (sqrt 2)), fins (fun _ => sqrt 2))]%list.
Proof.
  split; [exact (real0_dss 1 2 (fun k => 2 * INR k))|]. assert (mean 2 (member 0 (fun i : list nat => 2 * INR (hd 0%nat i)) []) = 1) as E by (unfold mean, member, insert_at, sumn, Rsum; simpl; field). split; [exists 0%nat, 1%nat; unfold member, insert_at; simpl; repeat split; auto; lra|].
  split; [exact E|]. split; [|split; [reflexivity|repeat constructor]]. unfold variance. rewrite E. unfold member, insert_at, sumn, Rsum, Rsqr. simpl. field.
Qed.
