(** Proofs of the identities between different scores (statements in P_cross.v). *)
From Verif Require Export L_cross L_catalog T_crps_value T_crps_tw T_prob T_quant T_dss T_logs.
From Coq Require Import Psatz Lia.
From Coquelicot Require Import Coquelicot.
Open Scope R_scope.
Lemma brier_at a b : a = 0 \/ a = 1 -> 0 <= b <= 1 -> returns (brier_score (num0 (Fin a)) (num0 (Fin b))) nil (fun _ => Fin ((b - a) ^ 2)).
Proof. intros Ha Hb. apply (C29_value_l (num0 (Fin a)) (num0 (Fin b)) nil (fun _ => a) (fun _ => b)); auto; split; try reflexivity; intros; reflexivity. Qed.
Lemma ln_quot q a b : 0 < a -> 0 < b -> ln (exp q / a / b) = q - ln a - ln b.
Proof. intros Ha Hb. rewrite !ln_div; auto; [now rewrite ln_exp|apply exp_pos|apply Rdiv_lt_0_compat; auto; apply exp_pos]. Qed.
Lemma ind01 y t : ind_le y t = 0 \/ ind_le y t = 1. Proof. unfold ind_le. destruct (Rle_dec y t); auto. Qed.
Lemma ecdf01 M x t : (0 < M)%nat -> 0 <= ecdf M x t <= 1.
Proof.
  intros HM. assert (0 < INR M) as P by (apply lt_0_INR; lia). unfold ecdf. split.
  - apply Rdiv_le_0_compat; auto. apply sumn_nonneg. intros k Hk. destruct (ind01 (x k) t) as [-> | ->]; lra.
  - apply (Rmult_le_reg_r (INR M)); auto. unfold Rdiv. rewrite Rmult_assoc, Rinv_l by lra. rewrite Rmult_1_r, Rmult_1_l.
    eapply Rle_trans; [apply (sumn_le M _ (fun _ => 1))|rewrite sumn_const; lra]. intros k Hk. destruct (ind01 (x k) t) as [-> | ->]; lra.
Qed.
Lemma C71_brier_l :
forall srt b obs fct ax s p M y x e sf pol,
  argsort_ok srt -> ens_args obs fct ax s p M y x -> (0 < M)%nat ->
  In e ["nrg"; "qd"; "int"]%string -> In pol ["propagate"; "raise"]%string -> (b = Numba -> dt obs = DFloat) -> sorted_if sf s p M x ->
  exists v, returns (crps_ensemble srt b obs fct ax None e sf pol) s (fun r => Fin (v r)) /\
    forall r, inb s r -> exists S : R -> R,
      (forall t, returns (brier_score (num0 (Fin (ind_le (y r) t))) (num0 (Fin (ecdf M (member p x r) t)))) nil (fun _ => Fin (S t))) /\
      is_RInt_gen S (Rbar_locally m_infty) (Rbar_locally p_infty) (v r).
Proof.
intros srt b obs fct ax s p M y x e sf pol H1 H2 HM H4 H5 H6 H7. destruct (C01_exact_crps_l _ _ _ _ _ _ _ _ _ _ _ _ _ H1 H2 HM H4 H5 H6 H7) as (v & V & C).
  exists v. split; [exact V|]. intros r Hr. exists (fun t => (ecdf M (member p x r) t - ind_le (y r) t) ^ 2). split; [|exact (C r Hr)].
  intros t. apply brier_at; [apply ind01|now apply ecdf01].
Qed.
Lemma C71_brier_closed_l :
forall T s F y, closed_crps T s F y -> (forall i, inb s i -> forall t, 0 <= F i t <= 1) ->
  exists f, returns T s (fins f) /\
    forall i, inb s i -> exists S : R -> R,
      (forall t, returns (brier_score (num0 (Fin (ind_le (y i) t))) (num0 (Fin (F i t)))) nil (fun _ => Fin (S t))) /\
      is_RInt_gen S (Rbar_locally m_infty) (Rbar_locally p_infty) (f i).
Proof.
intros T s F y H HF. destruct (catalog _ _ _ _ H) as (f & V & C). exists f. split; [exact V|]. intros i Hi. exists (fun t => (F i t - ind_le (y i) t) ^ 2). split; [|exact (C i Hi)].
  intros t. apply brier_at; [apply ind01|now apply HF].
Qed.
Lemma C71_partition_l :
forall srt be obs fct a b c ax s p M y x e pol,
  argsort_ok srt -> ens_args obs fct ax s p M y x -> (0 < M)%nat -> thresholds a (Fin b) -> thresholds (Fin b) c ->
  In e ["nrg"; "qd"; "int"]%string -> In pol ["propagate"; "raise"]%string ->
  exists v w, returns (twcrps_ensemble srt be obs fct a (Fin b) ax None None e false pol) s (fins v) /\
    returns (twcrps_ensemble srt be obs fct (Fin b) c ax None None e false pol) s (fins w) /\
    returns (twcrps_ensemble srt be obs fct a c ax None None e false pol) s (fins (fun r => v r + w r)) /\
    (a = NInf -> c = PInf -> (be = Numba -> dt obs = DFloat) -> returns (crps_ensemble srt be obs fct ax None e false pol) s (fins (fun r => v r + w r))).
Proof.
intros srt be obs fct a b c ax s p M y x e pol H1 H2 HM Ha Hc H4 H5.
  assert (thresholds a c) as Hac by (destruct a, c; simpl in *; auto; lra).
  destruct (C19_threshold_l srt be obs fct a (Fin b) ax s p M y x e pol H1 H2 HM Ha H4 H5) as (v & V & Cv).
  destruct (C19_threshold_l srt be obs fct (Fin b) c ax s p M y x e pol H1 H2 HM Hc H4 H5) as (w & W & Cw).
  destruct (C19_threshold_l srt be obs fct a c ax s p M y x e pol H1 H2 HM Hac H4 H5) as (u & U & Cu).
  exists v, w. split; [exact V|]. split; [exact W|]. split.
  - eapply returns_ext; [exact U|]. intros r Hr. unfold fins. f_equal. eapply tw_unique; [exact (Cu r Hr)|]. exact (tw_join _ _ _ _ _ _ _ (Cv r Hr) (Cw r Hr)).
  - intros -> -> Hd. destruct (C01_exact_crps_l srt be obs fct ax s p M y x e false pol H1 H2 HM H4 H5 Hd ltac:(discriminate)) as (z & Z & Cz).
    eapply returns_ext; [exact Z|]. intros r Hr. unfold fins. f_equal. eapply is_crps_unique; [exact (Cz r Hr)|]. exact (tw_join _ _ _ _ _ _ _ (Cv r Hr) (Cw r Hr)).
Qed.
Lemma C71_partition_weighted_l :
forall srt be obs fct wt a b c ax s p M y x w e pol,
  argsort_ok srt -> ens_args obs fct ax s p M y x -> (0 < M)%nat -> thresholds a (Fin b) -> thresholds (Fin b) c -> wts_args wt fct s p M w ->
  In e ["nrg"; "qd"; "int"]%string -> In pol ["propagate"; "raise"]%string ->
  exists v u, returns (twcrps_ensemble srt be obs fct a (Fin b) ax (Some wt) None e false pol) s (fins v) /\
    returns (twcrps_ensemble srt be obs fct (Fin b) c ax (Some wt) None e false pol) s (fins u) /\
    returns (twcrps_ensemble srt be obs fct a c ax (Some wt) None e false pol) s (fins (fun r => v r + u r)) /\
    (a = NInf -> c = PInf -> (be = Numba -> dt obs = DFloat) -> returns (crps_ensemble srt be obs fct ax (Some wt) e false pol) s (fins (fun r => v r + u r))).
Proof.
intros srt be obs fct wt a b c ax s p M y x w e pol H1 H2 HM Ha Hc Hw H4 H5.
  assert (thresholds a c) as Hac by (destruct a, c; simpl in *; auto; lra).
  destruct (C19_threshold_weighted_l srt be obs fct wt a (Fin b) ax s p M y x w e pol H1 H2 HM Ha Hw H4 H5) as (v & V & Cv).
  destruct (C19_threshold_weighted_l srt be obs fct wt (Fin b) c ax s p M y x w e pol H1 H2 HM Hc Hw H4 H5) as (u & U & Cu).
  destruct (C19_threshold_weighted_l srt be obs fct wt a c ax s p M y x w e pol H1 H2 HM Hac Hw H4 H5) as (z & Z & Cz).
  exists v, u. split; [exact V|]. split; [exact U|]. split.
  - eapply returns_ext; [exact Z|]. intros r Hr. unfold fins. f_equal. eapply tw_unique; [exact (Cz r Hr)|]. exact (tw_join _ _ _ _ _ _ _ (Cv r Hr) (Cu r Hr)).
  - intros -> -> Hd. destruct (C07_weighted_exact_l srt be obs fct wt ax s p M y x w e false pol H1 H2 HM Hw H4 H5 Hd ltac:(discriminate)) as (q & Q & Cq).
    eapply returns_ext; [exact Q|]. intros r Hr. unfold fins. f_equal. eapply is_crps_unique; [exact (Cq r Hr)|]. exact (tw_join _ _ _ _ _ _ _ (Cv r Hr) (Cu r Hr)).
Qed.
Lemma C71_rps_crps_l :
forall srt be obs fct ax s p K c x obs1 fct1 ax1 p1 x1 w1 wt e sf pol,
  argsort_ok srt -> cat_args obs fct ax s p K c x -> probs s p K x -> (forall r, inb s r -> sumn K (member p x r) = 1 /\ (0 < c r <= K)%nat) -> (0 < K)%nat ->
  ens_args obs1 fct1 ax1 s p1 K (fun r => INR (c r)) x1 -> wts_args wt fct1 s p1 K w1 ->
  (forall r k, inb s r -> (k < K)%nat -> member p1 x1 r k = INR (k + 1) /\ member p1 w1 r k = member p x r k) ->
  In e ["nrg"; "qd"; "int"]%string -> In pol ["propagate"; "raise"]%string -> (be = Numba -> dt obs1 = DFloat) -> sorted_if sf s p1 K x1 ->
  exists v, returns (rps_score obs fct ax false) s (fins v) /\ returns (crps_ensemble srt be obs1 fct1 ax1 (Some wt) e sf pol) s (fins v).
Proof.
intros srt be obs fct ax s p K c x obs1 fct1 ax1 p1 x1 w1 wt e sf pol H1 H2 Hp Hs HK H3 H4 H5 H6 H7 H8 H9.
  exists (fun r => rps K (member p x r) (c r)). split; [apply C30_value_l; auto; intros r Hr; apply Hs; auto|].
  destruct (C07_weighted_exact_l srt be obs1 fct1 wt ax1 s p1 K _ x1 w1 e sf pol H1 H3 HK H4 H6 H7 H8 H9) as (v & V & C).
  eapply returns_ext; [exact V|]. intros r Hr. unfold fins. f_equal. destruct (Hs r Hr) as [S1 S2]. eapply is_crps_unique; [exact (C r Hr)|].
  eapply is_crps_ext; [|exact (rps_crps K (member p x r) (c r) S1 S2)]. intros t. unfold wcdf. f_equal.
  - apply sumn_ext. intros k Hk. destruct (H5 r k Hr Hk) as [-> ->]. reflexivity.
  - apply sumn_ext. intros k Hk. destruct (H5 r k Hr Hk) as [_ ->]. reflexivity.
Qed.
Lemma C71_two_categories_l :
forall obs fct ax s p c x obs1 fct1, cat_args obs fct ax s p 2 c x -> (forall r, inb s r -> inner_probs 2 (member p x r) /\ (c r = 1%nat \/ c r = 2%nat)) ->
  real_arr obs1 s (fun r => if (c r =? 1)%nat then 1 else 0) -> real_arr fct1 s (fun r => member p x r 0) ->
  (exists v, returns (rps_score obs fct ax false) s v /\ returns (brier_score obs1 fct1) s v) /\
  (forall onehot, onehot_args onehot fct ax s p 2 c x -> exists v, returns (rls_score obs fct ax false) s v /\ returns (rls_score onehot fct ax true) s v /\ returns (M_prob.log_score obs1 fct1) s v).
Proof.
intros obs fct ax s p c x obs1 fct1 H1 H2 H3 H4.
  assert (forall r, inb s r -> 0 < member p x r 0 /\ 0 < member p x r 1 /\ member p x r 0 + member p x r 1 = 1) as Q.
  { intros r Hr. destruct (H2 r Hr) as [[P S] _]. rewrite !sumn_S, sumn_0 in S. repeat split; [apply P; lia|apply P; lia|lra]. }
  assert (forall r, inb s r -> (if (c r =? 1)%nat then 1 else 0) = 0 \/ (if (c r =? 1)%nat then 1 else 0) = 1) as B by (intros r Hr; destruct (c r =? 1)%nat; auto).
  split.
  - exists (fun r => Fin (rps 2 (member p x r) (c r))). split; [apply C30_value_l; auto|].
    + intros r k Hr Hk. destruct (Q r Hr) as (Q0 & Q1 & Q2). destruct k as [|[|k]]; [lra|lra|lia].
    + intros r Hr. destruct (H2 r Hr) as [_ [-> | ->]]; lia.
    + destruct (C29_value_l obs1 fct1 s _ _ H3 H4 B) as [V _]; [intros r Hr; destruct (Q r Hr); lra|]. eapply returns_ext; [exact V|]. intros r Hr. cbv beta. f_equal. symmetry. apply rps_two; [apply Q; auto|apply H2; auto].
  - intros oh Ho. exists (fun r => Fin (rls 2 (member p x r) (c r))).
    destruct (C31_ranked_l obs oh fct ax s p 2%nat c x H1 Ho) as [V W]; [intros r Hr; apply H2; auto|intros r Hr; destruct (H2 r Hr) as [_ [-> | ->]]; lia|]. split; [exact V|]. split; [exact W|].
    eapply returns_ext; [apply (C31_value_l obs1 fct1 s _ _ H3 H4 B); intros r Hr; destruct (Q r Hr); lra|]. intros r Hr. cbv beta zeta. destruct (Q r Hr) as (Q0 & Q1 & Q2). rewrite (rls_two _ _ Q2) by (apply H2; auto).
    destruct (c r =? 1)%nat; destruct (Req_EM_T _ 1) as [E|E]; try lra; [|replace (1 - member p x r 0) with (member p x r 1) by lra]; destruct (Rlt_dec 0 _); try lra; reflexivity.
Qed.
Lemma C71_wis_quantile_l :
forall be obs med lower upper al fct lv ax s p K y m l u a x b,
  real_arr obs s y -> real_arr med s m -> real_arr lower (K :: s) l -> real_arr upper (K :: s) u -> real_arr al (K :: nil) a ->
  (forall k, (k < K)%nat -> 0 < a (k :: nil) < 2) -> dt obs = DFloat ->
  ens_args obs fct ax s p (K + S K) y x -> real_arr lv ((K + S K)%nat :: nil) b ->
  (forall k, (k < K)%nat -> b (k :: nil) = a (k :: nil) / 2 /\ b ((K + S k)%nat :: nil) = 1 - a (k :: nil) / 2) -> b (K :: nil) = / 2 ->
  (forall r, inb s r -> (forall k, (k < K)%nat -> member p x r k = l (k :: r) /\ member p x r (K + S k) = u (k :: r)) /\ member p x r K = m r) ->
  exists v, returns (weighted_interval_score Numba obs med lower upper al None None) s (fins v) /\ returns (crps_quantile be obs fct lv ax) s (fins v).
Proof.
intros be obs med lower upper al fct lv ax s p K y m l u a x b Ho Hm Hl Hu Ha H0 Hd He Hb HB HK HX.
  eexists. split; [eapply returns_ext; [apply (C28_quantiles_l obs med lower upper al s K y m l u a Ho Hm Hl Hu Ha); [intros k Hk; specialize (H0 k Hk); lra|exact Hd]|intros r Hr; reflexivity]|].
  eapply returns_ext; [apply (C24_value_l be obs fct lv ax s p (K + S K)%nat y x b He); [lia|exact Hb| |auto]|].
  - intros k Hk. destruct (lt_eq_lt_dec k K) as [[L|E]|L].
    + destruct (HB k L) as [-> _]. specialize (H0 k L). lra.
    + subst k. rewrite HK. lra.
    + replace k with (K + S (k - K - 1))%nat by lia. destruct (HB (k - K - 1)%nat ltac:(lia)) as [_ ->]. specialize (H0 (k - K - 1)%nat ltac:(lia)). lra.
  - intros r Hr. cbv beta. unfold fins. f_equal. destruct (HX r Hr) as [X1 X2]. rewrite sumn_plus_idx, sumn_S_l. rewrite Nat.add_0_r, HK, X2.
    rewrite (sumn_ext K _ (fun k => pinball (a (k :: nil)%list / 2) (l (k :: r)%list) (y r))) by (intros k Hk; destruct (HB k Hk) as [-> _]; destruct (X1 k Hk) as [-> _]; reflexivity).
    rewrite (sumn_ext K (fun k => pinball (b ((K + S k)%nat :: nil)%list) _ _) (fun k => pinball (1 - a (k :: nil)%list / 2) (u (k :: r)%list) (y r))) by (intros k Hk; destruct (HB k Hk) as [_ ->]; destruct (X1 k Hk) as [_ ->]; reflexivity).
    rewrite sumn_plus, plus_INR, S_INR. pose proof (pos_INR K). field. lra.
Qed.
Lemma C71_dss_logs_l :
forall b obs fct mu sigma ax s p M y x bias,
  ens_args obs fct ax s p M y x -> (b = Numba -> dt obs = DFloat) -> (0 < M)%nat -> (forall r, inb s r -> spread M (member p x r)) ->
  params s [(obs, fins y); (mu, fins (fun r => mean M (member p x r))); (sigma, fins (fun r => sqrt (variance bias M (member p x r))))]%list ->
  exists g, returns (logs_normal obs mu sigma true) s (fins g) /\ returns (dssuv_ensemble b obs fct ax bias) s (fins (fun r => 2 * g r - ln (2 * PI))).
Proof.
intros b obs fct mu sigma ax s p M y x bias H1 H2 HM H3 P.
  assert (forall r, inb s r -> 0 < variance bias M (member p x r)) as V by (intros r Hr; apply variance_pos; auto).
  destruct (C41_normal_l obs mu sigma s y _ _ P) as [L _]; [intros r Hr; apply sqrt_lt_R0; auto|].
  exists (fun r => - ln (normal_pdf (mean M (member p x r)) (sqrt (variance bias M (member p x r))) (y r))). split.
  - eapply returns_ext; [exact L|]. intros r Hr. cbv beta. unfold fins, logp. destruct (Rlt_dec _ _) as [Q|Q]; auto. exfalso. apply Q. unfold normal_pdf, phi. pose proof (sqrt_lt_R0 _ (V r Hr)). apply Rdiv_lt_0_compat; auto. apply Rdiv_lt_0_compat; [apply exp_pos|]. apply sqrt_lt_R0. pose proof PI_RGT_0. lra.
  - eapply returns_ext; [apply (C38_dss_value_l b obs fct ax s p M y x bias H1 H2 HM H3)|]. intros r Hr. cbv beta. unfold fins. f_equal. specialize (V r Hr).
    set (vv := variance bias M (member p x r)) in *. set (mm := mean M (member p x r)). pose proof (sqrt_lt_R0 _ V) as S. assert (sqrt vv * sqrt vv = vv) as SS by (apply sqrt_sqrt; lra). pose proof PI_RGT_0 as PP. assert (0 < sqrt (2 * PI)) as SP by (apply sqrt_lt_R0; lra). assert (sqrt (2 * PI) * sqrt (2 * PI) = 2 * PI) as SPP by (apply sqrt_sqrt; lra).
    unfold normal_pdf, phi, ds_score. rewrite ln_quot by auto.
    replace (ln vv) with (2 * ln (sqrt vv)) by (rewrite <- SS at 2; rewrite ln_mult by auto; ring). replace (ln (2 * PI)) with (2 * ln (sqrt (2 * PI))) by (rewrite <- SPP at 2; rewrite ln_mult by auto; ring).
    unfold Rsqr. rewrite <- SS at 1. field. lra.
Qed.
