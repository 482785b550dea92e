(** Proofs of the properties of the CRPS as a distance (statements in P_metric.v). *)
From Verif Require Export L_metric L_catalog T_crps_value.
From Coquelicot Require Import Coquelicot.
From Coq Require Import Psatz Lia.
Open Scope R_scope.
(** instances: one observation 0, the ensembles 0 and 1 of one member, and a logistic forecast *)
Definition ens1 (v : R) : arr := farr (1%nat :: nil) (fun _ => v).
Lemma ex_one b v y : crps_call (crps_ensemble asort b (farr nil (fun _ => y)) (ens1 v) (-1) None "nrg" false "propagate") nil
  (fun r => ecdf 1 (member 0 (fun _ => v) r)) (fun _ => y).
Proof.
  apply call_ens; [apply asort_ok|repeat split; simpl; auto; now left|lia|simpl; auto|simpl; auto|reflexivity|discriminate].
Qed.
Lemma ex_logistic y : crps_call (crps_logistic (farr nil (fun _ => y)) (farr nil (fun _ => 1)) (farr nil (fun _ => 3))) nil (fun _ => logistic_cdf 1 3) (fun _ => y).
Proof. apply call_closed. apply (cc_logistic _ _ _ nil (fun _ => y) (fun _ => 1) (fun _ => 3)); [split; [reflexivity|repeat constructor]|intros; cbv beta; repeat split; lra]. Qed.
Lemma ex_logistic_df : is_df (logistic_cdf 1 3).
Proof.
  split.
  - intros s t H. unfold logistic_cdf. assert (exp (- ((t - 1) / 3)) <= exp (- ((s - 1) / 3))). { destruct (Req_dec s t) as [->|N]; [lra|]. left. apply exp_increasing. lra. }
    pose proof (exp_pos (- ((t - 1) / 3))). apply Rinv_le_contravar; lra.
  - intros t. unfold logistic_cdf. pose proof (exp_pos (- ((t - 1) / 3))) as P. split; [left; apply Rinv_0_lt_compat; lra|]. pose proof (Rinv_le_contravar 1 (1 + exp (- ((t - 1) / 3))) ltac:(lra) ltac:(lra)) as Q. rewrite Rinv_1 in Q. exact Q.
Qed.
Lemma C84_value_l :
forall T s F y, crps_call T s F y -> exists f, returns T s (fins f) /\ forall i, inb s i -> is_crps (F i) (y i) (f i).
Proof.
intros T s F y H. destruct H as [T s F y H|srt b obs fct ax s p M y x e sf pol H1 H2 H3 H4 H5 H6 H7|srt b obs fct wt ax s p M y x w e sf pol H1 H2 H3 H4 H5 H6 H7 H8].
  - now apply catalog.
  - exact (C01_exact_crps_l srt b obs fct ax s p M y x e sf pol H1 H2 H3 H4 H5 H6 H7).
  - exact (C07_weighted_exact_l srt b obs fct wt ax s p M y x w e sf pol H1 H2 H3 H4 H5 H6 H7 H8).
Qed.
Lemma C84_ensemble_df_l :
forall M x w, (0 < M)%nat -> is_df (ecdf M x) /\ ((forall k, (k < M)%nat -> 0 <= w k) -> 0 < sumn M w -> is_df (wcdf M w x)).
Proof.
intros M x w HM. split; [now apply df_ecdf|]. intros A B. now apply df_wcdf.
Qed.
Lemma C84_triangle_l :
forall T T' s F G y, crps_call T s F y -> crps_call T' s G y -> (forall i, inb s i -> is_df (F i) /\ is_df (G i)) ->
  exists f g d, returns T s (fins f) /\ returns T' s (fins g) /\ forall i, inb s i ->
    is_sqdist (F i) (G i) (d i) /\ Rabs (sqrt (f i) - sqrt (g i)) <= sqrt (d i) /\
    Rabs (f i - g i) <= sqrt (d i) * (2 * sqrt (f i) + sqrt (d i)).
Proof.
intros T T' s F G y A B D. destruct (C84_value_l _ _ _ _ A) as (f & Rf & Cf). destruct (C84_value_l _ _ _ _ B) as (g & Rg & Cg).
  exists f, g, (fun i => RInt_gen (V := R_CompleteNormedModule) (fun t => (F i t - G i t) ^ 2) (Rbar_locally m_infty) (Rbar_locally p_infty)).
  split; [exact Rf|]. split; [exact Rg|]. intros i Hi. destruct (D i Hi) as [DF DG]. destruct (df_dist _ _ _ _ _ DF DG (Cf i Hi) (Cg i Hi)) as [d Hd].
  rewrite (is_RInt_gen_unique _ _ Hd). split; [exact Hd|]. pose proof (crps_metric _ _ _ _ _ _ (Cf i Hi) (Cg i Hi) Hd) as K. split; [exact K|].
  pose proof (crps_nonneg _ _ _ (Cf i Hi)) as Pf. pose proof (crps_nonneg _ _ _ (Cg i Hi)) as Pg.
  assert (f i - g i = (sqrt (f i) - sqrt (g i)) * (sqrt (f i) + sqrt (g i))) as ->.
  { pose proof (sqrt_sqrt _ Pf). pose proof (sqrt_sqrt _ Pg). nra. }
  pose proof (sqrt_pos (f i)). pose proof (sqrt_pos (g i)). rewrite Rabs_mult, (Rabs_pos_eq (sqrt (f i) + sqrt (g i))) by lra.
  apply Rmult_le_compat; [apply Rabs_pos|lra|exact K|]. apply Rabs_le_between in K. lra.
Qed.
Lemma C84_ensembles_l :
forall srt srt' b b' obs obs' fct fct' ax ax' s p p' M N y x z e e' sf sf' pol pol',
  argsort_ok srt -> argsort_ok srt' -> ens_args obs fct ax s p M y x -> ens_args obs' fct' ax' s p' N y z -> (0 < M)%nat -> (0 < N)%nat ->
  In e ("nrg" :: "qd" :: "int" :: nil)%string%list -> In e' ("nrg" :: "qd" :: "int" :: nil)%string%list ->
  In pol ("propagate" :: "raise" :: nil)%string%list -> In pol' ("propagate" :: "raise" :: nil)%string%list ->
  (b = Numba -> dt obs = DFloat) -> (b' = Numba -> dt obs' = DFloat) -> sorted_if sf s p M x -> sorted_if sf' s p' N z ->
  exists u v, returns (crps_ensemble srt b obs fct ax None e sf pol) s (fins u) /\ returns (crps_ensemble srt' b' obs' fct' ax' None e' sf' pol') s (fins v) /\
    forall i, inb s i -> is_sqdist (ecdf M (member p x i)) (ecdf N (member p' z i)) (endist M (member p x i) N (member p' z i)) /\
      Rabs (sqrt (u i) - sqrt (v i)) <= sqrt (endist M (member p x i) N (member p' z i)).
Proof.
intros srt srt' b b' obs obs' fct fct' ax ax' s p p' M N y x z e e' sf sf' pol pol' S S' A A' HM HN E E' P P' D D' O O'.
  destruct (C01_exact_crps_l srt b obs fct ax s p M y x e sf pol S A HM E P D O) as (u & Ru & Cu).
  destruct (C01_exact_crps_l srt' b' obs' fct' ax' s p' N y z e' sf' pol' S' A' HN E' P' D' O') as (v & Rv & Cv).
  exists u, v. split; [exact Ru|]. split; [exact Rv|]. intros i Hi. pose proof (endist_sqdist M (member p x i) N (member p' z i) HM HN) as K. split; [exact K|].
  exact (crps_metric _ _ _ _ _ _ (Cu i Hi) (Cv i Hi) K).
Qed.
Lemma C84_observation_l :
forall T T' s F F' y y', crps_call T s F y -> crps_call T' s F' y' -> (forall i, inb s i -> forall t, F i t = F' i t) ->
  exists f f', returns T s (fins f) /\ returns T' s (fins f') /\ forall i, inb s i -> Rabs (sqrt (f i) - sqrt (f' i)) <= sqrt (Rabs (y i - y' i)).
Proof.
intros T T' s F F' y y' A B E. destruct (C84_value_l _ _ _ _ A) as (f & Rf & Cf). destruct (C84_value_l _ _ _ _ B) as (g & Rg & Cg).
  exists f, g. split; [exact Rf|]. split; [exact Rg|]. intros i Hi. apply (crps_obs (F i)); auto. apply (is_crps_ext (F' i)); auto. intros t. now rewrite E.
Qed.
Lemma C84_area_l :
forall T T' s F G y d, crps_call T s F y -> crps_call T' s G y -> (forall i, inb s i -> forall t, 0 <= F i t <= 1 /\ 0 <= G i t <= 1) ->
  (forall i, inb s i -> is_area (F i) (G i) (d i)) ->
  exists f g, returns T s (fins f) /\ returns T' s (fins g) /\ forall i, inb s i -> Rabs (f i - g i) <= 2 * d i.
Proof.
intros T T' s F G y d A B D L. destruct (C84_value_l _ _ _ _ A) as (f & Rf & Cf). destruct (C84_value_l _ _ _ _ B) as (g & Rg & Cg).
  exists f, g. split; [exact Rf|]. split; [exact Rg|]. intros i Hi. exact (crps_area (F i) (G i) (y i) _ _ _ (fun t => proj1 (D i Hi t)) (fun t => proj2 (D i Hi t)) (Cf i Hi) (Cg i Hi) (L i Hi)).
Qed.
