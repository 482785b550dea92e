(** Proofs that the closed-form scores of normal and truncated families are CRPS integrals (statements in P_crpsnorm.v). *)
From Verif Require Export L_tcn.
From Coq Require Import Psatz.
From Coquelicot Require Import Coquelicot.
Open Scope R_scope.
Ltac tcret P t := lazymatch goal with |- returns ?T ?s ?f =>
  let i := fresh "i" in eapply (tb_returns T s f); [intros i; tb_args P i; cbv beta delta [fins] in *; t|exact P|ret_in] end.
Lemma NF_phi m c t : normal_cdf m c t = NF ((t - m) / c).
Proof. unfold normal_cdf. apply Phi_NF. Qed.
Lemma normal_mono m c a b : 0 < c -> a < b -> normal_cdf m c a < normal_cdf m c b.
Proof. intros Hc H. rewrite !NF_phi. apply NF_incr. apply (std_lt m c a b Hc). exact H. Qed.
Lemma normal_bounds m c t : 0 < normal_cdf m c t < 1.
Proof. rewrite NF_phi. split; [apply NF_pos|apply NF_lt1]. Qed.
Lemma logistic_mono m c a b : 0 < c -> a < b -> logistic_cdf m c a < logistic_cdf m c b.
Proof. intros Hc H. apply (Ncdf_incr ((a - m) / c) ((b - m) / c)). apply (std_lt m c a b Hc). exact H. Qed.
Lemma logistic_bounds m c t : 0 < logistic_cdf m c t < 1.
Proof. split; [apply (Ncdf_pos ((t - m) / c))|apply (Ncdf_lt1 ((t - m) / c))]. Qed.
Lemma ext_cdf_ext F G b : (forall t, F t = G t) -> ext_cdf F b = ext_cdf G b.
Proof. intros E. destruct b; simpl; auto. Qed.
Lemma Rdivneg a b : a < 0 -> 0 < b -> a / b < 0.
Proof. intros Ha Hb. unfold Rdiv. assert (0 < / b) by now apply Rinv_0_lt_compat. nra. Qed.
Lemma tb_incl' T s i x L y L' : tb T s i x L -> (inb s i -> x = y) -> (forall t, In t L' -> In t L) -> tb T s i y L'.
Proof. intros H E HL. eapply tb_incl; [eapply tb_eq; [exact H|exact E]|exact HL]. Qed.
Lemma C56_normal_l :
forall (obs mu sigma : arr) (s : list nat) (y m c : list nat -> R),
  params s [(obs, fins y); (mu, fins m); (sigma, fins c)]%list -> (forall i, inb s i -> 0 < c i) ->
  exists f, returns (crps_normal obs mu sigma) s (fins f) /\
    forall i, inb s i -> is_crps (normal_cdf (m i) (c i)) (y i) (f i).
Proof.
intros obs mu sigma s y m c P Hc. pose proof sqrtPI_pos. pose proof PI_RGT_0.
exists (fun i => let w := (y i - m i) / c i in c i * (w * (2 * NF w - 1) + 2 * phi w - 1 / sqrt PI)). split.
- tcret P ltac:(eapply tb_eq; [tbn|intros Hi; specialize (Hc _ Hi); nev; reflexivity]).
- intros i Hi. apply normal_crps. auto.
Qed.
Lemma C56_gtcnormal_l :
forall (obs location scale lower upper lmass umass : arr) (s : list nat) (y m c p q : list nat -> R) (l u : list nat -> Rbar),
  params s [(obs, fins y); (location, fins m); (scale, fins c); (lower, fun i => rbn (l i)); (upper, fun i => rbn (u i)); (lmass, fins p); (umass, fins q)]%list ->
  (forall i, inb s i -> 0 < c i /\ tc_ok (l i) (u i) (p i) (q i)) ->
  exists f, returns (crps_gtcnormal obs location scale lower upper lmass umass) s (fins f) /\
    forall i, inb s i -> is_crps (truncensx (normal_cdf (m i) (c i)) (l i) (u i) (p i) (q i)) (y i) (f i).
Proof.
intros obs location scale lower upper lmass umass s y m c p q l u P H. eexists (fun i => _). split.
- tcret P ltac:(eapply tb_eq; [unfold crps_gtcnormal; eapply tb_gtcnormal; [eassumption..|exact (H _)]|intros _; reflexivity]).
- intros i Hi. destruct (H i Hi) as (Hc & Ho). cbv beta. apply (tc_loc NF); [auto|auto|intros t; apply NF_phi|exact normal_tc].
Qed.
Lemma C56_tnormal_l :
forall (obs location scale lower upper : arr) (s : list nat) (y m c : list nat -> R) (l u : list nat -> Rbar),
  params s [(obs, fins y); (location, fins m); (scale, fins c); (lower, fun i => rbn (l i)); (upper, fun i => rbn (u i))]%list ->
  (forall i, inb s i -> 0 < c i /\ Rbar_lt (l i) (u i)) ->
  exists f, returns (crps_tnormal obs location scale lower upper) s (fins f) /\
    forall i, inb s i -> is_crps (truncensx (normal_cdf (m i) (c i)) (l i) (u i) 0 0) (y i) (f i).
Proof.
intros obs location scale lower upper s y m c l u P H.
assert (forall a b, Rbar_lt a b -> tc_ok a b 0 0) as K by (intros; unfold tc_ok; repeat split; auto; lra).
eexists (fun i => _). split.
- tcret P ltac:(eapply tb_eq; [unfold crps_tnormal; eapply tb_gtcnormal; [eassumption..|apply tb_sc|apply tb_sc|intros Hi; destruct (H _ Hi); auto]|intros _; reflexivity]).
- intros i Hi. destruct (H i Hi) as (Hc & Ho). cbv beta. apply (tc_loc NF); [auto|auto|intros t; apply NF_phi|exact normal_tc].
Qed.
Lemma C56_cnormal_l :
forall (obs location scale lower upper : arr) (s : list nat) (y m c : list nat -> R) (l u : list nat -> Rbar),
  params s [(obs, fins y); (location, fins m); (scale, fins c); (lower, fun i => rbn (l i)); (upper, fun i => rbn (u i))]%list ->
  (forall i, inb s i -> 0 < c i /\ Rbar_lt (l i) (u i)) ->
  exists f, returns (crps_cnormal obs location scale lower upper) s (fins f) /\
    forall i, inb s i -> is_crps (censored (normal_cdf (m i) (c i)) (l i) (u i)) (y i) (f i).
Proof.
intros obs location scale lower upper s y m c l u P H.
assert (forall i, inb s i -> tc_ok (l i) (u i) (ext_cdf (normal_cdf (m i) (c i)) (l i)) (1 - ext_cdf (normal_cdf (m i) (c i)) (u i)) /\
  forall t, truncensx (normal_cdf (m i) (c i)) (l i) (u i) (ext_cdf (normal_cdf (m i) (c i)) (l i)) (1 - ext_cdf (normal_cdf (m i) (c i)) (u i)) t = censored (normal_cdf (m i) (c i)) (l i) (u i) t) as K.
{ intros i Hi. destruct (H i Hi) as (Hc & Ho). apply censored_tc; auto; [intros; now apply normal_mono|intros; apply normal_bounds]. }
eexists (fun i => _). split.
- tcret P ltac:(unfold crps_cnormal; cbv zeta; eapply tb_incl'; [lazymatch goal with |- tb _ _ ?i _ _ => eapply tb_gtcnormal with (lm := ext_cdf (normal_cdf (m i) (c i)) (l i)) (um := 1 - ext_cdf (normal_cdf (m i) (c i)) (u i)) end;
    [eassumption..
    |eapply tb_eq; [tbn|intros Hi; destruct (H _ Hi) as (Hc & Ho); rewrite (std_cdf NF _ _ _ Hc (fun _ _ => I) (l _) eq_refl); f_equal; apply ext_cdf_ext; intros t; symmetry; apply NF_phi]
    |eapply tb_eq; [tbn|intros Hi; destruct (H _ Hi) as (Hc & Ho); rewrite (std_cdf NF _ _ _ Hc (fun _ _ => I) (u _) eq_refl); nev; do 2 f_equal; apply ext_cdf_ext; intros t; symmetry; apply NF_phi]
    |intros Hi; destruct (H _ Hi), (K _ Hi); auto]|reflexivity|intros t Ht; exact Ht]).
- intros i Hi. destruct (H i Hi) as (Hc & Ho). destruct (K i Hi) as (K1 & K2). cbv beta.
  eapply crps_eq; [exact K2|reflexivity|]. apply (tc_loc NF); [auto|auto|intros t; apply NF_phi|exact normal_tc].
Qed.
Lemma C57_gtclogistic_l :
forall (obs location scale lower upper lmass umass : arr) (s : list nat) (y m c p q : list nat -> R) (l u : list nat -> Rbar),
  params s [(obs, fins y); (location, fins m); (scale, fins c); (lower, fun i => rbn (l i)); (upper, fun i => rbn (u i)); (lmass, fins p); (umass, fins q)]%list ->
  (forall i, inb s i -> 0 < c i /\ tc_ok (l i) (u i) (p i) (q i) /\ (l i = m_infty <-> u i = p_infty)) ->
  exists f, returns (crps_gtclogistic obs location scale lower upper lmass umass) s (fins f) /\
    forall i, inb s i -> is_crps (truncensx (logistic_cdf (m i) (c i)) (l i) (u i) (p i) (q i)) (y i) (f i).
Proof.
intros obs location scale lower upper lmass umass s y m c p q l u P H. eexists (fun i => _). split.
- tcret P ltac:(eapply tb_eq; [unfold crps_gtclogistic; eapply tb_gtclogistic; [eassumption..|exact (H _)]|intros _; reflexivity]).
- intros i Hi. destruct (H i Hi) as (Hc & Ho & _). cbv beta. apply (tc_loc Ncdf); [auto|auto|reflexivity|exact logis_tc].
Qed.
Lemma C57_tlogistic_l :
forall (obs location scale lower upper : arr) (s : list nat) (y m c : list nat -> R) (l u : list nat -> Rbar),
  params s [(obs, fins y); (location, fins m); (scale, fins c); (lower, fun i => rbn (l i)); (upper, fun i => rbn (u i))]%list ->
  (forall i, inb s i -> 0 < c i /\ Rbar_lt (l i) (u i) /\ (l i = m_infty <-> u i = p_infty)) ->
  exists f, returns (crps_tlogistic obs location scale lower upper) s (fins f) /\
    forall i, inb s i -> is_crps (truncensx (logistic_cdf (m i) (c i)) (l i) (u i) 0 0) (y i) (f i).
Proof.
intros obs location scale lower upper s y m c l u P H.
assert (forall a b, Rbar_lt a b -> tc_ok a b 0 0) as K by (intros; unfold tc_ok; repeat split; auto; lra).
eexists (fun i => _). split.
- tcret P ltac:(eapply tb_eq; [unfold crps_tlogistic; eapply tb_gtclogistic; [eassumption..|apply tb_sc|apply tb_sc|intros Hi; destruct (H _ Hi) as (? & ? & ?); auto]|intros _; reflexivity]).
- intros i Hi. destruct (H i Hi) as (Hc & Ho & _). cbv beta. apply (tc_loc Ncdf); [auto|auto|reflexivity|exact logis_tc].
Qed.
Lemma C57_clogistic_l :
forall (obs location scale lower upper : arr) (s : list nat) (y m c : list nat -> R) (l u : list nat -> Rbar),
  params s [(obs, fins y); (location, fins m); (scale, fins c); (lower, fun i => rbn (l i)); (upper, fun i => rbn (u i))]%list ->
  (forall i, inb s i -> 0 < c i /\ Rbar_lt (l i) (u i) /\ (l i = m_infty <-> u i = p_infty)) ->
  exists f, returns (crps_clogistic obs location scale lower upper) s (fins f) /\
    forall i, inb s i -> is_crps (censored (logistic_cdf (m i) (c i)) (l i) (u i)) (y i) (f i).
Proof.
intros obs location scale lower upper s y m c l u P H.
assert (forall i, inb s i -> tc_ok (l i) (u i) (ext_cdf (logistic_cdf (m i) (c i)) (l i)) (1 - ext_cdf (logistic_cdf (m i) (c i)) (u i)) /\
  forall t, truncensx (logistic_cdf (m i) (c i)) (l i) (u i) (ext_cdf (logistic_cdf (m i) (c i)) (l i)) (1 - ext_cdf (logistic_cdf (m i) (c i)) (u i)) t = censored (logistic_cdf (m i) (c i)) (l i) (u i) t) as K.
{ intros i Hi. destruct (H i Hi) as (Hc & Ho & _). apply censored_tc; auto; [intros; now apply logistic_mono|intros; apply logistic_bounds]. }
eexists (fun i => _). split.
- tcret P ltac:(unfold crps_clogistic; cbv zeta; eapply tb_incl'; [lazymatch goal with |- tb _ _ ?i _ _ => eapply tb_gtclogistic with (lm := ext_cdf (logistic_cdf (m i) (c i)) (l i)) (um := 1 - ext_cdf (logistic_cdf (m i) (c i)) (u i)) end;
    [eassumption..
    |eapply tb_eq; [tbn|intros Hi; destruct (H _ Hi) as (Hc & Ho); rewrite (std_cdf Ncdf _ _ _ Hc (fun _ _ => I) (l _) eq_refl); f_equal; apply ext_cdf_ext; intros t; reflexivity]
    |eapply tb_eq; [tbn|intros Hi; destruct (H _ Hi) as (Hc & Ho); rewrite (std_cdf Ncdf _ _ _ Hc (fun _ _ => I) (u _) eq_refl); nev; do 2 f_equal; apply ext_cdf_ext; intros t; reflexivity]
    |intros Hi; destruct (H _ Hi) as (? & ? & ?), (K _ Hi); auto]|reflexivity|intros t Ht; exact Ht]).
- intros i Hi. destruct (H i Hi) as (Hc & Ho). destruct (K i Hi) as (K1 & K2). cbv beta.
  eapply crps_eq; [exact K2|reflexivity|]. apply (tc_loc Ncdf); [auto|auto|reflexivity|exact logis_tc].
Qed.
Lemma C56_2pnormal_l :
forall (obs scale1 scale2 location : arr) (s : list nat) (y p q m : list nat -> R),
  params s [(obs, fins y); (scale1, fins p); (scale2, fins q); (location, fins m)]%list -> (forall i, inb s i -> 0 < p i /\ 0 < q i) ->
  exists f, returns (crps_2pnormal obs scale1 scale2 location) s (fins f) /\
    forall i, inb s i -> is_crps (normal2p_cdf (p i) (q i) (m i)) (y i) (f i).
Proof.
intros obs scale1 scale2 location s y p q m P H.
assert (NF 0 = 1 / 2) as N0 by (pose proof (NF_opp 0) as N; rewrite Ropp_0 in N; lra).
assert (forall a b, 0 < a -> 0 < b -> tc_ok m_infty 0 0 (b / (a + b)) /\ tc_ok 0 p_infty (a / (a + b)) 0) as K.
{ intros a b Ha Hb. assert (a / (a + b) <> 1 /\ b / (a + b) <> 1) as [N1 N2].
  { split; intros E; apply (f_equal (fun x => x * (a + b))) in E; field_simplify in E; lra. }
  unfold tc_ok; simpl. repeat split; auto; try lra; discriminate. }
eexists (fun i => _). split.
- tcret P ltac:(unfold crps_2pnormal; cbv zeta; eapply tb_incl'; [eapply tb_bin;
    (eapply tb_bin; [eassumption|eapply (tb_gtcnormal _ _ _ _ _ _ _ _ _ _ 0 1);
      [eapply tb_eq; [tbn|intros Hi; destruct (H _ Hi); nev; reflexivity]
      |apply tb_sc|apply tb_sc|first [apply (tb_scn (rbn m_infty))|apply (tb_scn (rbn 0))]|first [apply (tb_scn (rbn p_infty))|apply (tb_scn (rbn 0))]
      |first [apply tb_sc|eapply tb_eq; [tbn|intros Hi; destruct (H _ Hi); nev; reflexivity]]
      |first [apply tb_sc|eapply tb_eq; [tbn|intros Hi; destruct (H _ Hi); nev; reflexivity]]
      |intros Hi; destruct (H _ Hi) as [Hp Hq]; split; [lra|first [apply (K _ _ Hp Hq)]]]])|intros Hi; nev; reflexivity|intros t Ht; exact Ht]).
- intros i Hi. destruct (H i Hi) as (Hp & Hq). destruct (K _ _ Hp Hq) as [K1 K2]. cbv beta.
  apply (crps_glue _ (fun t => truncensx NF m_infty 0 0 (q i / (p i + q i)) ((t - m i) / p i)) (fun t => truncensx NF 0 p_infty (p i / (p i + q i)) 0 ((t - m i) / q i)) (m i)).
  + intros t Ht. unfold truncensx, normal2p_cdf. destruct (Rbar_lt_dec _ m_infty) as [a|a]; [now simpl in a|].
    destruct (Rlt_dec t (m i)); [|lra]. destruct (Rbar_lt_dec _ 0) as [b|b]; [|exfalso; apply b; simpl; apply Rdivneg; lra].
    cbn [ext_cdf]. rewrite Phi_NF, N0. field. lra.
  + intros t Ht. unfold truncensx. destruct (Rbar_lt_dec _ m_infty) as [a|a]; [now simpl in a|].
    destruct (Rbar_lt_dec _ 0) as [b|b]; [|reflexivity]. exfalso. simpl in b. assert (0 <= (t - m i) / p i); [apply Rdiv_le_0_compat|]; lra.
  + intros t Ht. unfold truncensx. destruct (Rbar_lt_dec _ 0) as [b|b]; [reflexivity|]. exfalso; apply b; simpl; apply Rdivneg; lra.
  + intros t Ht. unfold truncensx, normal2p_cdf. destruct (Rbar_lt_dec _ 0) as [b|b].
    { exfalso. simpl in b. assert (0 <= (t - m i) / q i); [apply Rdiv_le_0_compat|]; lra. }
    destruct (Rbar_lt_dec _ p_infty) as [a|a]; [|now simpl in a]. destruct (Rlt_dec t (m i)); [lra|].
    cbn [ext_cdf]. rewrite Phi_NF, NF_opp, N0. field. lra.
  + eapply crps_eq; [reflexivity| |apply (crps_scale _ (m i) (p i) (Rmin (y i) (m i)) _ Hp (normal_tc _ _ _ _ ((Rmin (y i) (m i) - m i) / p i) K1))].
    cbv zeta. assert ((Rmin 0 (y i - m i) / p i - 0) / 1 = (Rmin (y i) (m i) - m i) / p i) as ->.
    { replace (Rmin 0 (y i - m i)) with (Rmin (y i) (m i) - m i) by (unfold Rmin; destruct (Rle_dec _ _), (Rle_dec _ _); lra). field. lra. }
    cbn [std]. replace ((0 - 0) / 1) with 0 by field. ring.
  + eapply crps_eq; [reflexivity| |apply (crps_scale _ (m i) (q i) (Rmax (y i) (m i)) _ Hq (normal_tc _ _ _ _ ((Rmax (y i) (m i) - m i) / q i) K2))].
    cbv zeta. assert ((Rmax 0 (y i - m i) / q i - 0) / 1 = (Rmax (y i) (m i) - m i) / q i) as ->.
    { replace (Rmax 0 (y i - m i)) with (Rmax (y i) (m i) - m i) by (unfold Rmax; destruct (Rle_dec _ _), (Rle_dec _ _); lra). field. lra. }
    cbn [std]. replace ((0 - 0) / 1) with 0 by field. ring.
Qed.
Lemma C57_one_sided_nan_l :
forall (obs location scale lower upper lmass umass : arr) (s : list nat) (y m c p q : list nat -> R) (l u : list nat -> Rbar),
  params s [(obs, fins y); (location, fins m); (scale, fins c); (lower, fun i => rbn (l i)); (upper, fun i => rbn (u i)); (lmass, fins p); (umass, fins q)]%list ->
  (forall i, inb s i -> 0 < c i /\ Rbar_lt (l i) (u i) /\ ~ (l i = m_infty <-> u i = p_infty)) ->
  returns (crps_gtclogistic obs location scale lower upper lmass umass) s (fun _ => NaN).
Proof.
intros obs location scale lower upper lmass umass s y m c p q l u P H.
tcret P ltac:(eapply tb_gtclogistic_nan; [eassumption..|exact (H _)]).
Qed.
Lemma C57_tlogistic_one_sided_refuted_l :
exists (obs location scale lower upper : arr) (l u : Rbar),
  params nil [(obs, fun _ => Fin 1); (location, fun _ => Fin 0); (scale, fun _ => Fin 1); (lower, fun _ => rbn l); (upper, fun _ => rbn u)]%list /\
  Rbar_lt l u /\ (exists v, is_crps (truncensx (logistic_cdf 0 1) l u 0 0) 1 v) /\
  returns (crps_tlogistic obs location scale lower upper) nil (fun _ => NaN).
Proof.
exists (farr nil (fun _ => 1)), (farr nil (fun _ => 0)), (farr nil (fun _ => 1)), (farr nil (fun _ => 0)), (mkArr DFloat nil (fun _ => PInf)), 0, p_infty.
assert (params nil [(farr nil (fun _ => 1), fun _ : list nat => Fin 1); (farr nil (fun _ => 0), fun _ => Fin 0); (farr nil (fun _ => 1), fun _ => Fin 1); (farr nil (fun _ => 0), fun _ => rbn 0); (mkArr DFloat nil (fun _ => PInf), fun _ => rbn p_infty)]%list) as P
  by (split; [reflexivity|repeat constructor]).
split; [exact P|]. split; [exact I|]. split.
- eexists. apply (tc_loc Ncdf (logistic_cdf 0 1) lV 0 1); [lra| |reflexivity|exact logis_tc]. unfold tc_ok; simpl; repeat split; auto; lra.
- tcret P ltac:(eapply tb_gtclogistic_nan; [eassumption..|apply tb_sc|apply tb_sc|intros _; split; [lra|split; [exact I|intros [_ K]; now specialize (K eq_refl)]]]).
Qed.
