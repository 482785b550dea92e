(** Proofs that the closed-form scores of the t families are CRPS integrals (statements in P_crpst.v). *)
From Verif Require Export T_crpsnorm L_crpst.
From Coq Require Import Psatz.
From Coquelicot Require Import Coquelicot.
Open Scope R_scope.
Lemma C58_t_l :
forall (obs df location scale : arr) (s : list nat) (y n m c : list nat -> R),
  params s [(obs, fins y); (df, fins n); (location, fins m); (scale, fins c)]%list -> (forall i, inb s i -> 1 < n i /\ 0 < c i) ->
  exists f, returns (crps_t obs df location scale) s (fins f) /\
    forall i, inb s i -> is_crps (ls_cdf (t_cdf (n i)) (m i) (c i)) (y i) (f i).
Proof.
intros obs df location scale s y n m c P H.
exists (fun i => let w := (y i - m i) / c i in c i * (w * (2 * t_cdf (n i) w - 1) + 2 * t_pdf (n i) w * ((n i + w ^ 2) / (n i - 1)) - Bbar (n i))). split.
- tcret P ltac:(eapply tb_incl'; [tbt|intros Hi; destruct (H _ Hi) as [Hn Hc]; clear - Hn Hc|intros t Ht; exact Ht]).
  evs (c i). assert (0 < n i) as Hn0 by lra. pose proof (sqrt_lt_R0 (n i) Hn0) as Hs. pose proof (Rbeta_pos (1 / 2) (n i - 1 / 2) ltac:(lra) ltac:(lra)) as HB1. pose proof (Rbeta_pos (1 / 2) (n i / 2) ltac:(lra) ltac:(lra)) as HB2.
  assert (0 < Rbeta (1 / 2) (n i / 2) * Rbeta (1 / 2) (n i / 2)) as HB3 by now apply Rmult_lt_0_compat.
  evt. fold (Bbar (n i)). f_equal. cbv zeta. field. lra.
- intros i Hi. destruct (H i Hi) as [Hn Hc]. apply (crps_scale _ (m i) (c i) (y i) _ Hc (t_std (n i) ((y i - m i) / c i) Hn)).
Qed.
Lemma C58_gtct_l :
forall (obs df location scale lower upper lmass umass : arr) (s : list nat) (y n m c p q : list nat -> R) (l u : list nat -> Rbar),
  params s [(obs, fins y); (df, fins n); (location, fins m); (scale, fins c); (lower, fun i => rbn (l i)); (upper, fun i => rbn (u i)); (lmass, fins p); (umass, fins q)]%list ->
  (forall i, inb s i -> 1 < n i /\ 0 < c i /\ tc_ok (l i) (u i) (p i) (q i) /\ l i <> Finite (m i) /\ u i <> Finite (m i)) ->
  exists f, returns (crps_gtct obs df location scale lower upper lmass umass) s (fins f) /\
    forall i, inb s i -> is_crps (truncensx (ls_cdf (t_cdf (n i)) (m i) (c i)) (l i) (u i) (p i) (q i)) (y i) (f i).
Proof.
intros obs df location scale lower upper lmass umass s y n m c p q l u P H. eexists (fun i => _). split.
- tcret P ltac:(eapply tb_eq; [unfold crps_gtct; eapply tb_gtct; [eassumption..|exact (H _)]|intros _; reflexivity]).
- intros i Hi. destruct (H i Hi) as (Hn & Hc & Ho & _ & _). cbv beta. apply (tc_loc (t_cdf (n i))); [auto|auto|reflexivity|exact (t_tc (n i) Hn)].
Qed.
Lemma C58_tt_l :
forall (obs df location scale lower upper : arr) (s : list nat) (y n m c : list nat -> R) (l u : list nat -> Rbar),
  params s [(obs, fins y); (df, fins n); (location, fins m); (scale, fins c); (lower, fun i => rbn (l i)); (upper, fun i => rbn (u i))]%list ->
  (forall i, inb s i -> 1 < n i /\ 0 < c i /\ Rbar_lt (l i) (u i) /\ l i <> Finite (m i) /\ u i <> Finite (m i)) ->
  exists f, returns (crps_tt obs df location scale lower upper) s (fins f) /\
    forall i, inb s i -> is_crps (truncensx (ls_cdf (t_cdf (n i)) (m i) (c i)) (l i) (u i) 0 0) (y i) (f i).
Proof.
intros obs df location scale lower upper s y n m c l u P H.
assert (forall a b, Rbar_lt a b -> tc_ok a b 0 0) as K by (intros; unfold tc_ok; repeat split; auto; lra).
eexists (fun i => _). split.
- tcret P ltac:(eapply tb_eq; [unfold crps_tt; eapply tb_gtct; [eassumption..|apply tb_sc|apply tb_sc|intros Hi; destruct (H _ Hi) as (? & ? & ? & ? & ?); auto]|intros _; reflexivity]).
- intros i Hi. destruct (H i Hi) as (Hn & Hc & Ho & _ & _). cbv beta. apply (tc_loc (t_cdf (n i))); [auto|auto|reflexivity|exact (t_tc (n i) Hn)].
Qed.
Lemma C58_ct_l :
forall (obs df location scale lower upper : arr) (s : list nat) (y n m c : list nat -> R) (l u : list nat -> Rbar),
  params s [(obs, fins y); (df, fins n); (location, fins m); (scale, fins c); (lower, fun i => rbn (l i)); (upper, fun i => rbn (u i))]%list ->
  (forall i, inb s i -> 1 < n i /\ 0 < c i /\ Rbar_lt (l i) (u i) /\ l i <> Finite (m i) /\ u i <> Finite (m i)) ->
  exists f, returns (crps_ct obs df location scale lower upper) s (fins f) /\
    forall i, inb s i -> is_crps (censored (ls_cdf (t_cdf (n i)) (m i) (c i)) (l i) (u i)) (y i) (f i).
Proof.
intros obs df location scale lower upper s y n m c l u P H.
assert (forall i, inb s i -> tc_ok (l i) (u i) (ext_cdf (ls_cdf (t_cdf (n i)) (m i) (c i)) (l i)) (1 - ext_cdf (ls_cdf (t_cdf (n i)) (m i) (c i)) (u i)) /\
  forall t, truncensx (ls_cdf (t_cdf (n i)) (m i) (c i)) (l i) (u i) (ext_cdf (ls_cdf (t_cdf (n i)) (m i) (c i)) (l i)) (1 - ext_cdf (ls_cdf (t_cdf (n i)) (m i) (c i)) (u i)) t = censored (ls_cdf (t_cdf (n i)) (m i) (c i)) (l i) (u i) t) as K.
{ intros i Hi. destruct (H i Hi) as (Hn & Hc & Ho & _ & _). apply censored_tc; auto; unfold ls_cdf; [intros a b Hab; apply t_cdf_incr; [lra|]; apply (std_lt (m i) (c i) a b Hc); exact Hab|intros t; apply t_cdf_in; lra]. }
eexists (fun i => _). split.
- tcret P ltac:(unfold crps_ct; cbv zeta; eapply tb_incl'; [lazymatch goal with |- tb _ _ ?i _ _ => eapply tb_gtct with (lm := ext_cdf (ls_cdf (t_cdf (n i)) (m i) (c i)) (l i)) (um := 1 - ext_cdf (ls_cdf (t_cdf (n i)) (m i) (c i)) (u i)) end;
    [eassumption..
    |eapply tb_eq; [tbt|intros Hi; destruct (H _ Hi) as (Hn & Hc & Ho & _ & _); rewrite std_rbn, tcv_ext by lra; now rewrite ext_ls]
    |eapply tb_eq; [tbt|intros Hi; destruct (H _ Hi) as (Hn & Hc & Ho & _ & _); rewrite std_rbn, tcv_ext by lra; rewrite <- ext_ls; nev; reflexivity]
    |intros Hi; destruct (H _ Hi) as (? & ? & ? & ? & ?), (K _ Hi); auto]|reflexivity|intros t Ht; exact Ht]).
- intros i Hi. destruct (H i Hi) as (Hn & Hc & Ho & _ & _). destruct (K i Hi) as (K1 & K2). cbv beta.
  eapply crps_eq; [exact K2|reflexivity|]. apply (tc_loc (t_cdf (n i))); [auto|auto|reflexivity|exact (t_tc (n i) Hn)].
Qed.
Lemma C58_bound_at_location_nan_l :
forall (obs df location scale lower upper lmass umass : arr) (s : list nat) (y n m c p q : list nat -> R) (l u : list nat -> Rbar),
  params s [(obs, fins y); (df, fins n); (location, fins m); (scale, fins c); (lower, fun i => rbn (l i)); (upper, fun i => rbn (u i)); (lmass, fins p); (umass, fins q)]%list ->
  (forall i, inb s i -> 1 < n i /\ 0 < c i /\ Rbar_lt (l i) (u i) /\ (l i = Finite (m i) \/ u i = Finite (m i))) ->
  returns (crps_gtct obs df location scale lower upper lmass umass) s (fun _ => NaN).
Proof.
intros obs df location scale lower upper lmass umass s y n m c p q l u P H.
tcret P ltac:(eapply tb_gtct_nan; [eassumption..|exact (H _)]).
Qed.
Lemma C58_tt_at_location_refuted_l :
exists (obs df location scale lower upper : arr) (l u : Rbar),
  params nil [(obs, fun _ => Fin 1); (df, fun _ => Fin 3); (location, fun _ => Fin 0); (scale, fun _ => Fin 1); (lower, fun _ => rbn l); (upper, fun _ => rbn u)]%list /\
  Rbar_lt l u /\ (exists v, is_crps (truncensx (ls_cdf (t_cdf 3) 0 1) l u 0 0) 1 v) /\
  returns (crps_tt obs df location scale lower upper) nil (fun _ => NaN).
Proof.
exists (farr nil (fun _ => 1)), (farr nil (fun _ => 3)), (farr nil (fun _ => 0)), (farr nil (fun _ => 1)), (farr nil (fun _ => 0)), (mkArr DFloat nil (fun _ => PInf)), 0, p_infty.
assert (params nil [(farr nil (fun _ => 1), fun _ : list nat => Fin 1); (farr nil (fun _ => 3), fun _ => Fin 3); (farr nil (fun _ => 0), fun _ => Fin 0); (farr nil (fun _ => 1), fun _ => Fin 1); (farr nil (fun _ => 0), fun _ => rbn 0); (mkArr DFloat nil (fun _ => PInf), fun _ => rbn p_infty)]%list) as P
  by (split; [reflexivity|repeat constructor]).
split; [exact P|]. split; [exact I|]. split.
- eexists. apply (tc_loc (t_cdf 3) (ls_cdf (t_cdf 3) 0 1) (tV 3) 0 1); [lra| |reflexivity|apply t_tc; lra]. unfold tc_ok; simpl; repeat split; auto; lra.
- tcret P ltac:(eapply tb_gtct_nan; [eassumption..|apply tb_sc|apply tb_sc|intros _; split; [lra|split; [lra|split; [exact I|now left]]]]).
Qed.
