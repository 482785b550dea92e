(** Proofs of the threshold-weighted CRPS properties (statements in P_crps_tw.v). *)
From Coq Require Import FunctionalExtensionality.
From Verif Require Export L_tw T_crps_nan.
Open Scope R_scope.
Lemma nums_args obs fct ax s p M yn xn y x : ens_nums obs fct ax s p M yn xn ->
  (forall r, inb s r -> yn r = Fin (y r)) -> (forall i, inb (insert_at p M s) i -> xn i = Fin (x i)) ->
  ens_args obs fct ax s p M y x.
Proof.
  intros ((H1 & H2) & (H3 & H4) & H5 & H6) Hy Hx. repeat split; auto.
  - intros i Hi. now rewrite H2, Hy.
  - intros i Hi. now rewrite H4, Hx.
Qed.
Lemma C19_threshold_l :
  forall srt be obs fct a b ax s p M y x e pol,
  argsort_ok srt -> ens_args obs fct ax s p M y x -> (0 < M)%nat -> thresholds a b ->
  In e ["nrg"; "qd"; "int"]%string -> In pol ["propagate"; "raise"]%string ->
  exists v, returns (twcrps_ensemble srt be obs fct a b ax None None e false pol) s (fun r => Fin (v r)) /\
    forall r, inb s r -> is_twcrps (ecdf M (member p x r)) (y r) a b (v r).
Proof.
  intros srt be obs fct a b ax s p M y x e pol Hs Ha HM Ht He Hp.
  destruct (tw_chain srt be obs fct a b ax None None e false pol s p M _ _ (args_nums _ _ _ _ _ _ _ _ Ha)) as (obs' & fct' & D1 & D2 & Hn & ->).
  apply (nums_args obs' fct' ax s p M _ _ (fun r => clampR a b (y r)) (fun i => clampR a b (x i))) in Hn;
    [|intros; now apply clamp_num|intros; now apply clamp_num].
  assert (exists e', e = ename e' /\ (forall y x, real_un e' M y x = exact_crps M y x) /\ need2 e' = false) as (e' & -> & E1 & E3).
  { names He; [exists Nrg|exists Qd|exists EInt]; repeat split; reflexivity. }
  eexists; split; [eapply returns_is, (call_un srt be obs' fct' ax s p M _ _ e' false pol Hs Hn); auto; congruence|].
  intros r Hr. cbv beta. rewrite E1. apply (is_tw_ecdf M (member p x r) (y r) a b HM Ht).
Qed.
Lemma C19_threshold_weighted_l :
  forall srt be obs fct wt a b ax s p M y x w e pol,
  argsort_ok srt -> ens_args obs fct ax s p M y x -> (0 < M)%nat -> thresholds a b -> wts_args wt fct s p M w ->
  In e ["nrg"; "qd"; "int"]%string -> In pol ["propagate"; "raise"]%string ->
  exists v, returns (twcrps_ensemble srt be obs fct a b ax (Some wt) None e false pol) s (fun r => Fin (v r)) /\
    forall r, inb s r -> is_twcrps (wcdf M (member p w r) (member p x r)) (y r) a b (v r).
Proof.
  intros srt be obs fct wt a b ax s p M y x w e pol Hs Ha HM Ht Hw He Hp.
  destruct (tw_chain srt be obs fct a b ax (Some wt) None e false pol s p M _ _ (args_nums _ _ _ _ _ _ _ _ Ha)) as (obs' & fct' & D1 & D2 & Hn & ->).
  apply (nums_args obs' fct' ax s p M _ _ (fun r => clampR a b (y r)) (fun i => clampR a b (x i))) in Hn;
    [|intros; now apply clamp_num|intros; now apply clamp_num].
  assert (exists e', e = ename e' /\ (forall w y x, real_w be e' M w y x = wexact_crps M w y x) /\ need2 e' = false) as (e' & -> & E1 & E3).
  { names He; [exists Nrg|exists Qd|exists EInt]; repeat split; reflexivity. }
  assert (Hw' : wts_args wt fct' s p M w) by (destruct Hw as (W1 & _ & W3 & W4); repeat split; auto; apply W1).
  eexists; split; [eapply returns_is, (call_w srt be obs' fct' wt ax s p M _ _ w e' false pol Hs Hn Hw'); auto; congruence|].
  intros r Hr. cbv beta. rewrite E1. destruct Hw as (_ & _ & _ & W4). specialize (W4 r Hr).
  apply (is_tw_wcdf M (member p w r) (member p x r) (y r) a b); auto. lra.
Qed.
Lemma C19_default_l :
  forall srt be obs fct ax s p M y x e sf,
  argsort_ok srt -> ens_nums obs fct ax s p M y x -> dt obs = DFloat -> dt fct = DFloat ->
  In e ["nrg"; "fair"; "pwm"; "qd"; "int"; "akr"; "akr_circperm"]%string ->
  (exists v, returns (twcrps_ensemble srt be obs fct NInf PInf ax None None e sf "propagate") s v /\
             returns (crps_ensemble srt be obs fct ax None e sf "propagate") s v) /\
  forall wt w, sh wt = insert_at p M s -> (forall i, inb (insert_at p M s) i -> at_ wt i = w i) ->
   (forall r k, inb s r -> (k < M)%nat -> nltb (member p w r k) (Fin 0) = false) ->
   exists v, returns (twcrps_ensemble srt be obs fct NInf PInf ax (Some wt) None e sf "propagate") s v /\
             returns (crps_ensemble srt be obs fct ax (Some wt) e sf "propagate") s v.
Proof.
  intros srt be obs fct ax s p M y x e sf Hs Ha D1 D2 He. destruct (name_est e He) as (e' & ->).
  pose proof (nums_inputs _ _ _ _ _ _ _ _ Ha) as Hin. rewrite D1, D2 in Hin.
  assert (K : forall ow, exists obs' fct', inputs obs' fct' ax DFloat DFloat s p M y x /\
     twcrps_ensemble srt be obs fct NInf PInf ax ow None (ename e') sf "propagate" = crps_ensemble srt be obs' fct' ax ow (ename e') sf "propagate").
  { intros ow. destruct (tw_chain srt be obs fct NInf PInf ax ow None (ename e') sf "propagate" s p M _ _ Ha) as (obs' & fct' & F1 & F2 & Hn & E).
    exists obs', fct'. split; auto. apply nums_inputs in Hn. rewrite F1, F2 in Hn. cbv beta iota in Hn.
    destruct Hn as ((I1 & I2 & I3) & (J1 & J2 & J3) & K1 & K2). repeat split; auto.
    - intros i Hi. rewrite I3 by auto. apply clamp_num_inf.
    - intros i Hi. rewrite J3 by auto. apply clamp_num_inf. }
  split.
  - destruct (K None) as (obs' & fct' & Hin' & ->).
    eexists; split; eapply returns_is.
    + exact (api_un srt Hs be _ _ _ _ _ _ _ _ _ _ Hin' e' sf).
    + exact (api_un srt Hs be _ _ _ _ _ _ _ _ _ _ Hin e' sf).
  - intros wt w Hws Hwa Hw. destruct (K (Some wt)) as (obs' & fct' & Hin' & ->).
    assert (A : arr_is wt (dt wt) (insert_at p M s) w) by (repeat split; auto).
    eexists; split; eapply returns_is.
    + apply (api_w srt Hs be _ _ _ _ _ _ _ _ _ _ Hin' wt _ _ A e' sf). intros; cbn [ncast]; now apply Hw.
    + apply (api_w srt Hs be _ _ _ _ _ _ _ _ _ _ Hin wt _ _ A e' sf). intros; cbn [ncast]; now apply Hw.
Qed.
Lemma C19_chaining_l :
  forall srt be obs fct a b ax s p M y x g e pol,
  argsort_ok srt -> ens_args obs fct ax s p M y x -> (0 < M)%nat ->
  In e ["nrg"; "qd"; "int"]%string -> In pol ["propagate"; "raise"]%string ->
  returns (twcrps_ensemble srt be obs fct a b ax None (Some (fun v => match v with Fin r => Fin (g r) | v => v end)) e false pol) s
    (fun r => Fin (sumn M (fun i => Rabs (g (member p x r i) - g (y r))) / INR M
                   - sumn M (fun i => sumn M (fun j => Rabs (g (member p x r i) - g (member p x r j)))) / (2 * INR M * INR M))).
Proof.
  intros srt be obs fct a b ax s p M y x g e pol Hs Ha HM He Hp.
  match goal with |- returns (twcrps_ensemble _ _ _ _ _ _ _ _ ?v _ _ _) _ _ =>
    destruct (tw_chain srt be obs fct a b ax None v e false pol s p M _ _ (args_nums _ _ _ _ _ _ _ _ Ha)) as (obs' & fct' & D1 & D2 & Hn & ->) end.
  apply (nums_args obs' fct' ax s p M _ _ (fun r => g (y r)) (fun i => g (x i))) in Hn; [|reflexivity|reflexivity].
  assert (exists e', e = ename e' /\ (forall y x, real_un e' M y x = exact_crps M y x) /\ need2 e' = false) as (e' & -> & E1 & E3).
  { names He; [exists Nrg|exists Qd|exists EInt]; repeat split; reflexivity. }
  eapply returns_ext; [eapply returns_is, (call_un srt be obs' fct' ax s p M _ _ e' false pol Hs Hn); auto; congruence|].
  intros r Hr. cbv beta. rewrite E1. reflexivity.
Qed.
