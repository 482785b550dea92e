(** Proofs of the value properties of [crps_ensemble] (statements in P_crps_value.v). *)
From Coq Require Import FunctionalExtensionality.
From Verif Require Export L_crps_call.
Open Scope R_scope.
Lemma C01_exact_crps_l :
  forall srt b obs fct ax s p M y x e sf pol,
  argsort_ok srt -> ens_args obs fct ax s p M y x -> (0 < M)%nat ->
  In e ["nrg"; "qd"; "int"]%string -> In pol ["propagate"; "raise"]%string ->
  (b = Numba -> dt obs = DFloat) -> sorted_if sf s p M x ->
  exists v, returns (crps_ensemble srt b obs fct ax None e sf pol) s (fun r => Fin (v r)) /\
            forall r, inb s r -> is_crps (ecdf M (member p x r)) (y r) (v r).
Proof.
  intros srt b obs fct ax s p M y x e sf pol Hs Ha HM He Hp Hd Hsf.
  exists (fun r => exact_crps M (y r) (member p x r)). split.
  - eapply returns_is. names He.
    + apply (call_un srt b obs fct ax s p M y x Nrg sf pol); auto; easy.
    + apply (call_un srt b obs fct ax s p M y x Qd sf pol); auto; easy.
    + apply (call_un srt b obs fct ax s p M y x EInt sf pol); auto; easy.
  - intros r Hr. now apply is_crps_ecdf.
Qed.
Lemma C02_fair_crps_l :
  forall srt b obs fct ax s p M y x e sf pol,
  argsort_ok srt -> ens_args obs fct ax s p M y x -> (1 < M)%nat ->
  In e ["fair"; "pwm"]%string -> In pol ["propagate"; "raise"]%string ->
  (b = Numba -> dt obs = DFloat) -> sorted_if sf s p M x ->
  returns (crps_ensemble srt b obs fct ax None e sf pol) s
    (fun r => Fin (fair_crps M (y r) (member p x r))).
Proof.
  intros srt b obs fct ax s p M y x e sf pol Hs Ha HM He Hp Hd Hsf. eapply returns_is. names He.
  + apply (call_un srt b obs fct ax s p M y x Fair sf pol); auto; lia.
  + apply (call_un srt b obs fct ax s p M y x Pwm sf pol); auto; lia.
Qed.
Lemma C02_single_member_l :
  forall srt b obs fct ax s p y x e sf pol,
  argsort_ok srt -> ens_args obs fct ax s p 1 y x ->
  In e ["fair"; "pwm"]%string -> In pol ["propagate"; "raise"]%string ->
  (b = Numba -> dt obs = DFloat) ->
  returns (crps_ensemble srt b obs fct ax None e sf pol) s (fun _ => NaN).
Proof.
  intros srt b obs fct ax s p y x e sf pol Hs Ha He Hp Hd.
  pose proof (nums_inputs _ _ _ _ _ _ _ _ (args_nums _ _ _ _ _ _ _ _ Ha)) as Hin.
  assert (E : forall e', crps_ensemble srt b obs fct ax None (ename e') sf pol =
              crps_ensemble srt b obs fct ax None (ename e') sf "propagate").
  { intros e'. names Hp; auto.
    all: apply (api_raise_ok srt b obs fct ax _ _ s p 1 _ _ Hin None); [exact I|easy|]; split; easy. }
  assert (H : exists e', e = ename e' /\ need2 e' = true) by (names He; [exists Fair|exists Pwm]; auto).
  destruct H as (e' & -> & H2). rewrite E. eapply returns_is, ten_conv;
    [apply (api_un srt Hs b obs fct ax _ _ s p 1 _ _ Hin e' sf)|now apply odt_float|].
  intros r Hr. cbv beta. rewrite odt_float, ncast_float by auto.
  assert (O : ord srt e' sf 1 (fun k => Fin (x (insert_at p k r))) 0 = 0%nat).
  { pose proof (ord_lt srt Hs e' sf 1 (fun k => Fin (x (insert_at p k r))) 0 Nat.lt_0_1). lia. }
  apply (row_un_one b e' _ _ (y r) (x (insert_at p 0%nat r))); auto. cbv beta. now rewrite O.
Qed.
Lemma C04_backends_agree_l :
  forall srt obs fct ax s p M y x e sf pol,
  argsort_ok srt -> ens_args obs fct ax s p M y x -> (0 < M)%nat ->
  In e ["nrg"; "fair"; "pwm"; "qd"; "int"; "akr"; "akr_circperm"]%string ->
  (In e ["fair"; "pwm"]%string -> (1 < M)%nat) ->
  In pol ["propagate"; "raise"]%string -> dt obs = DFloat -> sorted_if sf s p M x ->
  exists v, returns (crps_ensemble srt Array obs fct ax None e sf pol) s (fun r => Fin (v r)) /\
            returns (crps_ensemble srt Numba obs fct ax None e sf pol) s (fun r => Fin (v r)).
Proof.
  intros srt obs fct ax s p M y x e sf pol Hs Ha HM He H2 Hp Hd Hsf.
  destruct (name_est e He) as (e' & ->). exists (fun r => real_un e' M (y r) (member p x r)).
  split; eapply returns_is, call_un; auto; intros; apply H2; now apply (name_need2 _ e').
Qed.
Lemma C04_akr_value_l :
  forall srt b obs fct ax s p M y x sf pol,
  argsort_ok srt -> ens_args obs fct ax s p M y x -> (0 < M)%nat ->
  In pol ["propagate"; "raise"]%string -> (b = Numba -> dt obs = DFloat) ->
  returns (crps_ensemble srt b obs fct ax None "akr" sf pol) s
    (fun r => Fin (mae M (y r) (member p x r)
      - / 2 * (sumn M (fun k => Rabs (member p x r k - member p x r ((k + M - 1) mod M)%nat)) / INR M))) /\
  returns (crps_ensemble srt b obs fct ax None "akr_circperm" sf pol) s
    (fun r => Fin (mae M (y r) (member p x r)
      - / 2 * (sumn M (fun k => Rabs (member p x r k - member p x r ((k + M - M / 2) mod M)%nat)) / INR M))).
Proof.
  intros srt b obs fct ax s p M y x sf pol Hs Ha HM Hp Hd.
  assert (K : forall e', esorts e' = false -> need2 e' = false ->
    ten_is (crps_ensemble srt b obs fct ax None (ename e') sf pol) DFloat s
      (fun r => Fin (real_un e' M (y r) (member p x r)))).
  { intros e' E1 E2. pose proof (nums_inputs _ _ _ _ _ _ _ _ (args_nums _ _ _ _ _ _ _ _ Ha)) as Hin.
    eapply ten_conv; [eapply (ens_real srt Hs b obs fct ax _ _ s p M _ _ y x Hin HM)|now apply odt_float|]; auto.
    - names Hp; auto.
    - congruence.
    - congruence.
    - intros r Hr. cbv beta. rewrite odt_float by auto. reflexivity. }
  split; eapply returns_is; [apply (K Akr)|apply (K Circ)]; reflexivity.
Qed.
Lemma C04_unknown_estimator_l :
  forall srt b obs fct ax s p M y x e sf,
  ens_nums obs fct ax s p M y x ->
  ~ In e ["nrg"; "fair"; "pwm"; "qd"; "int"; "akr"; "akr_circperm"; "ownrg"; "vrnrg"]%string ->
  raises (crps_ensemble srt b obs fct ax None e sf "propagate") ValueError.
Proof.
  intros srt b obs fct ax s p M y x e sf Ha He. pose proof (nums_inputs _ _ _ _ _ _ _ _ Ha) as Hin.
  apply (api_estimator srt b obs fct ax _ _ s p M y x Hin None e sf); [exact I| | |].
  - intros H. apply He. unfold known_estimators in H. simpl in *. tauto.
  - intros H. apply He. simpl in *. tauto.
  - intros. cbn. unfold rltb. destruct (Rlt_dec 0 0); auto; lra.
Qed.
Lemma C04_unknown_estimator_refuted_l :
  exists obs fct s M y x e, (forall srt sf,
    raises (crps_ensemble srt Numba obs fct (-1) None e sf "propagate") TypeError /\
    raises (crps_ensemble srt Array obs fct (-1) None e sf "propagate") ValueError) /\
  ens_args obs fct (-1) s 0 M y x /\
  ~ In e ["nrg"; "fair"; "pwm"; "qd"; "int"; "akr"; "akr_circperm"]%string.
Proof.
  exists (farr [] (fun _ => 0)), (farr [2%nat] (fun _ => 0)), [], 2%nat, (fun _ => 0), (fun _ => 0), "ownrg"%string.
  assert (Ha : ens_args (farr [] (fun _ => 0)) (farr [2%nat] (fun _ => 0)) (-1) [] 0 2 (fun _ => 0) (fun _ => 0)).
  { repeat split; simpl; auto. now left. }
  pose proof (nums_inputs _ _ _ _ _ _ _ _ (args_nums _ _ _ _ _ _ _ _ Ha)) as Hin.
  split; [|split; [exact Ha|simpl; intuition discriminate]].
  intros srt sf. split.
  - exact (api_estimator_ow srt Numba _ _ _ _ _ _ _ _ _ _ Hin "ownrg" sf (or_introl eq_refl)).
  - exact (api_estimator_ow srt Array _ _ _ _ _ _ _ _ _ _ Hin "ownrg" sf (or_introl eq_refl)).
Qed.
Lemma C05_weighted_backends_agree_l :
  forall srt obs fct wt ax s p M y x w e sf pol,
  argsort_ok srt -> ens_args obs fct ax s p M y x -> (0 < M)%nat -> wts_args wt fct s p M w ->
  In e ["nrg"; "fair"; "pwm"; "qd"; "int"; "akr"; "akr_circperm"]%string ->
  (In e ["fair"; "pwm"]%string -> forall r, inb s r -> two_positive M (member p w r)) ->
  (e = "akr_circperm"%string -> Nat.odd M = true) ->
  In pol ["propagate"; "raise"]%string -> dt obs = DFloat -> sorted_if sf s p M x ->
  exists v, returns (crps_ensemble srt Array obs fct ax (Some wt) e sf pol) s (fun r => Fin (v r)) /\
            returns (crps_ensemble srt Numba obs fct ax (Some wt) e sf pol) s (fun r => Fin (v r)).
Proof.
  intros srt obs fct wt ax s p M y x w e sf pol Hs Ha HM Hw He H2 Hodd Hp Hd Hsf.
  destruct (name_est e He) as (e' & ->). exists (fun r => real_w Numba e' M (nw M (member p w r)) (y r) (member p x r)).
  split.
  - eapply returns_ext; [eapply returns_is, (call_w srt Array obs fct wt ax s p M y x w e' sf pol); auto|].
    + intros E r Hr. apply H2; auto. now apply (name_need2 _ e').
    + intros r Hr. cbv beta. f_equal. destruct e'; try reflexivity. cbn [real_w].
      apply wlag_ext. intros k Hk. unfold lagc.
      assert (O : Nat.odd M = true) by (apply Hodd; reflexivity).
      apply Nat.odd_spec in O. destruct O as (q & ->).
      replace ((2 * q + 1 - 1) / 2)%nat with q; [replace ((2 * q + 1) / 2)%nat with q; auto|].
      * symmetry. rewrite Nat.mul_comm, Nat.div_add_l by lia. simpl. lia.
      * replace (2 * q + 1 - 1)%nat with (q * 2)%nat by lia. symmetry. apply Nat.div_mul; lia.
  - eapply returns_is, call_w; eauto. intros E r Hr. apply H2; auto. now apply (name_need2 _ e').
Qed.
Lemma C05_circperm_refuted_l :
  exists obs fct wt s M y x w, ens_args obs fct (-1) s 0 M y x /\ wts_args wt fct s 0 M w /\ dt obs = DFloat /\
  exists u v, u <> v /\ forall srt, argsort_ok srt ->
    returns (crps_ensemble srt Array obs fct (-1) (Some wt) "akr_circperm" false "propagate") s (fun _ => Fin u) /\
    returns (crps_ensemble srt Numba obs fct (-1) (Some wt) "akr_circperm" false "propagate") s (fun _ => Fin v) /\
    returns (crps_ensemble srt Array obs fct (-1) None "akr_circperm" false "propagate") s (fun _ => Fin v) /\
    (forall r k, inb s r -> (k < M)%nat -> member 0 w r k = 1).
Proof.
  set (xx := fun i => match i with [1%nat] => 1 | _ => 0 end).
  exists (farr [] (fun _ => 0)), (farr [2%nat] xx), (farr [2%nat] (fun _ => 1)), [], 2%nat, (fun _ => 0), xx, (fun _ => 1).
  assert (Ha : ens_args (farr [] (fun _ => 0)) (farr [2%nat] xx) (-1) [] 0 2 (fun _ => 0) xx).
  { repeat split; simpl; auto. now left. }
  assert (Hw : wts_args (farr [2%nat] (fun _ => 1)) (farr [2%nat] xx) [] 0 2 (fun _ => 1)).
  { repeat split; simpl; auto; intros; unfold member, sumn, Rsum; simpl; lra. }
  split; [exact Ha|]. split; [exact Hw|]. split; [reflexivity|].
  exists (/ 2), 0. split; [lra|]. intros srt Hs. split; [|split; [|split; [|reflexivity]]].
  - eapply returns_ext; [eapply returns_is, (call_w srt Array _ _ _ _ _ _ _ _ _ _ Circ false "propagate" Hs Ha Hw);
      try easy; [now left|lia]|].
    intros [|? ?] Hr; [|easy]. cbv beta. f_equal. cbn [real_w]. unfold wlag_crps, wmae, nw, sumn, Rsum, member.
    simpl. unfold xx. rcalc.
  - eapply returns_ext; [eapply returns_is, (call_w srt Numba _ _ _ _ _ _ _ _ _ _ Circ false "propagate" Hs Ha Hw);
      try easy; [now left|lia]|].
    intros [|? ?] Hr; [|easy]. cbv beta. f_equal. cbn [real_w]. unfold wlag_crps, wmae, nw, sumn, Rsum, member.
    simpl. unfold xx. rcalc.
  - eapply returns_ext; [eapply returns_is, (call_un srt Array _ _ _ _ _ _ _ _ Circ false "propagate" Hs Ha);
      try easy; [lia|now left]|].
    intros [|? ?] Hr; [|easy]. cbv beta. f_equal. cbn [real_un]. unfold lag_crps, mae, sumn, Rsum, member.
    simpl. unfold xx. rcalc.
Qed.
Lemma C06_uniform_weights_l :
  forall srt b obs fct wt ax s p M y x w c e sf pol,
  argsort_ok srt -> ens_args obs fct ax s p M y x -> (0 < M)%nat -> wts_args wt fct s p M w ->
  (forall r k, inb s r -> (k < M)%nat -> member p w r k = c r) ->
  In e ["nrg"; "fair"; "pwm"; "qd"; "int"; "akr"; "akr_circperm"]%string ->
  (In e ["fair"; "pwm"]%string -> (1 < M)%nat) ->
  (e = "akr_circperm"%string -> b = Array -> Nat.odd M = true) ->
  In pol ["propagate"; "raise"]%string -> (b = Numba -> dt obs = DFloat) -> sorted_if sf s p M x ->
  exists v, returns (crps_ensemble srt b obs fct ax (Some wt) e sf pol) s (fun r => Fin (v r)) /\
            returns (crps_ensemble srt b obs fct ax None e sf pol) s (fun r => Fin (v r)).
Proof.
  intros srt b obs fct wt ax s p M y x w c e sf pol Hs Ha HM Hw Hc He H2 Hodd Hp Hd Hsf.
  destruct (name_est e He) as (e' & ->). exists (fun r => real_un e' M (y r) (member p x r)).
  assert (Cp : forall r, inb s r -> 0 < c r).
  { intros r Hr. destruct Hw as (_ & _ & W1 & W2). specialize (W2 r Hr).
    rewrite (sumn_ext M _ (fun _ => c r)) in W2 by (intros; now apply Hc). rewrite sumn_const in W2.
    pose proof (INR_pos M HM). apply (Rmult_lt_reg_l (INR M)); lra. }
  split.
  - eapply returns_ext; [eapply returns_is, (call_w srt b obs fct wt ax s p M y x w e' sf pol); auto|].
    + intros E r Hr. assert (1 < M)%nat by (apply H2; now apply (name_need2 _ e')).
      exists 0%nat, 1%nat. repeat split; try lia; rewrite Hc by (auto; lia); auto.
    + intros r Hr. cbv beta. f_equal. rewrite <- (real_w_uniform b e' M (y r)); auto.
      * apply real_w_ext. intros k Hk. unfold nw.
        rewrite Hc by auto. rewrite (sumn_ext M _ (fun _ => c r)) by (intros; now apply Hc).
        apply (nw_const M (c r) k HM). specialize (Cp r Hr); lra.
      * intros E. apply H2. now apply (name_need2 _ e').
      * intros -> E. apply Hodd; auto.
  - eapply returns_is, call_un; auto. intros E. apply H2. now apply (name_need2 _ e').
Qed.
Lemma C07_weighted_exact_l :
  forall srt b obs fct wt ax s p M y x w e sf pol,
  argsort_ok srt -> ens_args obs fct ax s p M y x -> (0 < M)%nat -> wts_args wt fct s p M w ->
  In e ["nrg"; "qd"; "int"]%string -> In pol ["propagate"; "raise"]%string ->
  (b = Numba -> dt obs = DFloat) -> sorted_if sf s p M x ->
  exists v, returns (crps_ensemble srt b obs fct ax (Some wt) e sf pol) s (fun r => Fin (v r)) /\
            forall r, inb s r -> is_crps (wcdf M (member p w r) (member p x r)) (y r) (v r).
Proof.
  intros srt b obs fct wt ax s p M y x w e sf pol Hs Ha HM Hw He Hp Hd Hsf.
  exists (fun r => wexact_crps M (nw M (member p w r)) (y r) (member p x r)). split.
  - eapply returns_is. names He.
    + apply (call_w srt b obs fct wt ax s p M y x w Nrg sf pol); auto; easy.
    + apply (call_w srt b obs fct wt ax s p M y x w Qd sf pol); auto; easy.
    + apply (call_w srt b obs fct wt ax s p M y x w EInt sf pol); auto; easy.
  - intros r Hr. apply is_crps_wcdf. destruct Hw as (_ & _ & _ & W). specialize (W r Hr). lra.
Qed.
Lemma C07_weighted_fair_l :
  forall srt b obs fct wt ax s p M y x w sf pol,
  argsort_ok srt -> ens_args obs fct ax s p M y x -> (0 < M)%nat -> wts_args wt fct s p M w ->
  (forall r, inb s r -> two_positive M (member p w r)) ->
  In pol ["propagate"; "raise"]%string -> (b = Numba -> dt obs = DFloat) ->
  returns (crps_ensemble srt b obs fct ax (Some wt) "fair" sf pol) s
    (fun r => Fin (wfair_crps M (nw M (member p w r)) (y r) (member p x r))).
Proof.
  intros srt b obs fct wt ax s p M y x w sf pol Hs Ha HM Hw H2 Hp Hd.
  assert (E : crps_ensemble srt b obs fct ax (Some wt) "fair" sf pol = crps_ensemble srt b obs fct ax (Some wt) "fair" false pol).
  { rewrite !crps_ensemble_core. unfold crps_core, univariate_sort_ens. cbn [str_in existsb String.eqb Ascii.eqb Bool.eqb orb].
    now rewrite !Bool.andb_false_r. }
  rewrite E. eapply returns_is, (call_w srt b obs fct wt ax s p M y x w Fair false pol); auto. easy.
Qed.
Lemma C07_weighted_pwm_l :
  forall srt b obs fct wt ax s p M y x w sf pol,
  argsort_ok srt -> ens_args obs fct ax s p M y x -> (0 < M)%nat -> wts_args wt fct s p M w ->
  (forall r, inb s r -> two_positive M (member p w r)) ->
  In pol ["propagate"; "raise"]%string -> (b = Numba -> dt obs = DFloat) -> sorted_if sf s p M x ->
  returns (crps_ensemble srt b obs fct ax (Some wt) "pwm" sf pol) s
    (fun r => let v := nw M (member p w r) in
       Fin (wfair_crps M v (y r) (member p x r) +
            (sumn M (fun k => v k * v k * member p x r k)
              - sumn M (fun k => v k * v k) * sumn M (fun k => v k * member p x r k))
            / (1 - sumn M (fun k => v k * v k)))).
Proof.
  intros srt b obs fct wt ax s p M y x w sf pol Hs Ha HM Hw H2 Hp Hd Hsf.
  eapply returns_ext; [eapply returns_is, (call_w srt b obs fct wt ax s p M y x w Pwm sf pol); auto|].
  intros r Hr. cbv beta zeta. f_equal. cbn [real_w]. destruct Hw as (_ & _ & W1 & W2). specialize (W2 r Hr).
  apply wpwm_bias; [apply nw_sum1; lra|]. apply (two_positive_fairc M (member p w r)); auto.
Qed.
Lemma C07_pwm_refuted_l :
  exists obs fct wt s M y x w, ens_args obs fct (-1) s 0 M y x /\ wts_args wt fct s 0 M w /\ dt obs = DFloat /\
  (forall r, inb s r -> two_positive M (member 0 w r)) /\
  exists u v, u <> v /\ forall srt b, argsort_ok srt ->
    returns (crps_ensemble srt b obs fct (-1) (Some wt) "pwm" false "propagate") s (fun _ => Fin u) /\
    returns (crps_ensemble srt b obs fct (-1) (Some wt) "fair" false "propagate") s (fun _ => Fin v).
Proof.
  set (xx := fun i => match i with [1%nat] => 1 | _ => 0 end).
  set (ww := fun i => match i with [1%nat] => 2 | _ => 1 end).
  exists (farr [] (fun _ => 0)), (farr [2%nat] xx), (farr [2%nat] ww), [], 2%nat, (fun _ => 0), xx, ww.
  assert (Ha : ens_args (farr [] (fun _ => 0)) (farr [2%nat] xx) (-1) [] 0 2 (fun _ => 0) xx).
  { repeat split; simpl; auto. now left. }
  assert (Hw : wts_args (farr [2%nat] ww) (farr [2%nat] xx) [] 0 2 ww).
  { repeat split; simpl; auto; intros [|? ?]; try easy.
    - intros k _ Hk. unfold member, ww; simpl. destruct k as [|[|k]]; lra.
    - intros _. unfold member, sumn, Rsum, ww; simpl. lra. }
  split; [exact Ha|]. split; [exact Hw|]. split; [reflexivity|]. split.
  { intros [|? ?] _; [|unfold member, ww; exists 0%nat, 1%nat; repeat split; simpl; try lia; lra].
    exists 0%nat, 1%nat. unfold member, ww; simpl. repeat split; try lia; lra. }
  assert (T : forall r, inb [] r -> two_positive 2 (member 0 ww r)).
  { intros [|? ?] Hr; [|easy]. exists 0%nat, 1%nat. unfold member, ww; simpl. repeat split; try lia; lra. }
  exists (1/3), (1/6). split; [lra|]. intros srt b Hs.
  split.
  - eapply returns_ext; [eapply returns_is, (call_w srt b _ _ _ _ _ _ _ _ _ _ Pwm false "propagate" Hs Ha Hw);
      try easy; [now left|lia]|].
    intros [|? ?] Hr; [|easy]. cbv beta. f_equal. cbn [real_w]. unfold wpwm_free, wmae, nw, sumn, Rsum, member.
    simpl. unfold xx, ww. rcalc.
  - eapply returns_ext; [eapply returns_is, (call_w srt b _ _ _ _ _ _ _ _ _ _ Fair false "propagate" Hs Ha Hw);
      try easy; [now left|lia]|].
    intros [|? ?] Hr; [|easy]. cbv beta. f_equal. cbn [real_w]. unfold wfair_crps, wmae, wpairsum, nw, sumn, Rsum, member.
    simpl. unfold xx, ww. rcalc.
Qed.
Lemma C47_point_forecast_l :
  forall srt b obs fct ax s p M y x z e sf pol,
  argsort_ok srt -> ens_args obs fct ax s p M y x -> (0 < M)%nat ->
  (forall r k, inb s r -> (k < M)%nat -> member p x r k = z r) ->
  In e ["nrg"; "qd"; "int"]%string -> In pol ["propagate"; "raise"]%string ->
  (b = Numba -> dt obs = DFloat) ->
  returns (crps_ensemble srt b obs fct ax None e sf pol) s (fun r => Fin (Rabs (z r - y r))).
Proof.
  intros srt b obs fct ax s p M y x z e sf pol Hs Ha HM Hz He Hp Hd.
  destruct (C01_exact_crps_l srt b obs fct ax s p M y x e sf pol) as (v & Hv & Hi); auto.
  { intros _ r Hr i j Hij. rewrite !Hz by (auto; lia). lra. }
  eapply returns_ext; [exact Hv|]. intros r Hr. cbv beta. f_equal.
  apply (is_crps_unique _ _ _ _ (Hi r Hr)).
  pose proof (is_crps_ecdf M (member p x r) (y r) HM) as E.
  replace (Rabs (z r - y r)) with (mae M (y r) (member p x r) - pairsum M (member p x r) / (2 * INR M * INR M)); auto.
  unfold mae, pairsum.
  rewrite (sumn_ext M (fun i => Rabs (member p x r i - y r)) (fun _ => Rabs (z r - y r))) by (intros; now rewrite Hz).
  rewrite (sumn_ext M (fun i => sumn M (fun j => Rabs (member p x r i - member p x r j))) (fun _ => 0)).
  - rewrite sumn_const, sumn_zero. pose proof (INR_nz M HM). field; auto.
  - intros i Hi'. rewrite (sumn_ext M _ (fun _ => 0)); [apply sumn_zero|].
    intros j Hj. rewrite !Hz by auto. now rewrite Rminus_eq_0, Rabs_R0.
Qed.
Lemma C47_between_l :
  forall srt b obs fct wt ax s p M y x w e sf pol,
  argsort_ok srt -> ens_args obs fct ax s p M y x -> (0 < M)%nat -> wts_args wt fct s p M w ->
  In e ["nrg"; "qd"; "int"]%string -> In pol ["propagate"; "raise"]%string ->
  (b = Numba -> dt obs = DFloat) -> sorted_if sf s p M x ->
  (exists v, returns (crps_ensemble srt b obs fct ax None e sf pol) s (fun r => Fin (v r)) /\
     forall r, inb s r -> 0 <= v r <= mae M (y r) (member p x r)) /\
  (exists v, returns (crps_ensemble srt b obs fct ax (Some wt) e sf pol) s (fun r => Fin (v r)) /\
     forall r, inb s r -> 0 <= v r <= wmae M (nw M (member p w r)) (y r) (member p x r)).
Proof.
  intros srt b obs fct wt ax s p M y x w e sf pol Hs Ha HM Hw He Hp Hd Hsf.
  assert (exists e', e = ename e' /\ (forall y x, real_un e' M y x = exact_crps M y x) /\
     (forall w y x, real_w b e' M w y x = wexact_crps M w y x) /\ need2 e' = false) as (e' & -> & E1 & E2 & E3).
  { names He; [exists Nrg|exists Qd|exists EInt]; repeat split; reflexivity. }
  split.
  - eexists; split; [eapply returns_is, (call_un srt b obs fct ax s p M y x e' sf pol); auto; congruence|].
    intros r Hr. cbv beta. rewrite E1, exact_uniform by auto.
    rewrite <- (wmae_uniform M (y r)).
    assert (forall k, (k < M)%nat -> 0 <= / INR M) by (intros; left; apply Rinv_0_lt_compat, INR_pos; auto).
    split; [apply wexact_nonneg; auto; now apply uniform_sum|now apply wexact_le_mae].
  - eexists; split; [eapply returns_is, (call_w srt b obs fct wt ax s p M y x w e' sf pol); auto; congruence|].
    intros r Hr. cbv beta. rewrite E2. destruct Hw as (_ & _ & W1 & W2).
    split; [apply wexact_nonneg; [intros; apply nw_nonneg; auto|apply nw_sum1; specialize (W2 r Hr); lra]|].
    apply wexact_le_mae. intros; apply nw_nonneg; auto.
Qed.
