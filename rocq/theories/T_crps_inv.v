(** Proofs of the invariance, sign and propriety properties (statements in P_crps_inv.v). *)
From Coq Require Import FunctionalExtensionality.
From Verif Require Export L_crps_more L_crps_unbias T_crps_value.
Open Scope R_scope.
Lemma real0_args y M x : ens_args (farr [] (fun _ => y)) (real1 M x) (-1) [] 0 M (fun _ => y) (fun i => x (hd 0%nat i)).
Proof. repeat split; simpl; auto. now left. Qed.
Lemma real0_wts M x w : (forall k, (k < M)%nat -> 0 <= w k) -> 0 < sumn M w ->
  wts_args (real1 M w) (real1 M x) [] 0 M (fun i => w (hd 0%nat i)).
Proof. intros H0 H1. repeat split; simpl; auto. Qed.
Lemma C03_fair_unbiased_l :
  forall srt b N M y v sf,
  argsort_ok srt -> (0 < N)%nat -> (1 < M)%nat ->
  exists S : list nat -> R,
    (forall t, In t (samples N M) ->
       returns (crps_ensemble srt b (farr [] (fun _ => y)) (real1 M (fun k => v (nth k t 0%nat))) (-1) None "fair" sf "propagate")
         [] (fun _ => Fin (S t))) /\
    is_crps (ecdf N v) y (average S (samples N M)).
Proof.
  intros srt b N M y v sf Hs HN HM. exists (fun t => fair_crps M y (fun k => v (nth k t 0%nat))). split.
  - intros t Ht. eapply returns_is.
    assert (E : crps_ensemble srt b (farr [] (fun _ => y)) (real1 M (fun k => v (nth k t 0%nat))) (-1) None "fair" sf "propagate"
      = crps_ensemble srt b (farr [] (fun _ => y)) (real1 M (fun k => v (nth k t 0%nat))) (-1) None "fair" false "propagate").
    { rewrite !crps_ensemble_core. unfold crps_core, univariate_sort_ens. cbn [str_in existsb String.eqb Ascii.eqb Bool.eqb orb].
      now rewrite !Bool.andb_false_r. }
    rewrite E. apply (call_un srt b _ _ _ _ _ _ _ _ Fair false "propagate" Hs (real0_args y M (fun k => v (nth k t 0%nat)))); auto; try easy; try lia.
    now left.
  - pose proof (avg_fair N HN y v M HM) as E. unfold avg in E. rewrite E. now apply is_crps_ecdf.
Qed.
Lemma C03_nrg_bias_l :
  forall srt b N M y v e,
  argsort_ok srt -> (0 < N)%nat -> (0 < M)%nat -> In e ["nrg"; "qd"; "int"]%string ->
  exists S : list nat -> R,
    (forall t, In t (samples N M) ->
       returns (crps_ensemble srt b (farr [] (fun _ => y)) (real1 M (fun k => v (nth k t 0%nat))) (-1) None e false "propagate")
         [] (fun _ => Fin (S t))) /\
    is_crps (ecdf N v) y (average S (samples N M) - pairsum N v / (INR N * INR N) / (2 * INR M)).
Proof.
  intros srt b N M y v e Hs HN HM He. exists (fun t => exact_crps M y (fun k => v (nth k t 0%nat))). split.
  - intros t Ht. eapply returns_is.
    assert (exists e', e = ename e' /\ (forall y x, real_un e' M y x = exact_crps M y x) /\ need2 e' = false) as (e' & -> & E1 & E3).
    { names He; [exists Nrg|exists Qd|exists EInt]; repeat split; reflexivity. }
    eapply ten_ext; [eapply (call_un srt b _ _ _ _ _ _ _ _ e' false "propagate" Hs (real0_args y M (fun k => v (nth k t 0%nat)))); auto; try easy|].
    + now left.
    + congruence.
    + intros r Hr. cbv beta. now rewrite E1.
  - pose proof (avg_exact N HN y v M HM) as E. unfold avg in E. rewrite E.
    replace (exact_crps N y v + pairsum N v / (INR N * INR N) / (2 * INR M) - pairsum N v / (INR N * INR N) / (2 * INR M))
      with (exact_crps N y v) by ring. now apply is_crps_ecdf.
Qed.
Lemma C08_weight_scale_l :
  forall srt b obs fct wt wt' ax s p M y x w c e sf pol,
  argsort_ok srt -> ens_args obs fct ax s p M y x -> (0 < M)%nat ->
  wts_args wt fct s p M w -> (forall r, inb s r -> 0 < c r) ->
  wts_args wt' fct s p M (fun i => c (remove_at p i) * w i) ->
  In e ["nrg"; "fair"; "pwm"; "qd"; "int"; "akr"; "akr_circperm"]%string ->
  (In e ["fair"; "pwm"]%string -> forall r, inb s r -> two_positive M (member p w r)) ->
  In pol ["propagate"; "raise"]%string -> (b = Numba -> dt obs = DFloat) -> sorted_if sf s p M x ->
  exists v, returns (crps_ensemble srt b obs fct ax (Some wt) e sf pol) s (fun r => Fin (v r)) /\
            returns (crps_ensemble srt b obs fct ax (Some wt') e sf pol) s (fun r => Fin (v r)).
Proof.
  intros srt b obs fct wt wt' ax s p M y x w c e sf pol Hs Ha HM Hw Hc Hw' He H2 Hp Hd Hsf.
  destruct (name_est e He) as (e' & ->).
  assert (R : forall r k, inb s r -> remove_at p (insert_at p k r) = r).
  { intros r k Hr. apply remove_insert. destruct Ha as (_ & _ & Hpl & _). now rewrite (inb_length s r Hr). }
  eexists; split; [eapply returns_is, (call_w srt b obs fct wt ax s p M y x w e' sf pol); auto|].
  { intros E r Hr. apply H2; auto. now apply (name_need2 _ e'). }
  eapply returns_ext; [eapply returns_is, (call_w srt b obs fct wt' ax s p M y x _ e' sf pol Hs Ha Hw'); auto|].
  - intros E r Hr. destruct (H2 (name_need2 _ e' eq_refl E) r Hr) as (i & j & Hi & Hj & N & Pi & Pj).
    exists i, j. unfold member in *. rewrite !R by auto. repeat split; auto; apply Rmult_lt_0_compat; auto.
  - intros r Hr. cbv beta. f_equal. apply real_w_ext. intros k Hk. unfold nw, member.
    rewrite (sumn_ext M _ (fun k => c r * w (insert_at p k r))) by (intros; now rewrite R).
    rewrite R, sumn_scal by auto. specialize (Hc r Hr). destruct Hw as (_ & _ & _ & W). specialize (W r Hr). unfold member in W.
    field. split; lra.
Qed.
Lemma C08_negative_weight_l :
  forall srt b obs fct wt ax s p M y x w e sf r k,
  argsort_ok srt -> ens_nums obs fct ax s p M y x -> sh wt = insert_at p M s -> dt fct = DFloat ->
  (forall i, inb (insert_at p M s) i -> at_ wt i = w i) ->
  In e ["nrg"; "fair"; "pwm"; "qd"; "int"; "akr"; "akr_circperm"]%string ->
  inb s r -> (k < M)%nat -> (exists q, member p w r k = Fin q /\ q < 0) \/ member p w r k = NInf ->
  raises (crps_ensemble srt b obs fct ax (Some wt) e sf "propagate") ValueError.
Proof.
  intros srt b obs fct wt ax s p M y x w e sf r k Hs Ha Hsh Hdt Hat He Hr Hk Hneg.
  destruct (name_est e He) as (e' & ->). pose proof (nums_inputs _ _ _ _ _ _ _ _ Ha) as Hin.
  refine (api_neg srt Hs b obs fct ax _ _ s p M y x Hin wt (dt wt) w _ e' sf r k Hr Hk _); [repeat split; auto|].
  rewrite ncast_id by auto. unfold member in Hneg. destruct Hneg as [(q & -> & Hq)| ->]; [|reflexivity].
  simpl. unfold rltb. destruct (Rlt_dec q 0); auto; lra.
Qed.
Lemma C08_wrong_shape_l :
  forall srt b obs fct wt ax s p M y x e sf,
  argsort_ok srt -> ens_nums obs fct ax s p M y x -> sh wt <> sh fct ->
  (length (sh wt) = length (sh fct) -> raises (crps_ensemble srt b obs fct ax (Some wt) e sf "propagate") ValueError) /\
  (raises (crps_ensemble srt b obs fct ax (Some wt) e sf "propagate") ValueError \/
   raises (crps_ensemble srt b obs fct ax (Some wt) e sf "propagate") AxisError).
Proof.
  intros srt b obs fct wt ax s p M y x e sf Hs Ha Hsh. pose proof (nums_inputs _ _ _ _ _ _ _ _ Ha) as Hin.
  exact (weights_bad_shape srt b obs fct wt ax _ _ s p M y x Hs Hin e sf Hsh).
Qed.
Lemma C08_normalised_l :
  forall wt fct M s w,
  sh fct = M :: s -> real_arr wt (M :: s) w -> (forall i, inb (M :: s) i -> 0 <= w i) ->
  (forall r, inb s r -> 0 < sumn M (fun k => w (k :: r))) ->
  exists v, returns (univariate_weight_check wt fct (-1)) (M :: s) (fun i => Fin (v i)) /\
    (forall i, inb (M :: s) i -> 0 <= v i) /\ (forall r, inb s r -> sumn M (fun k => v (k :: r)) = 1).
Proof.
  intros wt fct M s w Hf (Hw1 & Hw2) H0 Hpos.
  destruct (weight_check_last wt fct (dt wt) M s (fun i => Fin (w i)) Hf) as (w' & E & Hw').
  { repeat split; auto. }
  { intros i Hi. simpl. apply rltb_false. now apply H0. }
  exists (fun i => nw M (fun k => w (k :: tl i)) (hd 0%nat i)). split; [|split].
  - exists DFloat, w'. split; [exact E|]. destruct Hw' as (D & S' & A). split; auto. split; auto.
    intros i Hi. rewrite A by auto. destruct i as [|k r]; [easy|]. destruct Hi as [Hk Hr]. cbn [hd tl].
    apply normn_real; auto. specialize (Hpos r Hr). lra.
  - intros [|k r] Hi; [easy|]. destruct Hi as [Hk Hr]. cbn [hd tl].
    apply nw_nonneg; auto. intros j Hj. apply H0. split; auto.
  - intros r Hr. cbn [hd tl]. change (sumn M (nw M (fun k => w (k :: r))) = 1). apply nw_sum1.
    specialize (Hpos r Hr). lra.
Qed.
Lemma C09_zero_weights_l :
  forall srt b obs fct wt fct' wt' ax s p M y x w keep x' w' e pol,
  argsort_ok srt -> ens_args obs fct ax s p M y x -> (0 < M)%nat -> wts_args wt fct s p M w ->
  ens_args obs fct' ax s p (length keep) y x' -> wts_args wt' fct' s p (length keep) w' ->
  (0 < length keep)%nat -> NoDup keep -> (forall k, In k keep -> (k < M)%nat) ->
  (forall r k, inb s r -> (k < M)%nat -> ~ In k keep -> member p w r k = 0) ->
  (forall r j, inb s r -> (j < length keep)%nat ->
     member p x' r j = member p x r (nth j keep 0%nat) /\ member p w' r j = member p w r (nth j keep 0%nat)) ->
  In e ["nrg"; "fair"; "pwm"; "qd"; "int"]%string ->
  (In e ["fair"; "pwm"]%string -> forall r, inb s r -> two_positive M (member p w r)) ->
  In pol ["propagate"; "raise"]%string -> (b = Numba -> dt obs = DFloat) ->
  exists v, returns (crps_ensemble srt b obs fct ax (Some wt) e false pol) s (fun r => Fin (v r)) /\
            returns (crps_ensemble srt b obs fct' ax (Some wt') e false pol) s (fun r => Fin (v r)).
Proof.
  intros srt b obs fct wt fct' wt' ax s p M y x w keep x' w' e pol Hs Ha HM Hw Ha' Hw' HK Hnd Hlt Hz Hk He H2 Hp Hd.
  assert (exists e', e = ename e' /\ e' <> Akr /\ e' <> Circ) as (e' & -> & N1 & N2).
  { names He; [exists Nrg|exists Fair|exists Pwm|exists Qd|exists EInt]; repeat split; discriminate. }
  assert (Cv : forall r, inb s r -> covers M (member p w r) keep).
  { intros r Hr. split; [auto|split; [auto|]]. intros k Hk' Hn. now apply Hz. }
  eexists; split; [eapply returns_is, (call_w srt b obs fct wt ax s p M y x w e' false pol); auto; [easy|]|].
  { intros E r Hr. apply H2; auto. now apply (name_need2 _ e'). }
  eapply returns_ext; [eapply returns_is, (call_w srt b obs fct' wt' ax s p _ y x' w' e' false pol Hs Ha' Hw'); auto; try easy|].
  - intros E r Hr. destruct (H2 (name_need2 _ e' eq_refl E) r Hr) as (i & j & Hi & Hj & N & Pi & Pj).
    assert (Q : forall a, (a < M)%nat -> 0 < member p w r a -> exists c, (c < length keep)%nat /\ nth c keep 0%nat = a).
    { intros a Ha1 Ha2. destruct (in_dec Nat.eq_dec a keep) as [I|I].
      - apply In_nth with (d := 0%nat) in I. destruct I as (c & Hc & E1). exists c; auto.
      - rewrite Hz in Ha2; auto. lra. }
    destruct (Q i Hi Pi) as (ci & Hci & Ei). destruct (Q j Hj Pj) as (cj & Hcj & Ej).
    exists ci, cj. repeat split; auto; [congruence| |].
    + destruct (Hk r ci Hr Hci) as [_ ->]. now rewrite Ei.
    + destruct (Hk r cj Hr Hcj) as [_ ->]. now rewrite Ej.
  - intros r Hr. cbv beta. f_equal.
    rewrite (real_w_covers b e' M (nw M (member p w r)) keep (y r) (member p x r)); auto.
    2:{ now apply covers_nw, Cv. }
    symmetry. apply real_w_ext2; auto.
    intros j Hj. split; [|unfold kept; symmetry; now apply Hk].
    rewrite nw_kept by now apply Cv. unfold nw. f_equal.
    + unfold kept. symmetry; now apply Hk.
    + apply sumn_ext; intros i Hi. unfold kept. symmetry; now apply Hk.
Qed.
Lemma C09_repetition_l :
  forall srt b obs fct wt fct' ax s p M N y x c x' e sf pol,
  argsort_ok srt -> ens_args obs fct ax s p M y x -> (0 < M)%nat ->
  wts_args wt fct s p M (fun i => INR (c i)) ->
  ens_args obs fct' ax s p N y x' -> (0 < N)%nat ->
  (forall r, inb s r -> Permutation (map (member p x' r) (seq 0 N))
      (flat_map (fun k => repeat (member p x r k) (member p c r k)) (seq 0 M))) ->
  In e ["nrg"; "qd"; "int"]%string -> In pol ["propagate"; "raise"]%string ->
  (b = Numba -> dt obs = DFloat) -> sorted_if sf s p M x -> sorted_if sf s p N x' ->
  exists v, returns (crps_ensemble srt b obs fct ax (Some wt) e sf pol) s (fun r => Fin (v r)) /\
            returns (crps_ensemble srt b obs fct' ax None e sf pol) s (fun r => Fin (v r)).
Proof.
  intros srt b obs fct wt fct' ax s p M N y x c x' e sf pol Hs Ha HM Hw Ha' HN Hperm He Hp Hd Hsf Hsf'.
  assert (exists e', e = ename e' /\ (forall M y x, real_un e' M y x = exact_crps M y x) /\
     (forall w y x, real_w b e' M w y x = wexact_crps M w y x) /\ need2 e' = false) as (e' & -> & E1 & E2 & E3).
  { names He; [exists Nrg|exists Qd|exists EInt]; repeat split; reflexivity. }
  eexists; split; [eapply returns_is, (call_w srt b obs fct wt ax s p M y x _ e' sf pol Hs Ha Hw); auto; congruence|].
  eapply returns_ext; [eapply returns_is, (call_un srt b obs fct' ax s p N y x' e' sf pol); auto; congruence|].
  intros r Hr. cbv beta. f_equal. rewrite E1, E2.
  apply (exact_repeated N (member p x' r) M (member p c r) (member p x r) (y r) HN (Hperm r Hr)).
Qed.
Lemma C10_permutation_l :
  forall srt b obs fct fct' ax s p M y x x' e sf pol,
  argsort_ok srt -> ens_args obs fct ax s p M y x -> ens_args obs fct' ax s p M y x' -> (0 < M)%nat ->
  (forall r, inb s r -> Permutation (map (member p x r) (seq 0 M)) (map (member p x' r) (seq 0 M))) ->
  In e ["nrg"; "fair"; "pwm"; "qd"; "int"]%string -> (In e ["fair"; "pwm"]%string -> (1 < M)%nat) ->
  In pol ["propagate"; "raise"]%string -> (b = Numba -> dt obs = DFloat) ->
  sorted_if sf s p M x -> sorted_if sf s p M x' ->
  exists v, returns (crps_ensemble srt b obs fct ax None e sf pol) s (fun r => Fin (v r)) /\
            returns (crps_ensemble srt b obs fct' ax None e sf pol) s (fun r => Fin (v r)).
Proof.
  intros srt b obs fct fct' ax s p M y x x' e sf pol Hs Ha Ha' HM Hperm He H2 Hp Hd Hsf Hsf'.
  assert (exists e', e = ename e' /\ e' <> Akr /\ e' <> Circ) as (e' & -> & N1 & N2).
  { names He; [exists Nrg|exists Fair|exists Pwm|exists Qd|exists EInt]; repeat split; discriminate. }
  eexists; split; [eapply returns_is, (call_un srt b obs fct ax s p M y x e' sf pol); auto; intros; apply H2; now apply (name_need2 _ e')|].
  eapply returns_ext; [eapply returns_is, (call_un srt b obs fct' ax s p M y x' e' sf pol); auto; intros; apply H2; now apply (name_need2 _ e')|].
  intros r Hr. cbv beta. f_equal. symmetry. apply real_un_multiset; auto.
Qed.
Lemma C10_permutation_weighted_l :
  forall srt b obs fct fct' wt wt' ax s p M y x x' w w' e sf pol,
  argsort_ok srt -> ens_args obs fct ax s p M y x -> ens_args obs fct' ax s p M y x' -> (0 < M)%nat ->
  wts_args wt fct s p M w -> wts_args wt' fct' s p M w' ->
  (forall r, inb s r -> Permutation (map (fun k => (member p x r k, member p w r k)) (seq 0 M))
                                    (map (fun k => (member p x' r k, member p w' r k)) (seq 0 M))) ->
  In e ["nrg"; "fair"; "pwm"; "qd"; "int"]%string ->
  (In e ["fair"; "pwm"]%string -> forall r, inb s r -> two_positive M (member p w r) /\ two_positive M (member p w' r)) ->
  In pol ["propagate"; "raise"]%string -> (b = Numba -> dt obs = DFloat) ->
  sorted_if sf s p M x -> sorted_if sf s p M x' ->
  exists v, returns (crps_ensemble srt b obs fct ax (Some wt) e sf pol) s (fun r => Fin (v r)) /\
            returns (crps_ensemble srt b obs fct' ax (Some wt') e sf pol) s (fun r => Fin (v r)).
Proof.
  intros srt b obs fct fct' wt wt' ax s p M y x x' w w' e sf pol Hs Ha Ha' HM Hw Hw' Hperm He H2 Hp Hd Hsf Hsf'.
  assert (exists e', e = ename e' /\ e' <> Akr /\ e' <> Circ) as (e' & -> & N1 & N2).
  { names He; [exists Nrg|exists Fair|exists Pwm|exists Qd|exists EInt]; repeat split; discriminate. }
  eexists; split; [eapply returns_is, (call_w srt b obs fct wt ax s p M y x w e' sf pol); auto; intros; apply H2; auto; now apply (name_need2 _ e')|].
  eapply returns_ext; [eapply returns_is, (call_w srt b obs fct' wt' ax s p M y x' w' e' sf pol); auto; intros; apply H2; auto; now apply (name_need2 _ e')|].
  intros r Hr. cbv beta. f_equal. symmetry. apply real_w_multiset; auto.
  unfold nw. rewrite (total_multiset M _ _ _ _ (Hperm r Hr)).
  pose proof (Permutation_map (fun q => (fst q, snd q / sumn M (member p w' r))) (Hperm r Hr)) as P.
  rewrite !map_map in P. exact P.
Qed.
Lemma C10_akr_order_refuted_l :
  exists y x x', Permutation (map x (seq 0 4)) (map x' (seq 0 4)) /\
  exists u v : R, u <> v /\ forall srt b, argsort_ok srt ->
    returns (crps_ensemble srt b (farr [] (fun _ => y)) (real1 4 x) (-1) None "akr" false "propagate") [] (fun _ => Fin u) /\
    returns (crps_ensemble srt b (farr [] (fun _ => y)) (real1 4 x') (-1) None "akr" false "propagate") [] (fun _ => Fin v).
Proof.
  exists 0, (fun k => nth k [0; 0; 1; 1] 0), (fun k => nth k [0; 1; 0; 1] 0). split.
  { simpl. apply perm_skip, perm_swap. }
  exists (1/4), 0. split; [lra|]. intros srt b Hs. split.
  - eapply returns_ext; [eapply returns_is, (call_un srt b _ _ _ _ _ _ _ _ Akr false "propagate" Hs (real0_args 0 4 (fun k => nth k [0; 0; 1; 1] 0))); try easy; [lia|now left]|].
    intros [|? ?] Hr; [|easy]. cbv beta. f_equal. cbn [real_un]. unfold lag_crps, mae, sumn, Rsum, member. simpl. rcalc.
  - eapply returns_ext; [eapply returns_is, (call_un srt b _ _ _ _ _ _ _ _ Akr false "propagate" Hs (real0_args 0 4 (fun k => nth k [0; 1; 0; 1] 0))); try easy; [lia|now left]|].
    intros [|? ?] Hr; [|easy]. cbv beta. f_equal. cbn [real_un]. unfold lag_crps, mae, sumn, Rsum, member. simpl. rcalc.
Qed.
Lemma C11_affine_l :
  forall srt b obs fct obs' fct' ax s p M y x a c e sf pol,
  argsort_ok srt -> ens_args obs fct ax s p M y x ->
  ens_args obs' fct' ax s p M (fun r => a r * y r + c r) (fun i => a (remove_at p i) * x i + c (remove_at p i)) ->
  (0 < M)%nat -> In e ["nrg"; "fair"; "pwm"; "qd"; "int"; "akr"; "akr_circperm"]%string ->
  (In e ["fair"; "pwm"]%string -> (1 < M)%nat) -> In pol ["propagate"; "raise"]%string ->
  (b = Numba -> dt obs = DFloat /\ dt obs' = DFloat) -> sorted_if sf s p M x ->
  (sf = true -> forall r, inb s r -> 0 <= a r) ->
  exists v, returns (crps_ensemble srt b obs fct ax None e sf pol) s (fun r => Fin (v r)) /\
            returns (crps_ensemble srt b obs' fct' ax None e sf pol) s (fun r => Fin (Rabs (a r) * v r)).
Proof.
  intros srt b obs fct obs' fct' ax s p M y x a c e sf pol Hs Ha Ha' HM He H2 Hp Hd Hsf Hpos.
  destruct (name_est e He) as (e' & ->).
  assert (R : forall r k, inb s r -> remove_at p (insert_at p k r) = r).
  { intros r k Hr. apply remove_insert. destruct Ha as (_ & _ & Hpl & _). now rewrite (inb_length s r Hr). }
  eexists; split; [eapply returns_is, (call_un srt b obs fct ax s p M y x e' sf pol); auto;
    [now intros E; apply Hd|intros; apply H2; now apply (name_need2 _ e')]|].
  eapply returns_ext; [eapply returns_is, (call_un srt b obs' fct' ax s p M _ _ e' sf pol Hs Ha'); auto|].
  - intros E; now apply Hd.
  - intros E r Hr i j Hij. unfold member. rewrite !R by auto. specialize (Hpos E r Hr).
    pose proof (Hsf E r Hr i j Hij) as L. unfold member in L.
    apply Rplus_le_compat_r, Rmult_le_compat_l; auto.
  - intros; apply H2; now apply (name_need2 _ e').
  - intros r Hr. cbv beta. f_equal. rewrite <- (real_un_affine e' M (a r) (c r)). f_equal.
    apply functional_extensionality; intros k. unfold member. now rewrite R.
Qed.
Lemma C11_affine_weighted_l :
  forall srt b obs fct obs' fct' wt ax s p M y x w a c e sf pol,
  argsort_ok srt -> ens_args obs fct ax s p M y x ->
  ens_args obs' fct' ax s p M (fun r => a r * y r + c r) (fun i => a (remove_at p i) * x i + c (remove_at p i)) ->
  (0 < M)%nat -> wts_args wt fct s p M w -> dt fct' = DFloat ->
  In e ["nrg"; "fair"; "pwm"; "qd"; "int"; "akr"; "akr_circperm"]%string ->
  (In e ["fair"; "pwm"]%string -> forall r, inb s r -> two_positive M (member p w r)) ->
  (e = "pwm"%string \/ sf = true -> forall r, inb s r -> 0 <= a r) ->
  In pol ["propagate"; "raise"]%string -> (b = Numba -> dt obs = DFloat /\ dt obs' = DFloat) -> sorted_if sf s p M x ->
  exists v, returns (crps_ensemble srt b obs fct ax (Some wt) e sf pol) s (fun r => Fin (v r)) /\
            returns (crps_ensemble srt b obs' fct' ax (Some wt) e sf pol) s (fun r => Fin (Rabs (a r) * v r)).
Proof.
  intros srt b obs fct obs' fct' wt ax s p M y x w a c e sf pol Hs Ha Ha' HM Hw Hdf He H2 Hpos Hp Hd Hsf.
  destruct (name_est e He) as (e' & ->).
  assert (R : forall r k, inb s r -> remove_at p (insert_at p k r) = r).
  { intros r k Hr. apply remove_insert. destruct Ha as (_ & _ & Hpl & _). now rewrite (inb_length s r Hr). }
  assert (Hw' : wts_args wt fct' s p M w) by (destruct Hw as (W1 & _ & W3 & W4); repeat split; auto; apply W1).
  eexists; split; [eapply returns_is, (call_w srt b obs fct wt ax s p M y x w e' sf pol); auto;
    [now intros E; apply Hd|intros; apply H2; auto; now apply (name_need2 _ e')]|].
  eapply returns_ext; [eapply returns_is, (call_w srt b obs' fct' wt ax s p M _ _ w e' sf pol Hs Ha' Hw'); auto|].
  - intros E; now apply Hd.
  - intros E r Hr i j Hij. unfold member. rewrite !R by auto. specialize (Hpos (or_intror E) r Hr).
    pose proof (Hsf E r Hr i j Hij) as L. unfold member in L.
    apply Rplus_le_compat_r, Rmult_le_compat_l; auto.
  - intros; apply H2; auto; now apply (name_need2 _ e').
  - intros r Hr. cbv beta. f_equal. destruct Hw as (W1 & W2 & W3 & W4). specialize (W4 r Hr).
    rewrite <- (real_w_affine b e' M (nw M (member p w r)) (a r) (c r)).
    + f_equal. apply functional_extensionality; intros k. unfold member. now rewrite R.
    + apply nw_sum1. lra.
    + intros ->. split; [apply Hpos; auto|]. apply two_positive_fairc; auto.
      apply H2; simpl; auto.
Qed.
Lemma C11_pwm_negative_refuted_l :
  exists x w, (forall k, 0 < w k) /\ exists u v : R, v <> u /\ forall srt b, argsort_ok srt ->
    returns (crps_ensemble srt b (farr [] (fun _ => 0)) (real1 2 x) (-1) (Some (real1 2 w)) "pwm" false "propagate") [] (fun _ => Fin u) /\
    returns (crps_ensemble srt b (farr [] (fun _ => -1 * 0)) (real1 2 (fun k => -1 * x k)) (-1) (Some (real1 2 w)) "pwm" false "propagate") [] (fun _ => Fin v).
Proof.
  set (w := fun k => nth k [1; 2] 1). set (x := fun k => nth k [0; 1] 0).
  exists x, w.
  assert (W : forall k, 0 < w k) by (intros [|[|[|k]]]; unfold w; simpl; lra).
  split; auto. exists (1/3), 0. split; [lra|]. intros srt b Hs.
  assert (Hw : forall x, wts_args (real1 2 w) (real1 2 x) [] 0 2 (fun i => w (hd 0%nat i))).
  { intros x0. apply real0_wts; [intros; left; auto|]. unfold sumn, Rsum, w; simpl; lra. }
  assert (T : forall r, inb [] r -> two_positive 2 (member 0 (fun i => w (hd 0%nat i)) r)).
  { intros r Hr. exists 0%nat, 1%nat. repeat split; auto; apply W. }
  split.
  - eapply returns_ext; [eapply returns_is, (call_w srt b _ _ _ _ _ _ _ _ _ _ Pwm false "propagate" Hs (real0_args 0 2 x) (Hw x)); try easy; [now left|lia]|].
    intros [|? ?] Hr; [|easy]. cbv beta. f_equal. cbn [real_w]. unfold wpwm_free, wmae, nw, sumn, Rsum, member, w, x. simpl. rcalc.
  - eapply returns_ext; [eapply returns_is, (call_w srt b _ _ _ _ _ _ _ _ _ _ Pwm false "propagate" Hs (real0_args _ 2 _) (Hw _)); try easy; [now left|lia]|].
    intros [|? ?] Hr; [|easy]. cbv beta. f_equal. cbn [real_w]. unfold wpwm_free, wmae, nw, sumn, Rsum, member, w, x. simpl. rcalc.
Qed.
Lemma C12_nonnegative_l :
  forall srt b obs fct ax s p M y x e sf pol,
  argsort_ok srt -> ens_args obs fct ax s p M y x -> (0 < M)%nat ->
  In e ["nrg"; "qd"; "int"]%string -> In pol ["propagate"; "raise"]%string ->
  (b = Numba -> dt obs = DFloat) -> sorted_if sf s p M x ->
  exists v, returns (crps_ensemble srt b obs fct ax None e sf pol) s (fun r => Fin (v r)) /\
    forall r, inb s r -> 0 <= v r /\ (v r = 0 <-> forall k, (k < M)%nat -> member p x r k = y r).
Proof.
  intros srt b obs fct ax s p M y x e sf pol Hs Ha HM He Hp Hd Hsf.
  assert (exists e', e = ename e' /\ (forall y x, real_un e' M y x = exact_crps M y x) /\ need2 e' = false) as (e' & -> & E1 & E3).
  { names He; [exists Nrg|exists Qd|exists EInt]; repeat split; reflexivity. }
  eexists; split; [eapply returns_is, (call_un srt b obs fct ax s p M y x e' sf pol); auto; congruence|].
  intros r Hr. cbv beta. rewrite E1, exact_uniform by auto.
  pose proof (INR_pos M HM) as P. assert (P' : 0 < / INR M) by now apply Rinv_0_lt_compat.
  split; [apply wexact_nonneg; [intros; lra|now apply uniform_sum]|].
  rewrite wexact_zero; [|intros; lra|now apply uniform_sum]. split; intros H k Hk; [apply H|]; auto.
Qed.
Lemma C12_nonnegative_weighted_l :
  forall srt b obs fct wt ax s p M y x w e sf pol,
  argsort_ok srt -> ens_args obs fct ax s p M y x -> (0 < M)%nat -> wts_args wt fct s p M w ->
  In e ["nrg"; "qd"; "int"]%string -> In pol ["propagate"; "raise"]%string ->
  (b = Numba -> dt obs = DFloat) -> sorted_if sf s p M x ->
  exists v, returns (crps_ensemble srt b obs fct ax (Some wt) e sf pol) s (fun r => Fin (v r)) /\
    forall r, inb s r -> 0 <= v r /\
      (v r = 0 <-> forall k, (k < M)%nat -> 0 < member p w r k -> member p x r k = y r).
Proof.
  intros srt b obs fct wt ax s p M y x w e sf pol Hs Ha HM Hw He Hp Hd Hsf.
  assert (exists e', e = ename e' /\ (forall w y x, real_w b e' M w y x = wexact_crps M w y x) /\ need2 e' = false) as (e' & -> & E1 & E3).
  { names He; [exists Nrg|exists Qd|exists EInt]; repeat split; reflexivity. }
  eexists; split; [eapply returns_is, (call_w srt b obs fct wt ax s p M y x w e' sf pol); auto; congruence|].
  intros r Hr. cbv beta. rewrite E1. destruct Hw as (W1 & W2 & W3 & W4). specialize (W4 r Hr).
  assert (N0 : forall k, (k < M)%nat -> 0 <= nw M (member p w r) k) by (intros; apply nw_nonneg; auto).
  assert (N1 : sumn M (nw M (member p w r)) = 1) by (apply nw_sum1; lra).
  split; [now apply wexact_nonneg|]. rewrite wexact_zero by auto. split; intros H k Hk Hpos; apply H; auto.
  - unfold nw. now apply Rdiv_lt_0_compat.
  - unfold nw in Hpos. apply (Rmult_lt_reg_r (/ sumn M (member p w r))); [now apply Rinv_0_lt_compat|].
    rewrite Rmult_0_l. exact Hpos.
Qed.
Lemma C12_all_nonnegative_l :
  forall srt b obs fct ax s p M y x e sf pol,
  argsort_ok srt -> ens_args obs fct ax s p M y x -> (0 < M)%nat ->
  In e ["nrg"; "fair"; "pwm"; "qd"; "int"; "akr"; "akr_circperm"]%string ->
  (In e ["fair"; "pwm"]%string -> (1 < M)%nat) -> In pol ["propagate"; "raise"]%string ->
  (b = Numba -> dt obs = DFloat) -> sorted_if sf s p M x ->
  exists v, returns (crps_ensemble srt b obs fct ax None e sf pol) s (fun r => Fin (v r)) /\
    forall r, inb s r -> 0 <= v r.
Proof.
  intros srt b obs fct ax s p M y x e sf pol Hs Ha HM He H2 Hp Hd Hsf.
  destruct (name_est e He) as (e' & ->).
  assert (H2' : need2 e' = true -> (1 < M)%nat) by (intros; apply H2; now apply (name_need2 _ e')).
  eexists; split; [eapply returns_is, (call_un srt b obs fct ax s p M y x e' sf pol); auto|].
  intros r Hr. cbv beta. now apply real_un_nonneg.
Qed.
Lemma C12_fair_zero_refuted_l :
  exists y x, (exists k, (k < 2)%nat /\ x k <> y) /\ forall srt b, argsort_ok srt ->
    returns (crps_ensemble srt b (farr [] (fun _ => y)) (real1 2 x) (-1) None "fair" false "propagate") [] (fun _ => Fin 0).
Proof.
  exists (1/2), (fun k => nth k [0; 1] 0). split; [exists 0%nat; split; [lia|simpl; lra]|]. intros srt b Hs.
  eapply returns_ext; [eapply returns_is, (call_un srt b _ _ _ _ _ _ _ _ Fair false "propagate" Hs (real0_args (1/2) 2 (fun k => nth k [0; 1] 0))); try easy; [lia|now left|intros; lia]|].
  intros [|? ?] Hr; [|easy]. cbv beta. f_equal. cbn [real_un]. unfold fair_crps, mae, pairsum, sumn, Rsum, member. simpl. rcalc.
Qed.
Lemma C12_fair_weighted_refuted_l :
  exists y x w v, v < 0 /\ (forall k, 0 < w k) /\ forall srt b, argsort_ok srt ->
    returns (crps_ensemble srt b (farr [] (fun _ => y)) (real1 2 x) (-1) (Some (real1 2 w)) "fair" false "propagate") [] (fun _ => Fin v).
Proof.
  exists 0, (fun k => nth k [0; 1] 0), (fun k => nth k [3; 1] 1), (-(1/4)).
  assert (W : forall k, 0 < nth k [3; 1] 1) by (intros [|[|[|k]]]; simpl; lra).
  split; [lra|]. split; auto. intros srt b Hs.
  eapply returns_ext; [eapply returns_is, (call_w srt b _ _ _ _ _ _ _ _ _ _ Fair false "propagate" Hs (real0_args 0 2 (fun k => nth k [0; 1] 0))
     (real0_wts 2 (fun k => nth k [0; 1] 0) (fun k => nth k [3; 1] 1) ltac:(intros; left; apply W) ltac:(unfold sumn, Rsum; simpl; lra))); try easy; [now left| |lia]|].
  - intros _ r Hr. exists 0%nat, 1%nat. repeat split; auto; apply W.
  - intros [|? ?] Hr; [|easy]. cbv beta. f_equal. cbn [real_w]. unfold wfair_crps, wmae, wpairsum, nw, sumn, Rsum, member. simpl. rcalc.
Qed.
Lemma C13_proper_l :
  forall srt b M f x N g v e sf,
  argsort_ok srt -> (forall k, (k < M)%nat -> 0 <= f k) -> 0 < sumn M f ->
  (forall j, (j < N)%nat -> 0 <= g j) -> 0 < sumn N g ->
  In e ["nrg"; "qd"; "int"]%string ->
  sorted_if sf [] 0 M (fun i => x (hd 0%nat i)) -> sorted_if sf [] 0 N (fun i => v (hd 0%nat i)) ->
  exists S T : nat -> R,
    (forall j, (j < N)%nat -> returns (crps_ensemble srt b (farr [] (fun _ => v j)) (real1 M x) (-1) (Some (real1 M f)) e sf "propagate")
       [] (fun _ => Fin (S j))) /\
    (forall j, (j < N)%nat -> returns (crps_ensemble srt b (farr [] (fun _ => v j)) (real1 N v) (-1) (Some (real1 N g)) e sf "propagate")
       [] (fun _ => Fin (T j))) /\
    sumn N (fun j => g j / sumn N g * T j) <= sumn N (fun j => g j / sumn N g * S j) /\
    (sumn N (fun j => g j / sumn N g * S j) = sumn N (fun j => g j / sumn N g * T j) ->
     forall t, wcdf M f x t = wcdf N g v t).
Proof.
  intros srt b M f x N g v e sf Hs Hf0 Hf1 Hg0 Hg1 He Hsf Hsf'.
  assert (exists e', e = ename e' /\ (forall M w y x, real_w b e' M w y x = wexact_crps M w y x) /\ need2 e' = false) as (e' & -> & E1 & E3).
  { names He; [exists Nrg|exists Qd|exists EInt]; repeat split; reflexivity. }
  exists (fun j => wexact_crps M (nw M f) (v j) x), (fun j => wexact_crps N (nw N g) (v j) v).
  assert (K : forall M f x y, (forall k, (k < M)%nat -> 0 <= f k) -> 0 < sumn M f ->
     sorted_if sf [] 0 M (fun i => x (hd 0%nat i)) ->
     returns (crps_ensemble srt b (farr [] (fun _ => y)) (real1 M x) (-1) (Some (real1 M f)) (ename e') sf "propagate")
       [] (fun _ => Fin (wexact_crps M (nw M f) y x))).
  { intros M0 f0 x0 y0 H1 H2 H3. eapply returns_ext; [eapply returns_is,
      (call_w srt b _ _ _ _ _ _ _ _ _ _ e' sf "propagate" Hs (real0_args y0 M0 x0) (real0_wts M0 x0 f0 H1 H2)); auto; try congruence|].
    - now left.
    - now apply (sumn_pos_ex M0 f0).
    - intros [|? ?] Hr; [|easy]. cbv beta. now rewrite E1. }
  assert (F1 : sumn M (nw M f) = 1) by (apply nw_sum1; lra).
  assert (G1 : sumn N (nw N g) = 1) by (apply nw_sum1; lra).
  split; [intros; now apply K|]. split; [intros; now apply K|]. split.
  - exact (proper M (nw M f) x N (nw N g) v F1 G1).
  - intros E t. rewrite !wcdf_nw. exact (strictly_proper M (nw M f) x N (nw N g) v F1 G1 E t).
Qed.
Lemma C18_sorted_flag_l :
  forall srt b obs fct ax s p M y x e pol,
  argsort_ok srt -> ens_args obs fct ax s p M y x -> (0 < M)%nat ->
  In e ["nrg"; "fair"; "pwm"; "qd"; "int"; "akr"; "akr_circperm"]%string ->
  (In e ["fair"; "pwm"]%string -> (1 < M)%nat) ->
  In pol ["propagate"; "raise"]%string -> (b = Numba -> dt obs = DFloat) -> sorted_if true s p M x ->
  (exists v, returns (crps_ensemble srt b obs fct ax None e true pol) s (fun r => Fin (v r)) /\
             returns (crps_ensemble srt b obs fct ax None e false pol) s (fun r => Fin (v r))) /\
  forall wt w, wts_args wt fct s p M w ->
   (In e ["fair"; "pwm"]%string -> forall r, inb s r -> two_positive M (member p w r)) ->
   exists v, returns (crps_ensemble srt b obs fct ax (Some wt) e true pol) s (fun r => Fin (v r)) /\
             returns (crps_ensemble srt b obs fct ax (Some wt) e false pol) s (fun r => Fin (v r)).
Proof.
  intros srt b obs fct ax s p M y x e pol Hs Ha HM He H2 Hp Hd Hsf. destruct (name_est e He) as (e' & ->). split.
  - eexists; split; eapply returns_is, call_un; eauto; try easy; intros; apply H2; now apply (name_need2 _ e').
  - intros wt w Hw H2'. eexists; split; eapply returns_is, call_w; eauto; try easy; intros; apply H2'; auto; now apply (name_need2 _ e').
Qed.
Lemma C18_flag_ignored_l :
  forall srt b obs fct ax ow e sf sf' pol,
  In e ["nrg"; "fair"; "akr"; "akr_circperm"]%string ->
  crps_ensemble srt b obs fct ax ow e sf pol = crps_ensemble srt b obs fct ax ow e sf' pol.
Proof.
  intros srt b obs fct ax ow e sf sf' pol He. rewrite !crps_ensemble_core. unfold crps_core, univariate_sort_ens.
  names He; cbn [str_in existsb String.eqb Ascii.eqb Bool.eqb orb]; now rewrite !Bool.andb_false_r.
Qed.
