(** Proofs of the NaN policy and axis properties (statements in P_crps_nan.v). *)
From Coq Require Import FunctionalExtensionality.
From Verif Require Export L_crps_del T_crps_inv.
Open Scope R_scope.
Lemma omit_name e : In e ["nrg"; "fair"; "pwm"; "qd"]%string -> exists e', e = ename e' /\ omit_est e'.
Proof. intros He; names He; [exists Nrg|exists Fair|exists Pwm|exists Qd]; split; unfold omit_est; auto. Qed.
Lemma present_keeps M x : present M x = map x (keeps M (fun k => negb (nisnan (x k)))).
Proof. unfold present, keeps. apply (filter_map_comm x (fun a => negb (nisnan a))). Qed.
Lemma present2_keeps M x w : present2 M x w =
  map (fun k => (x k, w k)) (keeps M (fun k => negb (nisnan (x k)) && negb (nisnan (w k)))).
Proof. unfold present2, keeps. apply (filter_map_comm (fun k => (x k, w k)) (fun q => negb (nisnan (fst q)) && negb (nisnan (snd q)))%bool). Qed.
Lemma map_nth_eq {A B C} (f : A -> C) (g : B -> C) l l' d d' j : map f l = map g l' -> (j < length l')%nat ->
  f (nth j l d) = g (nth j l' d').
Proof.
  intros E Hj. assert (L : length l = length l') by (rewrite <- (map_length f l), E; apply map_length).
  rewrite <- (map_nth f), <- (map_nth g). rewrite E. apply nth_indep. now rewrite map_length.
Qed.
Lemma C14_omit_deletes_l :
  forall srt b obs fct ax s p M y x e,
  argsort_ok srt -> ens_nums obs fct ax s p M y x -> (0 < M)%nat ->
  (forall r, inb s r -> fin_or_nan (y r)) ->
  (forall r k, inb s r -> (k < M)%nat -> fin_or_nan (member p x r k)) ->
  In e ["nrg"; "fair"; "pwm"; "qd"]%string -> (b = Numba -> dt obs = DFloat) ->
  exists v, returns (crps_ensemble srt b obs fct ax None e false "omit") s v /\
    forall r, inb s r -> forall xs : list R, map Fin xs = present M (member p x r) ->
      (xs = [] -> v r = NaN) /\
      (xs <> [] -> returns (crps_ensemble srt b (num0 (y r)) (real1 (length xs) (fun k => nth k xs 0)) (-1) None e false "propagate")
                     [] (fun _ => v r)).
Proof.
  intros srt b obs fct ax s p M y x e Hs Ha HM Hy Hx He Hd. destruct (omit_name e He) as (e' & -> & He').
  eexists; split; [now apply (omit_un_value srt b obs fct ax s p M y x Hs Ha HM Hd Hy Hx e')|].
  intros r Hr xs Hxs. cbv beta. rewrite present_keeps in Hxs.
  set (q := fun k => negb (nisnan (member p x r k))) in *.
  assert (L : length (keeps M q) = length xs) by (rewrite <- (map_length Fin xs), Hxs; symmetry; apply map_length).
  split.
  - intros ->. destruct (Hy r Hr) as [->|(a & ->)]; auto. apply wval_zero. intros k Hk.
    destruct (nisnan (member p x r k)) eqn:E; auto. exfalso. simpl in L.
    assert (I : In k (keeps M q)) by (apply filter_In; split; [apply in_seq; lia|unfold q; now rewrite E]).
    destruct (keeps M q); [easy|discriminate].
  - intros Hne. eapply returns_ext; [apply (single_un srt b Hs e' (length xs) (y r) (fun k => nth k xs 0)); auto;
      destruct xs; [easy|simpl; lia]|].
    intros r' Hr'. cbv beta. destruct (Hy r Hr) as [->|(a & ->)]; auto.
    rewrite (wval_kept b e' M q _ a _ xs (repeat 1 (length xs))); auto.
    + symmetry. apply wval_uniform; auto; [destruct xs; [easy|simpl; lia]|]. intros k Hk.
      clear -Hk. revert k Hk. induction xs; intros k Hk; [simpl in Hk; lia|]. destruct k; simpl; auto. apply IHxs. simpl in Hk; lia.
    + intros k Hk E. unfold q in E. destruct (nisnan _); auto; discriminate.
    + intros j Hj. destruct (keeps_nth M q j) as [K1 K2]; [lia|].
      assert (E : member p x r (nth j (keeps M q) O) = Fin (nth j xs 0)).
      { apply (map_nth_eq (member p x r) Fin); auto. }
      unfold q in K2. rewrite E. split; [reflexivity|]. cbn [nisnan].
      clear -Hj. revert j Hj. induction xs; intros k Hk; [simpl in Hk; lia|]. destruct k; simpl; auto. apply IHxs. simpl in Hk; lia.
Qed.
Lemma C14_omit_deletes_weighted_l :
  forall srt b obs fct wt ax s p M y x w e,
  argsort_ok srt -> ens_nums obs fct ax s p M y x -> (0 < M)%nat ->
  (forall r, inb s r -> fin_or_nan (y r)) ->
  (forall r k, inb s r -> (k < M)%nat -> fin_or_nan (member p x r k)) ->
  dt fct = DFloat -> sh wt = insert_at p M s -> (forall i, inb (insert_at p M s) i -> at_ wt i = w i) ->
  (forall r k, inb s r -> (k < M)%nat -> member p w r k = NaN \/ exists c, member p w r k = Fin c /\ 0 <= c) ->
  In e ["nrg"; "fair"; "pwm"; "qd"]%string -> (b = Numba -> dt obs = DFloat) ->
  exists v, returns (crps_ensemble srt b obs fct ax (Some wt) e false "omit") s v /\
    forall r, inb s r -> forall xs : list (R * R),
      map (fun q => (Fin (fst q), Fin (snd q))) xs = present2 M (member p x r) (member p w r) ->
      (xs = [] -> v r = NaN) /\
      (xs <> [] -> returns (crps_ensemble srt b (num0 (y r)) (real1 (length xs) (fun k => nth k (map fst xs) 0)) (-1)
                              (Some (real1 (length xs) (fun k => nth k (map snd xs) 0))) e false "propagate")
                     [] (fun _ => v r)).
Proof.
  intros srt b obs fct wt ax s p M y x w e Hs Ha HM Hy Hx Hdf Hws Hwa Hw He Hd. destruct (omit_name e He) as (e' & -> & He').
  eexists; split; [now apply (omit_w_value srt b obs fct ax s p M y x Hs Ha HM Hd Hy Hx wt w e')|].
  intros r Hr xs Hxs. cbv beta. rewrite present2_keeps in Hxs.
  set (q := fun k => (negb (nisnan (member p x r k)) && negb (nisnan (member p w r k)))%bool) in *.
  assert (L : length (keeps M q) = length xs) by (rewrite <- (map_length (fun q => (Fin (fst q), Fin (snd q))) xs), Hxs; symmetry; apply map_length).
  split.
  - intros ->. destruct (Hy r Hr) as [->|(a & ->)]; auto. apply wval_zero. intros k Hk.
    destruct (_ || _)%bool eqn:E; auto. exfalso. simpl in L.
    assert (I : In k (keeps M q)).
    { apply filter_In; split; [apply in_seq; lia|unfold q]. apply Bool.orb_false_iff in E as [-> ->]. reflexivity. }
    destruct (keeps M q); [easy|discriminate].
  - intros Hne.
    assert (K : forall j, (j < length xs)%nat -> (nth j (keeps M q) O < M)%nat /\
      member p x r (nth j (keeps M q) O) = Fin (nth j (map fst xs) 0) /\ member p w r (nth j (keeps M q) O) = Fin (nth j (map snd xs) 0)).
    { intros j Hj. destruct (keeps_nth M q j) as [K1 K2]; [lia|]. split; auto.
      pose proof (map_nth_eq _ _ _ _ O (0, 0) j (eq_sym Hxs) Hj) as E. cbv beta in E. injection E as E1 E2.
      rewrite E1, E2. change 0 with (fst (0, 0)) at 3. change 0 with (snd (0, 0)) at 7. now rewrite !map_nth. }
    eapply returns_ext; [apply (single_w srt b Hs e' (length xs) (y r) (fun k => nth k (map fst xs) 0) (fun k => nth k (map snd xs) 0)); auto|].
    + destruct xs; [easy|simpl; lia].
    + intros k Hk. destruct (K k Hk) as (K1 & _ & K3). destruct (Hw r _ Hr K1) as [E|(c & E & Hc)]; rewrite E in K3; [discriminate|].
      injection K3 as <-. exact Hc.
    + intros r' Hr'. cbv beta. destruct (Hy r Hr) as [->|(a & ->)]; auto. symmetry.
      replace (length xs) with (length (map fst xs)) by apply map_length.
      apply (wval_kept b e' M q); auto.
      * intros k Hk E. unfold q in E. destruct (nisnan (member p x r k)), (nisnan (member p w r k)); auto; discriminate.
      * now rewrite map_length.
      * destruct xs; easy.
      * rewrite map_length. intros j Hj. destruct (K j Hj) as (K1 & -> & ->). split; reflexivity.
Qed.
Lemma C15_propagate_l :
  forall srt b obs fct ax s p M y x e,
  argsort_ok srt -> ens_nums obs fct ax s p M y x -> (0 < M)%nat ->
  (forall r, inb s r -> fin_or_nan (y r)) ->
  (forall r k, inb s r -> (k < M)%nat -> fin_or_nan (member p x r k)) ->
  In e ["nrg"; "fair"; "pwm"; "qd"; "int"; "akr"; "akr_circperm"]%string ->
  (In e ["fair"; "pwm"]%string -> (1 < M)%nat) -> (b = Numba -> dt obs = DFloat) ->
  exists v, returns (crps_ensemble srt b obs fct ax None e false "propagate") s v /\
    forall r, inb s r -> (v r = NaN <-> y r = NaN \/ exists k, (k < M)%nat /\ member p x r k = NaN).
Proof.
  intros srt b obs fct ax s p M y x e Hs Ha HM Hy Hx He H2 Hd. destruct (name_est e He) as (e' & ->).
  pose proof (nums_inputs _ _ _ _ _ _ _ _ Ha) as Hin.
  eexists; split; [eapply returns_is, (api_un srt Hs b _ _ _ _ _ _ _ _ _ _ Hin e' false)|].
  intros r Hr. cbv beta. rewrite (odt_float b e' (dt obs)) by auto. cbn [ncast]. split.
  - intros E. destruct (Hy r Hr) as [|(a & Ea)]; [now left|right].
    destruct (existsb (fun k => nisnan (member p x r k)) (seq 0 M)) eqn:Ex.
    + apply existsb_exists in Ex as (k & Hk & Hn). apply in_seq in Hk. exists k. split; [lia|].
      destruct (Hx r k Hr ltac:(lia)) as [|(c & Ec)]; auto. rewrite Ec in Hn. discriminate.
    + exfalso. assert (F : forall k, (k < M)%nat -> member p x r k = Fin (valn (member p x r k))).
      { intros k Hk. apply valn_fin; auto. destruct (nisnan (member p x r k)) eqn:Ek; auto.
        assert (existsb (fun k => nisnan (member p x r k)) (seq 0 M) = true); [|congruence].
        apply existsb_exists. exists k. split; auto. apply in_seq; lia. }
      rewrite (row_ord srt Hs b e' false M (y r) (fun k => x (insert_at p k r)) a (fun k => valn (member p x r k))) in E; auto; try discriminate; try easy.
      intros; apply H2; now apply (name_need2 _ e').
  - intros E. apply row_un_NaN. apply (has_nan_ord srt Hs e' false M (y r) (fun k => x (insert_at p k r))).
    destruct E as [E|(k & Hk & E)]; [left; auto|right; now exists k].
Qed.
Lemma C15_propagate_any_l :
  forall srt b obs fct ax s p M y x e sf,
  argsort_ok srt -> ens_nums obs fct ax s p M y x -> (0 < M)%nat ->
  In e ["nrg"; "fair"; "pwm"; "qd"; "int"; "akr"; "akr_circperm"]%string -> (b = Numba -> dt obs = DFloat) ->
  (exists v, returns (crps_ensemble srt b obs fct ax None e sf "propagate") s v /\
    forall r, inb s r -> (y r = NaN \/ exists k, (k < M)%nat /\ member p x r k = NaN) -> v r = NaN) /\
  forall wt w, dt fct = DFloat -> sh wt = insert_at p M s ->
   (forall i, inb (insert_at p M s) i -> at_ wt i = w i) ->
   (forall r k, inb s r -> (k < M)%nat -> nltb (member p w r k) (Fin 0) = false) ->
   exists v, returns (crps_ensemble srt b obs fct ax (Some wt) e sf "propagate") s v /\
    forall r, inb s r -> (y r = NaN \/ exists k, (k < M)%nat /\ member p x r k = NaN) -> v r = NaN.
Proof.
  intros srt b obs fct ax s p M y x e sf Hs Ha HM He Hd. destruct (name_est e He) as (e' & ->).
  pose proof (nums_inputs _ _ _ _ _ _ _ _ Ha) as Hin.
  assert (G : forall r, (y r = NaN \/ exists k, (k < M)%nat /\ member p x r k = NaN) ->
     has_nan M (y r) (fun k => x (insert_at p (ord srt e' sf M (fun k => x (insert_at p k r)) k) r))).
  { intros r E. apply (has_nan_ord srt Hs e' sf M (y r) (fun k => x (insert_at p k r))).
    destruct E as [E|(k & Hk & E)]; [left; auto|right; now exists k]. }
  split.
  - eexists; split; [eapply returns_is, (api_un srt Hs b _ _ _ _ _ _ _ _ _ _ Hin e' sf)|].
    intros r Hr E. cbv beta. rewrite (odt_float b e' (dt obs)) by auto. cbn [ncast]. apply row_un_NaN; auto.
  - intros wt w Hdf Hws Hwa Hw. rewrite Hdf in Hin.
    eexists; split; [eapply returns_is, (api_w srt Hs b _ _ _ _ _ _ _ _ _ _ Hin wt (dt wt) w)|]; [repeat split; auto| |].
    + intros r k Hr Hk. cbn [ncast]. now apply Hw.
    + intros r Hr E. cbv beta. rewrite (odt_w_float b (dt obs)) by auto. cbn [ncast]. apply row_w_NaN; auto.
Qed.
Lemma C15_weight_nan_l :
  forall srt b obs fct wt ax s p M y x w e sf,
  argsort_ok srt -> ens_nums obs fct ax s p M y x ->
  dt fct = DFloat -> sh wt = insert_at p M s -> (forall i, inb (insert_at p M s) i -> at_ wt i = w i) ->
  (forall r k, inb s r -> (k < M)%nat -> nltb (member p w r k) (Fin 0) = false) ->
  In e ["nrg"; "fair"; "pwm"; "qd"]%string -> (b = Numba -> dt obs = DFloat) ->
  exists v, returns (crps_ensemble srt b obs fct ax (Some wt) e sf "propagate") s v /\
    forall r, inb s r -> (exists k, (k < M)%nat /\ member p w r k = NaN) -> v r = NaN.
Proof.
  intros srt b obs fct wt ax s p M y x w e sf Hs Ha Hdf Hws Hwa Hw He Hd. destruct (omit_name e He) as (e' & -> & He').
  pose proof (nums_inputs _ _ _ _ _ _ _ _ Ha) as Hin. rewrite Hdf in Hin.
  eexists; split; [eapply returns_is, (api_w srt Hs b _ _ _ _ _ _ _ _ _ _ Hin wt (dt wt) w)|]; [repeat split; auto| |].
  - intros r k Hr Hk. cbn [ncast]. now apply Hw.
  - intros r Hr (k & Hk & E). cbv beta. rewrite (odt_w_float b (dt obs)) by auto. cbn [ncast].
    apply (row_w_NaNw b e' M _ _ _ O); auto; [lia|]. unfold effw, normn at 1. unfold normn at 1.
    rewrite (nsumn_NaN M _ k Hk) by exact E. destruct (w _); reflexivity.
Qed.
Lemma C16_raise_error_l :
  forall srt b obs fct ax s p M y x e sf,
  argsort_ok srt -> ens_nums obs fct ax s p M y x ->
  ((exists r, inb s r /\ y r = NaN) \/ (exists r k, inb s r /\ (k < M)%nat /\ member p x r k = NaN) ->
   raises (crps_ensemble srt b obs fct ax None e sf "raise") ValueError) /\
  forall wt w, dt fct = DFloat -> sh wt = insert_at p M s ->
   (forall i, inb (insert_at p M s) i -> at_ wt i = w i) ->
   ((exists r, inb s r /\ y r = NaN) \/
    (exists r k, inb s r /\ (k < M)%nat /\ (member p x r k = NaN \/ member p w r k = NaN))) ->
   raises (crps_ensemble srt b obs fct ax (Some wt) e sf "raise") ValueError.
Proof.
  intros srt b obs fct ax s p M y x e sf Hs Ha. pose proof (nums_inputs _ _ _ _ _ _ _ _ Ha) as Hin. split.
  - intros H. apply (api_raise_err srt b obs fct ax _ _ s p M y x Hin None e sf I).
    destruct H as [H|(r & k & H1 & H2 & H3)]; [now left|right; exists r, k; auto].
  - intros wt w Hdf Hws Hwa H. rewrite Hdf in Hin.
    apply (api_raise_err srt b obs fct ax _ _ s p M y x Hin (Some (wt, dt wt, w)) e sf); [repeat split; auto|].
    destruct H as [H|(r & k & H1 & H2 & H3)]; [now left|right; exists r, k; auto].
Qed.
Lemma C16_raise_same_l :
  forall srt b obs fct ax s p M y x e sf,
  argsort_ok srt -> ens_nums obs fct ax s p M y x ->
  (forall r, inb s r -> y r <> NaN) -> (forall r k, inb s r -> (k < M)%nat -> member p x r k <> NaN) ->
  crps_ensemble srt b obs fct ax None e sf "raise" = crps_ensemble srt b obs fct ax None e sf "propagate" /\
  forall wt w, dt fct = DFloat -> sh wt = insert_at p M s ->
   (forall i, inb (insert_at p M s) i -> at_ wt i = w i) ->
   (forall r k, inb s r -> (k < M)%nat -> member p w r k <> NaN) ->
   crps_ensemble srt b obs fct ax (Some wt) e sf "raise" = crps_ensemble srt b obs fct ax (Some wt) e sf "propagate".
Proof.
  intros srt b obs fct ax s p M y x e sf Hs Ha Hy Hx. pose proof (nums_inputs _ _ _ _ _ _ _ _ Ha) as Hin. split.
  - apply (api_raise_ok srt b obs fct ax _ _ s p M y x Hin None e sf I); auto. intros r k Hr Hk. split; [now apply Hx|easy].
  - intros wt w Hdf Hws Hwa Hw. rewrite Hdf in Hin.
    apply (api_raise_ok srt b obs fct ax _ _ s p M y x Hin (Some (wt, dt wt, w)) e sf); auto; [repeat split; auto|].
    intros r k Hr Hk. split; [now apply Hx|now apply Hw].
Qed.
Lemma C16_policy_names_l :
  forall srt b obs fct ow ax s p M y x e sf pol,
  ens_nums obs fct ax s p M y x ->
  (ow = None \/ exists wt, ow = Some wt /\ sh wt = insert_at p M s) ->
  (~ In pol ["propagate"; "omit"; "raise"]%string -> raises (crps_ensemble srt b obs fct ax ow e sf pol) ValueError) /\
  (In e ["int"; "akr"; "akr_circperm"]%string ->
   raises (crps_ensemble srt b obs fct ax ow e sf "omit") NotImplementedError).
Proof.
  intros srt b obs fct ow ax s p M y x e sf pol Ha Ho. pose proof (nums_inputs _ _ _ _ _ _ _ _ Ha) as Hin.
  assert (exists ow', ow = the_w ow' /\ ok_w s p M ow') as (ow' & -> & Ho').
  { destruct Ho as [->|(wt & -> & E)]; [now exists None|]. exists (Some (wt, dt wt, at_ wt)). split; auto. repeat split; auto. }
  split; intros H.
  - now apply (api_policy srt b obs fct ax _ _ s p M y x Hin ow' e sf pol).
  - now apply (api_omit_ni srt b obs fct ax _ _ s p M y x Hin ow' e sf).
Qed.
Lemma C17_batching_l :
  forall srt b obs fct ax s p M y x e sf,
  argsort_ok srt -> ens_nums obs fct ax s p M y x ->
  In e ["nrg"; "fair"; "pwm"; "qd"; "int"; "akr"; "akr_circperm"]%string ->
  exists v, returns (crps_ensemble srt b obs fct ax None e sf "propagate") s v /\
    forall r, inb s r ->
      returns (crps_ensemble srt b (mkArr (dt obs) [] (fun _ => y r)) (mkArr (dt fct) [M] (fun i => member p x r (hd 0%nat i)))
                 (-1) None e sf "propagate") [] (fun _ => v r).
Proof.
  intros srt b obs fct ax s p M y x e sf Hs Ha He. destruct (name_est e He) as (e' & ->).
  pose proof (nums_inputs _ _ _ _ _ _ _ _ Ha) as Hin.
  eexists; split; [eapply returns_is, (api_un srt Hs b _ _ _ _ _ _ _ _ _ _ Hin e' sf)|].
  intros r Hr. cbv beta.
  assert (Hin' : inputs (mkArr (dt obs) [] (fun _ => y r)) (mkArr (dt fct) [M] (fun i => member p x r (hd 0%nat i))) (-1)
     (dt obs) (dt fct) [] 0 M (fun _ => y r) (fun i => member p x r (hd 0%nat i))) by (repeat split; auto).
  eapply returns_ext; [eapply returns_is, (api_un srt Hs b _ _ _ _ _ _ _ _ _ _ Hin' e' sf)|].
  intros [|? ?] Hr'; [|easy]. reflexivity.
Qed.
Lemma C17_batching_weighted_l :
  forall srt b obs fct wt ax s p M y x w e sf,
  argsort_ok srt -> ens_nums obs fct ax s p M y x ->
  dt fct = DFloat -> sh wt = insert_at p M s -> (forall i, inb (insert_at p M s) i -> at_ wt i = w i) ->
  (forall r k, inb s r -> (k < M)%nat -> nltb (member p w r k) (Fin 0) = false) ->
  In e ["nrg"; "fair"; "pwm"; "qd"; "int"; "akr"; "akr_circperm"]%string ->
  exists v, returns (crps_ensemble srt b obs fct ax (Some wt) e sf "propagate") s v /\
    forall r, inb s r ->
      returns (crps_ensemble srt b (mkArr (dt obs) [] (fun _ => y r)) (num1 M (member p x r))
                 (-1) (Some (num1 M (member p w r))) e sf "propagate") [] (fun _ => v r).
Proof.
  intros srt b obs fct wt ax s p M y x w e sf Hs Ha Hdf Hws Hwa Hw He. destruct (name_est e He) as (e' & ->).
  pose proof (nums_inputs _ _ _ _ _ _ _ _ Ha) as Hin. rewrite Hdf in Hin.
  eexists; split; [eapply returns_is, (api_w srt Hs b _ _ _ _ _ _ _ _ _ _ Hin wt (dt wt) w)|]; [repeat split; auto| |].
  - intros r k Hr Hk. cbn [ncast]. now apply Hw.
  - intros r Hr. cbv beta.
    assert (Hin' : inputs (mkArr (dt obs) [] (fun _ => y r)) (num1 M (member p x r)) (-1)
       (dt obs) DFloat [] 0 M (fun _ => y r) (fun i => member p x r (hd 0%nat i))) by (repeat split; auto).
    assert (Hw' : arr_is (num1 M (member p w r)) DFloat (insert_at 0 M []) (fun i => member p w r (hd 0%nat i))) by (repeat split; auto).
    eapply returns_ext; [eapply returns_is, (api_w srt Hs b _ _ _ _ _ _ _ _ _ _ Hin' _ _ _ Hw' e' sf)|].
    + intros [|? ?] k Hr' Hk; [|easy]. cbn [ncast]. now apply Hw.
    + intros [|? ?] Hr'; [|easy]. reflexivity.
Qed.
Lemma C17_bad_shape_l :
  forall srt b obs fct ax k ow e sf pol,
  (k < length (sh fct))%nat -> (ax = Z.of_nat k \/ ax = (Z.of_nat k - Z.of_nat (length (sh fct)))%Z) ->
  remove_at (length (sh fct) - 1 - k) (sh fct) <> sh obs ->
  raises (crps_ensemble srt b obs fct ax ow e sf pol) ValueError.
Proof.
  intros srt b obs fct ax k ow e sf pol Hk Hax Hne. unfold raises. rewrite crps_ensemble_core.
  rewrite (array_check_bad obs fct ax k); auto.
  - destruct Hax as [->| ->]; [now apply norm_axis_nat|now apply norm_axis_neg].
  - intros p M Hp -> E. apply Hne. rewrite E. rewrite insert_at_length.
    replace (S (length (sh obs)) - 1 - (length (sh obs) - p))%nat with p by lia. now apply remove_insert.
Qed.
Lemma C17_axis_range_refuted_l :
  exists obs fct, length (sh fct) = 2%nat /\ forall srt b e sf,
    crps_ensemble srt b obs fct (-3) None e sf "propagate" = crps_ensemble srt b obs fct (-1) None e sf "propagate".
Proof.
  exists (farr [2%nat] (fun _ => 0)), (farr [2%nat; 2%nat] (fun i => INR (hd 0%nat i))). split; [reflexivity|].
  intros srt b e sf. rewrite !crps_ensemble_core. reflexivity.
Qed.
