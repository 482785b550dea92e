(** Proofs about rejected inputs of the energy and variogram scores (statements in P_mvvalid.v). *)
From Verif Require Export S_mvnum L_vario_api T_energy.
Open Scope R_scope.
Lemma shape_check_bad obs fct ax k : norm_axis ax (length (sh fct)) = Ok k ->
  remove_at (length (sh fct) - 1 - k) (sh fct) <> sh obs ->
  shape_compatibility_check obs fct (shift_axis ax fct) = Err ValueError.
Proof.
  intros Hax Hne.
  assert (E : univariate_array_check obs fct ax = Err ValueError).
  { apply (array_check_bad obs fct ax k Hax). intros p M Hp -> E. apply Hne. rewrite E, insert_at_length.
    replace (S (length (sh obs)) - 1 - (length (sh obs) - p))%nat with p by lia. now apply remove_insert. }
  unfold univariate_array_check in E. destruct (shape_compatibility_check _ _ _) as [[]|e] eqn:Ec; cbn [bind] in E; [exfalso|congruence].
  unfold shift_axis in E. destruct (norm_axis_shift _ _ _ Hax) as [Hk Es]. rewrite Es in E.
  destruct (Z.of_nat k =? -1)%Z; cbn [bind] in E; [discriminate|].
  unfold amove_last, rev_axis in E. cbn [bind] in E. rewrite norm_axis_nat in E by auto. discriminate.
Qed.
Lemma nums_check obs fct m v s p q M D y x : mv_nums obs fct m v s p q M D y x ->
  exists obs' fct', multivariate_array_check obs fct m v = Ok (obs', fct') /\
    arr_is obs' (dt obs) (D :: s) (fun i => y (insert_at q (hd 0%nat i) (tl i))) /\
    arr_is fct' (dt fct) (D :: M :: s) (fun i => x (insert_at p (hd 0%nat (tl i)) (insert_at q (hd 0%nat i) (tl (tl i))))).
Proof.
  intros (H1 & H2 & H3 & H4 & H5 & H6).
  apply (mv_check_ok obs fct (dt obs) (dt fct) m v s p q M D y x); auto; repeat split; try apply H1; apply H2.
Qed.
Lemma nltb_neqb a : nltb a (Fin 0) = true -> neqb (b2n (nltb a (Fin 0))) (Fin 0) = false.
Proof. intros H. rewrite neqb_b2n, H. reflexivity. Qed.
(** the weight function step fails with ValueError or not at all *)
Lemma weights_err obs fct d1 d2 s D M y x wf : arr_is obs d1 (D :: s) y -> arr_is fct d2 (D :: M :: s) x ->
  mv_weighted_score_weights obs fct wf = Err ValueError \/ exists ow fw, mv_weighted_score_weights obs fct wf = Ok (ow, fw).
Proof.
  intros (_ & So & _) (_ & Sf & _). unfold mv_weighted_score_weights, aapply_last. cbn [bind]. rewrite So, Sf. cbn [bind].
  destruct (existsb _ s); [now left|]. cbn [bind]. destruct (existsb _ (M :: s)); [now left|]. cbn [bind].
  destruct (aany_spec (Ok (mkArr (fst wf) s (fun r => snd wf (row obs D r))) <? sci 0)%A DInt s
     (fun r => b2n (nltb (snd wf (row obs D r)) (Fin 0)))) as (b1 & E1 & _).
  { eapply ten_conv; [eapply ten_bin_scr; apply ten_Ok; repeat split; intros; reflexivity|reflexivity|]. intros; reflexivity. }
  destruct (aany_spec (Ok (mkArr (fst wf) (M :: s) (fun r => snd wf (row fct D r))) <? sci 0)%A DInt (M :: s)
     (fun r => b2n (nltb (snd wf (row fct D r)) (Fin 0)))) as (b2 & E2 & _).
  { eapply ten_conv; [eapply ten_bin_scr; apply ten_Ok; repeat split; intros; reflexivity|reflexivity|]. intros; reflexivity. }
  rewrite E1, E2. cbn [bind]. destruct (b1 || b2); [now left|right; eauto].
Qed.
Lemma weights_neg_mv obs fct d1 d2 s D M y x wf : arr_is obs d1 (D :: s) y -> arr_is fct d2 (D :: M :: s) x ->
  (exists r, inb s r /\ nltb (snd wf (map (fun k => y (k :: r)) (seq 0 D))) (Fin 0) = true) \/
  (exists r i, inb s r /\ (i < M)%nat /\ nltb (snd wf (map (fun k => x (k :: i :: r)) (seq 0 D))) (Fin 0) = true) ->
  mv_weighted_score_weights obs fct wf = Err ValueError.
Proof.
  intros (_ & So & Vo) (_ & Sf & Vf) H. unfold mv_weighted_score_weights, aapply_last. cbn [bind]. rewrite So, Sf. cbn [bind].
  destruct (existsb _ s); [reflexivity|]. cbn [bind]. destruct (existsb _ (M :: s)); [reflexivity|]. cbn [bind].
  destruct (aany_spec (Ok (mkArr (fst wf) s (fun r => snd wf (row obs D r))) <? sci 0)%A DInt s
     (fun r => b2n (nltb (snd wf (row obs D r)) (Fin 0)))) as (b1 & E1 & B1).
  { eapply ten_conv; [eapply ten_bin_scr; apply ten_Ok; repeat split; intros; reflexivity|reflexivity|]. intros; reflexivity. }
  destruct (aany_spec (Ok (mkArr (fst wf) (M :: s) (fun r => snd wf (row fct D r))) <? sci 0)%A DInt (M :: s)
     (fun r => b2n (nltb (snd wf (row fct D r)) (Fin 0)))) as (b2 & E2 & B2).
  { eapply ten_conv; [eapply ten_bin_scr; apply ten_Ok; repeat split; intros; reflexivity|reflexivity|]. intros; reflexivity. }
  rewrite E1, E2. cbn [bind].
  destruct H as [(r & Hr & Hn)|(r & i & Hr & Hi & Hn)].
  - replace b1 with true; [reflexivity|]. symmetry. apply B1. exists r. split; [auto|]. apply nltb_neqb. rewrite <- Hn. do 2 f_equal.
    unfold row. apply map_ext_in. intros k Hk; apply in_seq in Hk. apply Vo. split; auto; lia.
  - replace b2 with true; [destruct b1; reflexivity|]. symmetry. apply B2. exists (i :: r). split; [split; auto|]. apply nltb_neqb. rewrite <- Hn. do 2 f_equal.
    unfold row. apply map_ext_in. intros k Hk; apply in_seq in Hk. apply Vf. repeat split; auto; lia.
Qed.
Lemma mv_weight_neg wt fct' D M s p pw w m : sh fct' = D :: M :: s -> sh wt = insert_at pw M s ->
  (forall i, inb (insert_at pw M s) i -> at_ wt i = w i) -> p = S pw -> (p <= S (length s))%nat -> ens_axis m (S (length s)) p ->
  (exists r k, inb s r /\ (k < M)%nat /\ nltb (member pw w r k) (Fin 0) = true) ->
  multivariate_weight_check wt fct' m = Err ValueError.
Proof.
  intros Hs Sw Vw -> Hp Hm (r & k & Hr & Hk & Hn). unfold multivariate_weight_check.
  rewrite (ens_axis_shift _ _ _ fct' Hm Hp) by now rewrite Hs.
  assert (Hw : arr_is wt (dt wt) (insert_at pw M s) w) by (repeat split; auto).
  destruct (ten_move_last (Z.of_nat (S (length s) - S pw)) (Ok wt) (dt wt) pw M s w (ten_Ok _ _ _ _ Hw)) as (w' & E' & H'); [lia| |].
  { rewrite norm_axis_nat by lia. f_equal; lia. }
  rewrite E'. cbn [bind]. pose proof H' as (_ & Hs' & _). rewrite Hs', Hs. cbn [tl]. rewrite shape_eqb_refl. cbn [negb].
  destruct (aany_spec (Ok w' <? sci 0)%A DInt (M :: s)
    (fun i => b2n (nltb (w (insert_at pw (hd 0%nat i) (tl i))) (Fin 0)))) as (b & Eb & Hb).
  { eapply ten_conv; [eapply ten_bin_scr; apply ten_Ok; exact H' | reflexivity |]. intros i Hi. reflexivity. }
  rewrite Eb. cbn [bind]. replace b with true; [reflexivity|]. symmetry. apply Hb. exists (k :: r). split; [split; auto|].
  apply nltb_neqb. exact Hn.
Qed.
Lemma mv_weight_shape wt fct' D M s p pw m M' s' : sh fct' = D :: M :: s -> sh wt = insert_at pw M' s' ->
  length s' = length s -> (M', s') <> (M, s) -> p = S pw -> (p <= S (length s))%nat -> ens_axis m (S (length s)) p ->
  multivariate_weight_check wt fct' m = Err ValueError.
Proof.
  intros Hs Sw Hl Hne -> Hp Hm. unfold multivariate_weight_check.
  rewrite (ens_axis_shift _ _ _ fct' Hm Hp) by now rewrite Hs.
  assert (Hw : arr_is wt (dt wt) (insert_at pw M' s') (at_ wt)) by (repeat split; auto).
  destruct (ten_move_last (Z.of_nat (S (length s) - S pw)) (Ok wt) (dt wt) pw M' s' _ (ten_Ok _ _ _ _ Hw)) as (w' & E' & H'); [lia| |].
  { rewrite norm_axis_nat by lia. f_equal; lia. }
  rewrite E'. cbn [bind]. pose proof H' as (_ & Hs' & _). rewrite Hs', Hs. cbn [tl].
  destruct (shape_eqb _ _) eqn:E; [|reflexivity]. apply shape_eqb_true in E. congruence.
Qed.
Lemma C50_shapes_l :
  forall b obs fct m v k wf hw ow po e,
  (k < length (sh fct))%nat -> (m = Z.of_nat k \/ m = (Z.of_nat k - Z.of_nat (length (sh fct)))%Z) ->
  remove_at (length (sh fct) - 1 - k) (sh fct) <> sh obs ->
  raises (es_ensemble b obs fct m v ow e) ValueError /\ raises (owes_ensemble b obs fct wf m v ow) ValueError /\
  raises (vres_ensemble b obs fct wf m v ow) ValueError /\ raises (vs_ensemble b obs fct hw m v ow po e) ValueError /\
  raises (owvs_ensemble b obs fct wf hw m v ow po) ValueError /\ raises (vrvs_ensemble b obs fct wf hw m v ow po) ValueError.
Proof.
  intros b obs fct m v k wf hw ow po e Hk Hm Hne.
  assert (E : multivariate_array_check obs fct m v = Err ValueError).
  { unfold multivariate_array_check. rewrite (shape_check_bad obs fct m k); auto.
    destruct Hm as [->| ->]; [now apply norm_axis_nat|now apply norm_axis_neg]. }
  unfold raises, es_ensemble, owes_ensemble, vres_ensemble, vs_ensemble, owvs_ensemble, vrvs_ensemble. rewrite E. repeat split.
Qed.
Lemma C50_negative_function_l :
  forall b obs fct m v s p q M D y x d f hw ow po,
  mv_nums obs fct m v s p q M D y x ->
  (exists r, inb s r /\ nltb (f (obsl q D y r)) (Fin 0) = true) \/
  (exists r i, inb s r /\ (i < M)%nat /\ nltb (f (meml p q D x r i)) (Fin 0) = true) ->
  raises (owes_ensemble b obs fct (d, f) m v ow) ValueError /\ raises (vres_ensemble b obs fct (d, f) m v ow) ValueError /\
  raises (owvs_ensemble b obs fct (d, f) hw m v ow po) ValueError /\ raises (vrvs_ensemble b obs fct (d, f) hw m v ow po) ValueError.
Proof.
  intros b obs fct m v s p q M D y x d f hw ow po Ha H.
  destruct (nums_check _ _ _ _ _ _ _ _ _ _ _ Ha) as (obs' & fct' & E & Ho & Hf).
  pose proof (weights_neg_mv obs' fct' _ _ s D M _ _ (d, f) Ho Hf H) as E2.
  unfold raises, owes_ensemble, vres_ensemble, owvs_ensemble, vrvs_ensemble. rewrite E. cbn [bind]. rewrite E2. repeat split.
Qed.
Lemma C50_negative_weight_l :
  forall b obs fct wt m v s p q M D y x w wf hw po e,
  mv_nums obs fct m v s p q M D y x -> (q < p)%nat -> sh wt = insert_at (wpos p q) M s ->
  (forall i, inb (sh wt) i -> at_ wt i = w i) ->
  (exists r k, inb s r /\ (k < M)%nat /\ nltb (member (wpos p q) w r k) (Fin 0) = true) ->
  raises (es_ensemble b obs fct m v (Some wt) e) ValueError /\ raises (owes_ensemble b obs fct wf m v (Some wt)) ValueError /\
  raises (vres_ensemble b obs fct wf m v (Some wt)) ValueError /\ raises (vs_ensemble b obs fct hw m v (Some wt) po e) ValueError /\
  raises (owvs_ensemble b obs fct wf hw m v (Some wt) po) ValueError /\ raises (vrvs_ensemble b obs fct wf hw m v (Some wt) po) ValueError.
Proof.
  intros b obs fct wt m v s p q M D y x w wf hw po e Ha Hqp Sw Vw H.
  destruct (nums_check _ _ _ _ _ _ _ _ _ _ _ Ha) as (obs' & fct' & E & Ho & Hf). rewrite Sw in Vw.
  destruct Ha as (_ & _ & _ & H4 & H5 & _).
  pose proof (mv_weight_neg wt fct' D M s p (wpos p q) w m (proj1 (proj2 Hf)) Sw Vw (wpos_S _ _ Hqp) H4 H5 H) as E2.
  unfold raises, es_ensemble, owes_ensemble, vres_ensemble, vs_ensemble, owvs_ensemble, vrvs_ensemble. rewrite E. cbn [bind].
  destruct (weights_err obs' fct' _ _ s D M _ _ wf Ho Hf) as [E3|(ow & fw & E3)]; rewrite E3; cbn [bind]; rewrite E2; repeat split.
Qed.
Lemma C50_weight_shape_l :
  forall b obs fct wt m v s p q M D y x M' s' wf hw po e,
  mv_nums obs fct m v s p q M D y x -> (q < p)%nat -> sh wt = insert_at (wpos p q) M' s' -> length s' = length s ->
  (M', s') <> (M, s) ->
  raises (es_ensemble b obs fct m v (Some wt) e) ValueError /\ raises (owes_ensemble b obs fct wf m v (Some wt)) ValueError /\
  raises (vres_ensemble b obs fct wf m v (Some wt)) ValueError /\ raises (vs_ensemble b obs fct hw m v (Some wt) po e) ValueError /\
  raises (owvs_ensemble b obs fct wf hw m v (Some wt) po) ValueError /\ raises (vrvs_ensemble b obs fct wf hw m v (Some wt) po) ValueError.
Proof.
  intros b obs fct wt m v s p q M D y x M' s' wf hw po e Ha Hqp Sw Hl Hne.
  destruct (nums_check _ _ _ _ _ _ _ _ _ _ _ Ha) as (obs' & fct' & E & Ho & Hf).
  destruct Ha as (_ & _ & _ & H4 & H5 & _).
  pose proof (mv_weight_shape wt fct' D M s p (wpos p q) m M' s' (proj1 (proj2 Hf)) Sw Hl Hne (wpos_S _ _ Hqp) H4 H5) as E2.
  unfold raises, es_ensemble, owes_ensemble, vres_ensemble, vs_ensemble, owvs_ensemble, vrvs_ensemble. rewrite E. cbn [bind].
  destruct (weights_err obs' fct' _ _ s D M _ _ wf Ho Hf) as [E3|(ow & fw & E3)]; rewrite E3; cbn [bind]; rewrite E2; repeat split.
Qed.
Lemma C50_estimator_l :
  forall b obs fct m v s p q M D y x hw po e,
  mv_nums obs fct m v s p q M D y x -> ~ In e ["ownrg"; "vrnrg"]%string ->
  (~ In e ["nrg"; "fair"; "akr"; "akr_circperm"]%string ->
     raises (es_ensemble b obs fct m v None e) ValueError /\
     forall wt w, (q < p)%nat -> mv_wts wt s (wpos p q) M w -> raises (es_ensemble b obs fct m v (Some wt) e) ValueError) /\
  (~ In e ["nrg"; "fair"]%string ->
     raises (vs_ensemble b obs fct hw m v None po e) ValueError /\
     forall wt w, (q < p)%nat -> mv_wts wt s (wpos p q) M w -> raises (vs_ensemble b obs fct hw m v (Some wt) po e) ValueError).
Proof.
  intros b obs fct m v s p q M D y x hw po e Ha He.
  destruct (nums_check _ _ _ _ _ _ _ _ _ _ _ Ha) as (obs' & fct' & E & Ho & Hf).
  assert (W : forall wt w, (q < p)%nat -> mv_wts wt s (wpos p q) M w -> exists wt', multivariate_weight_check wt fct' m = Ok wt').
  { intros wt w Hqp (W1 & W2 & W3). destruct Ha as (_ & _ & H3 & H4 & H5 & _).
    destruct (mv_weight_ok wt fct' DFloat (dt wt) D M s p (wpos p q) w m (proj1 (proj2 Hf)) (real_arr_is _ _ _ W1) (wpos_S _ _ Hqp) H4 H5 W2 W3 eq_refl) as (wt' & Ew & _).
    eauto. }
  assert (N : forall l n, ~ In e l -> In n l -> (e =s? n) = false).
  { intros l n H1 H2. destruct (String.eqb_spec e n) as [->|]; [easy|reflexivity]. }
  split; intros Hn; (split; [|intros wt w Hqp Hw; destruct (W wt w Hqp Hw) as (wt' & Ew)]);
    unfold raises, es_ensemble, vs_ensemble; rewrite E; cbn [bind]; rewrite ?Ew; cbn [bind];
    unfold es_gufuncs, es_gufuncs_w, es_ensemble_arr, es_ensemble_w_arr, vs_gufuncs, vs_gufuncs_w, vs_arr, vs_w_arr;
    rewrite !(N _ "ownrg"%string He), !(N _ "vrnrg"%string He), !(N _ "nrg"%string Hn), !(N _ "fair"%string Hn) by (simpl; auto);
    rewrite ?(N _ "akr"%string Hn), ?(N _ "akr_circperm"%string Hn) by (simpl; auto 6); destruct b; reflexivity.
Qed.
Lemma C50_internal_names_l :
  forall obs fct m v s p q M D y x hw po e,
  mv_nums obs fct m v s p q M D y x -> In e ["ownrg"; "vrnrg"]%string ->
  raises (es_ensemble Array obs fct m v None e) ValueError /\ raises (es_ensemble Numba obs fct m v None e) TypeError /\
  raises (vs_ensemble Array obs fct hw m v None po e) ValueError /\ raises (vs_ensemble Numba obs fct hw m v None po e) TypeError.
Proof.
  intros obs fct m v s p q M D y x hw po e Ha He.
  destruct (nums_check _ _ _ _ _ _ _ _ _ _ _ Ha) as (obs' & fct' & E & Ho & Hf).
  unfold raises, es_ensemble, vs_ensemble. rewrite E. cbn [bind]. names He; repeat split.
Qed.
