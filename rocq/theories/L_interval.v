(** quantile_score, interval_score and weighted_interval_score: values of the calls. *)
From Verif Require Export L_quant.
Open Scope R_scope.

Ltac dtq := unfold dfloat1, dfloat2, dbool2, djoin;
  repeat match goal with |- context [dt ?a] => destruct (dt a) end; try reflexivity.
Ltac tenq := repeat first [ten1 | lazymatch goal with |- djoin _ _ = _ => solve [dtq] end].
Lemma Int_part_IZR' z : Int_part (IZR z) = z.
Proof.
  unfold Int_part. rewrite <- (up_tech (IZR z) z); [lia|lra|]. rewrite plus_IZR. lra.
Qed.
Lemma rtrunc_IZR z : rtrunc (IZR z) = z.
Proof. unfold rtrunc. destruct (Rle_dec 0 (IZR z)); rewrite <- ?opp_IZR, Int_part_IZR'; lia. Qed.
Lemma ncast_b2n d b : ncast d (b2n b) = b2n b.
Proof.
  destruct d, b; simpl; auto; try (destruct (Req_EM_T _ _); try lra; auto).
  - now rewrite (rtrunc_IZR 1).
  - now rewrite (rtrunc_IZR 0).
Qed.
Lemma entry_bidx {A} sa s (a : list nat -> A) r : scalar_or sa s -> inb s r -> a (bidx sa r) = entry sa a r.
Proof.
  intros [->| ->] Hr; [reflexivity|]. rewrite bidx_id by auto. destruct s; auto.
  now rewrite (inb_nil_inv _ Hr).
Qed.
Lemma scalar_bshape sa s : scalar_or sa s -> bshape sa s = Some s /\ bshape s sa = Some s.
Proof. intros [->| ->]; split; try apply bshape_nil_l; try apply bshape_nil_r; apply bshape_refl. Qed.
Lemma scalar_inb sa s r : scalar_or sa s -> inb s r -> inb sa (bidx sa r).
Proof. intros [->| ->] H; [now destruct r|]. now rewrite bidx_id. Qed.

Section Quantile.
Variables (obs fct al : arr) (s sa : list nat) (y x a : list nat -> R).
Hypotheses (Ho : real_arr obs s y) (Hf : real_arr fct s x) (Hal : real_arr al sa a) (Hsa : scalar_or sa s).
Lemma qs_value : (forall i, inb sa i -> 0 <= a i <= 1) ->
  returns (quantile_score obs fct al) s (fun r => Fin (pinball (entry sa a r) (x r) (y r))).
Proof.
  intros Hl. pose proof (real_arr_is _ _ _ Ho) as Ho'. pose proof (real_arr_is _ _ _ Hf) as Hf'.
  pose proof (real_arr_is _ _ _ Hal) as Hal'. unfold quantile_score.
  destruct (level_any_s _ _ _ _ Hal') as ((b1 & E1 & H1) & (b2 & E2 & H2)). rewrite E1, E2. cbn [bind].
  assert (b1 = false) as ->.
  { destruct b1; auto. destruct H1 as [H1 _]. destruct (H1 eq_refl) as (i & Hi & Hc).
    apply rltb_iff in Hc. specialize (Hl i Hi). lra. }
  assert (b2 = false) as ->.
  { destruct b2; auto. destruct H2 as [H2 _]. destruct (H2 eq_refl) as (i & Hi & Hc).
    apply rltb_iff in Hc. specialize (Hl i Hi). lra. }
  cbn [orb]. destruct (scalar_bshape _ _ Hsa) as [B1 B2].
  eexists. eapply ten_conv; [|reflexivity|].
  - eapply ten_bin; [eapply ten_bin; [eapply ten_cast; ten|ten|exact B2|ten]|ten|ten|ten].
  - intros r Hr. cbv beta. rewrite (entry_bidx sa s _ _ Hsa) by (rewrite !(bidx_id s) by (rewrite ?(bidx_id s r Hr); auto); auto).
    bidx_simp. rewrite ncast_b2n. rewrite b2n_lt.
    replace (entry sa (fun i => Fin (a i)) r) with (Fin (entry sa a r)) by (destruct sa; reflexivity).
    simpl. rewrite pinball_score. reflexivity.
Qed.
Lemma qs_level : (exists i, inb sa i /\ (a i < 0 \/ 1 < a i)) -> raises (quantile_score obs fct al) ValueError.
Proof.
  intros (i & Hi & Hc). pose proof (real_arr_is _ _ _ Hal) as Hal'. unfold raises, quantile_score.
  destruct (level_any_s _ _ _ _ Hal') as ((b1 & E1 & H1) & (b2 & E2 & H2)). rewrite E1, E2. cbn [bind].
  replace (b1 || b2) with true; auto. symmetry. apply orb_true_intro.
  destruct Hc; [left; apply H1|right; apply H2]; exists i; split; auto; now apply rltb_iff.
Qed.
End Quantile.

Lemma winkler_ind al l u y : winkler al l u y =
  (u - l) + ind_lt y l * (2 / al) * (l - y) + ind_lt u y * (2 / al) * (y - u).
Proof. unfold winkler, ind_lt. destruct (Rlt_dec y l), (Rlt_dec u y); ring. Qed.

Section Interval.
Variables (obs lower upper al : arr) (s : list nat) (y l u a : list nat -> R).
(** one level for all *)
Lemma is_scalar sa : real_arr obs s y -> real_arr lower s l -> real_arr upper s u -> real_arr al sa a ->
  scalar_or sa s -> length sa <> 1%nat -> (forall i, inb sa i -> a i <> 0) ->
  returns_squeezed (interval_score obs lower upper al) s
    (fun r => Fin (winkler (entry sa a r) (l r) (u r) (y r))).
Proof.
  intros Ho Hl Hu Ha Hsa Hr1 H0.
  pose proof (real_arr_is _ _ _ Ho) as Ho'. pose proof (real_arr_is _ _ _ Hl) as Hl'.
  pose proof (real_arr_is _ _ _ Hu) as Hu'. pose proof (real_arr_is _ _ _ Ha) as Ha'.
  unfold interval_score, pyshape. destruct Hl as [Sl _]. destruct Hu as [Su _]. destruct Ha as [Sa _].
  rewrite Sl, Su, Sa, shape_eqb_refl. cbn [negb].
  replace (match sa with [K] => _ | _ => Ok obs end) with (@Ok arr obs) by (destruct sa as [|? [|]]; simpl in *; easy).
  cbn [bind]. destruct (scalar_bshape _ _ Hsa) as [B1 B2].
  assert (T2 : ten_is (sci 2 / Ok al)%A DFloat sa (fun i => ndiv (Fin (INR 2)) (Fin (a i)))).
  { eapply ten_conv; [ten|reflexivity|]. intros i Hi. bidx_simp. reflexivity. }
  destruct (ten_squeeze (interval_core (Ok obs) (Ok lower) (Ok upper) (Ok al)) DFloat s
     (fun r => Fin (winkler (entry sa a r) (l r) (u r) (y r)))) as (o & E & Hs & H).
  { unfold interval_core. eapply ten_conv; [eapply ten_inplace;
      [eapply ten_bin; [ten|eapply ten_bin; [eapply ten_bin; [ten|exact T2|exact B2|ten]|ten|ten|ten]|ten|ten]
      |eapply ten_bin; [eapply ten_bin; [ten|exact T2|exact B2|ten]|ten|ten|ten]
      |bsolve|dtq|ten]|dtq|].
    intros r Hr. cbv beta. rewrite !(bidx_id s r Hr), ?(bidx_id s r Hr).
      rewrite (entry_bidx sa s _ _ Hsa Hr).
      assert (N : entry sa a r <> 0).
      { rewrite <- (entry_bidx sa s a r Hsa Hr). apply H0. eapply scalar_inb; eauto. }
      rewrite winkler_ind. replace (INR 2) with 2 by (simpl; lra). fin; auto; ring. }
  exists o. auto.
Qed.
(** K levels along the last axis *)
Lemma is_levels K : real_arr obs s y -> real_arr lower (K :: s) l -> real_arr upper (K :: s) u ->
  real_arr al (K :: nil) a -> (forall k, (k < K)%nat -> a (k :: nil) <> 0) ->
  ten_is (interval_core (aexpand 0 (Ok obs)) (Ok lower) (Ok upper) (Ok al)) DFloat (K :: s)
    (fun i => Fin (winkler (a (hd 0%nat i :: nil)) (l i) (u i) (y (tl i)))).
Proof.
  intros Ho Hl Hu Ha H0.
  pose proof (real_arr_is _ _ _ Ho) as Ho'. pose proof (real_arr_is _ _ _ Hl) as Hl'.
  pose proof (real_arr_is _ _ _ Hu) as Hu'. pose proof (real_arr_is _ _ _ Ha) as Ha'.
  unfold interval_core. eapply ten_conv; [tenq|dtq|].
  intros i Hi. idx. bidx_simp. cbn [hd tl]. rewrite ?(bidx_id s r Hr).
  assert (Hd : ndiv (nofnat 2) (Fin (a (k :: nil))) = Fin (2 / a (k :: nil))) by (unfold nofnat; replace (INR 2) with 2 by (simpl; lra); apply ndiv_Fin; auto).
  rewrite Hd, winkler_ind. fin. ring.
Qed.
Lemma py_last s' K : py_index (-1) (rev (K :: s')) = @Ok nat K.
Proof.
  cbn [rev]. unfold py_index. rewrite app_length, rev_length. cbn [length].
  replace (-1 <? 0)%Z with true by reflexivity.
  replace (Z.of_nat (length s' + 1) + -1)%Z with (Z.of_nat (length s')) by lia.
  replace ((0 <=? Z.of_nat (length s'))%Z && (Z.of_nat (length s') <? Z.of_nat (length s' + 1))%Z)%bool with true
    by (symmetry; apply andb_true_intro; split; [apply Z.leb_le|apply Z.ltb_lt]; lia).
  rewrite Nat2Z.id, nth_error_app2 by (rewrite rev_length; lia). now rewrite rev_length, Nat.sub_diag.
Qed.
Lemma is_levels_call K : real_arr obs s y -> real_arr lower (K :: s) l -> real_arr upper (K :: s) u ->
  real_arr al (K :: nil) a -> (forall k, (k < K)%nat -> a (k :: nil) <> 0) ->
  returns_squeezed (interval_score obs lower upper al) (K :: s)
    (fun i => Fin (winkler (a (hd 0%nat i :: nil)) (l i) (u i) (y (tl i)))).
Proof.
  intros Ho Hl Hu Ha H0. pose proof (is_levels K Ho Hl Hu Ha H0) as H.
  unfold interval_score, pyshape. destruct Hl as [Sl _]. destruct Hu as [Su _]. destruct Ha as [Sa _].
  rewrite Sl, Su, Sa, shape_eqb_refl, !py_last. cbn [negb bind]. rewrite Nat.eqb_refl. cbn [negb orb].
  destruct (ten_expand0 (Ok obs) (dt obs) s (fun i => Fin (y i))) as (o & E & Hoo).
  { apply ten_Ok. apply real_arr_is, Ho. }
  rewrite E in *. cbn [bind]. now apply ten_squeeze with (d := DFloat).
Qed.
Lemma is_shapes : sh lower <> sh upper -> raises (interval_score obs lower upper al) ValueError.
Proof.
  intros H. unfold raises, interval_score, pyshape.
  destruct (shape_eqb _ _) eqn:E; auto. apply shape_eqb_true in E. apply (f_equal (@rev nat)) in E.
  rewrite !rev_involutive in E. easy.
Qed.
Lemma is_count K K' : sh lower = K' :: s -> sh upper = K' :: s -> sh al = K :: nil -> K' <> K ->
  raises (interval_score obs lower upper al) ValueError.
Proof.
  intros Hl Hu Ha HK. unfold raises, interval_score, pyshape. rewrite Hl, Hu, Ha, shape_eqb_refl, !py_last.
  cbn [negb]. unfold aexpand. cbn [bind]. rewrite (proj2 (Nat.leb_le 0 _)) by lia. cbn [bind].
  destruct (Nat.eqb_spec K' K); [easy|reflexivity].
Qed.
End Interval.

Section Wis.
Variables (obs med lower upper al : arr) (s : list nat) (K : nat) (y m l u a : list nat -> R).
Hypotheses (Ho : real_arr obs s y) (Hm : real_arr med s m) (Hl : real_arr lower (K :: s) l)
  (Hu : real_arr upper (K :: s) u) (Ha : real_arr al (K :: nil) a) (H0 : forall k, (k < K)%nat -> a (k :: nil) <> 0).
Definition half_K_pos : INR K + 1 / 2 <> 0.
Proof. pose proof (pos_INR K). lra. Qed.
Lemma wis_arr_value wm wa cm (w : list nat -> R) : real_arr wm nil (fun _ => cm) -> real_arr wa (K :: nil) w ->
  returns_squeezed (wis_arr obs med lower upper al wm wa) s
    (fun r => Fin ((sumn K (fun k => w (k :: nil) * winkler (a (k :: nil)) (l (k :: r)) (u (k :: r)) (y r)) + cm * m r)
                    / (INR K + 1 / 2))).
Proof.
  intros Hwm Hwa. pose proof (real_arr_is _ _ _ Hm) as Hm'. pose proof (real_arr_is _ _ _ Hwm) as Hwm'.
  pose proof (real_arr_is _ _ _ Hwa) as Hwa'.
  pose proof (is_levels obs lower upper al s y l u a K Ho Hl Hu Ha H0) as HI.
  unfold wis_arr, pyshape. destruct Hwa as [Sw _]. rewrite Sw. change (py_index 0 (rev (K :: nil))) with (@Ok nat K). cbn [bind].
  apply ten_squeeze with (d := DFloat). eapply ten_conv;
    [eapply ten_inplace; [eapply ten_inplace; [ten|ten|ten|dtq|ten]|ten|ten|dtq|ten]|dtq|].
  - intros r Hr. cbv beta. bidx_simp. rewrite ?(bidx_id s r Hr). pose proof half_K_pos.
    erewrite nsumn_Fin.
    2:{ intros k Hk. cbn [bidx hd tl]. bidx_simp. apply nmul_Fin. }
    fin; auto. cbn [hd tl]. f_equal. f_equal. apply sumn_ext. intros. ring.
Qed.
Lemma wis_k_value yn mn ln un an wmn wan yr mr lr ur ar cm w : yn = Fin yr -> mn = Fin mr -> wmn = Fin cm ->
  (forall k, (k < K)%nat -> ln k = Fin (lr k)) -> (forall k, (k < K)%nat -> un k = Fin (ur k)) ->
  (forall k, (k < K)%nat -> an k = Fin (ar k)) -> (forall k, (k < K)%nat -> wan k = Fin (w k)) ->
  (forall k, (k < K)%nat -> ar k <> 0) ->
  wis_k yn mn (rw K ln) (rw K un) (rw K an) wmn (rw K wan)
  = Fin ((sumn K (fun k => w k * winkler (ar k) (lr k) (ur k) yr) + cm * Rabs (yr - mr)) / (INR K + 1 / 2)).
Proof.
  intros Hy Hm' Hwm Hln Hun Han Hwan Hn0. unfold wis_k. rewrite rw_length. unfold rw.
  rewrite !combine_rw, fold_left_map.
  rewrite (fold_left_nadd (fun k => wan k .* (un k .- ln k .+ b2n (nltb yn (ln k)) .* (n2 ./ an k) .* (ln k .- yn)
      .+ b2n (nltb (un k) yn) .* (n2 ./ an k) .* (yn .- un k)))).
  change (nsum (map ?f (seq 0 K))) with (nsumn K f). unfold n0, n2. pose proof half_K_pos.
  fin; auto.
  f_equal. rewrite Rplus_0_l. f_equal. apply sumn_ext. intros k Hk. rewrite winkler_ind. reflexivity.
Qed.
Lemma wis_gu_value wm wa cm (w : list nat -> R) : dt obs = DFloat -> real_arr wm nil (fun _ => cm) -> real_arr wa (K :: nil) w ->
  returns (wis_gu obs med lower upper al wm wa) s
    (fun r => Fin ((sumn K (fun k => w (k :: nil) * winkler (a (k :: nil)) (l (k :: r)) (u (k :: r)) (y r))
                    + cm * Rabs (y r - m r)) / (INR K + 1 / 2))).
Proof.
  intros Hd Hwm Hwa. pose proof (real_arr_is _ _ _ Hm) as Hm'. pose proof (real_arr_is _ _ _ Hwm) as Hwm'.
  pose proof (real_arr_is _ _ _ Hwa) as Hwa'. pose proof (real_arr_is _ _ _ Ho) as Ho'. pose proof (real_arr_is _ _ _ Hl) as Hl'.
  pose proof (real_arr_is _ _ _ Hu) as Hu'. pose proof (real_arr_is _ _ _ Ha) as Ha'.
  unfold wis_gu, gcore1. destruct Hl as [Sl _]. destruct Hu as [Su _]. destruct Ha as [Sa _]. destruct Hwa as [Sw _].
  destruct Ho as [So _]. destruct Hm as [Sm _]. destruct Hwm as [Swm _].
  rewrite Sl, Su, Sa, Sw, So, Sm, Swm. cbn [bind check andb]. rewrite !Nat.eqb_refl. cbn [bind check andb].
  replace (gloop _) with (@Ok (list nat) s).
  2:{ unfold gloop. cbn [fold_right bind]. repeat (rewrite ?bshape_nil_l, ?bshape_nil_r, ?bshape_refl; cbn [bind]). reflexivity. }
  cbn [bind]. unfold gout_like. rewrite So. destruct (list_eq_dec Nat.eq_dec s s); [|easy].
  exists DFloat. rewrite Hd. apply ten_Ok. repeat split. intros r Hr. cbn [at_]. rewrite ncast_id by auto.
  rewrite (gS_is _ _ _ _ _ Ho' Hr), (gS_is _ _ _ _ _ Hm' Hr), (gV_is _ _ _ _ _ _ Hl' Hr), (gV_is _ _ _ _ _ _ Hu' Hr).
  rewrite (gV_is1 _ _ _ _ _ Ha'), (gV_is1 _ _ _ _ _ Hwa').
  apply wis_k_value; auto. unfold gS. rewrite Swm. cbn [bidx]. apply Hwm'. exact I.
Qed.
Lemma default_wts wm wa cm w : wis_weights K a wm wa cm w ->
  exists om oa, (match wm with None => sc half | Some w => Ok w end) = Ok om /\
    (match wa with None => (Ok al / sci 2)%A | Some w => Ok w end) = Ok oa /\
    real_arr om nil (fun _ => cm) /\ real_arr oa (K :: nil) (fun i => w (hd 0%nat i)).
Proof.
  intros [H1 H2]. pose proof (real_arr_is _ _ _ Ha) as Ha'.
  assert (exists om, (match wm with None => sc half | Some w => Ok w end) = Ok om /\ real_arr om nil (fun _ => cm)) as (om & E & Hom).
  { destruct wm as [o|]; eexists; split; try reflexivity; auto. split; auto. intros i _. simpl. f_equal. rewrite H1. unfold half. lra. }
  assert (exists oa, (match wa with None => (Ok al / sci 2)%A | Some w => Ok w end) = Ok oa /\
     real_arr oa (K :: nil) (fun i => w (hd 0%nat i))) as (oa & E' & Hoa).
  { destruct wa as [o|]; [now exists o|].
    destruct (ten_bin_scr dfloat2 ndiv (Ok al) (nofnat 2) (dt al) DInt (K :: nil) (fun i => Fin (a i)) (ten_Ok _ _ _ _ Ha'))
      as (o & E' & _ & Sh & Ho'). exists o. split; auto. split; auto. intros i Hi. rewrite Ho' by auto.
    idx. cbn [hd]. rewrite H2 by auto. unfold nofnat. rewrite ndiv_Fin by (simpl; lra). now simpl. }
  exists om, oa. auto.
Qed.
Lemma wis_array_call wm wa cm w : wis_weights K a wm wa cm w ->
  returns_squeezed (weighted_interval_score Array obs med lower upper al wm wa) s
    (fun r => Fin ((sumn K (fun k => w k * winkler (a (k :: nil)) (l (k :: r)) (u (k :: r)) (y r)) + cm * m r)
                    / (INR K + 1 / 2))).
Proof.
  intros H. destruct (default_wts _ _ _ _ H) as (om & oa & E1 & E2 & Hom & Hoa).
  unfold weighted_interval_score. rewrite E1, E2. cbn [bind]. now apply wis_arr_value with (w := fun i => w (hd 0%nat i)).
Qed.
Lemma wis_numba_call wm wa cm w : dt obs = DFloat -> wis_weights K a wm wa cm w ->
  returns (weighted_interval_score Numba obs med lower upper al wm wa) s
    (fun r => Fin ((sumn K (fun k => w k * winkler (a (k :: nil)) (l (k :: r)) (u (k :: r)) (y r))
                    + cm * Rabs (y r - m r)) / (INR K + 1 / 2))).
Proof.
  intros Hd H. destruct (default_wts _ _ _ _ H) as (om & oa & E1 & E2 & Hom & Hoa).
  unfold weighted_interval_score. rewrite E1, E2. cbn [bind]. now apply wis_gu_value with (w := fun i => w (hd 0%nat i)).
Qed.
End Wis.
