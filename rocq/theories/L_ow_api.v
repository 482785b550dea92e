(** The calls of [owcrps_ensemble] and [vrcrps_ensemble]. *)
From Coq Require Import FunctionalExtensionality.
From Verif Require Export L_ow.
Open Scope nat_scope.

(** the weight function: values and dtype *)
Definition wg (a b : num) (wf : option (dtype * (num -> num))) (v : num) : num :=
  match wf with None => b2n (nleb a v) .* b2n (nleb v b) .* Fin 1 | Some (_, f) => f v end.
Definition wdt (wf : option (dtype * (num -> num))) : dtype := match wf with None => DFloat | Some (d, _) => d end.
Lemma weights1_is a b wf x d s f : ten_is x d s f -> ten_is (uv_weights1 a b wf x) (wdt wf) s (fun i => wg a b wf (f i)).
Proof.
  intros H. unfold uv_weights1. destruct wf as [[dw g]|]; cbn [wg wdt].
  - eapply ten_conv; [eapply ten_map; exact H|reflexivity|reflexivity].
  - eapply ten_conv; [eapply ten_bin_scr, ten_bin_same; [eapply ten_bin_scl; exact H|eapply ten_bin_scr; exact H]|reflexivity|].
    reflexivity.
Qed.
Lemma any_neg a d s f : arr_is a d s f -> exists b, aany (Ok a <? sci 0)%A = Ok b /\
  (b = true <-> exists i, inb s i /\ nltb (f i) (Fin 0) = true).
Proof.
  intros H. destruct (aany_spec (Ok a <? sci 0)%A DInt s (fun i => b2n (nltb (f i) (nofnat 0)))) as (b & E & Hb).
  { eapply ten_conv; [eapply ten_bin_scr; exact (ten_Ok _ _ _ _ H)|reflexivity|reflexivity]. }
  exists b. split; auto. rewrite Hb. split; intros (i & Hi & Hn); exists i; split; auto; unfold nofnat in *; simpl INR in *; rewrite neqb_b2n in *;
    destruct (nltb (f i) (Fin 0)); easy.
Qed.
Lemma weights_ok obs fct d1 d2 s s2 y x a b wf : arr_is obs d1 s y -> arr_is fct d2 s2 x ->
  (forall r, inb s r -> nltb (wg a b wf (y r)) (Fin 0) = false) ->
  (forall i, inb s2 i -> nltb (wg a b wf (x i)) (Fin 0) = false) ->
  exists ow fw, uv_weighted_score_weights obs fct a b wf = Ok (ow, fw) /\
    arr_is ow (wdt wf) s (fun r => wg a b wf (y r)) /\ arr_is fw (wdt wf) s2 (fun i => wg a b wf (x i)).
Proof.
  intros H1 H2 N1 N2. unfold uv_weighted_score_weights.
  destruct (weights1_is a b wf _ _ _ _ (ten_Ok _ _ _ _ H1)) as (ow & E1 & Ho).
  destruct (weights1_is a b wf _ _ _ _ (ten_Ok _ _ _ _ H2)) as (fw & E2 & Hf).
  unfold tensor in *. rewrite E1, E2. cbn [bind].
  destruct (any_neg _ _ _ _ Ho) as (b1 & E3 & B1). destruct (any_neg _ _ _ _ Hf) as (b2 & E4 & B2).
  rewrite E3, E4. cbn [bind].
  assert (b1 = false) as ->. { destruct b1; auto. destruct B1 as [B1 _]. destruct (B1 eq_refl) as (i & Hi & Hn). now rewrite N1 in Hn. }
  assert (b2 = false) as ->. { destruct b2; auto. destruct B2 as [B2 _]. destruct (B2 eq_refl) as (i & Hi & Hn). now rewrite N2 in Hn. }
  exists ow, fw. auto.
Qed.
Lemma weights_neg obs fct d1 d2 s s2 y x a b wf : arr_is obs d1 s y -> arr_is fct d2 s2 x ->
  (exists r, inb s r /\ nltb (wg a b wf (y r)) (Fin 0) = true) \/ (exists i, inb s2 i /\ nltb (wg a b wf (x i)) (Fin 0) = true) ->
  uv_weighted_score_weights obs fct a b wf = Err ValueError.
Proof.
  intros H1 H2 HN. unfold uv_weighted_score_weights.
  destruct (weights1_is a b wf _ _ _ _ (ten_Ok _ _ _ _ H1)) as (ow & E1 & Ho).
  destruct (weights1_is a b wf _ _ _ _ (ten_Ok _ _ _ _ H2)) as (fw & E2 & Hf).
  unfold tensor in *. rewrite E1, E2. cbn [bind].
  destruct (any_neg _ _ _ _ Ho) as (b1 & E3 & B1). destruct (any_neg _ _ _ _ Hf) as (b2 & E4 & B2).
  rewrite E3, E4. cbn [bind].
  destruct HN as [HN|HN]; [apply B1 in HN as ->|apply B2 in HN as ->]; rewrite ?Bool.orb_true_r; reflexivity.
Qed.
Lemma move_m1 x d s f : ten_is x d s f -> s <> [] -> ten_is (amove_last (-1) x) d s f.
Proof.
  intros H N. destruct s as [|m s]; [easy|].
  eapply ten_ext; [eapply (ten_move_last (-1) x d 0 m s); eauto; [lia|]|].
  - rewrite Nat.sub_0_r. replace (-1)%Z with (Z.of_nat (length s) - Z.of_nat (S (length s)))%Z by lia. apply norm_axis_neg. lia.
  - intros i Hi. idx. reflexivity.
Qed.

Section Prep.
Variables (obs fct : arr) (a b : num) (ax : Z) (d1 d2 : dtype) (s : list nat) (p M : nat) (y x : list nat -> num).
Variable wf : option (dtype * (num -> num)).
Hypothesis Hin : inputs obs fct ax d1 d2 s p M y x.
Let xr r k := x (insert_at p k r).
Let g := wg a b wf.
Definition wnn : Prop := (forall r, inb s r -> nltb (g (y r)) (Fin 0) = false) /\
  (forall r k, inb s r -> k < M -> nltb (g (xr r k)) (Fin 0) = false).
Lemma prep_neg ew pol :
  (exists r, inb s r /\ nltb (g (y r)) (Fin 0) = true) \/ (exists r k, inb s r /\ k < M /\ nltb (g (xr r k)) (Fin 0) = true) ->
  wcrps_prepare obs fct a b ax ew wf pol = Err ValueError.
Proof.
  intros HN. unfold wcrps_prepare. destruct (check_in obs fct ax d1 d2 s p M y x Hin) as (f' & E & Hf'). rewrite E. cbn [bind].
  destruct Hin as (H1 & _). rewrite (weights_neg obs f' d1 d2 s (M :: s) y _ a b wf H1 Hf'); [reflexivity|].
  destruct HN as [HN|(r & k & Hr & Hk & HN)]; [now left|right]. exists (k :: r). split; [split; auto|]. exact HN.
Qed.
Hypothesis Hnn : wnn.
Lemma prep_start : exists f' ow fw, univariate_array_check obs fct ax = Ok (obs, f') /\
  arr_is f' d2 (M :: s) (fun i => xr (tl i) (hd 0 i)) /\
  uv_weighted_score_weights obs f' a b wf = Ok (ow, fw) /\
  arr_is ow (wdt wf) s (fun r => g (y r)) /\ arr_is fw (wdt wf) (M :: s) (fun i => g (xr (tl i) (hd 0 i))).
Proof.
  destruct (check_in obs fct ax d1 d2 s p M y x Hin) as (f' & E & Hf').
  pose proof Hin as (H1 & _). destruct Hnn as [N1 N2].
  destruct (weights_ok obs f' d1 d2 s (M :: s) y _ a b wf H1 Hf' N1) as (ow & fw & E2 & H2 & H3).
  { intros i Hi. idx. cbn [hd tl]. now apply N2. }
  exists f', ow, fw. auto.
Qed.
Lemma prep_un : exists f' ow fw, wcrps_prepare obs fct a b ax None wf "propagate" = Ok (obs, f', ow, fw, None) /\
  arr_is f' d2 (M :: s) (fun i => xr (tl i) (hd 0 i)) /\
  arr_is ow (wdt wf) s (fun r => g (y r)) /\ arr_is fw (wdt wf) (M :: s) (fun i => g (xr (tl i) (hd 0 i))).
Proof.
  destruct prep_start as (f' & ow & fw & E1 & Hf & E2 & Ho & Hw). exists f', ow, fw.
  unfold wcrps_prepare. rewrite E1. cbn [bind]. rewrite E2. auto.
Qed.
Lemma prep_raise_ok : (forall r, inb s r -> y r <> NaN /\ g (y r) <> NaN) ->
  (forall r k, inb s r -> k < M -> xr r k <> NaN /\ g (xr r k) <> NaN) ->
  wcrps_prepare obs fct a b ax None wf "raise" = wcrps_prepare obs fct a b ax None wf "propagate".
Proof.
  intros Ny Nx. destruct prep_start as (f' & ow & fw & E1 & Hf & E2 & Ho & Hw).
  unfold wcrps_prepare. rewrite E1. cbn [bind]. rewrite E2. cbn [bind].
  unfold apply_nan_policy_ens_uv. cbn [bind String.eqb Ascii.eqb Bool.eqb].
  assert (G : forall c d t h, arr_is c d t h -> (forall i, inb t i -> h i <> NaN) -> exists m, aisnan (Ok c) = Ok m /\ aany (Ok m) = Ok false).
  { intros c d t h Hc Hh. destruct (any_nan c d t h Hc) as (b0 & E & B). unfold aany in E.
    destruct (aisnan (Ok c)) as [m|] eqn:Em; [|discriminate]. exists m. split; auto. unfold aany. cbn [bind] in E |- *.
    rewrite E. f_equal. destruct b0; auto. exfalso. destruct B as [B _]. destruct (B eq_refl) as (i & Hi & Hn). now apply (Hh i). }
  pose proof Hin as (H1 & _).
  destruct (G _ _ _ _ H1 (fun r Hr => proj1 (Ny r Hr))) as (m1 & A1 & B1).
  destruct (G _ _ _ _ Ho (fun r Hr => proj2 (Ny r Hr))) as (m2 & A2 & B2).
  destruct (G _ _ _ _ Hf) as (m3 & A3 & B3). { intros i Hi. idx. cbn [hd tl]. now apply Nx. }
  destruct (G _ _ _ _ Hw) as (m4 & A4 & B4). { intros i Hi. idx. cbn [hd tl]. now apply Nx. }
  unfold tensor in *. rewrite A3. cbn [bind]. rewrite B3. cbn [bind]. rewrite A1. cbn [bind]. rewrite B1. cbn [bind orb].
  rewrite A4. cbn [bind]. rewrite B4. cbn [bind]. rewrite A2. cbn [bind]. rewrite B2. reflexivity.
Qed.

Section W.
Variables (wt : arr) (d3 : dtype) (w : list nat -> num).
Hypothesis Hw : arr_is wt d3 (insert_at p M s) w.
Let wr r k := ncast (wdt wf) (ncast d2 (w (insert_at p k r))).
Lemma prep_w : (forall r k, inb s r -> k < M -> nltb (wr r k) (Fin 0) = false) ->
  exists f' ow fw w', wcrps_prepare obs fct a b ax (Some wt) wf "propagate" = Ok (obs, f', ow, fw, Some w') /\
  arr_is f' d2 (M :: s) (fun i => xr (tl i) (hd 0 i)) /\
  arr_is ow (wdt wf) s (fun r => g (y r)) /\ arr_is fw (wdt wf) (M :: s) (fun i => g (xr (tl i) (hd 0 i))) /\
  arr_is w' DFloat (M :: s) (fun i => normn M (wr (tl i)) (hd 0 i)).
Proof.
  intros Hn. destruct prep_start as (f' & ow & fw & E1 & Hf & E2 & Ho & Hfw).
  pose proof Hin as (_ & _ & Hp & Hax).
  assert (N : insert_at p M s <> []) by (intros E; pose proof (f_equal (@length nat) E) as E'; rewrite insert_at_length in E'; discriminate).
  destruct (move_m1 _ _ _ _ (ten_cast (dt f') (Ok wt) d3 _ w (ten_Ok _ _ _ _ Hw)) N) as (w1 & E3 & Hw1).
  destruct (move_m1 _ _ _ _ (ten_cast (dt fw) (Ok w1) _ _ _ (ten_Ok _ _ _ _ Hw1)) N) as (w2 & E4 & Hw2).
  replace (dt f') with d2 in * by (symmetry; apply Hf). replace (dt fw) with (wdt wf) in * by (symmetry; apply Hfw).
  destruct (weight_check_ok w2 f' (wdt wf) s DFloat M (fun i => normn M (wr (tl i)) (hd 0 i)) (fun i => ncast (wdt wf) (ncast d2 (w i))) ax p ltac:(apply Hf) Hw2 Hp Hax) as (w' & E5 & Hw');
    [|reflexivity|reflexivity|].
  { intros i Hi. destruct (inb_remove p M s i Hp Hi) as [Hr Hk]. specialize (Hn _ _ Hr Hk).
    unfold wr in Hn. rewrite insert_remove in Hn; auto. rewrite (inb_length _ _ Hi), insert_at_length. lia. }
  exists f', ow, fw, w'. unfold wcrps_prepare. rewrite E1. cbn [bind]. rewrite E2. cbn [bind].
  unfold apply_nan_policy_ens_uv. unfold tensor in *.
  replace (dt f') with d2 by (symmetry; apply Hf). rewrite E3. cbn [bind String.eqb Ascii.eqb Bool.eqb].
  replace (dt fw) with (wdt wf) by (symmetry; apply Hfw). rewrite E4. cbn [bind String.eqb Ascii.eqb Bool.eqb opt_weight_check].
  rewrite E5. auto.
Qed.
End W.
End Prep.

(** omit: the mask ends up with the ensemble axis last, and is then moved again *)
Lemma prep_omit_any obs fct a b ax d1 d2 s p M y x wf (X : list nat -> num) : inputs obs fct ax d1 d2 s p M y x -> wnn a b s p M y x wf -> wdt wf = DFloat ->
  (X = fun i => x (insert_at p (hd 0 i) (tl i))) ->
  exists f' ow fw w', wcrps_prepare obs fct a b ax None wf "omit" = (let* w2 := univariate_weight_check w' f' ax in Ok (obs, f', ow, fw, Some w2)) /\
  arr_is f' DFloat (M :: s) (fun i => if nisnan (X i) then Fin 0 else X i) /\
  arr_is ow DFloat s (fun r => wg a b wf (y r)) /\
  arr_is fw DFloat (M :: s) (fun i => if nisnan (wg a b wf (X i)) then Fin 0 else wg a b wf (X i)) /\
  arr_is w' DFloat (M :: s) (fun i => b2n (negb (nisnan (X i) || nisnan (wg a b wf (X i))))).
Proof.
  intros Hin Hnn Hd HX. set (g := wg a b wf).
  destruct (prep_start obs fct a b ax d1 d2 s p M y x wf Hin Hnn) as (f' & ow & fw & E1 & Hf & E2 & Ho & Hfw).
  rewrite Hd in *.
  assert (Hf0 : arr_is f' d2 (M :: s) X) by (rewrite HX; exact Hf).
  assert (Hfw0 : arr_is fw DFloat (M :: s) (fun i => g (X i))) by (rewrite HX; exact Hfw).
  clear Hf Hfw HX.
  assert (T1 : ten_is (aisnan (Ok f')) DInt (M :: s) (fun i => b2n (nisnan (X i)))) by (eapply ten_conv; [ten|reflexivity|reflexivity]).
  destruct T1 as (m1 & Em1 & Hm1).
  assert (T2 : ten_is (awhere (Ok m1) (sc 0) (Ok f')) DFloat (M :: s) (fun i => if nisnan (X i) then Fin 0 else X i)).
  { eapply ten_conv; [eapply ten_where_scl; ten|destruct d2; reflexivity|]. intros i Hi. cbv beta. rewrite ?(bidx_id _ _ Hi). rewrite neqb_b2n.
    destruct (nisnan (X i)); reflexivity. }
  destruct T2 as (f2 & Ef2 & Hf2).
  assert (T3 : ten_is (acast (dt f2) (anot (Ok m1))) DFloat (M :: s) (fun i => b2n (negb (nisnan (X i))))).
  { replace (dt f2) with DFloat by (symmetry; apply Hf2). eapply ten_conv; [ten|reflexivity|]. intros i Hi. cbn [ncast]. destruct (nisnan _); simpl; f_equal; lra. }
  destruct T3 as (w1 & Ew1 & Hw1).
  assert (T4 : ten_is (amove_last (-1) (acast (dt fw) (Ok w1))) DFloat (M :: s) (fun i => b2n (negb (nisnan (X i))))).
  { replace (dt fw) with DFloat by (symmetry; apply Hfw0). apply move_m1; [|discriminate].
    eapply ten_conv; [ten|reflexivity|]. reflexivity. }
  destruct T4 as (w2 & Ew2 & Hw2).
  assert (T5 : ten_is (aor (aisnan (Ok fw)) (aisnan (Ok w2))) DInt (M :: s) (fun i => b2n (nisnan (g (X i))))).
  { eapply ten_conv; [ten|reflexivity|]. intros i Hi. cbv beta; rewrite !(bidx_id _ _ Hi).
    destruct (nisnan (X i)), (nisnan (g (X i))); cbn; unfold rleb; rdec; f_equal; lra. }
  destruct T5 as (m2 & Em2 & Hm2).
  assert (T6 : ten_is (awhere (aisnan (Ok fw)) (sc 0) (Ok fw)) DFloat (M :: s) (fun i => if nisnan (g (X i)) then Fin 0 else g (X i))).
  { eapply ten_conv; [eapply ten_where_scl; ten|reflexivity|]. intros i Hi. cbv beta. rewrite ?(bidx_id _ _ Hi). rewrite neqb_b2n.
    destruct (nisnan (g (X i))); reflexivity. }
  destruct T6 as (fw2 & Efw2 & Hfw2).
  assert (T7 : ten_is (awhere (Ok m2) (sc 0) (Ok w2)) DFloat (M :: s) (fun i => b2n (negb (nisnan (X i) || nisnan (g (X i)))))).
  { eapply ten_conv; [eapply ten_where_scl; ten|reflexivity|]. intros i Hi. cbv beta. rewrite ?(bidx_id _ _ Hi). rewrite neqb_b2n.
    destruct (nisnan (X i)), (nisnan (g (X i))); reflexivity. }
  destruct T7 as (w3 & Ew3 & Hw3).
  exists f2, ow, fw2, w3. split.
  - unfold wcrps_prepare. rewrite E1. cbn [bind]. rewrite E2. cbn [bind].
    unfold apply_nan_policy_ens_uv. unfold tensor in *. cbn [bind String.eqb Ascii.eqb Bool.eqb].
    rewrite Em1. cbn [bind]. rewrite Ef2. cbn [bind]. rewrite Ew1. cbn [bind]. rewrite Ew2. cbn [bind].
    rewrite Em2. cbn [bind]. rewrite Efw2. cbn [bind]. rewrite Ew3. cbn [bind opt_weight_check].
    destruct (univariate_weight_check w3 f2 ax); reflexivity.
  - auto.
Qed.

Open Scope R_scope.
Section Core.
Variables (be : impl) (obs f' ow fw : arr) (d1 d2 : dtype) (s : list nat) (M : nat).
Variables (y a : list nat -> R) (X W : list nat -> nat -> R).
Hypothesis Hobs : arr_is obs d1 s (fun r => Fin (y r)).
Hypothesis Hf : arr_is f' d2 (M :: s) (fun i => Fin (X (tl i) (hd 0%nat i))).
Hypothesis How : arr_is ow DFloat s (fun r => Fin (a r)).
Hypothesis Hfw : arr_is fw DFloat (M :: s) (fun i => Fin (W (tl i) (hd 0%nat i))).
Hypothesis HM : (0 < M)%nat.
Hypothesis Hd : be = Numba -> d1 = DFloat.
Hypothesis HW0 : forall r k, inb s r -> (k < M)%nat -> 0 <= W r k.
Lemma ow_core : returns (match be with Numba => gu_svsv out_lazy owcrps_nrg_k obs f' ow fw | Array => ow_ensemble_arr obs f' ow fw end) s
  (fun r => owv M (W r) (a r) (y r) (X r)).
Proof.
  eapply returns_is. destruct be.
  - eapply ten_conv; [eapply ow_arr; eassumption|reflexivity|]. intros r Hr. cbv beta. cbn [hd tl]. unfold owv.
    destruct (Req_EM_T _ _) as [Z|Z]; [|now apply row_ow_real].
    apply (row_ow_zero M _ _ _ _ (y r) (a r) (X r) (W r)); auto. intros k Hk.
    apply (sumn_zero_inv M (W r)); auto.
  - eapply ten_conv; [eapply (gu_svsv_is out_lazy (fun d => d)); [apply outs_lazy|eassumption..]|now apply Hd|].
    intros r Hr. cbv beta. rewrite (Hd eq_refl). cbn [ncast hd tl]. unfold owv.
    destruct (Req_EM_T _ _) as [Z|Z]; [|now apply ow_k_real].
    apply (ow_k_zero M _ _ _ _ (y r) (a r) (X r) (W r)); auto. intros k Hk.
    apply (sumn_zero_inv M (W r)); auto.
Qed.
Lemma vr_core : (be = Array -> exists n, s = n :: nil) ->
  returns (match be with Numba => gu_svsv out_lazy vrcrps_nrg_k obs f' ow fw | Array => vr_ensemble_arr obs f' ow fw end) s
    (fun r => Fin (vrv M (fun _ => / INR M) (W r) (a r) (y r) (X r))).
Proof.
  intros Hs. eapply returns_is. destruct be.
  - destruct (Hs eq_refl) as (n & E'). rewrite E' in *.
    eapply ten_conv; [eapply vr_arr; eassumption|reflexivity|]. intros r Hr. cbv beta. cbn [hd tl].
    now apply row_vr_real.
  - eapply ten_conv; [eapply (gu_svsv_is out_lazy (fun d => d)); [apply outs_lazy|eassumption..]|now apply Hd|]. intros r Hr. cbv beta.
    rewrite (Hd eq_refl). cbn [ncast hd tl]. now apply vr_k_real.
Qed.
Variables (w' : arr) (E : list nat -> nat -> R).
Hypothesis Hw' : arr_is w' DFloat (M :: s) (fun i => Fin (E (tl i) (hd 0%nat i))).
Hypothesis HE0 : forall r k, inb s r -> (k < M)%nat -> 0 <= E r k.
Lemma ow_w_core : returns (match be with Numba => gu_svsvv out_lazy owcrps_nrg_w_k obs f' ow fw w' | Array => ow_ensemble_w_arr obs f' ow fw w' end) s
  (fun r => owv M (fun k => E r k * W r k) (a r) (y r) (X r)).
Proof.
  eapply returns_is. destruct be.
  - eapply ten_conv; [eapply ow_w_arr; eassumption|reflexivity|]. intros r Hr. cbv beta. cbn [hd tl]. unfold owv.
    destruct (Req_EM_T _ _) as [Z|Z]; [|now apply row_ow_w_real].
    apply (row_ow_w_zero M _ _ _ _ (y r) (a r) (X r) (W r)) with (e := E r); auto. intros k Hk.
    apply (sumn_zero_inv M (fun k => E r k * W r k)); auto. intros; apply Rmult_le_pos; auto.
  - eapply ten_conv; [eapply (gu_svsvv_is out_lazy (fun d => d)); [apply outs_lazy|eassumption..]|now apply Hd|].
    intros r Hr. cbv beta. rewrite (Hd eq_refl). cbn [ncast hd tl]. unfold owv.
    destruct (Req_EM_T _ _) as [Z|Z]; [|now apply ow_w_k_real].
    apply (ow_w_k_zero M _ _ _ _ (y r) (a r) (X r) (W r)) with (e := E r); auto. intros k Hk.
    apply (sumn_zero_inv M (fun k => E r k * W r k)); auto. intros; apply Rmult_le_pos; auto.
Qed.
Lemma vr_w_core : returns (match be with Numba => gu_svsvv out_lazy vrcrps_nrg_w_k obs f' ow fw w' | Array => vr_ensemble_w_arr obs f' ow fw w' end) s
  (fun r => Fin (vrv M (E r) (W r) (a r) (y r) (X r))).
Proof.
  eapply returns_is. destruct be.
  - eapply ten_conv; [eapply vr_w_arr; eassumption|reflexivity|]. intros r Hr. cbv beta. cbn [hd tl]. now apply row_vr_w_real.
  - eapply ten_conv; [eapply (gu_svsvv_is out_lazy (fun d => d)); [apply outs_lazy|eassumption..]|now apply Hd|]. intros r Hr. cbv beta.
    rewrite (Hd eq_refl). cbn [ncast hd tl]. now apply vr_w_k_real.
Qed.
End Core.

Lemma weighting_wg a b wf g : weighting a b wf g -> (forall t, wg a b wf (Fin t) = Fin (g t)) /\ wdt wf = DFloat.
Proof.
  destruct wf as [[d f]|]; cbn [weighting wg wdt]; [intros [-> H]; auto|]. intros H. split; auto. intros t. destruct (H t) as [H1 H2].
  assert (D : (nleb a (Fin t) && nleb (Fin t) b)%bool = true <-> below a t /\ above b t).
  { rewrite Bool.andb_true_iff. unfold below, above. destruct a, b; cbn [nleb]; rewrite ?rleb_true; intuition discriminate. }
  transitivity (b2n (nleb a (Fin t) && nleb (Fin t) b)).
  - destruct (nleb a (Fin t)), (nleb (Fin t) b); unfold b2n, andb, nmul, n0, n1; f_equal; lra.
  - destruct (nleb a (Fin t) && nleb (Fin t) b)%bool; [rewrite H1 by (now apply D); reflexivity|].
    rewrite H2 by (intros K; apply D in K; discriminate). reflexivity.
Qed.
Section Values.
Variables (be : impl) (obs fct : arr) (a b : num) (ax : Z) (s : list nat) (p M : nat) (y x : list nat -> R).
Variable wf : option (dtype * (num -> num)).
Variable g : R -> R.
Hypothesis Ha : ens_args obs fct ax s p M y x.
Hypothesis HM : (0 < M)%nat.
Hypothesis Hd : be = Numba -> dt obs = DFloat.
Hypothesis Hg : weighting a b wf g.
Hypothesis Hg0 : forall t, 0 <= g t.
Let gx r k := g (member p x r k).
Lemma val_inputs : inputs obs fct ax (dt obs) (dt fct) s p M (fun r => Fin (y r)) (fun i => Fin (x i)).
Proof. apply nums_inputs, args_nums, Ha. Qed.
Lemma val_wnn : wnn a b s p M (fun r => Fin (y r)) (fun i => Fin (x i)) wf.
Proof. destruct (weighting_wg _ _ _ _ Hg) as [G _]. split; intros; rewrite G; simpl; apply rltb_false; apply Hg0. Qed.
Lemma val_un pol : In pol ["propagate"; "raise"]%string -> exists f' ow fw, wcrps_prepare obs fct a b ax None wf pol = Ok (obs, f', ow, fw, None) /\
  arr_is f' (dt fct) (M :: s) (fun i => Fin (member p x (tl i) (hd 0%nat i))) /\
  arr_is ow DFloat s (fun r => Fin (g (y r))) /\ arr_is fw DFloat (M :: s) (fun i => Fin (gx (tl i) (hd 0%nat i))).
Proof.
  intros Hp. destruct (weighting_wg _ _ _ _ Hg) as [G D].
  destruct (prep_un obs fct a b ax _ _ s p M _ _ wf val_inputs val_wnn) as (f' & ow & fw & E & Hf & Ho & Hfw). rewrite D in *.
  exists f', ow, fw. split; [|split; [exact Hf|split; [eapply arr_is_ext; [exact Ho|]; intros; apply G|
    eapply arr_is_ext; [exact Hfw|]; intros; cbv beta; idx; cbn [hd tl]; apply G]]].
  destruct Hp as [<-|[<-|[]]]; [exact E|]. rewrite <- E. apply (prep_raise_ok obs fct a b ax _ _ s p M _ _ wf val_inputs val_wnn).
  - intros. split; [discriminate|rewrite G; discriminate].
  - intros. split; [discriminate|rewrite G; discriminate].
Qed.
Lemma ow_un pol : In pol ["propagate"; "raise"]%string ->
  returns (owcrps_ensemble be obs fct a b ax None wf pol) s (fun r => owv M (gx r) (g (y r)) (y r) (member p x r)).
Proof.
  intros Hp. destruct (val_un pol Hp) as (f' & ow & fw & E & Hf & Ho & Hfw).
  unfold owcrps_ensemble. rewrite E. cbn [bind]. pose proof val_inputs as (H1 & _).
  eapply ow_core; try eassumption. intros; apply Hg0.
Qed.
Lemma vr_un pol : In pol ["propagate"; "raise"]%string -> (be = Array -> exists n, s = n :: nil) ->
  returns (vrcrps_ensemble be obs fct a b ax None wf pol) s
    (fun r => Fin (vrv M (fun _ => / INR M) (gx r) (g (y r)) (y r) (member p x r))).
Proof.
  intros Hp Hs. destruct (val_un pol Hp) as (f' & ow & fw & E & Hf & Ho & Hfw).
  unfold vrcrps_ensemble. rewrite E. cbn [bind]. pose proof val_inputs as (H1 & _).
  eapply (vr_core be obs f' ow fw _ _ s M y (fun r => g (y r)) (member p x) gx); try eassumption; intros; apply Hg0.
Qed.
Section W.
Variables (wt : arr) (w : list nat -> R).
Hypothesis Hw : wts_args wt fct s p M w.
Lemma val_w : exists f' ow fw w', wcrps_prepare obs fct a b ax (Some wt) wf "propagate" = Ok (obs, f', ow, fw, Some w') /\
  arr_is f' (dt fct) (M :: s) (fun i => Fin (member p x (tl i) (hd 0%nat i))) /\
  arr_is ow DFloat s (fun r => Fin (g (y r))) /\ arr_is fw DFloat (M :: s) (fun i => Fin (gx (tl i) (hd 0%nat i))) /\
  arr_is w' DFloat (M :: s) (fun i => Fin (nw M (member p w (tl i)) (hd 0%nat i))).
Proof.
  destruct (weighting_wg _ _ _ _ Hg) as [G D].
  destruct Hw as ((W1 & W2) & W3 & W4 & W5). pose proof Ha as (_ & _ & Hp & _).
  destruct (prep_w obs fct a b ax _ _ s p M _ _ wf val_inputs val_wnn wt (dt wt) (fun i => Fin (w i))) as (f' & ow & fw & w' & E & Hf & Ho & Hfw & Hw').
  - repeat split; auto.
  - intros r k Hr Hk. rewrite D, W3. cbn [ncast]. simpl. apply rltb_false. now apply W4.
  - rewrite D in *. exists f', ow, fw, w'. split; auto. split; [exact Hf|].
    split; [eapply arr_is_ext; [exact Ho|]; intros; apply G|].
    split; [eapply arr_is_ext; [exact Hfw|]; intros; cbv beta; idx; cbn [hd tl]; apply G|].
    eapply arr_is_ext; [exact Hw'|]. intros i Hi. idx. cbn [hd tl]. rewrite W3. cbn [ncast].
    apply (normn_real M _ (member p w r)); auto. specialize (W5 r Hr). lra.
Qed.
Lemma nw_pos_w r k : inb s r -> (k < M)%nat -> 0 <= nw M (member p w r) k.
Proof. intros Hr Hk. destruct Hw as (_ & _ & W4 & W5). apply nw_nonneg; auto. Qed.
Lemma ow_w : returns (owcrps_ensemble be obs fct a b ax (Some wt) wf "propagate") s
    (fun r => owv M (fun k => nw M (member p w r) k * gx r k) (g (y r)) (y r) (member p x r)).
Proof.
  destruct val_w as (f' & ow & fw & w' & E & Hf & Ho & Hfw & Hw').
  unfold owcrps_ensemble. rewrite E. cbn [bind]. pose proof val_inputs as (H1 & _).
  eapply (ow_w_core be obs f' ow fw _ _ s M y (fun r => g (y r)) (member p x) gx) with (E := fun r => nw M (member p w r)); try eassumption.
  - intros; apply Hg0.
  - intros; now apply nw_pos_w.
Qed.
Lemma vr_w : returns (vrcrps_ensemble be obs fct a b ax (Some wt) wf "propagate") s
    (fun r => Fin (vrv M (nw M (member p w r)) (gx r) (g (y r)) (y r) (member p x r))).
Proof.
  destruct val_w as (f' & ow & fw & w' & E & Hf & Ho & Hfw & Hw').
  unfold vrcrps_ensemble. rewrite E. cbn [bind]. pose proof val_inputs as (H1 & _).
  eapply (vr_w_core be obs f' ow fw _ _ s M y (fun r => g (y r)) (member p x) gx) with (E := fun r => nw M (member p w r)); try eassumption.
Qed.
End W.
End Values.

(** ** omit *)
(** the value of a member, 0 if NaN; the weight of a member, 0 if NaN; 1 unless NaN *)
Definition rv (v : num) : R := match v with Fin t => t | _ => 0 end.
Definition gv (g : R -> R) (v : num) : R := match v with Fin t => g t | _ => 0 end.
Definition here (v : num) : R := match v with Fin _ => 1 | _ => 0 end.
Section Omit.
Variables (be : impl) (obs fct : arr) (a b : num) (ax : Z) (s : list nat) (p M : nat) (y : list nat -> R) (x : list nat -> num).
Variable wf : option (dtype * (num -> num)).
Variable g : R -> R.
Hypothesis Ha : ens_nums obs fct ax s p M (fun r => Fin (y r)) x.
Hypothesis HM : (0 < M)%nat.
Hypothesis Hd : be = Numba -> dt obs = DFloat.
Hypothesis Hg : weighting a b wf g.
Hypothesis Hg0 : forall t, 0 <= g t.
Hypothesis Hgn : forall d f, wf = Some (d, f) -> f NaN = NaN.
Hypothesis Hx : forall r k, inb s r -> (k < M)%nat -> fin_or_nan (member p x r k).
Let xr := member p x.
Lemma wg_nan : wg a b wf NaN = NaN \/ wg a b wf NaN = Fin 0.
Proof.
  destruct wf as [[d f]|]; simpl; [left; now apply (Hgn d)|right].
  destruct a, b; simpl; f_equal; ring.
Qed.
Lemma omit_core : exists f' ow fw w', wcrps_prepare obs fct a b ax None wf "omit" = (let* w2 := univariate_weight_check w' f' ax in Ok (obs, f', ow, fw, Some w2)) /\
  arr_is f' DFloat (M :: s) (fun i => Fin (rv (xr (tl i) (hd 0%nat i)))) /\
  arr_is ow DFloat s (fun r => Fin (g (y r))) /\
  arr_is fw DFloat (M :: s) (fun i => Fin (gv g (xr (tl i) (hd 0%nat i)))) /\
  arr_is w' DFloat (M :: s) (fun i => Fin (here (xr (tl i) (hd 0%nat i)))).
Proof.
  destruct (weighting_wg _ _ _ _ Hg) as [G D].
  pose proof (nums_inputs _ _ _ _ _ _ _ _ Ha) as Hin.
  destruct (prep_omit_any obs fct a b ax _ _ s p M _ x wf (fun i => x (insert_at p (hd 0%nat i) (tl i))) Hin) as (f' & ow & fw & w' & E & Hf & Ho & Hfw & Hw); auto.
  { split; intros; [rewrite G; simpl; apply rltb_false, Hg0|].
    destruct (Hx r k H H0) as [N|(t & N)]; unfold member in N; rewrite N.
    - destruct wg_nan as [->| ->]; auto. apply rltb_false; lra.
    - rewrite G. apply rltb_false, Hg0. }
  exists f', ow, fw, w'. split; auto.
  repeat split; try apply Hf; try apply Ho; try apply Hfw; try apply Hw; intros i Hi; cbv beta.
  - destruct Hf as (_ & _ & A). rewrite A by auto. idx. cbn [hd tl].
    destruct (Hx r k Hr Hk) as [N|(t & N)]; unfold xr; unfold member in *; rewrite N; reflexivity.
  - destruct Ho as (_ & _ & A). rewrite A by auto. apply G.
  - destruct Hfw as (_ & _ & A). rewrite A by auto. idx. cbn [hd tl].
    destruct (Hx r k Hr Hk) as [N|(t & N)]; unfold xr; unfold member in *; rewrite N; [|now rewrite G].
    destruct wg_nan as [->| ->]; reflexivity.
  - destruct Hw as (_ & _ & A). rewrite A by auto. idx. cbn [hd tl].
    destruct (Hx r k Hr Hk) as [N|(t & N)]; unfold xr; unfold member in *; rewrite N; [|now rewrite G].
    destruct wg_nan as [->| ->]; reflexivity.
Qed.
End Omit.

Lemma owv_covers M q a y x keep Q X : covers M q keep ->
  (forall j, (j < length keep)%nat -> Q j = q (nth j keep O)) -> (forall j, (j < length keep)%nat -> X j = x (nth j keep O)) ->
  owv M q a y x = owv (length keep) Q a y X.
Proof.
  intros Hc HQ HX. unfold owv. rewrite (sum_covers1 M q keep Hc).
  rewrite (sumn_ext (length keep) (kept q keep) Q) by (intros; symmetry; now apply HQ).
  destruct (Req_EM_T _ _); auto. do 2 f_equal.
  pose proof (real_w_covers Array Nrg M (nw M q) keep y x (covers_nw M q keep Hc) ltac:(discriminate) ltac:(discriminate)) as RW.
  cbn [real_w] in RW. rewrite RW. clear RW. unfold wexact_crps, wmae, wpairsum.
  assert (N : forall j, (j < length keep)%nat -> kept (nw M q) keep j = nw (length keep) Q j).
  { intros j Hj. rewrite nw_kept by auto. unfold nw.
    rewrite (sumn_ext (length keep) (kept q keep) Q) by (intros; symmetry; now apply HQ). unfold kept. now rewrite HQ. }
  f_equal; [|f_equal]; apply sumn_ext; intros i Hi; [|apply sumn_ext; intros j Hj]; rewrite !N, !HX by auto; reflexivity.
Qed.
Lemma owv_scale M q c a y x : c <> 0 -> owv M (fun k => c * q k) a y x = owv M q a y x.
Proof.
  intros Hc. unfold owv. rewrite sumn_scal.
  destruct (Req_EM_T (sumn M q) 0) as [Z|Z], (Req_EM_T (c * sumn M q) 0) as [Z'|Z']; auto.
  - exfalso. apply Z'. rewrite Z. ring.
  - exfalso. apply Rmult_integral in Z' as [|]; auto.
  - do 2 f_equal. unfold wexact_crps, wmae, wpairsum.
    assert (N : forall j, nw M (fun k => c * q k) j = nw M q j).
    { intros j. unfold nw. rewrite sumn_scal. field. auto. }
    f_equal; [|f_equal]; apply sumn_ext; intros i Hi; [|apply sumn_ext; intros j Hj]; rewrite !N; reflexivity.
Qed.
Lemma owv_ext M q q' a y x : (forall k, (k < M)%nat -> q k = q' k) -> owv M q a y x = owv M q' a y x.
Proof.
  intros H. unfold owv. rewrite (sumn_ext M q q') by auto. destruct (Req_EM_T _ _); auto. do 2 f_equal.
  unfold wexact_crps, wmae, wpairsum, nw. rewrite (sumn_ext M q q') by auto.
  f_equal; [|f_equal]; apply sumn_ext; intros i Hi; [|apply sumn_ext; intros j Hj]; rewrite !H by auto; reflexivity.
Qed.
Lemma vrv_covers M p w a y x keep P W X : covers M (fun k => p k * w k) keep ->
  (forall j, (j < length keep)%nat -> P j * W j = p (nth j keep O) * w (nth j keep O)) ->
  (forall j, (j < length keep)%nat -> X j = x (nth j keep O)) ->
  vrv M p w a y x = vrv (length keep) P W a y X.
Proof.
  intros Hc HQ HX. unfold vrv.
  rewrite (sum_covers M _ keep (fun i => Rabs (x i - y)) Hc), (sum_covers M _ keep (fun i => Rabs (x i)) Hc), (sum_covers1 M _ keep Hc).
  unfold wpairsum. rewrite (sum2_covers M _ keep (fun i j => Rabs (x i - x j)) Hc). unfold kept.
  apply f_equal2; [apply f_equal2; [apply f_equal|apply f_equal]|apply f_equal2; [apply (f_equal (fun z => z - _))|apply (f_equal (fun z => z - _))]]; apply sumn_ext; intros i Hi;
    try (apply sumn_ext; intros j Hj); rewrite ?HQ, ?HX by auto; reflexivity.
Qed.
Lemma row_ow_w_NaN M yn xn an wn en k : (k < M)%nat -> en k = NaN -> row_ow_w M yn xn an wn en = NaN.
Proof.
  intros Hk E. unfold row_ow_w, e1own. rewrite (nsumn_NaN M _ k Hk); [now autorewrite with nan|]. cbv beta. rewrite E. now autorewrite with nan.
Qed.
Lemma row_vr_w_NaN M yn xn an wn en k : (k < M)%nat -> en k = NaN -> row_vr_w M yn xn an wn en = NaN.
Proof.
  intros Hk E. unfold row_vr_w, e1own. rewrite (nsumn_NaN M _ k Hk); [now autorewrite with nan|]. cbv beta. rewrite E. now autorewrite with nan.
Qed.
Lemma ow_w_k_NaN M yn xn an wn en k : (k < M)%nat -> en k = NaN -> owcrps_nrg_w_k yn (rw M xn) an (rw M wn) (rw M en) = NaN.
Proof.
  intros Hk E. unfold owcrps_nrg_w_k. rewrite rw_length. destruct (nisnan yn); auto.
  rewrite (fold_pairs M (fun i => ith (rw M en) i .* nabs (ith (rw M xn) i .- yn) .* ith (rw M wn) i .* an)
     (fun i j => n2 .* ith (rw M en) i .* ith (rw M en) j .* nabs (ith (rw M xn) i .- ith (rw M xn) j) .* ith (rw M wn) i .* ith (rw M wn) j .* an)).
  rewrite (nsumn_NaN M _ k Hk); [now autorewrite with nan|]. cbv beta. rewrite !rw_ith by auto. rewrite E. now autorewrite with nan.
Qed.
Lemma vr_w_k_NaN M yn xn an wn en k : (k < M)%nat -> en k = NaN -> vrcrps_nrg_w_k yn (rw M xn) an (rw M wn) (rw M en) = NaN.
Proof.
  intros Hk E. unfold vrcrps_nrg_w_k. rewrite rw_length. destruct (nisnan yn); auto.
  rewrite (fold_pairs M (fun i => ith (rw M en) i .* nabs (ith (rw M xn) i .- yn) .* ith (rw M wn) i .* an)
     (fun i j => n2 .* ith (rw M en) i .* ith (rw M en) j .* nabs (ith (rw M xn) i .- ith (rw M xn) j) .* ith (rw M wn) i .* ith (rw M wn) j)).
  rewrite (nsumn_NaN M _ k Hk); [now autorewrite with nan|]. cbv beta. rewrite !rw_ith by auto. rewrite E. now autorewrite with nan.
Qed.
Lemma normn_zero M w k : (forall k, (k < M)%nat -> w k = Fin 0) -> (k < M)%nat -> normn M w k = NaN.
Proof.
  intros H Hk. unfold normn. rewrite (nsumn_Fin M w (fun _ => 0) H), H by auto. rewrite sumn_zero. apply ndiv_0.
Qed.
Section OmitLast.
Variables (be : impl) (obs fct : arr) (a b : num) (ax : Z) (s : list nat) (M : nat) (y : list nat -> R) (x : list nat -> num).
Variable wf : option (dtype * (num -> num)).
Variable g : R -> R.
Hypothesis Ha : ens_nums obs fct ax s 0 M (fun r => Fin (y r)) x.
Hypothesis HM : (0 < M)%nat.
Hypothesis Hd : be = Numba -> dt obs = DFloat.
Hypothesis Hg : weighting a b wf g.
Hypothesis Hg0 : forall t, 0 <= g t.
Hypothesis Hgn : forall d f, wf = Some (d, f) -> f NaN = NaN.
Hypothesis Hx : forall r k, inb s r -> (k < M)%nat -> fin_or_nan (member 0 x r k).
Let hr r k := here (member 0 x r k).
Let pick r (v : num) : num := if Rlt_dec 0 (sumn M (hr r)) then v else NaN.
Lemma here_nonneg v : 0 <= here v. Proof. destruct v; simpl; lra. Qed.
Lemma omit_last : exists f' ow fw w', wcrps_prepare obs fct a b ax None wf "omit" = Ok (obs, f', ow, fw, Some w') /\
  arr_is f' DFloat (M :: s) (fun i => Fin (rv (member 0 x (tl i) (hd 0%nat i)))) /\
  arr_is ow DFloat s (fun r => Fin (g (y r))) /\
  arr_is fw DFloat (M :: s) (fun i => Fin (gv g (member 0 x (tl i) (hd 0%nat i)))) /\
  arr_is w' DFloat (M :: s) (fun i => normn M (fun k => Fin (hr (tl i) k)) (hd 0%nat i)).
Proof.
  destruct (omit_core obs fct a b ax s 0 M y x wf g Ha Hg Hg0 Hgn Hx) as (f' & ow & fw & w1 & E & Hf & Ho & Hfw & Hw).
  pose proof (nums_inputs _ _ _ _ _ _ _ _ Ha) as (_ & _ & _ & Hax).
  assert (Hw3' : arr_is w1 DFloat (insert_at 0 M s) (fun i => Fin (hr (tl i) (hd 0%nat i)))) by (destruct s; exact Hw).
  destruct (weight_check_ok w1 f' DFloat s DFloat M (fun i => normn M (fun k => Fin (hr (tl i) k)) (hd 0%nat i)) _ ax 0 ltac:(apply Hf) Hw3' (Nat.le_0_l _) Hax) as (w' & Ew' & Hw'); [|reflexivity| |].
  - intros i Hi. apply rltb_false, here_nonneg.
  - reflexivity.
  - exists f', ow, fw, w'. rewrite E. unfold tensor in *. rewrite Ew'. auto.
Qed.
Lemma row_w_cases r : inb s r -> (0 < sumn M (hr r) /\ forall k, (k < M)%nat -> normn M (fun k => Fin (hr r k)) k = Fin (nw M (hr r) k)) \/
  (~ 0 < sumn M (hr r) /\ normn M (fun k => Fin (hr r k)) 0%nat = NaN).
Proof.
  intros Hr. destruct (Rlt_dec 0 (sumn M (hr r))) as [P|P]; [left|right]; split; auto.
  - intros k Hk. apply (normn_real M _ (hr r)); auto. lra.
  - apply normn_zero; auto. intros k Hk. f_equal.
    apply (sumn_zero_inv M (hr r)); auto; [intros; apply here_nonneg|].
    pose proof (sumn_nonneg M (hr r) ltac:(intros; apply here_nonneg)). lra.
Qed.
Lemma gv_nonneg v : 0 <= gv g v. Proof. destruct v; simpl; auto; lra. Qed.
Lemma ow_omit_last : returns (owcrps_ensemble be obs fct a b ax None wf "omit") s
  (fun r => pick r (owv M (fun k => gv g (member 0 x r k)) (g (y r)) (y r) (fun k => rv (member 0 x r k)))).
Proof.
  destruct omit_last as (f' & ow & fw & w' & E & Hf & Ho & Hfw & Hw').
  unfold owcrps_ensemble. rewrite E. cbn [bind]. pose proof (nums_inputs _ _ _ _ _ _ _ _ Ha) as (H1 & _).
  assert (K : forall r, inb s r -> 0 < sumn M (hr r) ->
     owv M (fun k => gv g (member 0 x r k)) (g (y r)) (y r) (fun k => rv (member 0 x r k)) =
     owv M (fun k => nw M (hr r) k * gv g (member 0 x r k)) (g (y r)) (y r) (fun k => rv (member 0 x r k))).
  { intros r Hr P. rewrite <- (owv_scale M _ (/ sumn M (hr r))) by (apply Rinv_neq_0_compat; lra).
    apply owv_ext. intros k Hk. unfold nw, hr. destruct (member 0 x r k); simpl; unfold Rdiv; ring. }
  eapply returns_is. unfold pick. destruct be.
  - eapply ten_conv; [eapply ow_w_arr; eassumption|reflexivity|]. intros r Hr. cbv beta. cbn [hd tl].
    destruct (row_w_cases r Hr) as [(P & N)|(P & N)]; destruct (Rlt_dec 0 (sumn M (hr r))); try easy; [|now apply (row_ow_w_NaN M _ _ _ _ _ 0%nat)].
    rewrite K by auto. unfold owv. destruct (Req_EM_T _ _) as [Z|Z].
    + apply (row_ow_w_zero M _ _ _ _ (y r) (g (y r)) (fun k => rv (member 0 x r k)) (fun k => gv g (member 0 x r k))) with (e := nw M (hr r)); auto.
      intros k Hk. apply (sumn_zero_inv M (fun k => nw M (hr r) k * gv g (member 0 x r k))); auto.
      intros; apply Rmult_le_pos; [apply nw_nonneg; auto; intros; apply here_nonneg|apply gv_nonneg].
    + apply (row_ow_w_real M _ _ _ _ (y r) (g (y r)) (fun k => rv (member 0 x r k)) (fun k => gv g (member 0 x r k))) with (e := nw M (hr r)); auto.
  - eapply ten_conv; [eapply (gu_svsvv_is out_lazy (fun d => d)); [apply outs_lazy|eassumption..]|now apply Hd|].
    intros r Hr. cbv beta. rewrite (Hd eq_refl). cbn [ncast hd tl].
    destruct (row_w_cases r Hr) as [(P & N)|(P & N)]; destruct (Rlt_dec 0 (sumn M (hr r))); try easy; [|now apply (ow_w_k_NaN M _ _ _ _ _ 0%nat)].
    rewrite K by auto. unfold owv. destruct (Req_EM_T _ _) as [Z|Z].
    + apply (ow_w_k_zero M _ _ _ _ (y r) (g (y r)) (fun k => rv (member 0 x r k)) (fun k => gv g (member 0 x r k))) with (e := nw M (hr r)); auto.
      intros k Hk. apply (sumn_zero_inv M (fun k => nw M (hr r) k * gv g (member 0 x r k))); auto.
      intros; apply Rmult_le_pos; [apply nw_nonneg; auto; intros; apply here_nonneg|apply gv_nonneg].
    + apply (ow_w_k_real M _ _ _ _ (y r) (g (y r)) (fun k => rv (member 0 x r k)) (fun k => gv g (member 0 x r k))) with (e := nw M (hr r)); auto.
Qed.
Lemma vr_omit_last : returns (vrcrps_ensemble be obs fct a b ax None wf "omit") s
  (fun r => pick r (Fin (vrv M (nw M (hr r)) (fun k => gv g (member 0 x r k)) (g (y r)) (y r) (fun k => rv (member 0 x r k))))).
Proof.
  destruct omit_last as (f' & ow & fw & w' & E & Hf & Ho & Hfw & Hw').
  unfold vrcrps_ensemble. rewrite E. cbn [bind]. pose proof (nums_inputs _ _ _ _ _ _ _ _ Ha) as (H1 & _).
  eapply returns_is. unfold pick. destruct be.
  - eapply ten_conv; [eapply vr_w_arr; eassumption|reflexivity|]. intros r Hr. cbv beta. cbn [hd tl].
    destruct (row_w_cases r Hr) as [(P & N)|(P & N)]; destruct (Rlt_dec 0 (sumn M (hr r))); try easy; [|now apply (row_vr_w_NaN M _ _ _ _ _ 0%nat)].
    apply (row_vr_w_real M _ _ _ _ (y r) (g (y r)) (fun k => rv (member 0 x r k)) (fun k => gv g (member 0 x r k))) with (e := nw M (hr r)); auto.
  - eapply ten_conv; [eapply (gu_svsvv_is out_lazy (fun d => d)); [apply outs_lazy|eassumption..]|now apply Hd|].
    intros r Hr. cbv beta. rewrite (Hd eq_refl). cbn [ncast hd tl].
    destruct (row_w_cases r Hr) as [(P & N)|(P & N)]; destruct (Rlt_dec 0 (sumn M (hr r))); try easy; [|now apply (vr_w_k_NaN M _ _ _ _ _ 0%nat)].
    apply (vr_w_k_real M _ _ _ _ (y r) (g (y r)) (fun k => rv (member 0 x r k)) (fun k => gv g (member 0 x r k))) with (e := nw M (hr r)); auto.
Qed.
End OmitLast.

(** ** ranks of the array implementation of vrcrps *)
Lemma val_obs obs fct ax s p M y x : ens_args obs fct ax s p M y x -> arr_is obs (dt obs) s (fun r => Fin (y r)).
Proof. intros ((H1 & H2) & _). repeat split; auto. Qed.
Definition row_vr3 (M : nat) (y : num) (x : nat -> num) (a : num) (w w' : nat -> num) : num :=
  e1wn M y x w .* a ./ nofnat M
  .- Fin half .* (nsumn M (fun i => nsumn M (fun j => nabs (x i .- x j) .* (w i .* w j))) ./ nofnat (M * M))
  .+ (nsumn M (fun k => nabs (x k) .* w k) ./ nofnat M .- nabs y .* a) .* (nsumn M w' ./ nofnat M .- a).
Lemma ten_mean_axis1_3 x d m n l g : ten_is x d [m; n; l]%nat g ->
  ten_is (amean_axis 1 x) DFloat [m; l]%nat (fun r => nsumn n (fun k => g (hd 0%nat r :: k :: tl r)) ./ nofnat n).
Proof.
  intros H. unfold amean_axis. eapply ten_ext.
  - eapply ten_mean. eapply (ten_move_last 1 x d 1 n [m; l]%nat); [exact H| simpl; lia | reflexivity].
  - intros i Hi. destruct i as [|i1 i]; [easy|]. reflexivity.
Qed.
Lemma vr_arr3 : forall obs fct ow fw d1 d2 d3 y x a w, arr_is obs d1 [2; 1]%nat y -> arr_is fct d2 [2; 2; 1]%nat x ->
  arr_is ow d3 [2; 1]%nat a -> arr_is fw DFloat [2; 2; 1]%nat w ->
  ten_is (vr_ensemble_arr obs fct ow fw) DFloat [2; 1]%nat
    (fun r => row_vr3 2 (y r) (fun k => x (k :: r)) (a r) (fun k => w (k :: r)) (fun k => w (hd 0%nat r :: k :: tl r))).
Proof.
  intros. unfold vr_ensemble_arr, lastdim. pose proof H0 as (_ & E & _). rewrite E; cbn [hd].
  eapply ten_conv; [repeat first [eapply ten_mean_axis1_3 | ten1] | solve [dts] | ].
  intros r Hr. idx. assert (k0 = 0%nat) as -> by lia. reflexivity.
Qed.
Lemma vr_arr1 : forall obs fct ow fw d1 d2 d3 M y x a w, arr_is obs d1 [] y -> arr_is fct d2 (M :: nil) x ->
  arr_is ow d3 [] a -> arr_is fw DFloat (M :: nil) w ->
  vr_ensemble_arr obs fct ow fw = Err AxisError.
Proof.
  intros * H1 H2 H3 H4. unfold vr_ensemble_arr. 
  assert (E : amean_axis 1 (Ok fw) = Err AxisError).
  { unfold amean_axis, amove_last. destruct H4 as (_ & Hs & _). cbn [bind]. rewrite Hs. reflexivity. }
  rewrite E. 
  match goal with |- context [ainplace nmul ?e _] => 
    assert (exists u, e = Ok u) as (u & ->) end.
  { match goal with |- exists u, ?e = Ok u => assert (T : exists f, ten_is e DFloat [] f) end.
    { eexists. eapply ten_conv; [ten|dts|reflexivity]. }
    destruct T as (f & t & T & _). exists t. exact T. }
  match goal with |- (?e + _)%A = _ => assert (exists u, e = Ok u) as (v & ->) end.
  { match goal with |- exists u, ?e = Ok u => assert (T : exists f, ten_is e DFloat [] f) end.
    { eexists. eapply ten_conv; [ten|dts|reflexivity]. }
    destruct T as (f & t & T & _). exists t. exact T. }
  reflexivity.
Qed.
