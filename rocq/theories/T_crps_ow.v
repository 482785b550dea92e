(** Proofs of the outcome-weighted and vertically re-scaled CRPS properties (statements in P_crps_ow.v). *)
From Coq Require Import FunctionalExtensionality.
From Verif Require Export T_crps_tw L_ow_api.
Open Scope R_scope.
Lemma weighting_one a b wf : weighting a b wf (fun _ => 1) -> forall t, 0 <= (fun _ : R => 1) t.
Proof. intros; lra. Qed.
Lemma owv_crps M q a y x : (forall k, (k < M)%nat -> 0 <= q k) ->
  (0 < sumn M q -> exists u, is_crps (wcdf M q x) y u /\ owv M q a y x = Fin (a * u)) /\
  (sumn M q = 0 -> owv M q a y x = NaN).
Proof.
  intros Hq. unfold owv. destruct (Req_EM_T _ _); split; intros; try lra; auto.
  exists (wexact_crps M (nw M q) y x). split; auto. now apply is_crps_wcdf.
Qed.
Lemma wcdf_prop M q q' c x t : c <> 0 -> (forall k, (k < M)%nat -> q' k = c * q k) -> wcdf M q' x t = wcdf M q x t.
Proof.
  intros Hc H. unfold wcdf. rewrite (sumn_ext M q' (fun k => c * q k)) by auto.
  rewrite (sumn_ext M (fun i => q' i * ind_le (x i) t) (fun i => c * (q i * ind_le (x i) t))) by (intros; rewrite H by auto; ring).
  rewrite !sumn_scal. unfold Rdiv. destruct (Req_dec (sumn M q) 0) as [E|E]; [|field; auto].
  rewrite E, Rmult_0_r, Rinv_0. ring.
Qed.
Lemma is_crps_ext F G y v : (forall t, F t = G t) -> is_crps F y v -> is_crps G y v.
Proof. intros H. replace G with F; auto. now apply functional_extensionality. Qed.
Lemma nw_g M w (h : nat -> R) k : nw M w k * h k = / sumn M w * (w k * h k).
Proof. unfold nw, Rdiv. ring. Qed.
Lemma names_propagate : In "propagate"%string ["propagate"; "raise"]%string. Proof. now left. Qed.
Lemma C20_value_l :
  forall be obs fct a b ax s p M y x wf g pol,
  ens_args obs fct ax s p M y x -> (0 < M)%nat -> (be = Numba -> dt obs = DFloat) ->
  weighting a b wf g -> (forall t, 0 <= g t) -> In pol ["propagate"; "raise"]%string ->
  exists v, returns (owcrps_ensemble be obs fct a b ax None wf pol) s v /\
    forall r, inb s r -> let q k := g (member p x r k) in
      (0 < sumn M q -> exists u, is_crps (wcdf M q (member p x r)) (y r) u /\ v r = Fin (g (y r) * u)) /\
      (sumn M q = 0 -> v r = NaN).
Proof.
  intros be obs fct a b ax s p M y x wf g pol Ha HM Hd Hg Hg0 Hp.
  eexists; split; [apply (ow_un be obs fct a b ax s p M y x wf g Ha HM Hd Hg Hg0 pol Hp)|].
  intros r Hr q. cbv beta. apply owv_crps. intros; apply Hg0.
Qed.
Lemma C20_value_weighted_l :
  forall be obs fct wt a b ax s p M y x w wf g,
  ens_args obs fct ax s p M y x -> (0 < M)%nat -> (be = Numba -> dt obs = DFloat) -> wts_args wt fct s p M w ->
  weighting a b wf g -> (forall t, 0 <= g t) ->
  exists v, returns (owcrps_ensemble be obs fct a b ax (Some wt) wf "propagate") s v /\
    forall r, inb s r -> let q k := member p w r k * g (member p x r k) in
      (0 < sumn M q -> exists u, is_crps (wcdf M q (member p x r)) (y r) u /\ v r = Fin (g (y r) * u)) /\
      (sumn M q = 0 -> v r = NaN).
Proof.
  intros be obs fct wt a b ax s p M y x w wf g Ha HM Hd Hw Hg Hg0.
  eexists; split; [apply (ow_w be obs fct a b ax s p M y x wf g Ha HM Hd Hg Hg0 wt w Hw)|].
  intros r Hr q. cbv beta. pose proof Hw as (_ & _ & W4 & W5). specialize (W5 r Hr).
  assert (Q0 : forall k, (k < M)%nat -> 0 <= q k) by (intros k Hk; apply Rmult_le_pos; auto).
  assert (S : sumn M (fun k => nw M (member p w r) k * g (member p x r k)) = / sumn M (member p w r) * sumn M q).
  { rewrite <- sumn_scal. apply sumn_ext; intros. apply (nw_g M (member p w r) (fun k => g (member p x r k))). }
  destruct (owv_crps M (fun k => nw M (member p w r) k * g (member p x r k)) (g (y r)) (y r) (member p x r)) as [O1 O2].
  { intros k Hk. apply Rmult_le_pos; auto. apply nw_nonneg; auto. }
  split; intros Hq.
  - destruct O1 as (u & U1 & U2).
    { rewrite S. apply Rmult_lt_0_compat; auto. now apply Rinv_0_lt_compat. }
    exists u. split; auto. eapply is_crps_ext; [|exact U1]. intros t.
    apply (wcdf_prop M q _ (/ sumn M (member p w r))); [apply Rinv_neq_0_compat; lra|].
    intros; apply (nw_g M (member p w r) (fun k => g (member p x r k))).
  - apply O2. rewrite S, Hq. ring.
Qed.
Lemma C20_unit_l :
  forall srt be obs fct a b ax s p M y x wf,
  argsort_ok srt -> ens_args obs fct ax s p M y x -> (0 < M)%nat -> (be = Numba -> dt obs = DFloat) ->
  weighting a b wf (fun _ => 1) ->
  (exists v, returns (owcrps_ensemble be obs fct a b ax None wf "propagate") s v /\
             returns (crps_ensemble srt be obs fct ax None "nrg" false "propagate") s v) /\
  forall wt w, wts_args wt fct s p M w ->
   exists v, returns (owcrps_ensemble be obs fct a b ax (Some wt) wf "propagate") s v /\
             returns (crps_ensemble srt be obs fct ax (Some wt) "nrg" false "propagate") s v.
Proof.
  intros srt be obs fct a b ax s p M y x wf Hs Ha HM Hd Hg. split; [|intros wt w Hw].
  - eexists; split; [apply (ow_un be obs fct a b ax s p M y x wf _ Ha HM Hd Hg (weighting_one a b wf Hg) _ names_propagate)|].
    eapply returns_ext; [eapply returns_is, (call_un srt be obs fct ax s p M _ _ Nrg false "propagate" Hs Ha); auto; first [now left|easy]|].
    intros r Hr. cbv beta. cbn [real_un]. unfold owv. pose proof (INR_nz M HM) as NZ. pose proof (lt_0_INR M HM).
    rewrite sumn_const. destruct (Req_EM_T _ _) as [Z|Z]; [lra|]. f_equal. unfold exact_crps, wexact_crps.
    rewrite wmae_nw, wpairsum_nw, sumn_const. unfold mae, pairsum, wmae, wpairsum.
    rewrite (sumn_ext M (fun i => 1 * Rabs (member p x r i - y r)) (fun i => Rabs (member p x r i - y r))) by (intros; ring).
    rewrite (sumn_ext M (fun i => sumn M (fun j => 1 * 1 * Rabs (member p x r i - member p x r j)))
      (fun i => sumn M (fun j => Rabs (member p x r i - member p x r j)))) by (intros; apply sumn_ext; intros; ring).
    field. auto.
  - eexists; split; [apply (ow_w be obs fct a b ax s p M y x wf _ Ha HM Hd Hg (weighting_one a b wf Hg) wt w Hw)|].
    eapply returns_ext; [eapply returns_is, (call_w srt be obs fct wt ax s p M _ _ w Nrg false "propagate" Hs Ha Hw); auto; first [now left|easy]|].
    intros r Hr. cbv beta. cbn [real_w]. pose proof Hw as (_ & _ & W4 & W5). specialize (W5 r Hr).
    rewrite (owv_ext M _ (nw M (member p w r))) by (intros; ring). unfold owv.
    assert (S1 : sumn M (nw M (member p w r)) = 1) by (apply nw_sum1; lra).
    rewrite S1. destruct (Req_EM_T 1 0) as [Z|Z]; [lra|]. f_equal.
    replace (nw M (nw M (member p w r))) with (nw M (member p w r)); [symmetry; apply Rmult_1_l|].
    apply functional_extensionality; intros k. unfold nw at 2. rewrite S1. field.
Qed.
Lemma C20_agree_l :
  forall obs fct a b ax s p M y x wf g,
  ens_args obs fct ax s p M y x -> (0 < M)%nat -> dt obs = DFloat -> weighting a b wf g -> (forall t, 0 <= g t) ->
  (exists v, returns (owcrps_ensemble Array obs fct a b ax None wf "propagate") s v /\
             returns (owcrps_ensemble Numba obs fct a b ax None wf "propagate") s v) /\
  forall wt w, wts_args wt fct s p M w ->
   exists v, returns (owcrps_ensemble Array obs fct a b ax (Some wt) wf "propagate") s v /\
             returns (owcrps_ensemble Numba obs fct a b ax (Some wt) wf "propagate") s v.
Proof.
  intros obs fct a b ax s p M y x wf g Ha HM Hd Hg Hg0. split; [|intros wt w Hw]; eexists; split.
  - apply (ow_un Array obs fct a b ax s p M y x wf g Ha HM (fun _ => Hd) Hg Hg0 _ names_propagate).
  - apply (ow_un Numba obs fct a b ax s p M y x wf g Ha HM (fun _ => Hd) Hg Hg0 _ names_propagate).
  - apply (ow_w Array obs fct a b ax s p M y x wf g Ha HM (fun _ => Hd) Hg Hg0 wt w Hw).
  - apply (ow_w Numba obs fct a b ax s p M y x wf g Ha HM (fun _ => Hd) Hg Hg0 wt w Hw).
Qed.
Lemma C20_negative_l :
  forall be obs fct a b ax s p M y x d f ow pol,
  ens_nums obs fct ax s p M y x ->
  (exists r, inb s r /\ nltb (f (y r)) (Fin 0) = true) \/
  (exists r k, inb s r /\ (k < M)%nat /\ nltb (f (member p x r k)) (Fin 0) = true) ->
  raises (owcrps_ensemble be obs fct a b ax ow (Some (d, f)) pol) ValueError /\
  raises (vrcrps_ensemble be obs fct a b ax ow (Some (d, f)) pol) ValueError.
Proof.
  intros be obs fct a b ax s p M y x d f ow pol Ha H.
  pose proof (prep_neg obs fct a b ax _ _ s p M y x (Some (d, f)) (nums_inputs _ _ _ _ _ _ _ _ Ha) ow pol H) as E.
  unfold raises, owcrps_ensemble, vrcrps_ensemble. now rewrite E.
Qed.
Lemma C21_value_l :
  forall be obs fct a b ax s p M y x wf g pol,
  ens_args obs fct ax s p M y x -> (0 < M)%nat -> (be = Numba -> dt obs = DFloat) ->
  (be = Array -> length s = 1%nat) ->
  weighting a b wf g -> (forall t, 0 <= g t) -> In pol ["propagate"; "raise"]%string ->
  exists v, returns (vrcrps_ensemble be obs fct a b ax None wf pol) s (fun r => Fin (v r)) /\
    forall r, inb s r -> 0 <= v r /\
      is_vrcrps M (fun _ => / INR M) (fun k => g (member p x r k)) (g (y r)) (y r) (member p x r) (v r).
Proof.
  intros be obs fct a b ax s p M y x wf g pol Ha HM Hd Hs Hg Hg0 Hp.
  eexists; split; [apply (vr_un be obs fct a b ax s p M y x wf g Ha HM Hd Hg Hg0 pol Hp)|].
  - intros E. specialize (Hs E). destruct s as [|n [|? ?]]; try discriminate. now exists n.
  - intros r Hr. split; [apply vrv_nonneg|apply is_vr].
Qed.
Lemma C21_value_weighted_l :
  forall be obs fct wt a b ax s p M y x w wf g,
  ens_args obs fct ax s p M y x -> (0 < M)%nat -> (be = Numba -> dt obs = DFloat) -> wts_args wt fct s p M w ->
  weighting a b wf g -> (forall t, 0 <= g t) ->
  exists v, returns (vrcrps_ensemble be obs fct a b ax (Some wt) wf "propagate") s (fun r => Fin (v r)) /\
    forall r, inb s r -> 0 <= v r /\
      is_vrcrps M (nw M (member p w r)) (fun k => g (member p x r k)) (g (y r)) (y r) (member p x r) (v r).
Proof.
  intros be obs fct wt a b ax s p M y x w wf g Ha HM Hd Hw Hg Hg0.
  eexists; split; [apply (vr_w be obs fct a b ax s p M y x wf g Ha HM Hd Hg Hg0 wt w Hw)|].
  intros r Hr. split; [apply vrv_nonneg|apply is_vr].
Qed.
Lemma C21_unit_l :
  forall srt be obs fct a b ax s p M y x wf,
  argsort_ok srt -> ens_args obs fct ax s p M y x -> (0 < M)%nat -> (be = Numba -> dt obs = DFloat) ->
  weighting a b wf (fun _ => 1) ->
  ((be = Array -> length s = 1%nat) ->
   exists v, returns (vrcrps_ensemble be obs fct a b ax None wf "propagate") s v /\
             returns (crps_ensemble srt be obs fct ax None "nrg" false "propagate") s v) /\
  forall wt w, wts_args wt fct s p M w ->
   exists v, returns (vrcrps_ensemble be obs fct a b ax (Some wt) wf "propagate") s v /\
             returns (crps_ensemble srt be obs fct ax (Some wt) "nrg" false "propagate") s v.
Proof.
  intros srt be obs fct a b ax s p M y x wf Hs Ha HM Hd Hg. split; [intros H1|intros wt w Hw].
  - eexists; split; [apply (vr_un be obs fct a b ax s p M y x wf _ Ha HM Hd Hg (weighting_one a b wf Hg) _ names_propagate)|].
    { intros E. specialize (H1 E). destruct s as [|n [|? ?]]; try discriminate. now exists n. }
    eapply returns_ext; [eapply returns_is, (call_un srt be obs fct ax s p M _ _ Nrg false "propagate" Hs Ha); auto; first [now left|easy]|].
    intros r Hr. cbv beta. cbn [real_un]. pose proof (INR_nz M HM) as NZ.
    rewrite vrv_one by (rewrite sumn_const; field; auto). f_equal. unfold exact_crps, wexact_crps, mae, pairsum, wmae, wpairsum.
    rewrite sumn_scal. 
    rewrite (sumn_ext M (fun i => sumn M (fun j => / INR M * / INR M * Rabs (member p x r i - member p x r j)))
      (fun i => (/ INR M * / INR M) * sumn M (fun j => Rabs (member p x r i - member p x r j)))) by (intros; apply sumn_scal).
    rewrite sumn_scal. field. auto.
  - eexists; split; [apply (vr_w be obs fct a b ax s p M y x wf _ Ha HM Hd Hg (weighting_one a b wf Hg) wt w Hw)|].
    eapply returns_ext; [eapply returns_is, (call_w srt be obs fct wt ax s p M _ _ w Nrg false "propagate" Hs Ha Hw); auto; first [now left|easy]|].
    intros r Hr. cbv beta. cbn [real_w]. pose proof Hw as (_ & _ & W4 & W5). specialize (W5 r Hr).
    f_equal. symmetry. apply vrv_one. apply nw_sum1; lra.
Qed.
Lemma C21_rank1_refuted_l :
  exists obs fct y x, ens_args obs fct (-1) [] 0 3 y x /\ dt obs = DFloat /\
    raises (vrcrps_ensemble Array obs fct NInf PInf (-1) None None "propagate") AxisError /\
    exists v, returns (vrcrps_ensemble Numba obs fct NInf PInf (-1) None None "propagate") [] (fun _ => Fin v).
Proof.
  set (y := fun _ : list nat => 1). set (x := fun i : list nat => INR (hd 0%nat i)).
  assert (A : ens_args (farr [] y) (farr [3%nat] x) (-1) [] 0 3 y x) by (repeat split; auto; now left).
  assert (G : weighting NInf PInf None (fun _ => 1)) by (intros t; simpl; intuition).
  exists (farr [] y), (farr [3%nat] x), y, x. split; auto. split; [reflexivity|]. split.
  - destruct (val_un (farr [] y) (farr [3%nat] x) NInf PInf (-1) [] 0 3 y x None _ A G (weighting_one _ _ _ G) "propagate" names_propagate) as (f' & ow & fw & E & Hf & Ho & Hfw).
    unfold raises, vrcrps_ensemble. rewrite E. cbn [bind]. apply vr_arr1 with (1 := val_obs (farr [] y) _ _ _ _ _ _ _ A) (2 := Hf) (3 := Ho) (4 := Hfw).
  - eexists. eapply returns_ext; [apply (vr_un Numba _ _ NInf PInf (-1) [] 0 3 y x None _ A ltac:(lia) (fun _ => eq_refl) G (weighting_one _ _ _ G) _ names_propagate); discriminate|].
    intros r Hr. pose proof (inb_nil_inv r Hr) as ->. reflexivity.
Qed.
Lemma C21_rank3_refuted_l :
  exists obs fct y x, ens_args obs fct (-1) [2; 1]%nat 0 2 y x /\ dt obs = DFloat /\
    (exists v, returns (vrcrps_ensemble Array obs fct (Fin 0) PInf (-1) None None "propagate") [2; 1]%nat (fun r => Fin (v r)) /\ v [0; 0]%nat = 3 / 2) /\
    (exists v, returns (vrcrps_ensemble Numba obs fct (Fin 0) PInf (-1) None None "propagate") [2; 1]%nat (fun r => Fin (v r)) /\ v [0; 0]%nat = 1).
Proof.
  set (y := fun _ : list nat => 2). set (x := fun i : list nat => match i with [_; O; _] => 1 | _ => -1 end).
  assert (A : ens_args (farr [2; 1]%nat y) (farr [2; 2; 1]%nat x) (-1) [2; 1]%nat 0 2 y x) by (repeat split; auto; [simpl; lia|now left]).
  set (g := fun t => ind_le 0 t).
  assert (G : weighting (Fin 0) PInf None g).
  { intros t. simpl. unfold g, ind_le. destruct (Rle_dec 0 t); split; auto; intuition. }
  assert (G0 : forall t, 0 <= g t) by (intros t; unfold g, ind_le; destruct (Rle_dec 0 t); lra).
  exists (farr [2; 1]%nat y), (farr [2; 2; 1]%nat x), y, x. split; auto. split; [reflexivity|]. split.
  - destruct (val_un _ _ (Fin 0) PInf (-1) _ 0 2 y x None _ A G G0 "propagate" names_propagate) as (f' & ow & fw & E & Hf & Ho & Hfw).
    unfold vrcrps_ensemble. rewrite E. cbn [bind].
    eexists (fun r => _). split.
    + eapply returns_is. eapply ten_conv; [apply vr_arr3 with (1 := val_obs _ _ _ _ _ _ _ _ A) (2 := Hf) (3 := Ho) (4 := Hfw)|reflexivity|].
      intros r Hr. cbv beta. cbn [hd tl]. unfold row_vr3, e1wn. fin; first [reflexivity|simpl; lra].
    + cbv beta. unfold half, g, ind_le, sumn, Rsum, member, y, x; simpl. unfold Rsum; simpl. repeat (destruct (Rle_dec _ _); try lra); rcalc.
  - eexists; split; [apply (vr_un Numba _ _ (Fin 0) PInf (-1) _ 0 2 y x None _ A ltac:(lia) (fun _ => eq_refl) G G0 _ names_propagate); discriminate|].
    cbv beta. unfold vrv, wpairsum, g, ind_le, sumn, Rsum, member, y, x; simpl. unfold Rsum; simpl. repeat (destruct (Rle_dec _ _); try lra); rcalc.
Qed.
Lemma C22_omit_last_l :
  forall be obs fct a b ax s M y x wf g,
  ens_nums obs fct ax s 0 M (fun r => Fin (y r)) x -> (0 < M)%nat -> (be = Numba -> dt obs = DFloat) ->
  weighting a b wf g -> (forall t, 0 <= g t) -> (forall d f, wf = Some (d, f) -> f NaN = NaN) ->
  (forall r k, inb s r -> (k < M)%nat -> fin_or_nan (member 0 x r k)) ->
  exists vo vr, returns (owcrps_ensemble be obs fct a b ax None wf "omit") s vo /\
    returns (vrcrps_ensemble be obs fct a b ax None wf "omit") s vr /\
    forall r, inb s r -> forall xs : list R, map Fin xs = present M (member 0 x r) ->
      let X k := nth k xs 0 in let q k := g (nth k xs 0) in
      (xs = [] -> vo r = NaN /\ vr r = NaN) /\
      (0 < sumn (length xs) q -> exists u, is_crps (wcdf (length xs) q X) (y r) u /\ vo r = Fin (g (y r) * u)) /\
      (sumn (length xs) q = 0 -> vo r = NaN) /\
      (xs <> [] -> exists u, is_vrcrps (length xs) (fun _ => / INR (length xs)) q (g (y r)) (y r) X u /\ vr r = Fin u).
Proof.
  intros be obs fct a b ax s M y x wf g Ha HM Hd Hg Hg0 Hgn Hx.
  eexists; eexists; split; [apply (ow_omit_last be obs fct a b ax s M y x wf g Ha HM Hd Hg Hg0 Hgn Hx)|].
  split; [apply (vr_omit_last be obs fct a b ax s M y x wf g Ha HM Hd Hg Hg0 Hgn Hx)|].
  intros r Hr xs Hxs X q. cbv beta. rewrite present_keeps in Hxs.
  set (qq := fun k => negb (nisnan (member 0 x r k))) in *.
  set (h := fun k => here (member 0 x r k)).
  assert (L : length (keeps M qq) = length xs) by (rewrite <- (map_length Fin xs), Hxs; symmetry; apply map_length).
  assert (Ex : forall j, (j < length xs)%nat -> member 0 x r (nth j (keeps M qq) O) = Fin (nth j xs 0)).
  { intros j Hj. apply (map_nth_eq (member 0 x r) Fin); auto. }
  assert (H0 : forall k, (k < M)%nat -> qq k = false -> h k = 0 /\ gv g (member 0 x r k) = 0).
  { intros k Hk E. unfold qq, h in *. destruct (Hx r k Hr Hk) as [->|(t & N)]; [split; reflexivity|]. rewrite N in E. discriminate. }
  assert (C1 : covers M h (keeps M qq)) by (apply keeps_covers; intros k Hk E; now apply H0).
  assert (C2 : covers M (fun k => gv g (member 0 x r k)) (keeps M qq)) by (apply keeps_covers; intros k Hk E; now apply H0).
  assert (Sh : sumn M h = INR (length xs)).
  { rewrite (sum_covers1 M h _ C1), L. rewrite (sumn_ext _ _ (fun _ => 1)); [rewrite sumn_const; ring|].
    intros j Hj. unfold kept, h. now rewrite Ex. }
  assert (EO : owv M (fun k => gv g (member 0 x r k)) (g (y r)) (y r) (fun k => rv (member 0 x r k)) = owv (length xs) q (g (y r)) (y r) X).
  { rewrite <- L. apply owv_covers; auto; intros j Hj; rewrite L in Hj; unfold q, X; now rewrite Ex. }
  assert (Z : xs = [] -> forall v : num, (if Rlt_dec 0 (sumn M h) then v else NaN) = NaN).
  { intros ->. intros v. rewrite Sh. simpl. destruct (Rlt_dec 0 0); auto; lra. }
  assert (NZ : xs <> [] -> forall v : num, (if Rlt_dec 0 (sumn M h) then v else NaN) = v).
  { intros Hn v. rewrite Sh. destruct (Rlt_dec 0 (INR (length xs))) as [|N]; auto. exfalso. apply N, lt_0_INR.
    destruct xs; [easy|simpl; lia]. }
  fold h. rewrite EO. destruct (owv_crps (length xs) q (g (y r)) (y r) X) as [O1 O2]; [intros; apply Hg0|].
  split; [intros E; split; now apply Z|].
  split; [|split].
  - intros P. rewrite NZ; [now apply O1|]. intros ->. cbv in P. lra.
  - intros P. destruct xs as [|x0 xs']; [now apply Z|]. rewrite NZ by discriminate. now apply O2.
  - intros Hn. rewrite NZ by auto. eexists; split; [|reflexivity].
    rewrite (vrv_covers M (nw M h) (fun k => gv g (member 0 x r k)) (g (y r)) (y r) _ (keeps M qq) (fun _ => / INR (length xs)) q X).
    + rewrite L. apply is_vr.
    + apply keeps_covers. intros k Hk E. destruct (H0 k Hk E) as [_ ->]. ring.
    + intros j Hj. rewrite L in Hj. unfold nw. rewrite Sh. unfold h, q. rewrite Ex by auto. simpl. unfold Rdiv. ring.
    + intros j Hj. rewrite L in Hj. unfold X. now rewrite Ex.
Qed.
Lemma C22_axis_refuted_l :
  exists obs fct y x, ens_args obs fct 0 [2%nat] 1 3 y x /\ dt obs = DFloat /\ forall be,
    (exists v, returns (owcrps_ensemble be obs fct NInf PInf 0 None None "propagate") [2%nat] v) /\
    raises (owcrps_ensemble be obs fct NInf PInf 0 None None "omit") ValueError /\
    raises (vrcrps_ensemble be obs fct NInf PInf 0 None None "omit") ValueError.
Proof.
  set (y := fun _ : list nat => 1). set (x := fun i : list nat => INR (hd 0%nat i)).
  assert (A : ens_args (farr [2%nat] y) (farr [2; 3]%nat x) 0 [2%nat] 1 3 y x) by (repeat split; auto; now right).
  assert (G : weighting NInf PInf None (fun _ => 1)) by (intros t; simpl; intuition).
  exists (farr [2%nat] y), (farr [2; 3]%nat x), y, x. split; auto. split; [reflexivity|]. intros be. split.
  - eexists. apply (ow_un be _ _ NInf PInf 0 _ 1 3 y x None _ A ltac:(lia) (fun _ => eq_refl) G (weighting_one _ _ _ G) _ names_propagate).
  - destruct (omit_core (farr [2%nat] y) (farr [2; 3]%nat x) NInf PInf 0 [2%nat] 1 3 y (fun i => Fin (x i)) None (fun _ => 1) (args_nums _ _ _ _ _ _ _ _ A) G (weighting_one _ _ _ G)) as (f' & ow & fw & w1 & E & Hf & Ho & Hfw & Hw); [discriminate|intros; right; eexists; reflexivity|].
    assert (U : univariate_weight_check w1 f' 0 = Err ValueError).
    { unfold univariate_weight_check. destruct (ten_move_last 0 (Ok w1) DFloat 1 2 [3%nat] _ (ten_Ok _ _ _ _ Hw) ltac:(simpl; lia) eq_refl) as (w2 & E2 & Hw2).
      unfold shift_axis. cbn [Z.leb Z.compare]. unfold tensor in *. rewrite E2. cbn [bind].
      destruct Hw2 as (_ & -> & _). destruct Hf as (_ & -> & _). reflexivity. }
    unfold raises, owcrps_ensemble, vrcrps_ensemble. rewrite E, U. split; reflexivity.
Qed.
Lemma C22_axis_silent_refuted_l :
  exists obs fct obs' fct' y x x', ens_nums obs fct 0 [2%nat] 1 2 y x /\ ens_nums obs' fct' (-1) [2%nat] 0 2 y x' /\
    dt obs = DFloat /\ dt obs' = DFloat /\
    (forall r k, member 1 x r k = member 0 x' r k) /\ forall be,
    (exists v, returns (owcrps_ensemble be obs fct NInf PInf 0 None None "omit") [2%nat] v /\ v [1%nat] = Fin 4) /\
    (exists v, returns (owcrps_ensemble be obs' fct' NInf PInf (-1) None None "omit") [2%nat] v /\ v [1%nat] = Fin (5 / 2)).
Proof.
  set (m := fun r k : nat => match r, k with O, O => Fin 1 | O, _ => NaN | _, O => Fin 2 | _, _ => Fin 4 end).
  set (x := fun i : list nat => match i with [r; k] => m r k | _ => NaN end).
  set (x' := fun i : list nat => match i with [k; r] => m r k | _ => NaN end).
  set (y := fun _ : list nat => 0).
  assert (G : weighting NInf PInf None (fun _ => 1)) by (intros t; simpl; intuition).
  assert (A : ens_nums (farr [2%nat] y) (mkArr DFloat [2; 2]%nat x) 0 [2%nat] 1 2 (fun r => Fin (y r)) x) by (repeat split; auto; now right).
  assert (A' : ens_nums (farr [2%nat] y) (mkArr DFloat [2; 2]%nat x') (-1) [2%nat] 0 2 (fun r => Fin (y r)) x') by (repeat split; auto; [simpl; lia|now left]).
  assert (Fx : forall r k, inb [2%nat] r -> (k < 2)%nat -> fin_or_nan (member 1 x r k)).
  { intros r k Hr Hk. idx. unfold fin_or_nan, member, x, m; simpl. destruct k0 as [|[|]], k as [|[|]]; eauto. }
  assert (Fx' : forall r k, inb [2%nat] r -> (k < 2)%nat -> fin_or_nan (member 0 x' r k)).
  { intros r k Hr Hk. idx. unfold fin_or_nan, member, x', m; simpl. destruct k0 as [|[|]], k as [|[|]]; eauto. }
  exists (farr [2%nat] y), (mkArr DFloat [2; 2]%nat x), (farr [2%nat] y), (mkArr DFloat [2; 2]%nat x'), (fun r => Fin (y r)), x, x'.
  split; auto. split; auto. split; [reflexivity|]. split; [reflexivity|]. split.
  { intros [|r [|? ?]] k; unfold member, x, x'; simpl; auto. }
  intros be. split.
  - destruct (omit_core _ _ NInf PInf 0 [2%nat] 1 2 y x None (fun _ => 1) A G (weighting_one _ _ _ G)) as (f' & ow & fw & w1 & E & Hf & Ho & Hfw & Hw); [discriminate|auto|].
    destruct (weight_check_ok w1 f' DFloat [2%nat] DFloat 2 (fun i => normn 2 (fun k => (fun i => Fin (here (member 1 x (tl i) (hd 0%nat i)))) (insert_at 1 k (tl i))) (hd 0%nat i)) _ 0 1 ltac:(apply Hf) Hw ltac:(simpl; lia) eq_refl) as (w' & Ew' & Hw'); [intros i Hi; apply rltb_false, here_nonneg|reflexivity|reflexivity|].
    unfold owcrps_ensemble. rewrite E. unfold tensor in *. rewrite Ew'. cbn [bind].
    assert (Hw2 : arr_is w' DFloat [2; 2]%nat (fun i => Fin (nw 2 (fun k => here (member 1 x [k] (hd 0%nat (tl i)))) (hd 0%nat i)))).
    { eapply arr_is_ext; [exact Hw'|]. intros i Hi. idx. cbn [hd tl].
      apply (normn_real 2 _ (fun k => here (member 1 x [k] k0))); auto.
      unfold sumn, Rsum, member, x; destruct k0 as [|[|]]; simpl; lra. }
    eexists. split.
    + assert (HO : arr_is (farr [2%nat] y) DFloat [2%nat] (fun r => Fin (y r))) by (repeat split; auto).
      apply (ow_w_core be (farr [2%nat] y) f' ow fw DFloat DFloat [2%nat] 2 y (fun _ => 1) (fun r k => rv (member 1 x r k)) (fun r k => gv (fun _ => 1) (member 1 x r k))
        HO Hf Ho Hfw ltac:(lia) (fun _ => eq_refl)) with (w' := w') (E := fun r k => nw 2 (fun k => here (member 1 x [k] (hd 0%nat r))) k); auto.
      * intros; apply gv_nonneg. intros; lra.
      * intros r k Hr Hk. apply nw_nonneg; auto; [intros; apply here_nonneg|].
        idx. unfold sumn, Rsum, member, x; cbn [hd]; destruct k0 as [|[|]]; simpl; lra.
    + cbv beta. unfold owv, wexact_crps, wmae, wpairsum, nw, sumn, Rsum, member, x, m, y; simpl. unfold Rsum; simpl.
      destruct (Req_EM_T _ _) as [Z|Z]; [exfalso; revert Z; lra|]. f_equal. rcalc.
  - eexists. split; [apply (ow_omit_last be _ _ NInf PInf (-1) [2%nat] 2 y x' None (fun _ => 1) A' ltac:(lia) (fun _ => eq_refl) G (weighting_one _ _ _ G)); auto; discriminate|].
    cbv beta. unfold owv, wexact_crps, wmae, wpairsum, nw, sumn, Rsum, member, x', m, y; simpl. unfold Rsum; simpl.
    destruct (Rlt_dec _ _) as [P|P]; [|exfalso; lra].
    destruct (Req_EM_T _ _) as [Z|Z]; [exfalso; revert Z; lra|]. f_equal. rcalc.
Qed.
