(** [es_ensemble] and its weighted variants on real data. *)
From Verif Require Export L_energy.
Open Scope R_scope.

Inductive mest := MNrg | MFair | MAkr | MCirc.
Definition mname (e : mest) : string :=
  match e with MNrg => "nrg" | MFair => "fair" | MAkr => "akr" | MCirc => "akr_circperm" end%string.
Lemma name_mest e : In e ["nrg"; "fair"; "akr"; "akr_circperm"]%string -> exists e', e = mname e'.
Proof. intros H; names H; [exists MNrg|exists MFair|exists MAkr|exists MCirc]; reflexivity. Qed.
(** the formula of an estimator *)
Definition mval (b : impl) (e : mest) (M : nat) (er : nat -> R) (d : nat -> nat -> R) : R :=
  match e with
  | MNrg => k_exact M er d | MFair => k_fair M er d | MAkr => k_lag M (lag1 M) er d
  | MCirc => k_lag M (match b with Array => lagc M | Numba => lagf M end) er d
  end.
Definition mval_w (b : impl) (e : mest) (M : nat) (w : nat -> R) (er : nat -> R) (d : nat -> nat -> R) : R :=
  match e with
  | MNrg => k_wexact M w er d | MFair => k_wfair M w er d | MAkr => k_wlag M (lag1 M) w er d
  | MCirc => k_wlag M (match b with Array => lagc M | Numba => lagf M end) w er d
  end.
Definition eserr (D q p : nat) (y x : list nat -> R) (r : list nat) := es_err D (obsv q y r) (memv p q x r).
Definition esdist (D q p : nat) (x : list nat -> R) (r : list nat) := es_dist D (memv p q x r).

Lemma real_arr_is a s f : real_arr a s f -> arr_is a (dt a) s (fun i => Fin (f i)).
Proof. intros (H1 & H2). repeat split; auto. Qed.
Definition mv_inner (obs fct : arr) (s : list nat) (p q M D : nat) (y x : list nat -> R) (d1 d2 : dtype) :=
  arr_is obs d1 (D :: s) (fun i => Fin (obsv q y (tl i) (hd O i))) /\
  arr_is fct d2 (D :: M :: s) (fun i => Fin (memv p q x (tl (tl i)) (hd O (tl i)) (hd O i))).
Lemma mv_check obs fct m v s p q M D y x : mv_args obs fct m v s p q M D y x ->
  exists obs' fct', multivariate_array_check obs fct m v = Ok (obs', fct') /\
    mv_inner obs' fct' s p q M D y x (dt obs) (dt fct).
Proof.
  intros (H1 & H2 & H3 & H4 & H5 & H6).
  destruct (mv_check_ok obs fct (dt obs) (dt fct) m v s p q M D (fun i => Fin (y i)) (fun i => Fin (x i)))
    as (o & f & E & Ho & Hf); auto using real_arr_is.
  exists o, f. split; [exact E|]. split; [exact Ho|exact Hf].
Qed.
Lemma nwsum_ne1 M w : (forall k, (k < M)%nat -> 0 <= w k) -> 0 < sumn M w -> two_positive M w ->
  sumn M (fun i => nw M w i * nw M w i) <> 1.
Proof. intros H0 H1 H2 E. apply (two_positive_fairc M w H0 H1 H2). unfold fairc. lra. Qed.

Section calls.
Variables (b : impl) (obs fct : arr) (m v : Z) (s : list nat) (p q M D : nat) (y x : list nat -> R).
Hypothesis Ha : mv_args obs fct m v s p q M D y x.
Hypothesis HM : (0 < M)%nat.
Hypothesis HD : (0 < D)%nat.
Hypothesis Hfl : b = Numba -> floats obs fct.

Lemma es_call e : (e = MFair -> (1 < M)%nat) ->
  ten_is (es_ensemble b obs fct m v None (mname e)) DFloat s
    (fun r => Fin (mval b e M (eserr D q p y x r) (esdist D q p x r))).
Proof.
  intros H2. destruct (mv_check _ _ _ _ _ _ _ _ _ _ _ Ha) as (obs' & fct' & E & Ho & Hf).
  unfold es_ensemble. rewrite E. cbn [bind]. destruct b.
  - destruct e; cbn [mname es_ensemble_arr String.eqb Ascii.eqb Bool.eqb]; unfold es_ensemble_arr;
      cbn [String.eqb Ascii.eqb Bool.eqb]; unfold mval.
    + exact (es_nrg_arr_is s D M obs' fct' _ _ _ _ HM Ho Hf).
    + exact (es_fair_arr_is s D M obs' fct' _ _ _ _ HM Ho Hf (H2 eq_refl)).
    + exact (es_akr_arr_is s D M obs' fct' _ _ _ _ HM Ho Hf).
    + exact (es_akrc_arr_is s D M obs' fct' _ _ _ _ HM Ho Hf).
  - destruct (Hfl eq_refl) as [F1 F2]. rewrite F1 in Ho. pose proof Hf as (F3 & _). rewrite F2 in F3.
    unfold es_gufuncs, needs_float. rewrite F3. cbn [dtype_eqb].
    destruct e; cbn [mname String.eqb Ascii.eqb Bool.eqb]; unfold mval.
    + eapply ten_ext; [eapply gu_vm_is; eauto using outs_float_mv|].
      intros r Hr; cbv beta; cbn [hd tl].
      apply (es_nrg_k_real M D (fun j => Fin (obsv q y r j)) (fun i j => Fin (memv p q x r i j))); auto.
    + eapply ten_ext; [eapply gu_vm_is; eauto using outs_float_mv|].
      intros r Hr; cbv beta; cbn [hd tl].
      apply (es_fair_k_real M D (fun j => Fin (obsv q y r j)) (fun i j => Fin (memv p q x r i j))); auto.
    + eapply ten_ext; [eapply gu_vm_is; eauto using outs_lazy_mv|].
      intros r Hr; cbv beta; cbn [hd tl].
      apply (es_akr_k_real M D (fun j => Fin (obsv q y r j)) (fun i j => Fin (memv p q x r i j))); auto.
    + eapply ten_ext; [eapply gu_vm_is; eauto using outs_lazy_mv|].
      intros r Hr; cbv beta; cbn [hd tl].
      apply (es_akrc_k_real M D (fun j => Fin (obsv q y r j)) (fun i j => Fin (memv p q x r i j))); auto.
Qed.

Section weighted.
Variables (wt : arr) (pw : nat) (w : list nat -> R).
Hypothesis Hw : mv_wts wt s pw M w.
Hypothesis Hqp : p = S pw.
Let wr r := member pw w r.
Lemma wt_ok fct' d2 f : arr_is fct' d2 (D :: M :: s) f ->
  exists wt', multivariate_weight_check wt fct' m = Ok wt' /\
    arr_is wt' DFloat (M :: s) (fun i => Fin (nw M (wr (tl i)) (hd O i))).
Proof.
  intros (_ & Hs & _). destruct Hw as (W1 & W2 & W3). destruct Ha as (_ & _ & H3 & H4 & H5 & _).
  apply (mv_weight_ok wt fct' DFloat (dt wt) D M s p pw w m Hs); auto using real_arr_is.
Qed.
Lemma es_call_w e : (e = MFair -> forall r, inb s r -> two_positive M (wr r)) ->
  ten_is (es_ensemble b obs fct m v (Some wt) (mname e)) DFloat s
    (fun r => Fin (mval_w b e M (nw M (wr r)) (eserr D q p y x r) (esdist D q p x r))).
Proof.
  intros H2. destruct (mv_check _ _ _ _ _ _ _ _ _ _ _ Ha) as (obs' & fct' & E & Ho & Hf).
  unfold es_ensemble. rewrite E. cbn [bind].
  destruct (wt_ok fct' _ _ Hf) as (wt' & E' & Hw'). rewrite E'. cbn [bind].
  assert (N1 : e = MFair -> forall r, inb s r -> sumn M (fun i => nw M (wr r) i * nw M (wr r) i) <> 1).
  { intros Ee r Hr. destruct Hw as (_ & W2 & W3). apply nwsum_ne1; auto. }
  destruct b.
  - unfold es_ensemble_w_arr. destruct e; cbn [mname String.eqb Ascii.eqb Bool.eqb]; unfold mval_w.
    + exact (es_nrg_w_arr_is s D M obs' fct' _ _ _ _ HM Ho Hf wt' _ (fun r k => nw M (wr r) k) Hw').
    + exact (es_fair_w_arr_is s D M obs' fct' _ _ _ _ HM Ho Hf wt' _ (fun r k => nw M (wr r) k) Hw' (N1 eq_refl)).
    + exact (es_akr_w_arr_is s D M obs' fct' _ _ _ _ HM Ho Hf wt' _ (fun r k => nw M (wr r) k) Hw').
    + exact (es_akrc_w_arr_is s D M obs' fct' _ _ _ _ HM Ho Hf wt' _ (fun r k => nw M (wr r) k) Hw').
  - destruct (Hfl eq_refl) as [F1 F2]. rewrite F1 in Ho. pose proof Hf as (F3 & _). rewrite F2 in F3.
    unfold es_gufuncs_w, needs_float. rewrite F3. cbn [dtype_eqb].
    destruct e; cbn [mname String.eqb Ascii.eqb Bool.eqb]; unfold mval_w;
      (eapply ten_ext; [eapply gu_vmv_is; eauto using outs_lazy_mv|]); intros r Hr; cbv beta; cbn [hd tl].
    + apply (es_nrg_w_k_real M D (fun j => Fin (obsv q y r j)) (fun i j => Fin (memv p q x r i j))); auto.
    + apply (es_fair_w_k_real M D (fun j => Fin (obsv q y r j)) (fun i j => Fin (memv p q x r i j))); auto.
    + apply (es_akr_w_k_real M D (fun j => Fin (obsv q y r j)) (fun i j => Fin (memv p q x r i j))); auto.
    + apply (es_akrc_w_k_real M D (fun j => Fin (obsv q y r j)) (fun i j => Fin (memv p q x r i j))); auto.
Qed.
End weighted.

(** outcome-weighted and vertically re-scaled *)
Section owvr.
Variables (wf : dtype * (list num -> num)) (g : (nat -> R) -> R).
Hypothesis Hg : vweight D wf g.
Hypothesis Hs0 : ~ In O s.
Lemma no_zero l : ~ In O l -> existsb (fun k => (k =? 0)%nat) l = false.
Proof.
  intros H. destruct (existsb _ l) eqn:E; auto. apply existsb_exists in E. destruct E as (k & Hk & E).
  apply Nat.eqb_eq in E. now subst.
Qed.
Lemma mv_weights obs' fct' d1 d2 : mv_inner obs' fct' s p q M D y x d1 d2 ->
  exists ow fw, mv_weighted_score_weights obs' fct' wf = Ok (ow, fw) /\
    arr_is ow (fst wf) s (fun r => Fin (g (obsv q y r))) /\
    arr_is fw (fst wf) (M :: s) (fun i => Fin (g (memv p q x (tl i) (hd O i)))).
Proof.
  intros ((_ & So & Eo) & (_ & Sf & Ef)). unfold mv_weighted_score_weights, aapply_last. cbn [bind].
  rewrite So, Sf. cbn [bind]. rewrite (no_zero s Hs0). rewrite (no_zero (M :: s)) by (simpl; intuition lia).
  cbn [bind].
  set (ow := mkArr _ s _). set (fw := mkArr _ (M :: s) _).
  assert (Ho : arr_is ow (fst wf) s (fun r => Fin (g (obsv q y r)))).
  { repeat split. intros r Hr. cbn [at_ ow]. unfold row.
    rewrite <- (proj1 (Hg (obsv q y r))). f_equal. apply map_ext_in. intros k Hk. apply in_seq in Hk.
    rewrite Eo by (split; [lia|auto]). reflexivity. }
  assert (Hf : arr_is fw (fst wf) (M :: s) (fun i => Fin (g (memv p q x (tl i) (hd O i))))).
  { repeat split. intros i Hi. idx. cbn [at_ fw hd tl]. unfold row.
    rewrite <- (proj1 (Hg (memv p q x r k))). f_equal. apply map_ext_in. intros j Hj. apply in_seq in Hj.
    rewrite Ef by (split; [lia|split; auto]). reflexivity. }
  destruct (aany_spec (Ok ow <? sci 0)%A DInt s (fun i => b2n (nltb (Fin (g (obsv q y i))) (Fin 0)))) as (b1 & E1 & B1).
  { eapply ten_conv; [eapply ten_bin_scr; apply ten_Ok; exact Ho|reflexivity|]. intros; reflexivity. }
  destruct (aany_spec (Ok fw <? sci 0)%A DInt (M :: s) (fun i => b2n (nltb (Fin (g (memv p q x (tl i) (hd O i)))) (Fin 0)))) as (b2 & E2 & B2).
  { eapply ten_conv; [eapply ten_bin_scr; apply ten_Ok; exact Hf|reflexivity|]. intros; reflexivity. }
  rewrite E1, E2. cbn [bind].
  assert (b1 = false).
  { destruct b1; auto. destruct (proj1 B1 eq_refl) as (i & Hi & E). rewrite neqb_b2n in E.
    unfold nltb in E. destruct (rltb _ _) eqn:El in E; [|discriminate]. apply rltb_true in El.
    pose proof (proj2 (Hg (obsv q y i))). lra. }
  assert (b2 = false).
  { destruct b2; auto. destruct (proj1 B2 eq_refl) as (i & Hi & E). rewrite neqb_b2n in E.
    unfold nltb in E. destruct (rltb _ _) eqn:El in E; [|discriminate]. apply rltb_true in El.
    pose proof (proj2 (Hg (memv p q x (tl i) (hd O i)))). lra. }
  subst b1 b2. cbn [orb]. exists ow, fw. auto.
Qed.
Let gx r k := g (memv p q x r k).
Lemma owes_call : (forall r, inb s r -> sumn M (gx r) <> 0) ->
  ten_is (owes_ensemble b obs fct wf m v None) DFloat s
    (fun r => Fin (g (obsv q y r) * k_wexact M (nw M (gx r)) (eserr D q p y x r) (esdist D q p x r))).
Proof.
  intros Hnz. destruct (mv_check _ _ _ _ _ _ _ _ _ _ _ Ha) as (obs' & fct' & E & Hin).
  unfold owes_ensemble. rewrite E. cbn [bind]. pose proof Hin as (Ho & Hf).
  destruct (mv_weights _ _ _ _ Hin) as (ow & fw & E' & Hw1 & Hw2). rewrite E'. cbn [bind].
  destruct b.
  - exact (owes_arr_is s D M obs' fct' _ _ _ _ HM Ho Hf ow fw _ _ _ gx Hw1 Hw2 Hnz).
  - destruct (Hfl eq_refl) as [F1 F2]. rewrite F1 in Ho. pose proof Hf as (F3 & _). rewrite F2 in F3.
    unfold needs_float. rewrite F3. cbn [dtype_eqb].
    eapply ten_ext; [eapply gu_vmsv_is; eauto using outs_lazy_mv|]. intros r Hr; cbv beta; cbn [hd tl].
    apply (owes_k_real M D (fun j => Fin (obsv q y r j)) (fun i j => Fin (memv p q x r i j))); auto.
Qed.
Lemma vres_call :
  ten_is (vres_ensemble b obs fct wf m v None) DFloat s
    (fun r => Fin (k_vr M (g (obsv q y r)) (fun k => gx r k / INR M) (eserr D q p y x r) (esdist D q p x r)
       (enorm D (obsv q y r)) (fun k => enorm D (memv p q x r k)))).
Proof.
  destruct (mv_check _ _ _ _ _ _ _ _ _ _ _ Ha) as (obs' & fct' & E & Hin).
  unfold vres_ensemble. rewrite E. cbn [bind]. pose proof Hin as (Ho & Hf).
  destruct (mv_weights _ _ _ _ Hin) as (ow & fw & E' & Hw1 & Hw2). rewrite E'. cbn [bind].
  destruct b.
  - exact (vres_arr_is s D M obs' fct' _ _ _ _ HM Ho Hf ow fw _ _ _ gx Hw1 Hw2).
  - destruct (Hfl eq_refl) as [F1 F2]. rewrite F1 in Ho. pose proof Hf as (F3 & _). rewrite F2 in F3.
    pose proof Ho as (F4 & _).
    unfold needs_float. rewrite F4, F3. cbn [dtype_eqb].
    eapply ten_ext; [eapply gu_vmsv_is; eauto using outs_lazy_mv|]. intros r Hr; cbv beta; cbn [hd tl].
    apply (vres_k_real M D (fun j => Fin (obsv q y r j)) (fun i j => Fin (memv p q x r i j))); auto.
Qed.
Section weighted.
Variables (wt : arr) (pw : nat) (w : list nat -> R).
Hypothesis Hw : mv_wts wt s pw M w.
Hypothesis Hqp : p = S pw.
Hypothesis Hb : b = Array.
Let u r k := gx r k * nw M (member pw w r) k.
Lemma owes_call_w : (forall r, inb s r -> sumn M (u r) <> 0) ->
  ten_is (owes_ensemble b obs fct wf m v (Some wt)) DFloat s
    (fun r => Fin (g (obsv q y r) * k_wexact M (nw M (u r)) (eserr D q p y x r) (esdist D q p x r))).
Proof.
  intros Hnz. destruct (mv_check _ _ _ _ _ _ _ _ _ _ _ Ha) as (obs' & fct' & E & Hin).
  unfold owes_ensemble. rewrite E. cbn [bind]. pose proof Hin as (Ho & Hf).
  destruct (mv_weights _ _ _ _ Hin) as (ow & fw & E' & Hw1 & Hw2). rewrite E'. cbn [bind].
  destruct (wt_ok wt pw w Hw Hqp fct' _ _ Hf) as (wt' & Ew & Hw'). rewrite Ew. cbn [bind]. rewrite Hb.
  exact (owes_w_arr_is s D M obs' fct' _ _ _ _ HM Ho Hf ow fw _ _ _ gx Hw1 Hw2 wt' _ _ Hw' Hnz).
Qed.
Lemma vres_call_w :
  ten_is (vres_ensemble b obs fct wf m v (Some wt)) DFloat s
    (fun r => Fin (k_vr M (g (obsv q y r)) (u r) (eserr D q p y x r) (esdist D q p x r)
       (enorm D (obsv q y r)) (fun k => enorm D (memv p q x r k)))).
Proof.
  destruct (mv_check _ _ _ _ _ _ _ _ _ _ _ Ha) as (obs' & fct' & E & Hin).
  unfold vres_ensemble. rewrite E. cbn [bind]. pose proof Hin as (Ho & Hf).
  destruct (mv_weights _ _ _ _ Hin) as (ow & fw & E' & Hw1 & Hw2). rewrite E'. cbn [bind].
  destruct (wt_ok wt pw w Hw Hqp fct' _ _ Hf) as (wt' & Ew & Hw'). rewrite Ew. cbn [bind]. rewrite Hb.
  exact (vres_w_arr_is s D M obs' fct' _ _ _ _ HM Ho Hf ow fw _ _ _ gx Hw1 Hw2 wt' _ _ Hw').
Qed.
End weighted.
End owvr.
End calls.
