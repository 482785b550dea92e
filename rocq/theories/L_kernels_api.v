(** The Gaussian kernel score calls on real data. *)
From Verif Require Export L_kernels L_ow_api.
Open Scope R_scope.

Definition gval (e : mest) (M : nat) (A : nat -> R) (B : nat -> nat -> R) : R :=
  match e with
  | MNrg => gk_exact M A B | MFair => gk_fair M A B | MAkr => gk_lag M (lag1 M) A B
  | MCirc => gk_lag M (lagc M) A B
  end.
Definition gval_w (e : mest) (M : nat) (w A : nat -> R) (B : nat -> nat -> R) : R :=
  match e with
  | MNrg => gk_wexact M w A B | MFair => gk_wfair M w A B | MAkr => gk_wlag M (lag1 M) w A B
  | MCirc => gk_wlag M (lagc M) w A B
  end.
(** the term the array implementation of the weighted fair estimator leaves in *)
Definition fair_extra (M : nat) (w : nat -> R) : R :=
  sumn M (fun i => w i * w i) / (2 * (1 - sumn M (fun i => w i * w i))).
Definition gval_wa (b : impl) (e : mest) (M : nat) (w A : nat -> R) (B : nat -> nat -> R) : R :=
  gval_w e M w A B + match b, e with Array, MFair => fair_extra M w | _, _ => 0 end.
Lemma kmem1_sym x i j : kmem1 x i j = kmem1 x j i. Proof. apply gauss1_sym. Qed.
Lemma kmem1_refl x i : kmem1 x i i = 1. Proof. apply gauss1_refl. Qed.
Lemma kmemD_sym D x i j : kmemD D x i j = kmemD D x j i. Proof. apply gaussD_sym. Qed.
Lemma kmemD_refl D x i : kmemD D x i i = 1. Proof. apply gaussD_refl. Qed.

(** ** numba kernels on one grid point *)
Section on_uv.
Variables (M : nat) (y : R) (x : nat -> R) (xs : list num).
Hypothesis HM : (0 < M)%nat.
Hypothesis Hxs : xs = rw M (fun j => Fin (x j)).
Lemma on_uv_gen (k : nat -> (nat -> num) -> (nat -> nat -> num) -> num -> num) v :
  (forall ky kx, (forall i, (i < M)%nat -> ky i = Fin (kobs1 y x i)) ->
     (forall i j, (i < M)%nat -> (j < M)%nat -> kx i j = Fin (kmem1 x i j)) -> k M ky kx (Fin 1) = v) ->
  on_uv k NaN (Fin y) xs = v.
Proof.
  intros H. unfold on_uv. cbn [nisnan]. rewrite Hxs, rw_length, gkn_uv_real, gauss1_refl. apply H.
  - intros i Hi. rewrite rw_ith by auto. apply gkn_uv_real.
  - intros i j Hi Hj. rewrite !rw_ith by auto. apply gkn_uv_real.
Qed.
End on_uv.
Section on_mv.
Variables (M D : nat) (y : nat -> R) (x : nat -> nat -> R) (ys : list num) (xs : list (list num)).
Hypothesis HM : (0 < M)%nat.
Hypothesis Hys : ys = rw D (fun j => Fin (y j)).
Hypothesis Hxs : xs = mrw M D (fun i j => Fin (x i j)).
Lemma on_mv_gen (k : nat -> (nat -> num) -> (nat -> nat -> num) -> num -> num) v :
  (forall ky kx, (forall i, (i < M)%nat -> ky i = Fin (kobsD D y x i)) ->
     (forall i j, (i < M)%nat -> (j < M)%nat -> kx i j = Fin (kmemD D x i j)) -> k M ky kx (Fin 1) = v) ->
  on_mv k ys xs = v.
Proof.
  intros H. unfold on_mv. rewrite Hxs, Hys, mrw_length. rewrite (gkn_mv_real D _ _ y y), gaussD_refl by auto. apply H.
  - intros i Hi. rewrite mrw_ith by auto. now apply gkn_mv_real.
  - intros i j Hi Hj. rewrite !mrw_ith by auto. now apply gkn_mv_real.
Qed.
End on_mv.

(** ** univariate calls *)
Section uv.
Variables (b : impl) (obs fct : arr) (ax : Z) (s : list nat) (p M : nat) (y x : list nat -> R).
Hypothesis Ha : ens_args obs fct ax s p M y x.
Hypothesis HM : (0 < M)%nat.
Hypothesis Hd : b = Numba -> dt obs = DFloat.
Let A r := kobs1 (y r) (member p x r).
Let B r := kmem1 (member p x r).
Lemma uv_check : exists f', univariate_array_check obs fct ax = Ok (obs, f') /\
  arr_is obs (dt obs) s (fun r => Fin (y r)) /\
  arr_is f' (dt fct) (M :: s) (fun i => Fin (member p x (tl i) (hd O i))).
Proof.
  pose proof (val_inputs obs fct ax s p M y x Ha) as Hin.
  destruct (check_in obs fct ax _ _ s p M _ _ Hin) as (f' & E & Hf). exists f'.
  pose proof Hin as (H1 & _). auto.
Qed.
Ltac uvk f' Ho Hf :=
  assert (TO : ten_is (kobs_uv obs f') DFloat (M :: s) (fun i => Fin (A (tl i) (hd O i))))
    by (eapply (kobs_uv_is s M obs f' _ _ y (member p x)); eassumption);
  assert (TF : ten_is (kfct_uv f') DFloat (M :: M :: s) (fun i => Fin (B (tl (tl i)) (hd O i) (hd O (tl i)))))
    by (eapply (kfct_uv_is s M f' _ (member p x)); eassumption);
  assert (TS : ten_is (kself_uv obs) DFloat s (fun _ => Fin 1)) by (eapply kself_obs_uv_is; eassumption);
  assert (TD : ten_is (kself_uv f') DFloat (M :: s) (fun _ => Fin 1)) by (eapply kself_fct_uv_is; eassumption);
  assert (T1 : ten_is (klag_uv 1 f') DFloat (M :: s) (fun i => Fin (B (tl i) (hd O i) (lag1 M (hd O i)))))
    by (eapply (klag_uv_is s M f' _ (member p x)); try eassumption; apply lag1_arr);
  assert (TC : ten_is (klag_uv (M / 2) f') DFloat (M :: s) (fun i => Fin (B (tl i) (hd O i) (lagc M (hd O i)))))
    by (eapply (klag_uv_is s M f' _ (member p x)); try eassumption; apply lagc_arr);
  assert (HL : lastdim f' = M) by (eapply lastdim_fct; exact Hf).
Let Bs r i j : B r i j = B r j i := kmem1_sym _ i j.
Let Br r i : B r i i = 1 := kmem1_refl _ i.
Lemma gksuv_call e : (e = MFair -> (1 < M)%nat) ->
  ten_is (gksuv_ensemble b obs fct ax None (mname e)) DFloat s (fun r => Fin (gval e M (A r) (B r))).
Proof.
  intros H2. destruct uv_check as (f' & E & Ho & Hf). unfold gksuv_ensemble. rewrite E. cbn [bind].
  uvk f' Ho Hf.
  destruct b.
  - unfold ks_ensemble_uv_arr. rewrite HL.
    destruct e; cbn [mname String.eqb Ascii.eqb Bool.eqb gval].
    + eapply ks_nrg_arr_is; eassumption.
    + eapply ks_fair_arr_is; eauto.
    + eapply ks_lag_arr_is; eauto.
    + eapply ks_lag_arr_is; eauto.
  - rewrite (Hd eq_refl) in Ho. unfold ks_gufuncs_uv.
    destruct e; cbn [mname String.eqb Ascii.eqb Bool.eqb gval];
      (eapply ten_ext; [eapply (gu_sv_is _ (fun d => d)); [apply outs_lazy|exact Ho|exact Hf]|]);
      intros r Hr; cbv beta; cbn [hd tl]; rewrite ncast_float;
      (eapply on_uv_gen; [reflexivity|]); intros ky kx Ky Kx.
    + apply ks_nrg_k_real; auto.
    + unfold ks_fair_swap_k. apply ks_fair_k_real; auto; try apply Bs.
      intros i j Hi Hj. rewrite Kx by auto. f_equal. apply Bs.
    + apply ks_akr_k_real; auto.
    + apply ks_akrc_k_real; auto.
Qed.

Section weighted.
Variables (wt : arr) (w : list nat -> R).
Hypothesis Hw : uv_wts wt s p M w.
Let wr r := member p w r.
Lemma uv_wt_ok fct' d2 f : arr_is fct' d2 (M :: s) f ->
  exists wt', univariate_weight_check wt fct' ax = Ok wt' /\
    arr_is wt' DFloat (M :: s) (fun i => Fin (nw M (wr (tl i)) (hd O i))).
Proof.
  intros (_ & Hs & _). destruct Hw as (W1 & W2 & W3). pose proof Ha as (_ & _ & Hp & Hax).
  destruct (weight_check_ok wt fct' (dt wt) s DFloat M (fun i => normn M (fun k => Fin (w (insert_at p k (tl i)))) (hd O i))
    (fun i => Fin (w i)) ax p Hs) as (w' & E & H');
    auto using real_arr_is, ens_axis_ok.
  - intros i Hi. simpl. apply rltb_false. destruct (inb_remove p M s i Hp Hi) as (Hr & Hk).
    assert (Li : (p < length i)%nat) by (rewrite (inb_length _ _ Hi), insert_at_length; lia).
    rewrite <- (insert_remove p i O Li). now apply W2.
  - exists w'. split; auto. eapply arr_is_ext; [exact H'|]. intros i Hi. idx. cbn [hd tl].
    apply (normn_real M _ (member p w r)); auto. specialize (W3 r Hr). lra.
Qed.
Let nwr r := nw M (wr r).
Lemma gksuv_call_w e : (e = MFair -> forall r, inb s r -> two_positive M (wr r)) -> ~ (b = Array /\ e = MCirc) ->
  ten_is (gksuv_ensemble b obs fct ax (Some wt) (mname e)) DFloat s
    (fun r => Fin (gval_wa b e M (nwr r) (A r) (B r))).
Proof.
  intros H2 Hc. destruct uv_check as (f' & E & Ho & Hf). unfold gksuv_ensemble. rewrite E. cbn [bind].
  destruct (uv_wt_ok f' _ _ Hf) as (wt' & E' & Hw'). rewrite E'. cbn [bind].
  assert (N1 : e = MFair -> forall r, inb s r -> sumn M (fun i => nwr r i * nwr r i) <> 1).
  { intros Ee r Hr. destruct Hw as (_ & W2 & W3). apply nwsum_ne1; auto. }
  uvk f' Ho Hf. unfold gval_wa. destruct b.
  - unfold ks_ensemble_uv_w_arr. rewrite HL.
    destruct e; cbn [mname String.eqb Ascii.eqb Bool.eqb gval_w]; [| | |tauto].
    + eapply ten_ext; [eapply (ks_nrg_w_arr_is s M _ _ _ A B) with (w := nwr); eauto|]. intros; cbv beta; f_equal; ring.
    + eapply ten_ext; [eapply (ks_fair_w_arr_is s M _ _ _ A B) with (w := nwr); eauto|]. reflexivity.
    + eapply ten_ext; [eapply (ks_lag_w_arr_is s M _ _ A B) with (w := nwr); eauto|]. intros; cbv beta; f_equal; ring.
  - rewrite (Hd eq_refl) in Ho. unfold ks_gufuncs_uv_w. clear Hc.
    destruct e; cbn [mname String.eqb Ascii.eqb Bool.eqb gval_w];
      (eapply ten_ext; [eapply (gu_svv_is _ (fun d => d)); [apply outs_lazy|exact Ho|exact Hf|exact Hw']|]);
      intros r Hr; cbv beta; cbn [hd tl]; rewrite ncast_float, Rplus_0_r;
      (eapply on_uv_gen; [reflexivity|]); intros ky kx Ky Kx.
    + apply ks_nrg_w_k_real; auto.
    + apply ks_fair_w_k_real; auto; apply Bs.
    + apply ks_akr_w_k_real; auto.
    + apply ks_akrc_w_k_real; auto.
Qed.
(** the array dispatch tests the wrong name *)
Lemma gksuv_circ_raises : b = Array -> gksuv_ensemble b obs fct ax (Some wt) "akr_circperm" = Err ValueError.
Proof.
  intros ->. destruct uv_check as (f' & E & Ho & Hf). unfold gksuv_ensemble. rewrite E. cbn [bind].
  destruct (uv_wt_ok f' _ _ Hf) as (wt' & E' & Hw'). rewrite E'. reflexivity.
Qed.
End weighted.

Section owvr.
Variables (a c : num) (wf : option (dtype * (num -> num))) (g : R -> R).
Hypothesis Hg : weighting a c wf g.
Hypothesis Hg0 : forall t, 0 <= g t.
Let gx r k := g (member p x r k).
Lemma uv_weights_real : exists f' ow fw, univariate_array_check obs fct ax = Ok (obs, f') /\
  arr_is obs (dt obs) s (fun r => Fin (y r)) /\
  arr_is f' (dt fct) (M :: s) (fun i => Fin (member p x (tl i) (hd O i))) /\
  uv_weighted_score_weights obs f' a c wf = Ok (ow, fw) /\
  arr_is ow DFloat s (fun r => Fin (g (y r))) /\ arr_is fw DFloat (M :: s) (fun i => Fin (gx (tl i) (hd O i))).
Proof.
  pose proof (val_inputs obs fct ax s p M y x Ha) as Hin. pose proof Hin as (H1 & _).
  destruct (weighting_wg _ _ _ _ Hg) as [G D].
  destruct (prep_start obs fct a c ax _ _ s p M _ _ wf Hin (val_wnn a c s p M y x wf g Hg Hg0))
    as (f' & ow & fw & E & Hf & E2 & Ho & Hfw). rewrite D in *.
  exists f', ow, fw. split; [exact E|]. split; [exact H1|]. split; [exact Hf|]. split; [exact E2|].
  split; [eapply arr_is_ext; [exact Ho|]; intros; apply G|].
  eapply arr_is_ext; [exact Hfw|]; intros; cbv beta; idx; cbn [hd tl]; apply G.
Qed.
Lemma owgksuv_call : (forall r, inb s r -> sumn M (gx r) <> 0) ->
  ten_is (owgksuv_ensemble b obs fct a c ax None wf) DFloat s
    (fun r => Fin (g (y r) * gk_wexact M (nw M (gx r)) (A r) (B r))).
Proof.
  intros Hz. destruct uv_weights_real as (f' & ow & fw & E & Ho & Hf & E2 & How & Hfw).
  unfold owgksuv_ensemble. rewrite E. cbn [bind]. rewrite E2. cbn [bind]. uvk f' Ho Hf. destruct b.
  - eapply (owks_uv_arr_is s M A B) with (a := fun r => g (y r)) (v := gx); eauto.
  - rewrite (Hd eq_refl) in Ho.
    (eapply ten_ext; [eapply (gu_svsv_is _ (fun d => d)); [apply outs_lazy|exact Ho|exact Hf|exact How|exact Hfw]|]);
      intros r Hr; cbv beta; cbn [hd tl]; rewrite ncast_float;
      (eapply on_uv_gen; [reflexivity|]); intros ky kx Ky Kx.
    apply (owks_k_real M ky kx (A r) (B r)); auto.
Qed.
Lemma vrgksuv_call :
  ten_is (vrgksuv_ensemble b obs fct a c ax None wf) DFloat s
    (fun r => Fin (gk_vr M (g (y r)) (fun k => gx r k / INR M) (A r) (B r))).
Proof.
  destruct uv_weights_real as (f' & ow & fw & E & Ho & Hf & E2 & How & Hfw).
  unfold vrgksuv_ensemble. rewrite E. cbn [bind]. rewrite E2. cbn [bind]. uvk f' Ho Hf. destruct b.
  - eapply (vrks_uv_arr_is s M A B) with (a := fun r => g (y r)) (v := gx); eauto.
  - rewrite (Hd eq_refl) in Ho.
    (eapply ten_ext; [eapply (gu_svsv_is _ (fun d => d)); [apply outs_lazy|exact Ho|exact Hf|exact How|exact Hfw]|]);
      intros r Hr; cbv beta; cbn [hd tl]; rewrite ncast_float;
      (eapply on_uv_gen; [reflexivity|]); intros ky kx Ky Kx.
    apply (vrks_k_real M ky kx (A r) (B r)); auto.
Qed.
Section weighted.
Variables (wt : arr) (w : list nat -> R).
Hypothesis Hw : uv_wts wt s p M w.
Let u r k := gx r k * nw M (member p w r) k.
Lemma owgksuv_call_w : (forall r, inb s r -> sumn M (u r) <> 0) ->
  ten_is (owgksuv_ensemble b obs fct a c ax (Some wt) wf) DFloat s
    (fun r => Fin (g (y r) * gk_wexact M (nw M (u r)) (A r) (B r))).
Proof.
  intros Hz. destruct uv_weights_real as (f' & ow & fw & E & Ho & Hf & E2 & How & Hfw).
  unfold owgksuv_ensemble. rewrite E. cbn [bind]. rewrite E2. cbn [bind].
  destruct (uv_wt_ok wt w Hw f' _ _ Hf) as (wt' & E' & Hw'). rewrite E'. cbn [bind]. uvk f' Ho Hf. destruct b.
  - eapply (owks_uv_w_arr_is s M A B) with (a := fun r => g (y r)) (v := gx) (w := fun r => nw M (member p w r)); eauto.
  - rewrite (Hd eq_refl) in Ho.
    (eapply ten_ext; [eapply (gu_svsvv_is _ (fun d => d)); [apply outs_lazy|exact Ho|exact Hf|exact How|exact Hfw|exact Hw']|]);
      intros r Hr; cbv beta; cbn [hd tl]; rewrite ncast_float;
      (eapply on_uv_gen; [reflexivity|]); intros ky kx Ky Kx.
    apply (owks_w_k_real M ky kx (A r) (B r)) with (v := gx r) (w := nw M (member p w r)); auto; try exact (Hz r Hr).
Qed.
Lemma vrgksuv_call_w :
  ten_is (vrgksuv_ensemble b obs fct a c ax (Some wt) wf) DFloat s
    (fun r => Fin (gk_vr M (g (y r)) (u r) (A r) (B r))).
Proof.
  destruct uv_weights_real as (f' & ow & fw & E & Ho & Hf & E2 & How & Hfw).
  unfold vrgksuv_ensemble. rewrite E. cbn [bind]. rewrite E2. cbn [bind].
  destruct (uv_wt_ok wt w Hw f' _ _ Hf) as (wt' & E' & Hw'). rewrite E'. cbn [bind]. uvk f' Ho Hf. destruct b.
  - eapply (vrks_uv_w_arr_is s M A B) with (a := fun r => g (y r)) (v := gx) (w := fun r => nw M (member p w r)); eauto.
  - rewrite (Hd eq_refl) in Ho.
    (eapply ten_ext; [eapply (gu_svsvv_is _ (fun d => d)); [apply outs_lazy|exact Ho|exact Hf|exact How|exact Hfw|exact Hw']|]);
      intros r Hr; cbv beta; cbn [hd tl]; rewrite ncast_float;
      (eapply on_uv_gen; [reflexivity|]); intros ky kx Ky Kx.
    apply (vrks_w_k_real M ky kx (A r) (B r)) with (v := gx r) (w := nw M (member p w r)); auto.
Qed.
End weighted.
End owvr.
End uv.

(** ** multivariate calls *)
Section mv.
Variables (b : impl) (obs fct : arr) (m v : Z) (s : list nat) (p q M D : nat) (y x : list nat -> R).
Hypothesis Ha : mv_args obs fct m v s p q M D y x.
Hypothesis HM : (0 < M)%nat.
Hypothesis HD : (0 < D)%nat.
Hypothesis Hfl : b = Numba -> floats obs fct.
Let A r := kobsD D (obsv q y r) (memv p q x r).
Let B r := kmemD D (memv p q x r).
Ltac mvk o' f' Ho Hf :=
  assert (TO : ten_is (kobs_mv o' f') DFloat (M :: s) (fun i => Fin (A (tl i) (hd O i))))
    by (eapply (kobs_mv_is s D M o' f' _ _ (obsv q y) (memv p q x)); eassumption);
  assert (TF : ten_is (kfct_mv f') DFloat (M :: M :: s) (fun i => Fin (B (tl (tl i)) (hd O i) (hd O (tl i)))))
    by (eapply (kfct_mv_is s D M f' _ (memv p q x)); eassumption);
  assert (TS : ten_is (kself_mv o') DFloat s (fun _ => Fin 1)) by (eapply kself_obs_mv_is; eassumption);
  assert (TD : ten_is (kself_mv f') DFloat (M :: s) (fun _ => Fin 1)) by (eapply kself_fct_mv_is; eassumption);
  assert (T1 : ten_is (klag_mv 1 f') DFloat (M :: s) (fun i => Fin (B (tl i) (hd O i) (lag1 M (hd O i)))))
    by (eapply (klag_mv_is s D M f' _ (memv p q x)); try eassumption; apply lag1_arr);
  assert (TC : ten_is (klag_mv (M / 2) f') DFloat (M :: s) (fun i => Fin (B (tl i) (hd O i) (lagc M (hd O i)))))
    by (eapply (klag_mv_is s D M f' _ (memv p q x)); try eassumption; apply lagc_arr);
  assert (HL : dim2 f' = M) by (eapply dim2_fct; exact Hf).
Ltac mvf Ho Hf := destruct (Hfl eq_refl) as [F1 F2]; rewrite F1 in Ho;
  let F3 := fresh in let F4 := fresh in pose proof Hf as (F3 & _); rewrite F2 in F3; pose proof Ho as (F4 & _);
  unfold mv_floats, needs_float; rewrite F3, F4; cbn [dtype_eqb].
Let Bs r i j : B r i j = B r j i := kmemD_sym D _ i j.
Let Br r i : B r i i = 1 := kmemD_refl D _ i.
Lemma gksmv_call e : (e = MFair -> (1 < M)%nat) ->
  ten_is (gksmv_ensemble b obs fct m v None (mname e)) DFloat s (fun r => Fin (gval e M (A r) (B r))).
Proof.
  intros H2. destruct (mv_check _ _ _ _ _ _ _ _ _ _ _ Ha) as (o' & f' & E & Ho & Hf).
  unfold gksmv_ensemble. rewrite E. cbn [bind]. mvk o' f' Ho Hf. destruct b.
  - unfold ks_ensemble_mv_arr. rewrite HL.
    destruct e; cbn [mname String.eqb Ascii.eqb Bool.eqb gval].
    + eapply ks_nrg_arr_is; eassumption.
    + eapply ks_fair_arr_is; eauto.
    + eapply ks_lag_arr_is; eauto.
    + eapply ks_lag_arr_is; eauto.
  - unfold ks_gufuncs_mv. mvf Ho Hf.
    destruct e; cbn [mname String.eqb Ascii.eqb Bool.eqb gval];
      (eapply ten_ext; [eapply gu_vm_is; [apply outs_lazy_mv|exact HD|exact Ho|exact Hf]|]);
      intros r Hr; cbv beta; cbn [hd tl];
      (eapply on_mv_gen; [reflexivity|reflexivity|]); intros ky kx Ky Kx.
    + apply ks_nrg_k_real; auto.
    + apply ks_fair_k_real; auto; apply Bs.
    + apply ks_akr_k_real; auto.
    + apply ks_akrc_k_real; auto.
Qed.
Section weighted.
Variables (wt : arr) (pw : nat) (w : list nat -> R).
Hypothesis Hw : mv_wts wt s pw M w.
Hypothesis Hqp : p = S pw.
Let wr r := member pw w r.
Let nwr r := nw M (wr r).
Lemma gksmv_call_w e : (e = MFair -> forall r, inb s r -> two_positive M (wr r)) ->
  ten_is (gksmv_ensemble b obs fct m v (Some wt) (mname e)) DFloat s
    (fun r => Fin (gval_wa b e M (nwr r) (A r) (B r))).
Proof.
  intros H2. destruct (mv_check _ _ _ _ _ _ _ _ _ _ _ Ha) as (o' & f' & E & Ho & Hf).
  unfold gksmv_ensemble. rewrite E. cbn [bind].
  destruct (wt_ok _ _ _ _ _ _ _ _ _ _ _ Ha wt pw w Hw Hqp f' _ _ Hf) as (wt' & E' & Hw'). rewrite E'. cbn [bind].
  assert (N1 : e = MFair -> forall r, inb s r -> sumn M (fun i => nwr r i * nwr r i) <> 1).
  { intros Ee r Hr. destruct Hw as (_ & W2 & W3). apply nwsum_ne1; auto. }
  mvk o' f' Ho Hf. unfold gval_wa. destruct b.
  - unfold ks_ensemble_mv_w_arr. rewrite HL.
    destruct e; cbn [mname String.eqb Ascii.eqb Bool.eqb gval_w].
    + eapply ten_ext; [eapply (ks_nrg_w_arr_is s M _ _ _ A B) with (w := nwr); eauto|]. intros; cbv beta; f_equal; ring.
    + eapply ten_ext; [eapply (ks_fair_w_arr_is s M _ _ _ A B) with (w := nwr); eauto|]. reflexivity.
    + eapply ten_ext; [eapply (ks_lag_w_arr_is s M _ _ A B) with (w := nwr); eauto|]. intros; cbv beta; f_equal; ring.
    + eapply ten_ext; [eapply (ks_lag_w_arr_is s M _ _ A B) with (w := nwr); eauto|]. intros; cbv beta; f_equal; ring.
  - unfold ks_gufuncs_mv_w. mvf Ho Hf.
    destruct e; cbn [mname String.eqb Ascii.eqb Bool.eqb gval_w];
      (eapply ten_ext; [eapply gu_vmv_is; [apply outs_lazy_mv|exact HD|exact Ho|exact Hf|exact Hw']|]);
      intros r Hr; cbv beta; cbn [hd tl]; rewrite Rplus_0_r;
      (eapply on_mv_gen; [reflexivity|reflexivity|]); intros ky kx Ky Kx.
    + apply ks_nrg_w_k_real; auto.
    + apply ks_fair_w_k_real; auto; apply Bs.
    + apply ks_akr_w_k_real; auto.
    + apply ks_akrc_w_k_real; auto.
Qed.
End weighted.
Section owvr.
Variables (wf : dtype * (list num -> num)) (g : (nat -> R) -> R).
Hypothesis Hg : vweight D wf g.
Hypothesis Hs0 : ~ In O s.
Let gx r k := g (memv p q x r k).
Ltac start := destruct (mv_check _ _ _ _ _ _ _ _ _ _ _ Ha) as (o' & f' & E & Hin);
  unfold owgksmv_ensemble, vrgksmv_ensemble; rewrite E; cbn [bind]; pose proof Hin as (Ho & Hf);
  destruct (mv_weights s p q M D y x HM HD wf g Hg Hs0 _ _ _ _ Hin) as (ow & fw & E2 & How & Hfw); rewrite E2; cbn [bind];
  mvk o' f' Ho Hf.
Lemma owgksmv_call : (forall r, inb s r -> sumn M (gx r) <> 0) ->
  ten_is (owgksmv_ensemble b obs fct wf m v None) DFloat s
    (fun r => Fin (g (obsv q y r) * gk_wexact M (nw M (gx r)) (A r) (B r))).
Proof.
  intros Hz. start. destruct b.
  - eapply (owks_mv_arr_is s M A B) with (a := fun r => g (obsv q y r)) (v := gx); eauto.
  - mvf Ho Hf. eapply ten_ext; [eapply gu_vmsv_is; eauto using outs_lazy_mv|]. intros r Hr; cbv beta; cbn [hd tl].
    (eapply on_mv_gen; [reflexivity|reflexivity|]); intros ky kx Ky Kx.
    apply (owks_k_real M ky kx (A r) (B r)); auto.
Qed.
Lemma vrgksmv_call :
  ten_is (vrgksmv_ensemble b obs fct wf m v None) DFloat s
    (fun r => Fin (gk_vr M (g (obsv q y r)) (fun k => gx r k / INR M) (A r) (B r))).
Proof.
  start. destruct b.
  - eapply (vrks_mv_arr_is s M A B) with (a := fun r => g (obsv q y r)) (v := gx); eauto.
  - mvf Ho Hf. eapply ten_ext; [eapply gu_vmsv_is; eauto using outs_lazy_mv|]. intros r Hr; cbv beta; cbn [hd tl].
    (eapply on_mv_gen; [reflexivity|reflexivity|]); intros ky kx Ky Kx.
    apply (vrks_k_real M ky kx (A r) (B r)); auto.
Qed.
Section weighted.
Variables (wt : arr) (pw : nat) (w : list nat -> R).
Hypothesis Hw : mv_wts wt s pw M w.
Hypothesis Hqp : p = S pw.
Let u r k := gx r k * nw M (member pw w r) k.
Lemma owgksmv_call_w : b = Array -> (forall r, inb s r -> sumn M (u r) <> 0) ->
  ten_is (owgksmv_ensemble b obs fct wf m v (Some wt)) DFloat s
    (fun r => Fin (g (obsv q y r) * gk_wexact M (nw M (u r)) (A r) (B r))).
Proof.
  intros Hb Hz. start.
  destruct (wt_ok _ _ _ _ _ _ _ _ _ _ _ Ha wt pw w Hw Hqp f' _ _ Hf) as (wt' & E' & Hw'). rewrite E'. cbn [bind]. rewrite Hb.
  eapply (owks_mv_w_arr_is s M A B) with (a := fun r => g (obsv q y r)) (v := gx) (w := fun r => nw M (member pw w r)); eauto.
Qed.
Lemma vrgksmv_call_w : b = Array ->
  ten_is (vrgksmv_ensemble b obs fct wf m v (Some wt)) DFloat s
    (fun r => Fin (gk_vr M (g (obsv q y r)) (u r) (A r) (B r))).
Proof.
  intros Hb. start.
  destruct (wt_ok _ _ _ _ _ _ _ _ _ _ _ Ha wt pw w Hw Hqp f' _ _ Hf) as (wt' & E' & Hw'). rewrite E'. cbn [bind]. rewrite Hb.
  eapply (vrks_mv_w_arr_is s M A B) with (a := fun r => g (obsv q y r)) (v := gx) (w := fun r => nw M (member pw w r)); eauto.
Qed.
(** with numba the weighted variants fail *)
Lemma owgksmv_w_numba : b = Numba -> owgksmv_ensemble b obs fct wf m v (Some wt) = Err NumbaError.
Proof.
  intros Hb. start.
  destruct (wt_ok _ _ _ _ _ _ _ _ _ _ _ Ha wt pw w Hw Hqp f' _ _ Hf) as (wt' & E' & Hw'). rewrite E'. now rewrite Hb.
Qed.
Lemma vrgksmv_w_numba : b = Numba ->
  vrgksmv_ensemble b obs fct wf m v (Some wt) = Err (match s with [] => IndexError | _ => TypeError end).
Proof.
  intros Hb. start.
  destruct (wt_ok _ _ _ _ _ _ _ _ _ _ _ Ha wt pw w Hw Hqp f' _ _ Hf) as (wt' & E' & Hw'). rewrite E'. cbn [bind]. rewrite Hb.
  unfold vrks_mv_w_function. destruct How as (_ & -> & _). destruct s; reflexivity.
Qed.
End weighted.
End owvr.
End mv.
