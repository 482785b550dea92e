(** Entries of the truncated and censored normal and logistic scores. *)
From Verif Require Export L_closed L_nev L_norm L_tc.
From Coq Require Import Psatz.
From Coquelicot Require Import Coquelicot.
Open Scope R_scope.

Lemma tb_incl T s i x L L' : tb T s i x L -> incl L' L -> tb T s i x L'.
Proof. intros (a & E & H1 & H2 & H3) HL. exists a. repeat split; auto. intros j t Ht. apply H3. now apply HL. Qed.
Definition xcdf (F : R -> R) (x : num) : num := match x with Fin r => Fin (F r) | PInf => Fin 1 | NInf => Fin 0 | NaN => NaN end.
Definition xpdf (f : R -> R) (x : num) : num := match x with Fin r => Fin (f r) | PInf | NInf => Fin 0 | NaN => NaN end.
Lemma tb_norm_cdf T s i x L : tb T s i x L -> tb (_norm_cdf T) s i (xcdf NF x) L.
Proof.
  intros H. pose proof sqrt2_pos. eapply tb_incl; [eapply tb_eq; [tbs|intros Hi]|intros t Ht; rewrite !in_app_iff; auto 10]. destruct x as [r| | |]; cbn [xcdf].
  - nev. unfold nerf. nev. reflexivity.
  - nev. unfold nerf. nev. f_equal. field.
  - nev. unfold nerf. nev. f_equal. field.
  - nev. unfold nerf. nev. reflexivity.
Qed.
Lemma tb_norm_pdf T s i x L : tb T s i x L -> tb (_norm_pdf T) s i (xpdf phi x) L.
Proof.
  intros H. pose proof PI_RGT_0. assert (0 < sqrt (2 * PI)) by (apply sqrt_lt_R0; lra).
  eapply tb_incl; [eapply tb_eq; [tbs|intros Hi]|intros t Ht; rewrite !in_app_iff; auto 10]. destruct x as [r| | |]; cbn [xpdf].
  - nev. f_equal. unfold phi. replace (- (r * r) / 2) with (- (r ^ 2 / 2)) by field. field. lra.
  - nev. f_equal. ring.
  - nev. f_equal. ring.
  - nev. reflexivity.
Qed.
Definition Ncdf (t : R) : R := / (1 + exp (- t)).
Lemma tb_logis_cdf T s i x L : tb T s i x L -> tb (_logis_cdf T) s i (xcdf Ncdf x) L.
Proof.
  intros H. eapply tb_incl; [eapply tb_eq; [tbs|intros Hi]|intros t Ht; rewrite !in_app_iff; auto 10]. destruct x as [r| | |]; cbn [xcdf].
  - pose proof (exp_pos (- r)). nev. unfold Ncdf, Rdiv. now rewrite Rmult_1_l.
  - nev. f_equal. field.
  - nev. reflexivity.
  - nev. reflexivity.
Qed.
Ltac tbn :=
  lazymatch goal with
  | |- tb (let x := ?T in @?k x) ?s ?i _ _ => eapply (tb_let T k); [tbn|let t := fresh "t" in let Ht := fresh "Ht" in intros t Ht; cbv beta; tbn]
  | |- tb (sci _) _ _ _ _ => eapply tb_sci
  | |- tb (sc _) _ _ _ _ => eapply tb_sc
  | |- tb (scn _) _ _ _ _ => eapply tb_scn
  | |- tb (awhere _ _ _) _ _ _ _ => eapply tb_where; tbn
  | |- tb (_norm_cdf _) _ _ _ _ => eapply tb_norm_cdf; tbn
  | |- tb (_norm_pdf _) _ _ _ _ => eapply tb_norm_pdf; tbn
  | |- tb (_logis_cdf _) _ _ _ _ => eapply tb_logis_cdf; tbn
  | H : tb ?T ?s ?i _ _ |- tb ?T ?s ?i _ _ => exact H
  | |- tb (amap _ _ _) _ _ _ _ => eapply tb_map; tbn
  | |- tb (abin _ _ _ _) _ _ _ _ => eapply tb_bin; tbn
  | |- tb ?T _ _ _ _ => let h := head_of T in unfold h; tbn
  end.
Lemma ev_xcdf F x : xcdf F (Fin x) = Fin (F x). Proof. reflexivity. Qed.
Lemma ev_xcdf_p F : xcdf F PInf = Fin 1. Proof. reflexivity. Qed.
Lemma ev_xcdf_m F : xcdf F NInf = Fin 0. Proof. reflexivity. Qed.
Lemma ev_xpdf F x : xpdf F (Fin x) = Fin (F x). Proof. reflexivity. Qed.
Lemma ev_xpdf_p F : xpdf F PInf = Fin 0. Proof. reflexivity. Qed.
Lemma ev_xpdf_m F : xpdf F NInf = Fin 0. Proof. reflexivity. Qed.
Lemma ev_abs_p : nabs PInf = PInf. Proof. reflexivity. Qed.
Lemma mul_p b : 0 < b -> nmul PInf (Fin b) = PInf.
Proof. intros; simpl. unfold infsgn. destruct (Rlt_dec 0 b); [auto|lra]. Qed.
Lemma mul_m b : 0 < b -> nmul NInf (Fin b) = NInf.
Proof. intros; simpl. unfold infsgn. destruct (Rlt_dec 0 b); [auto|lra]. Qed.
#[export] Hint Rewrite ev_xcdf ev_xcdf_p ev_xcdf_m ev_xpdf ev_xpdf_p ev_xpdf_m : nev.
#[export] Hint Rewrite mul_p mul_m using sd : nev.
Lemma NF_lt1 t : NF t < 1.
Proof. pose proof (NF_pos (- t)) as H. rewrite NF_opp in H. lra. Qed.
Definition nV l u lm um z := tc_value NF nA nB (fun y => nB (- y)) l u lm um z.
Lemma normal_tc l u lm um w : tc_ok l u lm um ->
  is_crps (truncensx NF l u lm um) w (Rabs (w - clamp w l u) + nV l u lm um (clamp w l u)).
Proof.
  apply (tc_crps NF nA nB (fun y => nB (- y)) nA_der nB_der NF_cont NF_ltail2 NF_rtail2 NF_incr NF_pos NF_lt1).
Qed.
Lemma tb_gtcnormal T1 T2 T3 T4 T5 T6 T7 s i y m c l u lm um L1 L2 L3 L4 L5 L6 L7 :
  tb T1 s i (Fin y) L1 -> tb T2 s i (Fin m) L2 -> tb T3 s i (Fin c) L3 -> tb T4 s i (rbn l) L4 -> tb T5 s i (rbn u) L5 ->
  tb T6 s i (Fin lm) L6 -> tb T7 s i (Fin um) L7 -> (inb s i -> 0 < c /\ tc_ok l u lm um) ->
  tb (gtcnormal T1 T2 T3 T4 T5 T6 T7) s i
    (Fin (let w := (y - m) / c in let l := std m c l in let u := std m c u in let z := clamp w l u in
          c * (Rabs (w - z) + nV l u lm um z))) (L1 ++ L2 ++ L3 ++ L4 ++ L5 ++ L6 ++ L7).
Proof.
  intros H1 H2 H3 H4 H5 H6 H7 K.
  eapply tb_incl; [eapply tb_eq; [tbn|intros Hi]|intros t Ht; rewrite !in_app_iff in *; decompose [or] Ht; tauto].
  destruct (K Hi) as (Hc & Hlu & Hm & Hl & Hu). clear K H1 H2 H3 H4 H5 H6 H7. pose proof sqrt2_pos. pose proof sqrtPI_pos. pose proof PI_RGT_0.
  destruct l as [l| |], u as [u| |]; simpl in Hlu; try contradiction; try (specialize (Hl eq_refl); subst lm); try (specialize (Hu eq_refl); subst um);
   cbn [rbn std clamp]; cbv zeta.
  - assert ((l - m) / c < (u - m) / c) as Hs by (apply (std_lt m c l u Hc); exact Hlu).
    nev. fold ((u - m) / c). pose proof (NF_incr _ _ Hs). nev. f_equal. unfold nV, tc_value, trunc_value, nA, nB. field. repeat split; try lra.
  - nev. fold ((l - m) / c). pose proof (NF_lt1 ((l - m) / c)). nev. f_equal. unfold nV, tc_value. rewrite nB_opp. unfold nA, nB. field. repeat split; try lra.
  - nev. fold ((u - m) / c). pose proof (NF_pos ((u - m) / c)). nev. f_equal. unfold nV, tc_value, nA, nB. field. repeat split; try lra.
  - nev. f_equal. unfold nV, tc_value. rewrite nB_opp. unfold nA, nB. field. repeat split; try lra.
Qed.

(** * logistic *)
Lemma lB_ltail y : ltail (fun t => Ncdf t ^ 2) y (lB y).
Proof.
  rewrite <- (Rminus_0_r (lB y)). apply (ltail_der _ (fun t => (/ (1 + exp (- t))) ^ 2) lB); auto.
  - intros; apply lB_der.
  - intros; apply cont_sq, logis_cont.
  - apply lB_lim.
Qed.
Lemma lB_rtail y : rtail (fun t => (1 - Ncdf t) ^ 2) y (lB (- y)).
Proof.
  replace (lB (- y)) with (0 - (- lB (- y))) by ring.
  apply (rtail_der _ (fun t => (/ (1 + exp (- - t))) ^ 2) (fun t => - lB (- t))).
  - intros; unfold Ncdf; now rewrite logis_sym.
  - intros t _. evar_last.
    + apply @is_derive_opp. apply (is_derive_comp lB Ropp); [apply lB_der|]. auto_derive; auto.
    + unfold opp, scal; simpl; unfold mult; simpl. ring.
  - intros t _. apply (continuous_comp Ropp (fun t => (/ (1 + exp (- t))) ^ 2)); [cont Ropp|apply cont_sq, logis_cont].
  - replace (Finite 0) with (Rbar_opp 0) by (simpl; f_equal; ring). apply is_lim_opp. apply lim_opp_p.
    apply (is_lim_ext lB); [intros; now rewrite Ropp_involutive|]. apply lB_lim.
Qed.
Lemma Ncdf_pos t : 0 < Ncdf t.
Proof. unfold Ncdf. apply Rinv_0_lt_compat. pose proof (exp_pos (- t)). lra. Qed.
Lemma Ncdf_lt1 t : Ncdf t < 1.
Proof. pose proof (Ncdf_pos (- t)) as H. unfold Ncdf in *. rewrite <- logis_sym in H. lra. Qed.
Lemma Ncdf_incr a b : a < b -> Ncdf a < Ncdf b.
Proof.
  intros H. unfold Ncdf. assert (exp (- b) < exp (- a)) by (apply exp_increasing; lra). pose proof (exp_pos (- b)).
  apply Rinv_lt_contravar; [|lra]. apply Rmult_lt_0_compat; lra.
Qed.
Lemma Ncdf_opp t : Ncdf (- t) = 1 - Ncdf t.
Proof. unfold Ncdf. now rewrite logis_sym. Qed.
Definition lV l u lm um z := tc_value Ncdf lA lB (fun y => lB (- y)) l u lm um z.
Lemma logis_tc l u lm um w : tc_ok l u lm um ->
  is_crps (truncensx Ncdf l u lm um) w (Rabs (w - clamp w l u) + lV l u lm um (clamp w l u)).
Proof.
  apply (tc_crps Ncdf lA lB (fun y => lB (- y)) lA_der lB_der logis_cont lB_ltail lB_rtail Ncdf_incr Ncdf_pos Ncdf_lt1).
Qed.
Lemma ln_Ncdf_opp t : ln (Ncdf (- t)) = - lA t.
Proof. unfold Ncdf, lA. rewrite Ropp_involutive, ln_Rinv; auto. pose proof (exp_pos t); lra. Qed.
Lemma lB_alt t : lB t = lA t - Ncdf t. Proof. reflexivity. Qed.
Lemma lA_opp t : lA (- t) = lA t - t.
Proof.
  unfold lA. pose proof (exp_pos t). replace (1 + exp (- t)) with ((1 + exp t) * exp (- t)).
  - rewrite ln_mult, ln_exp; [ring|lra|apply exp_pos].
  - rewrite exp_Ropp. field. lra.
Qed.
Definition both (l u : Rbar) : Prop := l = m_infty <-> u = p_infty.
Lemma log_cdf x : nlog (Fin (Ncdf (- x))) = Fin (- lA x).
Proof. rewrite log_f by apply Ncdf_pos. now rewrite ln_Ncdf_opp. Qed.
#[export] Hint Rewrite log_cdf : nev.
Lemma tb_gtclogistic T1 T2 T3 T4 T5 T6 T7 s i y m c l u lm um L1 L2 L3 L4 L5 L6 L7 :
  tb T1 s i (Fin y) L1 -> tb T2 s i (Fin m) L2 -> tb T3 s i (Fin c) L3 -> tb T4 s i (rbn l) L4 -> tb T5 s i (rbn u) L5 ->
  tb T6 s i (Fin lm) L6 -> tb T7 s i (Fin um) L7 -> (inb s i -> 0 < c /\ tc_ok l u lm um /\ both l u) ->
  tb (gtclogistic T1 T2 T3 T4 T5 T6 T7) s i
    (Fin (let w := (y - m) / c in let l := std m c l in let u := std m c u in let z := clamp w l u in
          c * (Rabs (w - z) + lV l u lm um z))) (L1 ++ L2 ++ L3 ++ L4 ++ L5 ++ L6 ++ L7).
Proof.
  intros H1 H2 H3 H4 H5 H6 H7 K.
  eapply tb_incl; [eapply tb_eq; [tbn|intros Hi]|intros t Ht; rewrite !in_app_iff in *; decompose [or] Ht; tauto].
  destruct (K Hi) as (Hc & (Hlu & Hm & Hl & Hu) & Hb). clear K H1 H2 H3 H4 H5 H6 H7.
  destruct l as [l| |], u as [u| |]; simpl in Hlu; try contradiction; try (specialize (Hl eq_refl); subst lm); try (specialize (Hu eq_refl); subst um);
   cbn [rbn std clamp]; cbv zeta.
  - assert ((l - m) / c < (u - m) / c) as Hs by (apply (std_lt m c l u Hc); exact Hlu).
    nev. pose proof (Ncdf_incr _ _ Hs). nev. f_equal. unfold lV, tc_value, trunc_value. rewrite !lB_alt. field. repeat split; try lra.
  - destruct Hb as [_ Hb]. now specialize (Hb eq_refl).
  - destruct Hb as [Hb _]. now specialize (Hb eq_refl).
  - nev. f_equal. unfold lV, tc_value. rewrite !lB_alt, Ncdf_opp, lA_opp. field. lra.
Qed.
(** one infinite bound: NaN *)
Lemma tb_gtclogistic_nan T1 T2 T3 T4 T5 T6 T7 s i y m c l u lm um L1 L2 L3 L4 L5 L6 L7 :
  tb T1 s i (Fin y) L1 -> tb T2 s i (Fin m) L2 -> tb T3 s i (Fin c) L3 -> tb T4 s i (rbn l) L4 -> tb T5 s i (rbn u) L5 ->
  tb T6 s i (Fin lm) L6 -> tb T7 s i (Fin um) L7 -> (inb s i -> 0 < c /\ Rbar_lt l u /\ ~ both l u) ->
  tb (gtclogistic T1 T2 T3 T4 T5 T6 T7) s i NaN (L1 ++ L2 ++ L3 ++ L4 ++ L5 ++ L6 ++ L7).
Proof.
  intros H1 H2 H3 H4 H5 H6 H7 K.
  eapply tb_incl; [eapply tb_eq; [tbn|intros Hi]|intros t Ht; rewrite !in_app_iff in *; decompose [or] Ht; tauto].
  destruct (K Hi) as (Hc & Hlu & Hb). clear K H1 H2 H3 H4 H5 H6 H7.
  destruct l as [l| |], u as [u| |]; simpl in Hlu; try contradiction; cbn [rbn].
  - destruct Hb. split; discriminate.
  - nev. reflexivity.
  - nev. reflexivity.
  - destruct Hb. split; reflexivity.
Qed.

(** * distribution functions with location and scale *)
Lemma truncensx_ext F G l u lm um t : (forall t, F t = G t) -> truncensx F l u lm um t = truncensx G l u lm um t.
Proof. intros E. unfold truncensx. rewrite E. destruct l, u; cbn [ext_cdf]; rewrite ?E; reflexivity. Qed.
Lemma tc_loc F G V m c l u lm um y : 0 < c -> tc_ok l u lm um -> (forall t, G t = F ((t - m) / c)) ->
  (forall l u lm um w, tc_ok l u lm um -> is_crps (truncensx F l u lm um) w (Rabs (w - clamp w l u) + V l u lm um (clamp w l u))) ->
  is_crps (truncensx G l u lm um) y
    (let w := (y - m) / c in let l := std m c l in let u := std m c u in let z := clamp w l u in c * (Rabs (w - z) + V l u lm um z)).
Proof.
  intros Hc Ho E H. cbv zeta. eapply crps_eq; [|reflexivity|apply (crps_scale _ m c y _ Hc (H _ _ _ _ ((y - m) / c) (std_ok m c l u lm um Hc Ho)))].
  intros t. cbv beta. rewrite truncensx_scale by auto. apply truncensx_ext. auto.
Qed.
Lemma censored_tc F l u : Rbar_lt l u -> (forall a b, a < b -> F a < F b) -> (forall t, 0 < F t < 1) ->
  tc_ok l u (ext_cdf F l) (1 - ext_cdf F u) /\ forall t, truncensx F l u (ext_cdf F l) (1 - ext_cdf F u) t = censored F l u t.
Proof.
  intros H I P. assert (ext_cdf F l < ext_cdf F u) as K.
  { destruct l as [l| |], u as [u| |]; simpl in *; try contradiction; try (apply P). - auto. - lra. }
  split.
  - split; auto. split; [lra|]. split; intros ->; simpl; ring.
  - intros t. unfold truncensx, censored. destruct (Rbar_lt_dec t l); auto. destruct (Rbar_lt_dec t u); auto. field. lra.
Qed.
Lemma std_cdf F m c x : 0 < c -> (forall r, x = Fin r -> True) -> forall b, x = rbn b ->
  xcdf F (ndiv (nsub x (Fin m)) (Fin c)) = Fin (ext_cdf (fun t => F ((t - m) / c)) b).
Proof. intros Hc _ b ->. destruct b as [b| |]; cbn [rbn ext_cdf]; nev; reflexivity. Qed.

(** * two-piece normal *)
Lemma crps_glue (F F1 F2 : R -> R) m y v w : (forall t, t < m -> F1 t = F t) -> (forall t, m <= t -> F1 t = 1) ->
  (forall t, t < m -> F2 t = 0) -> (forall t, m <= t -> F2 t = F t) ->
  is_crps F1 (Rmin y m) v -> is_crps F2 (Rmax y m) w -> is_crps F y (v + w).
Proof.
  intros H1 H2 H3 H4 Hv Hw. unfold is_crps in *.
  eapply is_RInt_gen_ext; [|apply (is_RInt_gen_plus (V := R_NormedModule) _ _ _ _ Hv Hw)].
  apply filter_forall. intros [a b] t _. unfold plus; simpl. unfold ind_le, Rmin, Rmax. 
  destruct (Rlt_dec t m) as [C|C]; [rewrite H1, H3 by lra|rewrite H2, H4 by lra]; 
  destruct (Rle_dec y m) as [D|D]; destruct (Rle_dec _ _), (Rle_dec _ _); try lra; try ring.
Qed.
