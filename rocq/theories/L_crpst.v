(** The CRPS of the t distribution. *)
From Verif Require Export L_crpsgen L_tt L_tc.
From Coq Require Import Psatz.
From Coquelicot Require Import Coquelicot.
Open Scope R_scope.

Definition tM (n t : R) : R := - (t_pdf n t * (n + t ^ 2) / (n - 1)).
Definition Bbar (n : R) : R := 2 * sqrt n / (n - 1) * Rbeta (1 / 2) (n - 1 / 2) / (Rbeta (1 / 2) (n / 2) * Rbeta (1 / 2) (n / 2)).
Definition tH (n t : R) : R := t_cdf (2 * n - 1) (t * sqrt ((2 * n - 1) / n)).
Definition tQ (n t : R) : R := - (Bbar n * tH n t).
Lemma base_pos n t : 0 < n -> 0 < 1 + t ^ 2 / n.
Proof. intros. assert (0 <= t ^ 2 / n) by (apply Rdiv_le_0_compat; nra). lra. Qed.
Lemma t_pdf_der n t : 0 < n -> is_derive (t_pdf n) t (- ((n + 1) * t / (n + t ^ 2)) * t_pdf n t).
Proof.
  intros Hn. pose proof (base_pos n t Hn) as Hb. assert (0 < n + t ^ 2) by nra.
  pose proof (sqrt_lt_R0 n Hn). pose proof (Rbeta_pos (1 / 2) (n / 2) ltac:(lra) ltac:(lra)) as HB. change (Rbeta (1 / 2) (n / 2)) with (Euler_beta (1 / 2) (n / 2)) in HB.
  unfold t_pdf, Rpower. auto_derive; [simpl in Hb; unfold Rdiv in Hb; exact Hb|]. cbn [pow] in *. unfold Rdiv in *. set (E := exp _). set (W := Euler_beta _ _) in *. field. repeat split; try lra.
Qed.
Lemma tM_der n t : 1 < n -> is_derive (tM n) t (t * t_pdf n t).
Proof.
  intros Hn. pose proof (t_pdf_der n t ltac:(lra)) as D. assert (0 < n + t ^ 2) by nra. unfold tM.
  evar_last.
  - apply (is_derive_opp (fun t => t_pdf n t * (n + t ^ 2) / (n - 1))). apply (is_derive_mult (fun t => t_pdf n t * (n + t ^ 2)) (fun _ => / (n - 1)) t ((- ((n + 1) * t / (n + t ^ 2)) * t_pdf n t) * (n + t ^ 2) + t_pdf n t * (2 * t)) 0); [|exact (is_derive_const (K := R_AbsRing) (V := R_NormedModule) (/ (n - 1)) t)|intros; apply Rmult_comm].
    apply (is_derive_mult (t_pdf n) (fun t => n + t ^ 2) t (- ((n + 1) * t / (n + t ^ 2)) * t_pdf n t) (2 * t)); [exact D|auto_derive; [auto|ring]|intros; apply Rmult_comm].
  - unfold opp, plus, mult; simpl. simpl in H. field. lra.
Qed.
Lemma t_sq n t : 1 < n -> sqrt ((2 * n - 1) / n) * t_pdf (2 * n - 1) (t * sqrt ((2 * n - 1) / n)) * (sqrt n * Rbeta (1 / 2) (n - 1 / 2)) = Rpower (1 + t ^ 2 / n) (- n).
Proof.
  intros Hn. assert (0 < 2 * n - 1) by lra. pose proof (sqrt_lt_R0 n ltac:(lra)). pose proof (sqrt_lt_R0 (2 * n - 1) ltac:(lra)).
  pose proof (Rbeta_pos (1 / 2) (n - 1 / 2) ltac:(lra) ltac:(lra)) as HB. unfold t_pdf.
  replace ((2 * n - 1) / 2) with (n - 1 / 2) by field. change (Euler_beta (1 / 2) (n - 1 / 2)) with (Rbeta (1 / 2) (n - 1 / 2)).
  replace ((2 * n - 1 + 1) / 2) with n by field. rewrite Rpow_mult_distr. rewrite pow2_sqrt by (apply Rdiv_le_0_compat; lra).
  replace (t ^ 2 * ((2 * n - 1) / n) / (2 * n - 1)) with (t ^ 2 / n) by (field; lra). rewrite sqrt_div by lra. field. repeat split; lra.
Qed.
Lemma tQ_der n t : 1 < n -> is_derive (tQ n) t (2 * t_pdf n t * tM n t).
Proof.
  intros Hn. destruct (t_dist0 (2 * n - 1) ltac:(lra)) as (_ & _ & _ & _ & D & _). destruct (D (t * sqrt ((2 * n - 1) / n)) I I) as [D1 _].
  evar_last.
  - apply (is_derive_opp (fun t => Bbar n * tH n t)). apply (is_derive_scal (tH n)). unfold tH. apply (is_derive_comp (t_cdf (2 * n - 1)) (fun t => t * sqrt ((2 * n - 1) / n)) t); [exact D1|auto_derive; auto].
  - unfold opp, scal; simpl; unfold mult; simpl. rewrite Rmult_1_l.
    pose proof (t_sq n t Hn) as E. pose proof (sqrt_lt_R0 n ltac:(lra)) as Hs. pose proof (Rbeta_pos (1 / 2) (n - 1 / 2) ltac:(lra) ltac:(lra)) as HB. pose proof (Rbeta_pos (1 / 2) (n / 2) ltac:(lra) ltac:(lra)) as HB2.
    assert (t_pdf n t * t_pdf n t * (n + t ^ 2) = Rpower (1 + t ^ 2 / n) (- n) / (Rbeta (1 / 2) (n / 2) * Rbeta (1 / 2) (n / 2))) as E2.
    { unfold t_pdf. change (Euler_beta (1 / 2) (n / 2)) with (Rbeta (1 / 2) (n / 2)). pose proof (base_pos n t ltac:(lra)) as Hb.
      replace (- n) with (- ((n + 1) / 2) + - ((n + 1) / 2) + 1) by field. rewrite !Rpower_plus, Rpower_1 by auto.
      assert (sqrt n * sqrt n = n) as Q by (apply sqrt_sqrt; lra). set (X := Rpower _ _). field_simplify_eq; [|repeat split; lra].
      replace (sqrt n ^ 2) with n by (simpl; lra). ring. }
    unfold tM. transitivity (- (2 / (n - 1) * (t_pdf n t * t_pdf n t * (n + t ^ 2)))); [|field; lra]. rewrite E2, <- E. unfold Bbar. field. repeat split; lra.
Qed.
Lemma tM_lim n (e : Rbar) : 1 < n -> e = m_infty \/ e = p_infty -> is_lim (tM n) e 0.
Proof.
  intros Hn He. pose proof (sqrt_lt_R0 n ltac:(lra)) as Hs. pose proof (Rbeta_pos (1 / 2) (n / 2) ltac:(lra) ltac:(lra)) as HB.
  set (K := - (n / (n - 1) / (sqrt n * Rbeta (1 / 2) (n / 2)))). apply (is_lim_ext (fun t => K * pow0 (1 + t ^ 2 / n) (- ((n - 1) / 2)))).
  - intros t. pose proof (base_pos n t ltac:(lra)) as Hb. rewrite pow0_pos by auto. unfold tM, t_pdf, K. change (Euler_beta (1 / 2) (n / 2)) with (Rbeta (1 / 2) (n / 2)).
    replace (- ((n - 1) / 2)) with (- ((n + 1) / 2) + 1) by field. rewrite Rpower_plus, Rpower_1 by auto. field. repeat split; lra.
  - replace (Finite 0) with (Finite (K * 0)) by (f_equal; ring). apply lim_scal.
    apply (is_lim_ext (fun t => pow0 (1 * (1 + t ^ 2 / n) + 0) (- ((n - 1) / 2)))); [intros; f_equal; ring|].
    apply (is_lim_comp (fun x => pow0 (1 * x + 0) (- ((n - 1) / 2))) (fun t => 1 + t ^ 2 / n) e 0 p_infty); [apply lim_Rpower_0; lra| |].
    + apply is_lim_spec. intros b. assert (forall t, Rabs b * n < Rabs t -> 1 < Rabs t -> b < 1 + t ^ 2 / n) as L.
      { intros t H1 H2. apply (Rmult_lt_reg_r n); [lra|]. replace ((1 + t ^ 2 / n) * n) with (n + t ^ 2) by (field; lra). rewrite <- pow2_abs. pose proof (Rle_abs b). nra. }
      destruct He; subst e; [exists (- (Rabs b * n + 1))|exists (Rabs b * n + 1)]; intros t Ht; pose proof (Rabs_pos b); assert (0 <= Rabs b * n) by nra; apply L; solve [rewrite (Rabs_left t) by lra; lra|rewrite (Rabs_right t) by lra; lra].
    + destruct He; subst e; exists 0; discriminate.
Qed.
Lemma tH_lims n : 1 < n -> is_lim (tH n) m_infty 0 /\ is_lim (tH n) p_infty 1.
Proof.
  intros Hn. destruct (t_dist0 (2 * n - 1) ltac:(lra)) as (_ & _ & _ & _ & _ & L1 & L2). assert (0 < sqrt ((2 * n - 1) / n)) as Hs by (apply sqrt_lt_R0, Rdiv_lt_0_compat; lra). split.
  - apply lim_opp_m. apply (is_lim_comp (t_cdf (2 * n - 1)) (fun t => - t * sqrt ((2 * n - 1) / n)) p_infty 0 m_infty); [exact L1| |exists 0; discriminate].
    apply (is_lim_ext (fun t => (- sqrt ((2 * n - 1) / n)) * t + 0)); [intros; ring|]. apply lim_lin_m. lra.
  - apply (is_lim_comp (t_cdf (2 * n - 1)) (fun t => t * sqrt ((2 * n - 1) / n)) p_infty 1 p_infty); [exact L2| |exists 0; discriminate].
    apply (is_lim_ext (fun t => sqrt ((2 * n - 1) / n) * t + 0)); [intros; ring|]. now apply lim_lin_p.
Qed.
Lemma tQ_lims n : 1 < n -> is_lim (tQ n) m_infty 0 /\ is_lim (tQ n) p_infty (- Bbar n).
Proof.
  intros Hn. destruct (tH_lims n Hn) as [A B]. split; (apply (is_lim_ext (fun t => - Bbar n * tH n t)); [intros; unfold tQ; ring|]).
  - replace (Finite 0) with (Finite (- Bbar n * 0)) by (f_equal; ring). now apply lim_scal.
  - replace (Finite (- Bbar n)) with (Finite (- Bbar n * 1)) by (f_equal; ring). now apply lim_scal.
Qed.
Lemma t_std n y : 1 < n -> is_crps (t_cdf n) y (y * (2 * t_cdf n y - 1) + 2 * t_pdf n y * ((n + y ^ 2) / (n - 1)) - Bbar n).
Proof.
  intros Hn. eapply crps_eq; [reflexivity| |apply (dist_crps (t_cdf n) (t_pdf n) (tM n) (tQ n) m_infty p_infty 0 (- Bbar n) y)]; try (intros; discriminate).
  - rewrite xtd_in by exact I. unfold tM. field. lra.
  - apply t_dist0. lra.
  - intros; now apply tM_der.
  - intros; now apply tQ_der.
  - exact (tM_lim n m_infty Hn (or_introl eq_refl)).
  - exact (tM_lim n p_infty Hn (or_intror eq_refl)).
  - exact (proj1 (tQ_lims n Hn)).
  - exact (proj2 (tQ_lims n Hn)).
Qed.
(** * truncated and censored *)
Definition tA (n t : R) : R := t * t_cdf n t - tM n t.
Definition tB (n t : R) : R := t * t_cdf n t ^ 2 - 2 * t_cdf n t * tM n t + tQ n t.
Definition tC (n t : R) : R := - Bbar n - (t * (1 - t_cdf n t) ^ 2 + 2 * tM n t * (1 - t_cdf n t) + tQ n t).
Section tgen.
Variable n : R.
Hypothesis Hn : 1 < n.
Let Hn0 : 0 < n := Rlt_trans 0 1 n Rlt_0_1 Hn.
Let D := t_dist0 n Hn0.
Let DM := fun t => tM_der n t Hn.
Let DQ := fun t => tQ_der n t Hn.
Let L1 := tM_lim n m_infty Hn (or_introl eq_refl).
Let L2 := tM_lim n p_infty Hn (or_intror eq_refl).
Let L3 := proj1 (tQ_lims n Hn).
Let L4 := proj2 (tQ_lims n Hn).
Lemma tA_der t : is_derive (tA n) t (t_cdf n t).
Proof. exact (line_A (t_cdf n) (t_pdf n) (tM n) 0 D DM t). Qed.
Lemma tB_der t : is_derive (tB n) t (t_cdf n t ^ 2).
Proof. exact (line_B (t_cdf n) (t_pdf n) (tM n) (tQ n) 0 0 D DM DQ t). Qed.
Lemma tB_ltail y : ltail (fun t => t_cdf n t ^ 2) y (tB n y).
Proof. exact (line_ltail (t_cdf n) (t_pdf n) (tM n) (tQ n) 0 (- Bbar n) D DM DQ L1 L2 L3 L4 y). Qed.
Lemma tC_rtail y : rtail (fun t => (1 - t_cdf n t) ^ 2) y (tC n y).
Proof. exact (line_rtail (t_cdf n) (t_pdf n) (tM n) (tQ n) 0 (- Bbar n) D DM DQ L1 L2 L3 L4 y). Qed.
Lemma t_cdf_cont t : continuous (t_cdf n) t.
Proof. apply (ex_derive_continuous (t_cdf n)). exists (t_pdf n t). now apply D. Qed.
Definition tV l u lm um z := tc_value (t_cdf n) (tA n) (tB n) (tC n) l u lm um z.
Lemma t_tc l u lm um w : tc_ok l u lm um ->
  is_crps (truncensx (t_cdf n) l u lm um) w (Rabs (w - clamp w l u) + tV l u lm um (clamp w l u)).
Proof.
  apply (tc_crps (t_cdf n) (tA n) (tB n) (tC n) tA_der tB_der t_cdf_cont tB_ltail tC_rtail).
  - intros a b. now apply t_cdf_incr.
  - intros t. now apply t_cdf_in.
  - intros t. now apply t_cdf_in.
Qed.
End tgen.
(** the incomplete beta function at the complement *)
Lemma betainc_sym a b x : 0 < a -> 0 < b -> 0 <= x <= 1 -> Rbetainc a b x = 1 - Rbetainc b a (1 - x).
Proof.
  intros Ha Hb Hx. assert (forall a b, Rbetainc a b 0 = 0) as Z by (intros; unfold Rbetainc; destruct (Rle_dec 0 0); [auto|lra]).
  assert (forall a b, Rbetainc a b 1 = 1) as O by (intros; unfold Rbetainc; destruct (Rle_dec 1 0); [lra|]; destruct (Rle_dec 1 1); [auto|lra]).
  destruct (Rle_lt_or_eq_dec 0 x) as [H0|H0]; [lra| |subst x; rewrite Rminus_0_r, Z, O; ring].
  destruct (Rle_lt_or_eq_dec x 1) as [H1|H1]; [lra| |subst x; rewrite Rminus_eq_0, Z, O; ring].
  destruct (bet_dist0 a b Ha Hb) as (_ & _ & _ & _ & Da & La0 & La1). destruct (bet_dist0 b a Hb Ha) as (_ & _ & _ & _ & Db & Lb0 & Lb1).
  set (h := fun x => Rbetainc a b x + Rbetainc b a (1 - x)).
  assert (forall t, 0 < t < 1 -> is_derive h t 0) as Dh.
  { intros t Ht. destruct (Da t) as [D1 _]; try (simpl; lra). destruct (Db (1 - t)) as [D2 _]; try (simpl; lra). evar_last.
    - apply (is_derive_plus (Rbetainc a b) (fun x => Rbetainc b a (1 - x)) t); [exact D1|]. apply (is_derive_comp (Rbetainc b a) (fun x => 1 - x) t (beta_pdf b a (1 - t)) (-1)); [exact D2|auto_derive; auto; ring].
    - unfold plus, scal; simpl; unfold mult; simpl. unfold beta_pdf. destruct (Rle_dec t 0), (Rle_dec 1 t), (Rle_dec (1 - t) 0), (Rle_dec 1 (1 - t)); try lra.
      change (Euler_beta a b) with (Rbeta a b). change (Euler_beta b a) with (Rbeta b a). rewrite (Rbeta_sym b a) by auto. replace (1 - (1 - t)) with t by ring. unfold Rdiv; ring. }
  assert (forall s t, 0 < s < 1 -> 0 < t < 1 -> s <= t -> h s = h t) as C.
  { intros s t Hs Ht Hst. destruct (MVT_gen h s t (fun _ => 0)) as (c & _ & E); rewrite ?Rmin_left, ?Rmax_right in * by auto.
    - intros; apply Dh; lra.
    - intros y Hy. apply continuity_pt_filterlim. apply (ex_derive_continuous h). eexists; apply Dh; lra.
    - lra. }
  assert (filterlim h (at_right 0) (locally (0 + 1))) as L.
  { apply (filterlim_comp_2 (G := locally 0) (H := locally 1) (Rbetainc a b) (fun x => Rbetainc b a (1 - x)) Rplus); [exact La0| |exact (filterlim_plus (V := R_NormedModule) 0 1)].
    apply (filterlim_comp _ _ _ (fun x => 1 - x) (Rbetainc b a) _ (at_left 1)); [|exact Lb1]. intros P [d Hd]. exists d. intros y Hy Hy0. apply Hd; [|lra].
    unfold ball in *; simpl in *. unfold AbsRing_ball, abs, minus, plus, opp in *; simpl in *. apply Rabs_def2 in Hy; apply Rabs_def1; lra. }
  assert (filterlim h (at_right 0) (locally (h x))) as L2.
  { apply (below_ext (fun _ => h x) h 0 x); [simpl; lra| |simpl; apply filterlim_const]. intros y Hy Hyx. simpl in Hy. apply C; lra. }
  pose proof (filterlim_locally_unique (F := at_right 0) h _ _ L L2) as E. unfold h in E. lra.
Qed.
Lemma tH_code n t : 1 < n -> t <> 0 -> tH n t = (t / Rabs t * Rbetainc (1 / 2) (n - 1 / 2) (t * t / (n + t * t)) + 1) / 2.
Proof.
  intros Hn Ht. unfold tH. rewrite t_cdf_tF by lra. unfold tF. assert (0 < sqrt ((2 * n - 1) / n)) as Hs by (apply sqrt_lt_R0, Rdiv_lt_0_compat; lra).
  assert (t_arg (2 * n - 1) (t * sqrt ((2 * n - 1) / n)) = 1 - t * t / (n + t * t)) as E.
  { unfold t_arg. replace (t * sqrt ((2 * n - 1) / n) * (t * sqrt ((2 * n - 1) / n))) with (t * t * (sqrt ((2 * n - 1) / n) * sqrt ((2 * n - 1) / n))) by ring.
    rewrite sqrt_sqrt by (apply Rdiv_le_0_compat; lra). field. repeat split; nra. }
  rewrite E. replace ((2 * n - 1) / 2) with (n - 1 / 2) by field. assert (0 <= t * t / (n + t * t) <= 1) as B.
  { split; [apply Rdiv_le_0_compat; nra|]. apply (Rmult_le_reg_r (n + t * t)); [nra|]. unfold Rdiv. rewrite Rmult_assoc, Rinv_l by nra. nra. }
  rewrite (betainc_sym (1 / 2) (n - 1 / 2)) by lra. destruct (Rlt_dec t 0).
  - destruct (Rlt_dec _ 0); [|exfalso; nra]. rewrite (Rabs_left t) by lra. field. lra.
  - destruct (Rlt_dec _ 0); [exfalso; nra|]. rewrite (Rabs_right t) by lra. field. lra.
Qed.
Lemma tcv_f n x : 0 < n -> tcv (Fin x) (Fin n) = Fin (t_cdf n x). Proof. intros H. exact (tcv_ext n x H). Qed.
Lemma tcv_p n : 0 < n -> tcv PInf (Fin n) = Fin 1. Proof. intros H. exact (tcv_ext n p_infty H). Qed.
Lemma tcv_m n : 0 < n -> tcv NInf (Fin n) = Fin 0. Proof. intros H. exact (tcv_ext n m_infty H). Qed.
Lemma tpv_p n : tpv PInf n = Fin 0. Proof. reflexivity. Qed.
Lemma tpv_m n : tpv NInf n = Fin 0. Proof. reflexivity. Qed.
Ltac evt := repeat (progress (nev; rewrite ?tpv_p, ?tpv_m; repeat rewrite tcv_p by sd; repeat rewrite tcv_m by sd; repeat rewrite tcv_f by sd; repeat rewrite tpv_fin by sd;
  repeat rewrite beta_f1 by sd; repeat rewrite betainc_f1 by sd)).
Ltac evs c := repeat rewrite ev_sub; repeat rewrite ev_sub_pf; repeat rewrite ev_sub_mf; repeat rewrite (div_f _ c) by lra; repeat rewrite (div_pf c) by lra; repeat rewrite (div_mf c) by lra.
Lemma tb_gtct T0 T1 T2 T3 T4 T5 T6 T7 s i n y m c l u lm um L0 L1 L2 L3 L4 L5 L6 L7 :
  tb T1 s i (Fin y) L1 -> tb T0 s i (Fin n) L0 -> tb T2 s i (Fin m) L2 -> tb T3 s i (Fin c) L3 -> tb T4 s i (rbn l) L4 -> tb T5 s i (rbn u) L5 ->
  tb T6 s i (Fin lm) L6 -> tb T7 s i (Fin um) L7 -> (inb s i -> 1 < n /\ 0 < c /\ tc_ok l u lm um /\ l <> Finite m /\ u <> Finite m) ->
  tb (gtct T1 T0 T2 T3 T4 T5 T6 T7) s i
    (Fin (let w := (y - m) / c in let l := std m c l in let u := std m c u in let z := clamp w l u in
          c * (Rabs (w - z) + tV n l u lm um z))) (L1 ++ L0 ++ L2 ++ L3 ++ L4 ++ L5 ++ L6 ++ L7).
Proof.
  intros H1 H0 H2 H3 H4 H5 H6 H7 K.
  eapply tb_incl; [eapply tb_eq; [tbt|intros Hi]|intros t Ht; rewrite !in_app_iff in *; decompose [or] Ht; tauto].
  destruct (K Hi) as (Hn & Hc & (Hlu & Hm & Hl & Hu) & Nl & Nu). clear K H0 H1 H2 H3 H4 H5 H6 H7.
  assert (0 < n) as Hn0 by lra. pose proof (sqrt_lt_R0 n Hn0) as Hs. pose proof (Rbeta_pos (1 / 2) (n - 1 / 2) ltac:(lra) ltac:(lra)) as HB1. pose proof (Rbeta_pos (1 / 2) (n / 2) ltac:(lra) ltac:(lra)) as HB2.
  assert (0 < Rbeta (1 / 2) (n / 2) * Rbeta (1 / 2) (n / 2)) as HB3 by now apply Rmult_lt_0_compat.
  assert (forall a, Finite a <> Finite m -> (a - m) / c <> 0 /\ Rabs ((a - m) / c) <> 0) as NZ.
  { intros a Ha. assert ((a - m) / c <> 0) as A; [|split; auto; now apply Rabs_no_R0]. intros E. apply Ha. f_equal. assert ((a - m) / c * c = 0) as E2 by (rewrite E; ring). unfold Rdiv in E2. rewrite Rmult_assoc, Rinv_l in E2 by lra. lra. }
  assert (forall a, 0 < n + a * a /\ 0 <= a * a / (n + a * a) <= 1) as BB.
  { intros a. assert (0 < n + a * a) by nra. split; auto. split; [apply Rdiv_le_0_compat; nra|]. apply (Rmult_le_reg_r (n + a * a)); [nra|]. unfold Rdiv. rewrite Rmult_assoc, Rinv_l by nra. nra. }
  destruct l as [l| |], u as [u| |]; simpl in Hlu; try contradiction; try (specialize (Hl eq_refl); subst lm); try (specialize (Hu eq_refl); subst um);
   cbn [rbn std clamp]; cbv zeta.
  - assert ((l - m) / c < (u - m) / c) as Hs2 by (apply (std_lt m c l u Hc); exact Hlu). pose proof (t_cdf_incr n _ _ Hn0 Hs2) as Hi2.
    destruct (NZ l Nl) as [Zl1 Zl2], (NZ u Nu) as [Zu1 Zu2], (BB ((l - m) / c)) as [Bl1 Bl2], (BB ((u - m) / c)) as [Bu1 Bu2]. try clear Hu; try clear Hl; try clear Hlu; clear NZ BB Nl Nu.
    evs c. generalize dependent ((l - m) / c). intros l'. generalize dependent ((u - m) / c). intros u'. generalize ((y - m) / c). intros w Zu1 Zu2 Bu1 Bu2 Zl1 Zl2 Bl1 Bl2 Hs2 Hi2.
    evt. rewrite <- !tH_code by auto. fold (Bbar n). f_equal. unfold tV, tc_value, trunc_value, tA, tB, tC, tQ, tM. generalize (Bbar n). intros bb. field. repeat split; lra.
  - destruct (t_cdf_in n ((l - m) / c) Hn0) as [P1 P2]. destruct (NZ l Nl) as [Zl1 Zl2], (BB ((l - m) / c)) as [Bl1 Bl2]. try clear Hu; try clear Hl; try clear Hlu; clear NZ BB Nl Nu.
    evs c. generalize dependent ((l - m) / c). intros l'. generalize ((y - m) / c). intros w P1 P2 Zl1 Zl2 Bl1 Bl2.
    evt. rewrite <- !tH_code by auto. fold (Bbar n). f_equal. unfold tV, tc_value, trunc_value, tA, tB, tC, tQ, tM. generalize (Bbar n). intros bb. field. repeat split; lra.
  - destruct (t_cdf_in n ((u - m) / c) Hn0) as [P1 P2]. destruct (NZ u Nu) as [Zl1 Zl2], (BB ((u - m) / c)) as [Bl1 Bl2]. try clear Hu; try clear Hl; try clear Hlu; clear NZ BB Nl Nu.
    evs c. generalize dependent ((u - m) / c). intros u'. generalize ((y - m) / c). intros w P1 P2 Zl1 Zl2 Bl1 Bl2.
    evt. rewrite <- !tH_code by auto. fold (Bbar n). f_equal. unfold tV, tc_value, trunc_value, tA, tB, tC, tQ, tM. generalize (Bbar n). intros bb. field. repeat split; lra.
  - try clear Hu; try clear Hl; try clear Hlu; clear NZ BB Nl Nu. evs c. generalize ((y - m) / c). intros w. evt. fold (Bbar n). f_equal. unfold tV, tc_value, trunc_value, tA, tB, tC, tQ, tM. generalize (Bbar n). intros bb. field. repeat split; lra.
Qed.
Lemma tb_gtct_nan T0 T1 T2 T3 T4 T5 T6 T7 s i n y m c l u lm um L0 L1 L2 L3 L4 L5 L6 L7 :
  tb T1 s i (Fin y) L1 -> tb T0 s i (Fin n) L0 -> tb T2 s i (Fin m) L2 -> tb T3 s i (Fin c) L3 -> tb T4 s i (rbn l) L4 -> tb T5 s i (rbn u) L5 ->
  tb T6 s i (Fin lm) L6 -> tb T7 s i (Fin um) L7 -> (inb s i -> 1 < n /\ 0 < c /\ Rbar_lt l u /\ (l = Finite m \/ u = Finite m)) ->
  tb (gtct T1 T0 T2 T3 T4 T5 T6 T7) s i NaN (L1 ++ L0 ++ L2 ++ L3 ++ L4 ++ L5 ++ L6 ++ L7).
Proof.
  intros H1 H0 H2 H3 H4 H5 H6 H7 K.
  eapply tb_incl; [eapply tb_eq; [tbt|intros Hi]|intros t Ht; rewrite !in_app_iff in *; decompose [or] Ht; tauto].
  destruct (K Hi) as (Hn & Hc & Hlu & E). clear K H0 H1 H2 H3 H4 H5 H6 H7.
  assert (0 < n) as Hn0 by lra. assert (Fin 0 ./ nabs (Fin 0) = NaN) as Z by (rewrite ev_abs, Rabs_R0; apply ndiv_0).
  assert ((Fin m .- Fin m) ./ Fin c = Fin 0) as Zm by (rewrite ev_sub, div_f by lra; f_equal; field; lra).
  destruct E as [-> | ->]; cbn [rbn]; rewrite Zm.
  - destruct u as [u| |]; simpl in Hlu; try contradiction; cbn [rbn]; evs c; autorewrite with nev; rewrite ?Rabs_R0, ndiv_0; autorewrite with nev; try reflexivity.
  - destruct l as [l| |]; simpl in Hlu; try contradiction; cbn [rbn]; evs c; autorewrite with nev; rewrite ?Rabs_R0, ndiv_0; autorewrite with nev; try reflexivity.
Qed.
