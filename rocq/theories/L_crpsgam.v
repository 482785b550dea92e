(** The CRPS of the gamma distribution and of its shifted version censored at 0. *)
From Verif Require Export L_betagamma S_csg.
From Coq Require Import Psatz.
From Coquelicot Require Import Coquelicot.
Open Scope R_scope.

Lemma ltail_shift f d y v : ltail f (y + d) v -> ltail (fun t => f (t + d)) y v.
Proof.
  intros H Q HQ. destruct (H Q HQ) as [A B [a0 HA] HB HAB].
  apply (Filter_prod _ _ _ (fun a => a < a0 - d) (fun b => b = y)); [eexists; eauto|reflexivity|]. intros a b Ha ->.
  destruct (HAB (a + d) (y + d)) as (z & Hz & Qz); [apply HA; lra|exact HB|]. exists z. split; [|exact Qz]. cbn [fst snd] in *.
  apply (is_RInt_ext (fun t => scal 1 (f (1 * t + d)))); [intros t _; unfold scal; simpl; unfold mult; simpl; now rewrite !Rmult_1_l|].
  apply (is_RInt_comp_lin (V := R_NormedModule) f 1 d a y z). now rewrite !Rmult_1_l.
Qed.
(** a distribution censored from below at 0 *)
Definition cens0 (F : R -> R) (t : R) : R := if Rlt_dec t 0 then 0 else F t.
Lemma cens0_crps F y v w : 0 <= y -> is_crps F y v -> ltail (fun t => F t ^ 2) 0 w -> is_crps (cens0 F) y (v - w).
Proof.
  intros Hy H L. set (h := fun t => if Rlt_dec t 0 then F t ^ 2 else 0).
  assert (is_RInt_gen h (Rbar_locally m_infty) (Rbar_locally p_infty) w) as K.
  { rewrite <- (Rplus_0_r w). apply (tails_join h 0).
    - eapply ltail_ext; [|exact L]. intros t Ht. unfold h. destruct (Rlt_dec t 0); [auto|lra].
    - apply rtail_0. intros t Ht. unfold h. destruct (Rlt_dec t 0); [lra|auto]. }
  unfold is_crps in *. eapply is_RInt_gen_ext; [|exact (is_RInt_gen_minus (V := R_NormedModule) _ _ _ _ H K)].
  apply filter_forall. intros [a b] t _. unfold minus, plus, opp; simpl. unfold h, cens0, ind_le. destruct (Rlt_dec t 0), (Rle_dec y t); try lra; ring.
Qed.
Lemma exp_ltail F f N Q m q y : dist0 F f m_infty p_infty -> (forall x, is_derive N x (exp x * f x)) -> (forall x, is_derive Q x (2 * f x * N x)) ->
  is_lim N m_infty 0 -> is_lim N p_infty (Finite m) -> is_lim Q m_infty 0 -> is_lim Q p_infty (Finite q) -> 
  ltail (fun t => exp_cdf F t ^ 2) y (if Rle_dec y 0 then 0 else y * F (ln y) ^ 2 - 2 * F (ln y) * N (ln y) + Q (ln y)).
Proof.
  intros D DN DQ N0 N1 Q0 Q1.
  assert (forall (G : R -> R) t d, 0 < t -> is_derive G (ln t) d -> is_derive (fun t => G (ln t)) t (d / t)) as C.
  { intros G t d Ht HG. evar_last; [apply (is_derive_comp G ln t d (/ t)); [exact HG|now apply is_derive_ln]|]. unfold scal; simpl; unfold mult; simpl. field. lra. }
  assert (forall t, xtd 0 p_infty (exp_cdf F) 0 1 t = exp_cdf F t) as E.
  { intros t. apply (xtd_id _ (exp_pdf f)); [now apply dist0_exp| |discriminate]. intros r Hr. injection Hr as <-. unfold exp_cdf. destruct (Rle_dec 0 0); lra. }
  pose proof (gB_ltail (exp_cdf F) (exp_pdf f) (fun t => N (ln t)) (fun t => Q (ln t)) 0 p_infty m q (dist0_exp F f D)) as L.
  replace (if Rle_dec y 0 then 0 else y * F (ln y) ^ 2 - 2 * F (ln y) * N (ln y) + Q (ln y)) with (gB (exp_cdf F) (fun t => N (ln t)) (fun t => Q (ln t)) 0 p_infty m q y).
  - eapply ltail_ext; [|apply L].
    + intros t _. cbv beta. now rewrite E.
    + intros t Ht _. simpl in Ht. evar_last; [apply C; [exact Ht|apply DN]|]. unfold exp_pdf. destruct (Rle_dec t 0); [lra|]. rewrite exp_ln by auto. field. lra.
    + intros t Ht _. simpl in Ht. evar_last; [apply C; [exact Ht|apply DQ]|]. unfold exp_pdf. destruct (Rle_dec t 0); [lra|]. field. lra.
    + eapply filterlim_comp; [exact is_lim_ln_0|exact N0].
    + eapply filterlim_comp; [exact is_lim_ln_p|exact N1].
    + eapply filterlim_comp; [exact is_lim_ln_0|exact Q0].
    + eapply filterlim_comp; [exact is_lim_ln_p|exact Q1].
  - unfold gB. rewrite E. unfold exp_cdf. destruct (Rle_dec y 0).
    + rewrite !xtd_lo by (simpl; lra). ring.
    + rewrite !xtd_in by (simpl; auto; lra). ring.
Qed.
Section gamma.
Variable a : R.
Hypothesis Ha : 0 < a.
Let G := Rgamma a.
Lemma G_pos : 0 < G. Proof. now apply Rgamma_pos. Qed.
Definition gF t := LG a t / Rgamma a.
Definition gf t := lg a t / Rgamma a.
Definition gN t := LG (a + 1) t / Rgamma a.
Definition gQ t := (a * (LG a t * LG a t) - 2 * (LG (2 * a) (t + ln 2) / Rpower 4 a)) / (Rgamma a * Rgamma a).
Definition gam_q := a - 1 / Rbeta (1 / 2) a.
Lemma g_dist : dist0 gF gf m_infty p_infty.
Proof.
  pose proof G_pos as HG. unfold G in HG. destruct (full_lg a Ha) as (D & L0 & L1).
  split; [exact I|split; [intros t; apply Rdiv_le_0_compat; [left; apply lg_pos|auto]|split; [intros t K; destruct K|split; [intros t K; destruct K|split; [|split]]]]].
  - intros t _ _. split; [apply (is_derive_ext (fun t => / Rgamma a * LG a t)); [intros; apply Rmult_comm|]; evar_last; [apply (is_derive_scal (LG a)), D|unfold gf; simpl; field; lra]|].
    apply (continuous_ext (fun t => / Rgamma a * lg a t)); [intros; apply Rmult_comm|]. apply (continuous_mult (fun _ => / Rgamma a) (lg a)); [apply continuous_const|apply lg_cont].
  - change (is_lim gF m_infty 0). apply (is_lim_ext (fun t => / Rgamma a * LG a t)); [intros; apply Rmult_comm|]. replace (Finite 0) with (Finite (/ Rgamma a * 0)) by (f_equal; ring). now apply lim_scal.
  - change (is_lim gF p_infty 1). apply (is_lim_ext (fun t => / Rgamma a * LG a t)); [intros; apply Rmult_comm|]. replace (Finite 1) with (Finite (/ Rgamma a * Rgamma a)) by (f_equal; field; lra). now apply lim_scal.
Qed.
Lemma gN_full : full (fun x => exp x * gf x) gN a.
Proof.
  pose proof G_pos as HG. unfold G in HG. destruct (full_lg (a + 1) ltac:(lra)) as (D & L0 & L1). split; [|split].
  - intros x. apply (is_derive_ext (fun t => / Rgamma a * LG (a + 1) t)); [intros; apply Rmult_comm|]. evar_last; [apply (is_derive_scal (LG (a + 1))), D|]. rewrite <- lg_S. unfold gf. simpl. field. lra.
  - apply (is_lim_ext (fun t => / Rgamma a * LG (a + 1) t)); [intros; apply Rmult_comm|]. replace (Finite 0) with (Finite (/ Rgamma a * 0)) by (f_equal; ring). now apply lim_scal.
  - apply (is_lim_ext (fun t => / Rgamma a * LG (a + 1) t)); [intros; apply Rmult_comm|]. replace (Finite a) with (Finite (/ Rgamma a * Rgamma (a + 1))) by (f_equal; rewrite gamma_rec by auto; field; lra). now apply lim_scal.
Qed.
Lemma lg_sq t : lg a t * lg a t = lg (2 * a) (t + ln 2) / Rpower 4 a.
Proof.
  unfold lg, Rpower, Rdiv. rewrite <- !exp_plus, <- exp_Ropp, <- exp_plus. f_equal. rewrite exp_plus, exp_ln by lra.
  replace (ln 4) with (2 * ln 2) by (replace 4 with (2 * 2) by ring; rewrite ln_mult by lra; ring). ring.
Qed.
Lemma gQ_full : full (fun x => 2 * gf x * gN x) gQ gam_q.
Proof.
  pose proof G_pos as HG. unfold G in HG. destruct (full_lg a Ha) as (D & L0 & L1). destruct (full_shift _ _ _ (ln 2) (full_lg (2 * a) ltac:(lra))) as (D2 & L20 & L21).
  assert (0 < Rpower 4 a) as H4 by apply exp_pos.
  assert (forall x : R, is_derive gQ x (2 * gf x * gN x)) as DQ.
  { intros x. unfold gQ. set (k := / (Rgamma a * Rgamma a)).
    apply (is_derive_ext (fun t => k * (a * (LG a t * LG a t) - 2 / Rpower 4 a * LG (2 * a) (t + ln 2)))); [intros t; change (k * (a * (LG a t * LG a t) - 2 / Rpower 4 a * LG (2 * a) (t + ln 2)) = (a * (LG a t * LG a t) - 2 * (LG (2 * a) (t + ln 2) / Rpower 4 a)) / (Rgamma a * Rgamma a)); unfold k; field; lra|].
    evar_last.
    - apply (is_derive_scal (fun t => a * (LG a t * LG a t) - 2 / Rpower 4 a * LG (2 * a) (t + ln 2)) x k (a * (lg a x * LG a x + LG a x * lg a x) - 2 / Rpower 4 a * lg (2 * a) (x + ln 2))).
      apply (is_derive_minus (fun t => a * (LG a t * LG a t)) (fun t => 2 / Rpower 4 a * LG (2 * a) (t + ln 2)) x (a * (lg a x * LG a x + LG a x * lg a x)) (2 / Rpower 4 a * lg (2 * a) (x + ln 2))).
      + apply (is_derive_scal (fun t => LG a t * LG a t) x a). apply (is_derive_mult (LG a) (LG a) x (lg a x) (lg a x)); [apply D|apply D|intros; apply Rmult_comm].
      + apply (is_derive_scal (fun t => LG (2 * a) (t + ln 2)) x). apply D2.
    - unfold gf, gN, k. rewrite LG_rec by auto. replace (2 / Rpower 4 a * lg (2 * a) (x + ln 2)) with (2 * (lg a x * lg a x)) by (rewrite lg_sq; field; lra). field. lra. }
  assert (forall x v w, is_lim (LG a) x (Finite v) -> is_lim (fun t => LG (2 * a) (t + ln 2)) x (Finite w) -> is_lim gQ x (Finite ((a * (v * v) - 2 * (w / Rpower 4 a)) / (Rgamma a * Rgamma a)))) as K.
  { intros x v w Hv Hw. set (k := / (Rgamma a * Rgamma a)). apply (is_lim_ext (fun t => k * (a * (LG a t * LG a t) - 2 / Rpower 4 a * LG (2 * a) (t + ln 2)))); [intros; unfold k, gQ; field; lra|].
    replace ((a * (v * v) - 2 * (w / Rpower 4 a)) / (Rgamma a * Rgamma a)) with (k * (a * (v * v) - 2 / Rpower 4 a * w)) by (unfold k; field; lra).
    apply lim_scal. apply is_lim_minus'; apply lim_scal; [now apply lim_mult'|exact Hw]. }
  split; [exact DQ|split].
  - replace (Finite 0) with (Finite ((a * (0 * 0) - 2 * (0 / Rpower 4 a)) / (Rgamma a * Rgamma a))) by (f_equal; field; lra). now apply K.
  - replace gam_q with ((a * (Rgamma a * Rgamma a) - 2 * (Rgamma (2 * a) / Rpower 4 a)) / (Rgamma a * Rgamma a)); [now apply K|].
    unfold gam_q. rewrite <- gamma_const by auto. field. lra.
Qed.
Lemma exp_gF t : exp_cdf gF t = gam_cdf0 a t.
Proof. pose proof G_pos as HG. unfold G in HG. unfold exp_cdf, gam_cdf0, gF, LG. destruct (Rle_dec t 0); auto. rewrite exp_ln by lra. field. lra. Qed.
Lemma gam_1 y : 0 < y -> gF (ln y) = Rgammainc a y /\ gN (ln y) = a * Rgammainc (a + 1) y /\
  gQ (ln y) = a * Rgammainc a y ^ 2 - 1 / Rbeta (1 / 2) a * Rgammainc (2 * a) (2 * y).
Proof.
  intros Hy. pose proof G_pos as HG. unfold G in HG. assert (0 < Rpower 4 a) as H4 by apply exp_pos. unfold gF, gN, gQ, LG. rewrite exp_plus, !exp_ln by lra. rewrite gamma_rec, <- gamma_const by auto.
  repeat split; try (field; lra). rewrite (Rmult_comm y 2). field. lra.
Qed.
Lemma gam_cont_inc : (forall y, y <= 0 -> gam_cdf0 a y = 0). Proof. intros y Hy. unfold gam_cdf0. destruct (Rle_dec y 0); [auto|lra]. Qed.
Lemma gam0_crps y : is_crps (gam_cdf0 a) y (y * (2 * gam_cdf0 a y - 1) - a * (2 * gam_cdf0 (a + 1) y - 1) - 1 / Rbeta (1 / 2) a).
Proof.
  destruct gN_full as (DN & N0 & N1). destruct gQ_full as (DQ & Q0 & Q1).
  eapply crps_eq; [exact exp_gF| |exact (exp_crps gF gf gN gQ a gam_q y g_dist DN DQ N0 N1 Q0 Q1)]. unfold gam_q, gam_cdf0.
  destruct (Rle_dec y 0); [ring|]. destruct (gam_1 y ltac:(lra)) as (-> & -> & _). ring.
Qed.
Lemma gam0_ltail y : ltail (fun t => gam_cdf0 a t ^ 2) y (y * gam_cdf0 a y ^ 2 - 2 * gam_cdf0 a y * (a * gam_cdf0 (a + 1) y) + a * gam_cdf0 a y ^ 2 - 1 / Rbeta (1 / 2) a * gam_cdf0 (2 * a) (2 * y)).
Proof.
  destruct gN_full as (DN & N0 & N1). destruct gQ_full as (DQ & Q0 & Q1).
  pose proof (exp_ltail gF gf gN gQ a gam_q y g_dist DN DQ N0 N1 Q0 Q1) as L.
  apply (ltail_ext (fun t => exp_cdf gF t ^ 2)); [intros t _; cbv beta; now rewrite exp_gF|].
  match type of L with ltail _ _ ?v => match goal with |- ltail _ _ ?w => replace w with v; [exact L|] end end.
  unfold gam_cdf0. destruct (Rle_dec y 0), (Rle_dec (2 * y) 0); try lra. destruct (gam_1 y ltac:(lra)) as (-> & -> & ->). ring.
Qed.
End gamma.
Lemma gamma_cdf_ls a r t : 0 < a -> 0 < r -> gamma_cdf a r t = gam_cdf0 a (r * t).
Proof.
  intros Ha Hr. pose proof (dist0_ls _ _ _ _ 0 (1 / r) ltac:(apply Rdiv_lt_0_compat; lra) (gam_dist0 a Ha)) as D.
  simpl in D. rewrite Rmult_0_r, Rplus_0_r in D.
  assert (dist0 (ls_cdf (gam_cdf0 a) 0 (1 / r)) (gamma_pdf a r) 0 p_infty) as D' by (eapply dist0_ext; [| |exact D]; intros; [auto|symmetry; now apply gamma_pdf_ls]).
  unfold gamma_cdf. destruct (Rle_dec t 0) as [L|L].
  - unfold gam_cdf0. destruct (Rle_dec (r * t) 0) as [L'|L']; auto. exfalso. apply L'. nra.
  - transitivity (ls_cdf (gam_cdf0 a) 0 (1 / r) t); [apply (dist0_cdf _ _ 0 p_infty t D'); simpl; auto; lra|]. unfold ls_cdf. f_equal. field. lra.
Qed.
Lemma gamma_crps a r y : 0 < a -> 0 < r ->
  is_crps (gamma_cdf a r) y (y * (2 * gam_cdf0 a (r * y) - 1) - a / r * (2 * gam_cdf0 (a + 1) (r * y) - 1) - 1 / (r * Rbeta (1 / 2) a)).
Proof.
  intros Ha Hr. pose proof (Rbeta_pos (1 / 2) a ltac:(lra) Ha) as HB.
  eapply crps_eq; [| |apply (crps_scale (gam_cdf0 a) 0 (1 / r) y _ ltac:(apply Rdiv_lt_0_compat; lra) (gam0_crps a Ha ((y - 0) / (1 / r))))].
  - intros t. cbv beta. rewrite gamma_cdf_ls by auto. f_equal. field. lra.
  - replace ((y - 0) / (1 / r)) with (r * y) by (field; lra). field. lra.
Qed.
Lemma csg0_crps a r d y : 0 < a -> 0 < r -> 0 <= y ->
  is_crps (cens0 (fun t => gamma_cdf a r (t + d))) y
    ((y + d) * (2 * gam_cdf0 a (r * (y + d)) - 1) - a / (r * PI) * Rbeta (1 / 2) (a + 1 / 2) * (1 - gam_cdf0 (2 * a) (r * (2 * d)))
     + a / r * (1 + 2 * gam_cdf0 a (r * d) * gam_cdf0 (a + 1) (r * d) - gam_cdf0 a (r * d) ^ 2 - 2 * gam_cdf0 (a + 1) (r * (y + d))) - d * gam_cdf0 a (r * d) ^ 2).
Proof.
  intros Ha Hr Hy. pose proof (Rbeta_pos (1 / 2) a ltac:(lra) Ha) as HB. pose proof PI_RGT_0 as HP.
  assert (is_crps (fun t => gam_cdf0 a (t + r * d)) (r * y) (r * (y + d) * (2 * gam_cdf0 a (r * (y + d)) - 1) - a * (2 * gam_cdf0 (a + 1) (r * (y + d)) - 1) - 1 / Rbeta (1 / 2) a)) as K1.
  { eapply crps_eq; [| |apply (crps_scale (gam_cdf0 a) (- (r * d)) 1 (r * y) _ ltac:(lra) (gam0_crps a Ha ((r * y - - (r * d)) / 1)))].
    - intros t. cbv beta. f_equal. field.
    - replace ((r * y - - (r * d)) / 1) with (r * (y + d)) by field. ring. }
  pose proof (ltail_shift _ (r * d) 0 _ (gam0_ltail a Ha (0 + r * d))) as K2. rewrite Rplus_0_l in K2.
  pose proof (cens0_crps _ (r * y) _ _ ltac:(nra) K1 K2) as K.
  match type of K with is_crps _ _ ?v => assert (is_crps (cens0 (fun t => gam_cdf0 a (t + r * d))) ((y - 0) / (1 / r)) v) as K' by (replace ((y - 0) / (1 / r)) with (r * y) by (field; lra); exact K) end.
  eapply crps_eq; [| |exact (crps_scale _ 0 (1 / r) y _ ltac:(apply Rdiv_lt_0_compat; lra) K')].
  - intros t. cbv beta. replace ((t - 0) / (1 / r)) with (r * t) by (field; lra). unfold cens0. rewrite gamma_cdf_ls by auto.
    destruct (Rlt_dec (r * t) 0), (Rlt_dec t 0); try nra. f_equal. ring.
  - replace (a / (r * PI) * Rbeta (1 / 2) (a + 1 / 2)) with (1 / r * (1 / Rbeta (1 / 2) a)) by (rewrite beta_half by auto; field; lra).
    replace (2 * (r * d)) with (r * (2 * d)) by ring. field. lra.
Qed.
(** below 0 the score decreases with slope 1 *)
Lemma cens0_below F y v : y <= 0 -> is_crps (cens0 F) 0 v -> is_crps (cens0 F) y (v - y).
Proof.
  intros Hy H. set (h := fun t => if Rle_dec y t then if Rlt_dec t 0 then 1 else 0 else 0).
  assert (is_RInt_gen h (Rbar_locally m_infty) (Rbar_locally p_infty) (0 + (0 - y) * 1 + 0)) as K.
  { apply (tails_join h 0).
    - apply ltail_seg with (a := y); [apply ltail_0; intros t Ht; unfold h; destruct (Rle_dec y t); [lra|auto]|].
      apply (is_RInt_ext (fun _ => 1)); [|apply (is_RInt_const (V := R_NormedModule) y 0 1)]. intros t Ht. rewrite Rmin_left, Rmax_right in Ht by lra. unfold h. destruct (Rle_dec y t); [|lra]. destruct (Rlt_dec t 0); [auto|lra].
    - apply rtail_0. intros t Ht. unfold h. destruct (Rle_dec y t), (Rlt_dec t 0); auto; lra. }
  replace (v - y) with (v + (0 + (0 - y) * 1 + 0)) by ring. unfold is_crps in *. eapply is_RInt_gen_ext; [|exact (is_RInt_gen_plus (V := R_NormedModule) _ _ _ _ H K)].
  apply filter_forall. intros [a b] t _. unfold plus; simpl. unfold h, cens0, ind_le. destruct (Rle_dec y t), (Rlt_dec t 0), (Rle_dec 0 t); try lra; ring.
Qed.
Lemma gam_1_lt t : 0 < t -> gam_cdf0 (1 + 1) t < gam_cdf0 1 t.
Proof.
  intros Ht. unfold gam_cdf0. destruct (Rle_dec t 0); [lra|]. pose proof (LG_rec 1 (ln t) ltac:(lra)) as E. unfold LG in E. rewrite gamma_rec, exp_ln in E by lra.
  pose proof (lg_pos 1 (ln t)). pose proof (Rgamma_pos 1 ltac:(lra)). nra.
Qed.
