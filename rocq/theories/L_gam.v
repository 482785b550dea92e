(** The gamma, beta and t distributions. *)
From Verif Require Export L_improp L_fam S_cont.
From Coq Require Import Psatz.
From Coquelicot Require Import Coquelicot.
Open Scope R_scope.

Lemma not_inn l u x : ~ inn l u x -> ~ (Rbar_lt l x /\ Rbar_lt x u). Proof. auto. Qed.
Lemma improper_dist (l u : Rbar) (f F g : R -> R) Z : improper l u f Z -> Rbar_lt l u -> (forall x, inn l u x -> continuous f x /\ 0 < f x) ->
  (forall t, inn l u t -> g t = f t / Z) -> (forall t, ~ inn l u t -> g t = 0) ->
  (forall t, inn l u t -> F t = RInt_gen f (from_below l) (at_point t) / Z) -> (forall t : R, Rbar_lt t l -> F t = 0) -> (forall t : R, Rbar_lt u t -> F t = 1) ->
  dist0 F g l u.
Proof.
  intros (HZ & I & G & D & L1 & L2 & B & IG) Hlu Hf Eg Eg0 EF F0 F1.
  assert (forall t, inn l u t -> F t = G t / Z) as EF'.
  { intros t Ht. rewrite EF by auto. f_equal. apply (is_RInt_gen_unique (V := R_CompleteNormedModule)). auto. }
  assert (forall t : R, Rbar_lt t l -> ~ inn l u t) as N1 by (intros t A [C _]; pose proof (Rbar_lt_trans _ _ _ A C) as E; simpl in E; lra).
  assert (forall t : R, Rbar_lt u t -> ~ inn l u t) as N2 by (intros t A [_ C]; pose proof (Rbar_lt_trans _ _ _ A C) as E; destruct u; simpl in E; auto; lra).
  assert (forall (P : (R -> Prop) -> Prop) (HP : Filter P) v, filterlim G P (locally v) -> filterlim (fun t => G t / Z) P (locally (v / Z))) as K.
  { intros P HP v L. apply (filterlim_comp _ _ _ G (fun z => z / Z) P (locally v)); auto. apply (ex_derive_continuous (fun z => z / Z) v). auto_derive. auto. }
  split; [auto|]. split; [|split; [|split; [|split; [|split]]]].
  - intros t. destruct (Classical_Prop.classic (inn l u t)) as [A|A]; [rewrite Eg by auto; apply Rdiv_le_0_compat; auto; left; now apply Hf|rewrite Eg0; auto; lra].
  - intros t Ht. split; auto.
  - intros t Ht. split; auto.
  - intros t A C. assert (inn l u t) as Ht by (split; auto). split.
    + apply (is_derive_ext_loc (fun t => G t / Z)); [eapply filter_imp; [|exact (inn_open l u t Ht)]; intros y Hy; simpl; symmetry; auto|].
      rewrite Eg by auto. apply (is_derive_ext (fun t => / Z * G t)); [intros y; unfold Rdiv; apply Rmult_comm|]. unfold Rdiv. rewrite Rmult_comm.
      apply (is_derive_scal G t (/ Z)). auto.
    + apply (cont_in g (fun t => f t / Z) l u t A C); [intros x Hx1 Hx2; apply Eg; split; auto|].
      apply (continuous_mult f (fun _ => / Z)); [now apply Hf|apply continuous_const].
  - destruct (inside l u Hlu) as (t & A & C). apply (below_ext (fun t => G t / Z) F l t); auto.
    + intros x Hx Hxt. apply EF'. split; auto. exact (Rbar_lt_trans x t u Hxt C).
    + replace 0 with (0 / Z) by (unfold Rdiv; ring). apply K; auto. apply _.
  - destruct (inside l u Hlu) as (t & A & C). apply (above_ext (fun t => G t / Z) F u t); auto.
    + intros x Hx Hxt. apply EF'. split; auto. exact (Rbar_lt_trans l t x A Hxt).
    + replace 1 with (Z / Z) by (field; lra). apply K; auto. apply _.
Qed.
Lemma dist0_cdf F f l u (t : R) : dist0 F f l u -> Rbar_lt l t -> Rbar_lt t u -> RInt_gen f (from_below l) (at_point t) = F t.
Proof. intros H A B. apply dist0_distribution in H. apply (is_RInt_gen_unique (V := R_CompleteNormedModule)). now apply H. Qed.
(** * gamma *)
Definition gam_pdf0 (a t : R) := if Rle_dec t 0 then 0 else gamma_f a t / Rgamma a.
Definition gam_cdf0 (a t : R) := if Rle_dec t 0 then 0 else Rgammainc a t.
Lemma Rgamma_pos a : 0 < a -> 0 < Rgamma a. Proof. intros H. apply (Rgamma_improper a H). Qed.
Lemma gam_dist0 a : 0 < a -> dist0 (gam_cdf0 a) (gam_pdf0 a) 0 p_infty.
Proof.
  intros Ha. apply (improper_dist 0 p_infty (gamma_f a) _ _ (Rgamma a)); auto; unfold gam_cdf0, gam_pdf0.
  - now apply Rgamma_improper.
  - exact I.
  - intros x Hx. apply (proj1 (inn_gamma x)) in Hx. split; [now apply gamma_f_cont|]. unfold gamma_f. apply Rmult_lt_0_compat; apply exp_pos.
  - intros t Hx. apply (proj1 (inn_gamma t)) in Hx. destruct (Rle_dec t 0); [lra|auto].
  - intros t Hx. destruct (Rle_dec t 0); [lra|]. exfalso. apply Hx, (inn_gamma t). lra.
  - intros t Hx. apply (proj1 (inn_gamma t)) in Hx. destruct (Rle_dec t 0); [lra|]. unfold Rgammainc. destruct (Req_EM_T t 0); [lra|auto].
  - intros t Hx. simpl in Hx. destruct (Rle_dec t 0); [auto|lra].
  - intros t Hx. easy.
Qed.
Lemma Rpower_mult_l x y p : 0 < x -> 0 < y -> Rpower (x * y) p = Rpower x p * Rpower y p.
Proof. intros. symmetry. now apply Rpower_mult_distr. Qed.
Lemma gamma_pdf_ls a r t : 0 < r -> gamma_pdf a r t = ls_pdf (gam_pdf0 a) 0 (1 / r) t.
Proof.
  intros Hr. unfold gamma_pdf, ls_pdf, gam_pdf0. replace ((t - 0) / (1 / r)) with (r * t) by (field; lra).
  destruct (Rle_dec t 0) as [L|L], (Rle_dec (r * t) 0) as [L'|L']; try (exfalso; nra).
  - unfold Rdiv; ring.
  - change (Euler_gamma a) with (Rgamma a). unfold gamma_f, Rdiv. rewrite Rmult_1_l, Rinv_inv. ring.
Qed.
Lemma gamma_dist0 a r : 0 < a -> 0 < r -> dist0 (gamma_cdf a r) (gamma_pdf a r) 0 p_infty.
Proof.
  intros Ha Hr. pose proof (dist0_ls _ _ _ _ 0 (1 / r) ltac:(apply Rdiv_lt_0_compat; lra) (gam_dist0 a Ha)) as D.
  simpl in D. rewrite Rmult_0_r, Rplus_0_r in D.
  assert (dist0 (ls_cdf (gam_cdf0 a) 0 (1 / r)) (gamma_pdf a r) 0 p_infty) as D' by (eapply dist0_ext; [| |exact D]; intros; [auto|symmetry; now apply gamma_pdf_ls]).
  eapply dist0_ext; [| |exact D']; intros t; [|auto]. unfold gamma_cdf. destruct (Rle_dec t 0) as [L|L].
  - unfold ls_cdf, gam_cdf0. destruct (Rle_dec ((t - 0) / (1 / r)) 0) as [L'|L']; auto. exfalso. apply L'. replace ((t - 0) / (1 / r)) with (r * t) by (field; lra). nra.
  - symmetry. apply (dist0_cdf _ _ 0 p_infty t D'); simpl; auto. lra.
Qed.
(** * beta *)
Definition bet_pdf0 (a b t : R) := if Rle_dec t 0 then 0 else if Rle_dec 1 t then 0 else beta_f a b t / Rbeta a b.
Lemma Rbeta_pos a b : 0 < a -> 0 < b -> 0 < Rbeta a b. Proof. intros H H'. apply (Rbeta_improper a b H H'). Qed.
Lemma bet_dist0 a b : 0 < a -> 0 < b -> dist0 (Rbetainc a b) (beta_pdf a b) 0 1.
Proof.
  intros Ha Hb. apply (improper_dist 0 1 (beta_f a b) _ _ (Rbeta a b)); auto; unfold Rbetainc, beta_pdf.
  - now apply Rbeta_improper.
  - simpl; lra.
  - intros x Hx. apply (proj1 (inn_beta x)) in Hx. split; [now apply beta_f_cont|]. unfold beta_f. apply Rmult_lt_0_compat; apply exp_pos.
  - intros t Hx. apply (proj1 (inn_beta t)) in Hx. destruct (Rle_dec t 0); [lra|]. destruct (Rle_dec 1 t); [lra|auto].
  - intros t Hx. destruct (Rle_dec t 0); [lra|]. destruct (Rle_dec 1 t); [lra|]. exfalso. apply Hx, (inn_beta t). lra.
  - intros t Hx. apply (proj1 (inn_beta t)) in Hx. destruct (Rle_dec t 0); [lra|]. destruct (Rle_dec 1 t); [lra|auto].
  - intros t Hx. simpl in Hx. destruct (Rle_dec t 0); [auto|lra].
  - intros t Hx. simpl in Hx. destruct (Rle_dec t 0); [lra|]. destruct (Rle_dec 1 t); [auto|lra].
Qed.
Lemma beta_dist0 a b : 0 < a -> 0 < b -> dist0 (beta_cdf a b) (beta_pdf a b) 0 1.
Proof.
  intros Ha Hb. pose proof (bet_dist0 a b Ha Hb) as D. eapply dist0_ext; [| |exact D]; intros t; [|auto]. unfold beta_cdf.
  destruct (Rle_dec t 0) as [L|L]; [unfold Rbetainc; destruct (Rle_dec t 0); [auto|lra]|].
  destruct (Rle_dec 1 t) as [L'|L']; [unfold Rbetainc; destruct (Rle_dec t 0); [lra|]; destruct (Rle_dec 1 t); [auto|lra]|].
  symmetry. apply (dist0_cdf _ _ 0 1 t D); simpl; lra.
Qed.
Lemma lim_at_left_flip (G : R -> R) v : filterlim G (at_right 0) (locally v) -> filterlim (fun t => G (1 - t)) (at_left 1) (locally v).
Proof.
  intros H P HP. specialize (H P HP). unfold filtermap in *. destruct H as [e He]. exists e. intros y Hy Hy1. apply He; [|lra].
  unfold ball in *; simpl in *. unfold AbsRing_ball, abs, minus, plus, opp in *; simpl in *. rewrite <- Rabs_Ropp. replace (- (1 - y + - 0)) with (y + - (1)) by ring. auto.
Qed.
Lemma lim_at_right_flip (G : R -> R) v : filterlim G (at_left 1) (locally v) -> filterlim (fun t => G (1 - t)) (at_right 0) (locally v).
Proof.
  intros H P HP. specialize (H P HP). unfold filtermap in *. destruct H as [e He]. exists e. intros y Hy Hy1. apply He; [|lra].
  unfold ball in *; simpl in *. unfold AbsRing_ball, abs, minus, plus, opp in *; simpl in *. rewrite <- Rabs_Ropp. replace (- (1 - y + - (1))) with (y + - 0) by ring. auto.
Qed.
Lemma Rbeta_sym a b : 0 < a -> 0 < b -> Rbeta b a = Rbeta a b.
Proof.
  intros Ha Hb. destruct (Rbeta_improper a b Ha Hb) as (HZ & _ & G & D & L1 & L2 & B & _).
  unfold Rbeta at 1. apply (is_RInt_gen_unique (V := R_CompleteNormedModule) (Fa := at_right 0) (Fb := at_left 1) (beta_f b a) (Rbeta a b)).
  assert (forall Z, (Z - 0) - (Z - Z) = Z) as EZ by (intros; ring). rewrite <- (EZ (Rbeta a b)).
  assert (forall (P : (R -> Prop) -> Prop) (HP : Filter P) v, filterlim (fun t => G (1 - t)) P (locally v) -> filterlim (fun t => Rbeta a b - G (1 - t)) P (locally (Rbeta a b - v))) as K.
  { intros P HP v L. apply (filterlim_comp _ _ _ (fun t => G (1 - t)) (fun z => Rbeta a b - z) P (locally v)); auto. apply (ex_derive_continuous (fun z => Rbeta a b - z) v). auto_derive. auto. }
  apply (prim_gen (beta_f b a) (fun t => Rbeta a b - G (1 - t)) _ _ (HA := _) (HB := _)).
  - apply (Filter_prod _ _ _ (fun x : R => Rbar_lt 0 x /\ x < 1 / 2) (fun x : R => Rbar_lt x 1 /\ 1 / 2 < x)); [apply (below_in 0 (1 / 2)); simpl; lra|apply (above_in 1 (1 / 2)); simpl; lra|].
    intros x y [A1 A2] [C1 C2]. simpl in *.
    apply (seg_der (beta_f b a) (beta_f b a) (fun t => Rbeta a b - G (1 - t)) x y); auto; [lra| |intros t Ht; apply beta_f_cont; lra].
    intros t Ht. evar_last.
    + apply (is_derive_minus (fun _ => Rbeta a b) (fun t => G (1 - t)) t 0 (- beta_f a b (1 - t))); [exact (is_derive_const (K := R_AbsRing) (V := R_NormedModule) (Rbeta a b) t)|].
      evar_last; [apply (is_derive_comp G (fun t => 1 - t) t (beta_f a b (1 - t)) (-1)); [apply D, (inn_beta (1 - t)); lra|auto_derive; auto; ring]|]. unfold scal; simpl; unfold mult; simpl. ring.
    + unfold minus, plus, opp; simpl. unfold beta_f. replace (1 - (1 - t)) with t by ring. ring.
  - apply K; [apply _|]. apply lim_at_right_flip, L2.
  - apply K; [apply _|]. apply lim_at_left_flip, L1.
Qed.
(** * t *)
Definition t_arg (n x : R) := n / (x * x + n).
Definition tF (n x : R) := if Rlt_dec x 0 then 1 / 2 * Rbetainc (n / 2) (1 / 2) (t_arg n x) else 1 - 1 / 2 * Rbetainc (n / 2) (1 / 2) (t_arg n x).
Lemma t_kernel n x : 0 < n -> 0 < x -> n * x / (x * x + n) ^ 2 * beta_f (n / 2) (1 / 2) (t_arg n x) = Rpower (1 + x ^ 2 / n) (- ((n + 1) / 2)) / sqrt n.
Proof.
  intros Hn Hx. unfold beta_f, t_arg. set (q := x * x + n). assert (0 < q) as Hq by (unfold q; nra).
  replace (1 - n / q) with (x * x * / q) by (unfold q; field; fold q; lra). replace (1 + x ^ 2 / n) with (q * / n) by (unfold q; field; lra).
  assert (0 < x * x) by nra. assert (0 < / q) by now apply Rinv_0_lt_compat. assert (0 < / n) by now apply Rinv_0_lt_compat.
  replace (n * x / q ^ 2) with (exp (ln n + ln x + - ln q + - ln q)) by (rewrite !exp_plus, !exp_Ropp, !exp_ln by auto; field; lra).
  assert (/ sqrt n = exp (- (1 / 2 * ln n))) as E by (rewrite exp_Ropp; f_equal; rewrite <- Rpower_sqrt by auto; unfold Rpower; f_equal; field).
  unfold Rdiv. rewrite E.
  unfold Rpower. rewrite <- !exp_plus. f_equal. unfold Rdiv. rewrite !ln_mult, !ln_Rinv by auto. field.
Qed.
Lemma t_pdf_even n x : t_pdf n (- x) = t_pdf n x.
Proof. unfold t_pdf. replace ((- x) ^ 2) with (x ^ 2) by ring. auto. Qed.
Lemma t_pdf_cont n x : 0 < n -> continuous (t_pdf n) x.
Proof.
  intros Hn. apply (ex_derive_continuous (t_pdf n)). unfold t_pdf, Rpower. auto_derive. assert (0 <= x * (x * 1) * / n) by (apply Rmult_le_pos; [nra|left; now apply Rinv_0_lt_compat]). lra.
Qed.
Lemma t_pdf_pos n x : 0 < n -> 0 < t_pdf n x.
Proof.
  intros Hn. unfold t_pdf. apply Rdiv_lt_0_compat; [apply exp_pos|]. apply Rmult_lt_0_compat; [now apply sqrt_lt_R0|]. apply (Rbeta_pos (1 / 2) (n / 2)); lra.
Qed.
Lemma t_arg_in n x : 0 < n -> x <> 0 -> 0 < t_arg n x < 1.
Proof.
  intros Hn Hx. unfold t_arg. assert (0 < x * x) by nra. split; [apply Rdiv_lt_0_compat; lra|]. apply (Rmult_lt_reg_r (x * x + n)); [lra|]. unfold Rdiv. rewrite Rmult_assoc, Rinv_l by lra. lra.
Qed.
Lemma tF_der n x : 0 < n -> 0 < x -> is_derive (tF n) x (t_pdf n x).
Proof.
  intros Hn Hx. pose proof (t_arg_in n x Hn ltac:(lra)) as Ht. destruct (bet_dist0 (n / 2) (1 / 2) ltac:(lra) ltac:(lra)) as (_ & _ & _ & _ & D & _).
  destruct (D (t_arg n x)) as [D1 _]; try (simpl; lra).
  apply (der_in _ (fun x => 1 - 1 / 2 * Rbetainc (n / 2) (1 / 2) (t_arg n x)) 0 p_infty); simpl; auto; [intros y Hy _; unfold tF; destruct (Rlt_dec y 0); [lra|auto]|].
  evar_last.
  - apply (is_derive_minus (fun _ => 1) (fun x => 1 / 2 * Rbetainc (n / 2) (1 / 2) (t_arg n x)) x 0); [exact (is_derive_const (K := R_AbsRing) (V := R_NormedModule) 1 x)|].
    apply (is_derive_scal (fun x => Rbetainc (n / 2) (1 / 2) (t_arg n x)) x (1 / 2)).
    apply (is_derive_comp (Rbetainc (n / 2) (1 / 2)) (t_arg n) x); [exact D1|]. unfold t_arg. auto_derive; [nra|reflexivity].
  - unfold scal, minus, plus, opp; simpl; unfold mult; simpl. unfold beta_pdf. destruct (Rle_dec (t_arg n x) 0); [lra|]. destruct (Rle_dec 1 (t_arg n x)); [lra|].
    unfold t_pdf. change (Euler_beta (n / 2) (1 / 2)) with (Rbeta (n / 2) (1 / 2)). change (Euler_beta (1 / 2) (n / 2)) with (Rbeta (1 / 2) (n / 2)). rewrite (Rbeta_sym (1 / 2) (n / 2)) by lra.
    pose proof (Rbeta_pos (1 / 2) (n / 2) ltac:(lra) ltac:(lra)) as HB. pose proof (sqrt_lt_R0 n Hn) as Hs.
    pose proof (t_kernel n x Hn Hx) as K. change (Rpower (t_arg n x) (n / 2 - 1) * Rpower (1 - t_arg n x) (1 / 2 - 1)) with (beta_f (n / 2) (1 / 2) (t_arg n x)).
    apply (Rmult_eq_reg_r (Rbeta (1 / 2) (n / 2))); [|lra]. transitivity (n * x / (x * x + n) ^ 2 * beta_f (n / 2) (1 / 2) (t_arg n x)); [field; split; nra|]. rewrite K. field. lra.
Qed.
Definition tK (n x : R) := RInt (t_pdf n) 0 x.
Lemma tK_der n x : 0 < n -> is_derive (tK n) x (t_pdf n x).
Proof.
  intros Hn. apply (is_derive_RInt (t_pdf n) (tK n) 0 x); [|now apply t_pdf_cont]. apply filter_forall. intros y.
  apply (RInt_correct (V := R_CompleteNormedModule)), (ex_RInt_continuous (V := R_CompleteNormedModule)). intros z _. now apply t_pdf_cont.
Qed.
Lemma tK_odd n x : 0 < n -> tK n (- x) = - tK n x.
Proof.
  intros Hn. assert (is_RInt (t_pdf n) 0 (- x) (- tK n x - 0)) as H.
  { assert (forall y, is_derive (fun t => - tK n (- t)) y (t_pdf n y)) as D.
    { intros y. evar_last; [apply (is_derive_opp (fun t => tK n (- t))); apply (is_derive_comp (tK n) Ropp y (t_pdf n (- y)) (-1)); [now apply tK_der|auto_derive; auto]|].
      rewrite t_pdf_even. unfold scal, opp; simpl; unfold mult; simpl. ring. }
    replace (- tK n x - 0) with (- tK n (- - x) - - tK n (- 0)); [|rewrite Ropp_involutive, Ropp_0; unfold tK at 2; rewrite (RInt_point (V := R_CompleteNormedModule)); unfold zero; simpl; ring].
    apply (is_RInt_derive (fun t => - tK n (- t)) (t_pdf n)); intros y _; [apply D|now apply t_pdf_cont]. }
  unfold tK at 1. rewrite (is_RInt_unique _ _ _ _ H). apply Rminus_0_r.
Qed.
Lemma t_arg_at_0 n (P : R -> Prop) : 0 < n -> at_left 1 P -> at_right 0 (fun x => P (t_arg n x)).
Proof.
  intros Hn [e He]. assert (continuous (t_arg n) 0) as C by (apply (ex_derive_continuous (t_arg n)); unfold t_arg; auto_derive; nra).
  assert (t_arg n 0 = 1) as E by (unfold t_arg; field; lra).
  assert (locally (t_arg n 0) (fun y => ball 1 e y)) as L by (rewrite E; apply locally_ball). apply C in L. destruct L as [d Hd]. exists d. intros y Hy Hy0. apply He; [now apply Hd|].
  apply t_arg_in; lra.
Qed.
Lemma t_arg_at_inf n (P : R -> Prop) : 0 < n -> at_right 0 P -> Rbar_locally p_infty (fun x => P (t_arg n x)).
Proof.
  intros Hn [e He]. exists (Rmax 1 (n / e)). intros y Hy. pose proof (cond_pos e). assert (1 < y) by (eapply Rle_lt_trans; [apply Rmax_l|exact Hy]). assert (n / e < y) by (eapply Rle_lt_trans; [apply Rmax_r|exact Hy]).
  destruct (t_arg_in n y Hn ltac:(lra)) as [A _]. apply He; [|auto]. unfold ball; simpl. unfold AbsRing_ball, abs, minus, plus, opp; simpl. rewrite Ropp_0, Rplus_0_r, Rabs_right by lra.
  unfold t_arg. apply (Rmult_lt_reg_r (y * y + n)); [nra|]. unfold Rdiv. rewrite Rmult_assoc, Rinv_l by nra. assert (n < y * e) as L. { apply (Rmult_lt_reg_r (/ e)); [now apply Rinv_0_lt_compat|]. rewrite Rmult_assoc, Rinv_r by lra. unfold Rdiv in H1. lra. }
  nra.
Qed.
Lemma lim_eq (F : (R -> Prop) -> Prop) (f : R -> R) (v w : R) : @eq R v w -> filterlim f F (locally v) -> filterlim f F (locally w).
Proof. intros ->; auto. Qed.
Lemma tF_lim_0 n : 0 < n -> filterlim (tF n) (at_right 0) (locally (1 / 2)).
Proof.
  intros Hn. destruct (bet_dist0 (n / 2) (1 / 2) ltac:(lra) ltac:(lra)) as (_ & _ & _ & _ & _ & _ & L).
  apply (below_ext (fun x => 1 - 1 / 2 * Rbetainc (n / 2) (1 / 2) (t_arg n x)) (tF n) 0 1); [simpl; lra|intros x Hx _; simpl in Hx; unfold tF; destruct (Rlt_dec x 0); [lra|auto]|].
  simpl. apply (lim_eq _ _ (1 - 1 / 2 * 1) (1 / 2)); [match goal with |- @eq _ ?a ?b => change (@eq R a b) end; field|].
  apply (filterlim_comp _ _ _ (fun x => Rbetainc (n / 2) (1 / 2) (t_arg n x)) (fun z => 1 - 1 / 2 * z) _ (locally 1)); [|apply (ex_derive_continuous (fun z => 1 - 1 / 2 * z) 1); auto_derive; auto].
  apply (filterlim_comp _ _ _ (t_arg n) (Rbetainc (n / 2) (1 / 2)) _ (at_left 1)); [|exact L]. intros P HP. unfold filtermap. now apply t_arg_at_0.
Qed.
Lemma tF_lim_inf n : 0 < n -> filterlim (tF n) (Rbar_locally p_infty) (locally 1).
Proof.
  intros Hn. destruct (bet_dist0 (n / 2) (1 / 2) ltac:(lra) ltac:(lra)) as (_ & _ & _ & _ & _ & L & _).
  apply (above_ext (fun x => 1 - 1 / 2 * Rbetainc (n / 2) (1 / 2) (t_arg n x)) (tF n) p_infty 1); [simpl; auto|intros x _ Hx; unfold tF; destruct (Rlt_dec x 0); [lra|auto]|].
  simpl. apply (lim_eq _ _ (1 - 1 / 2 * 0) 1); [match goal with |- @eq _ ?a ?b => change (@eq R a b) end; field|].
  apply (filterlim_comp _ _ _ (fun x => Rbetainc (n / 2) (1 / 2) (t_arg n x)) (fun z => 1 - 1 / 2 * z) _ (locally 0)); [|apply (ex_derive_continuous (fun z => 1 - 1 / 2 * z) 0); auto_derive; auto].
  apply (filterlim_comp _ _ _ (t_arg n) (Rbetainc (n / 2) (1 / 2)) _ (at_right 0)); [|exact L]. intros P HP. unfold filtermap. now apply t_arg_at_inf.
Qed.
Lemma tF_tK_pos n x : 0 < n -> 0 < x -> tF n x = 1 / 2 + tK n x.
Proof.
  intros Hn Hx.
  assert (is_RInt_gen (t_pdf n) (at_right 0) (at_point x) (tF n x - 1 / 2)) as A.
  { apply (prim_gen (t_pdf n) (tF n) _ _ (HA := _) (HB := _)).
    - apply (Filter_prod _ _ _ (fun y : R => Rbar_lt 0 y /\ y < x) (fun y => y = x)); [apply (below_in 0 x); exact Hx|reflexivity|].
      intros a b [A1 A2] ->. simpl in *. apply (seg_der (t_pdf n) (t_pdf n) (tF n) a x); auto; [lra| |intros t Ht; now apply t_pdf_cont]. intros t Ht. apply tF_der; lra.
    - now apply tF_lim_0.
    - intros Q HQ. exact (locally_singleton _ _ HQ). }
  assert (is_RInt_gen (t_pdf n) (at_right 0) (at_point x) (tK n x - 0)) as B.
  { apply (prim_gen (t_pdf n) (tK n) _ _ (HA := _) (HB := _)).
    - apply (Filter_prod _ _ _ (fun y : R => Rbar_lt 0 y /\ y < x) (fun y => y = x)); [apply (below_in 0 x); exact Hx|reflexivity|].
      intros a b [A1 A2] ->. simpl in *. apply (seg_der (t_pdf n) (t_pdf n) (tK n) a x); auto; [lra| |intros t Ht; now apply t_pdf_cont]. intros t Ht. now apply tK_der.
    - apply (cont_below (tK n) 0 0); [apply (ex_derive_continuous (tK n)); eexists; now apply tK_der|]. apply (RInt_point (V := R_CompleteNormedModule)).
    - intros Q HQ. exact (locally_singleton _ _ HQ). }
  pose proof (is_RInt_gen_unique (V := R_CompleteNormedModule) _ _ A) as E. rewrite (is_RInt_gen_unique (V := R_CompleteNormedModule) _ _ B) in E. simpl in E. lra.
Qed.
Lemma tF_neg n x : x <> 0 -> tF n (- x) = 1 - tF n x.
Proof.
  intros Hx. unfold tF, t_arg. replace (- x * - x) with (x * x) by ring. destruct (Rlt_dec (- x) 0), (Rlt_dec x 0); lra.
Qed.
Lemma tF_tK n x : 0 < n -> tF n x = 1 / 2 + tK n x.
Proof.
  intros Hn. destruct (Rtotal_order x 0) as [H|[->|H]]; [| |now apply tF_tK_pos].
  - rewrite <- (Ropp_involutive x), tF_neg, tK_odd, tF_tK_pos by lra. lra.
  - unfold tF, tK. destruct (Rlt_dec 0 0); [lra|]. rewrite (RInt_point (V := R_CompleteNormedModule)). unfold zero; simpl. unfold t_arg. replace (n / (0 * 0 + n)) with 1 by (field; lra).
    unfold Rbetainc. destruct (Rle_dec 1 0); [lra|]. destruct (Rle_dec 1 1); [lra|lra].
Qed.
Lemma tF_dist0 n : 0 < n -> dist0 (tF n) (t_pdf n) m_infty p_infty.
Proof.
  intros Hn. split; [exact I|]. split; [intros; left; now apply t_pdf_pos|]. split; [easy|]. split; [easy|]. split.
  - intros t _ _. split; [|now apply t_pdf_cont]. apply (is_derive_ext (fun x => 1 / 2 + tK n x)); [intros; symmetry; now apply tF_tK|].
    evar_last; [apply (is_derive_plus (fun _ => 1 / 2) (tK n) t 0 (t_pdf n t)); [exact (is_derive_const (K := R_AbsRing) (V := R_NormedModule) (1 / 2) t)|now apply tK_der]|]. apply Rplus_0_l.
  - split; [|now apply tF_lim_inf]. apply (below_ext (fun x => 1 - tF n (- x)) (tF n) m_infty (-1)); [exact I|intros x _ Hx; rewrite tF_neg by lra; ring|].
    simpl. apply (lim_eq _ _ (1 - 1) 0); [match goal with |- @eq _ ?a ?b => change (@eq R a b) end; ring|]. apply (filterlim_comp _ _ _ (fun x => tF n (- x)) (fun z => 1 - z) _ (locally 1)); [|apply (ex_derive_continuous (fun z => 1 - z) 1); auto_derive; auto].
    apply (filterlim_comp _ _ _ Ropp (tF n) _ (Rbar_locally p_infty)); [|now apply tF_lim_inf]. apply (filterlim_Rbar_opp m_infty).
Qed.
Lemma t_dist0 n : 0 < n -> dist0 (t_cdf n) (t_pdf n) m_infty p_infty.
Proof. intros Hn. eapply dist0_ext; [| |exact (tF_dist0 n Hn)]; auto. intros t. symmetry. apply (dist0_cdf (tF n) (t_pdf n) m_infty p_infty t); simpl; auto. now apply tF_dist0. Qed.
Lemma t_cdf_tF n x : 0 < n -> t_cdf n x = tF n x.
Proof. intros Hn. apply (dist0_cdf (tF n) (t_pdf n) m_infty p_infty x); simpl; auto. now apply tF_dist0. Qed.
