(** Integrals of products of normal densities and distribution functions over the real line. *)
From Verif Require Export L_crpsbeta L_fam L_tcn.
From Coq Require Import Psatz.
From Coquelicot Require Import Coquelicot.
Open Scope R_scope.

(** G is the primitive of g from minus infinity, and Z the integral of g *)
Definition full (g G : R -> R) (Z : R) : Prop := (forall x, is_derive G x (g x)) /\ is_lim G m_infty 0 /\ is_lim G p_infty (Finite Z).
Lemma full_lin g G Z h H W p q : full g G Z -> full h H W -> full (fun x => p * g x + q * h x) (fun x => p * G x + q * H x) (p * Z + q * W).
Proof.
  intros (D & L0 & L1) (D' & L0' & L1'). split; [|split].
  - intros x. apply (is_derive_plus (fun x => p * G x) (fun x => q * H x) x (p * g x) (q * h x)); [apply (is_derive_scal G), D|apply (is_derive_scal H), D'].
  - replace (Finite 0) with (Finite (p * 0 + q * 0)) by (f_equal; ring). apply is_lim_plus'; now apply lim_scal.
  - apply is_lim_plus'; now apply lim_scal.
Qed.
Lemma full_ext g G Z h H W : (forall x, g x = h x) -> (forall x, G x = H x) -> Z = W -> full g G Z -> full h H W.
Proof.
  intros E E' -> (D & L0 & L1). split; [|split].
  - intros x. rewrite <- E. apply (is_derive_ext G); auto.
  - now apply (is_lim_ext G).
  - now apply (is_lim_ext G).
Qed.
Lemma full_scal g G Z p : full g G Z -> full (fun x => p * g x) (fun x => p * G x) (p * Z).
Proof. intros H. eapply full_ext; [| | |exact (full_lin g G Z g G Z p 0 H H)]; intros; cbv beta; ring. Qed.
Lemma full_pos g G Z : (forall x, 0 <= g x) -> full g G Z -> 0 <= Z.
Proof.
  intros Hg (D & L0 & L1). assert (is_lim (fun x => G x - G (- x)) p_infty (Z - 0)) as L.
  { apply is_lim_minus'; auto. apply (is_lim_comp G Ropp p_infty 0 m_infty); auto; [apply (is_lim_ext (fun x => -1 * x + 0)); [intros; ring|]; apply lim_lin_m; lra|exists 0; discriminate]. }
  assert (Rbar_le 0 (Z - 0)) as K; [|simpl in K; lra]. apply (is_lim_le_loc (fun _ => 0) (fun x => G x - G (- x)) p_infty 0 (Z - 0)); [|apply is_lim_const|exact L].
  exists 0. intros x Hx. enough (G (- x) <= G x) by lra. apply (mono_der G g); [lra|auto|auto].
Qed.
Lemma full_le g G Z h H W : (forall x, g x <= h x) -> full g G Z -> full h H W -> Z <= W.
Proof.
  intros E K K'. enough (0 <= -1 * Z + 1 * W) by lra. eapply full_pos; [|exact (full_lin _ _ _ _ _ _ (-1) 1 K K')]. intros x. cbv beta. specialize (E x). lra.
Qed.
Lemma full_unique g G Z H W : full g G Z -> full g H W -> Z = W.
Proof. intros K K'. apply Rle_antisym; [apply (full_le g G Z g H W)|apply (full_le g H W g G Z)]; auto; intros; lra. Qed.
Lemma full_aff g G Z s c : 0 < s -> full g G Z -> full (fun x => s * g (s * x + c)) (fun x => G (s * x + c)) Z.
Proof.
  intros Hs (D & L0 & L1). split; [|split].
  - intros x. apply (is_derive_comp G (fun x => s * x + c) x (g (s * x + c)) s); [apply D|auto_derive; [auto|ring]].
  - apply (is_lim_comp G (fun x => s * x + c) m_infty 0 m_infty); auto; [|exists 0; discriminate].
    apply lim_opp_m. apply (is_lim_ext (fun x => - s * x + c)); [intros; ring|]. apply lim_lin_m. lra.
  - apply (is_lim_comp G (fun x => s * x + c) p_infty Z p_infty); auto; [|exists 0; discriminate]. now apply lim_lin_p.
Qed.
Lemma full_flip g G Z : full g G Z -> full (fun x => g (- x)) (fun x => Z - G (- x)) Z.
Proof.
  intros (D & L0 & L1). split; [|split].
  - intros x. evar_last; [apply (is_derive_minus (fun _ => Z) (fun x => G (- x)) x 0 (-1 * g (- x)))|].
    + exact (is_derive_const (K := R_AbsRing) (V := R_NormedModule) Z x).
    + apply (is_derive_comp G Ropp x (g (- x)) (-1)); [apply D|]. auto_derive; auto.
    + unfold minus, plus, opp; simpl. ring.
  - replace (Finite 0) with (Finite (Z - Z)) by (f_equal; ring). apply is_lim_minus'; [apply is_lim_const|]. apply lim_opp_m. apply (is_lim_ext G); auto. intros; now rewrite Ropp_involutive.
  - replace (Finite Z) with (Finite (Z - 0)) at 1 by (f_equal; ring). apply is_lim_minus'; [apply is_lim_const|]. apply lim_opp_p. apply (is_lim_ext G); auto. intros; now rewrite Ropp_involutive.
Qed.
Lemma full_phi : full phi NF 1.
Proof. split; [exact NF_der|split; [exact NF_lim_m|exact NF_lim_p]]. Qed.
(** existence *)
Lemma full_ex g : (forall x, continuous g x) -> (forall x, 0 < g x <= 1) ->
  exists G Z, full (fun x => phi x * g x) G Z /\ is_RInt_gen (fun x => phi x * g x) (Rbar_locally m_infty) (Rbar_locally p_infty) Z.
Proof.
  intros Cg Hg. destruct (improper_bounded m_infty p_infty 0 (conj I I) (fun x => phi x * g x)) with (K := 1) as (Z & HZ & IZ & G & DG & L0 & L1 & _).
  - intros x _. apply (continuous_mult phi g); [apply phi_cont|apply Cg].
  - intros x _. apply Rmult_lt_0_compat; [apply phi_pos|apply Hg].
  - intros x _. assert (forall a b, ex_RInt (fun x => phi x * g x) a b) as EX.
    { intros a b. apply (ex_RInt_continuous (V := R_CompleteNormedModule)). intros z _. apply (continuous_mult phi g); [apply phi_cont|apply Cg]. }
    assert (forall a b, a <= b -> 0 <= RInt (fun x => phi x * g x) a b <= 1) as B.
    { intros a b Hab. assert (is_RInt phi a b (NF b - NF a)) as IP by (apply (is_RInt_derive NF phi); intros; [apply NF_der|apply phi_cont]). split.
      - apply RInt_ge_0; auto. intros z _. apply Rmult_le_pos; [left; apply phi_pos|left; apply Hg].
      - apply Rle_trans with (NF b - NF a).
        + rewrite <- (is_RInt_unique _ _ _ _ IP). apply RInt_le; auto; [eexists; exact IP|]. intros z _. pose proof (phi_pos z). specialize (Hg z). nra.
        + destruct NF_dist as (_ & _ & _). pose proof (NF_pos a). assert (NF b <= 1); [|lra].
          assert (Rbar_le (NF b) 1) as K; [|exact K]. apply (is_lim_le_loc (fun _ => NF b) NF p_infty (NF b) 1); [|apply is_lim_const|exact NF_lim_p]. exists b. intros t Ht. left. now apply NF_incr. }
    apply Rabs_le. destruct (Rle_dec 0 x); [specialize (B 0 x ltac:(lra)); lra|]. specialize (B x 0 ltac:(lra)). rewrite <- opp_RInt_swap by auto. unfold opp; simpl. lra.
  - exists G, Z. split; [split; [|split]|]; auto.
    + intros x. apply DG. split; exact I.
Qed.
Lemma phi_lip z : Rabs (z * phi z) <= 1.
Proof.
  rewrite phi_alt. assert (1 <= sqrt 2 * sqrt PI) as H1.
  { rewrite <- sqrt_mult by (pose proof PI_RGT_0; lra). rewrite <- sqrt_1 at 1. apply sqrt_le_1; pose proof PI_RGT_0; pose proof PI2_1; lra. }
  assert (exp (- (z * z / 2)) * (1 + z * z / 2) <= 1) as H2.
  { rewrite exp_Ropp. pose proof (exp_pos (z * z / 2)). assert (1 + z * z / 2 <= exp (z * z / 2)) by (destruct (Req_EM_T z 0) as [->|]; [unfold Rdiv; rewrite !Rmult_0_l, exp_0; lra|left; apply exp_ineq1; nra]).
    apply (Rmult_le_reg_l (exp (z * z / 2))); auto. rewrite <- Rmult_assoc, Rinv_r by lra. lra. }
  pose proof (exp_pos (- (z * z / 2))) as He. rewrite Rabs_mult. assert (Rabs z <= 1 + z * z / 2) as H3 by (unfold Rabs; destruct (Rcase_abs z); nra).
  rewrite (Rabs_right (exp _ / _)) by (left; apply Rdiv_lt_0_compat; lra). unfold Rdiv at 1. rewrite <- Rmult_assoc.
  apply (Rmult_le_reg_r (sqrt 2 * sqrt PI)); [lra|]. rewrite Rmult_assoc, Rinv_l, Rmult_1_r, Rmult_1_l by lra.
  apply Rle_trans with ((1 + z * z / 2) * exp (- (z * z / 2))); [|rewrite Rmult_comm; lra]. apply Rmult_le_compat_r; lra.
Qed.
Lemma phi_diff a b : Rabs (phi b - phi a) <= Rabs (b - a).
Proof.
  destruct (MVT_gen phi a b (fun t => - t * phi t)) as (c & _ & E).
  - intros; apply phi_der.
  - intros. apply continuity_pt_filterlim, phi_cont.
  - rewrite E, Rabs_mult. pose proof (phi_lip c) as L. replace (- c * phi c) with (- (c * phi c)) by ring. rewrite Rabs_Ropp. pose proof (Rabs_pos (b - a)). nra.
Qed.
Lemma NF_taylor z h : Rabs (NF (z + h) - NF z - h * phi z) <= h * h.
Proof.
  destruct (MVT_gen NF z (z + h) phi) as (c & Hc & E).
  - intros; apply NF_der.
  - intros. apply continuity_pt_filterlim, NF_cont.
  - rewrite E. replace (phi c * (z + h - z) - h * phi z) with (h * (phi c - phi z)) by ring. rewrite Rabs_mult.
    pose proof (phi_diff z c) as L. assert (Rabs (c - z) <= Rabs h) as K.
    { unfold Rmin, Rmax in Hc. destruct (Rle_dec z (z + h)); unfold Rabs; destruct (Rcase_abs (c - z)), (Rcase_abs h); lra. }
    pose proof (Rabs_pos h). pose proof (Rabs_pos (phi c - phi z)). replace (h * h) with (Rabs h * Rabs h) by (rewrite <- Rabs_mult; apply Rabs_right; nra). nra.
Qed.
Section conv.
Variable a : R.
Let s := sqrt (1 + a * a).
Let g b x := phi x * NF (a * x + b).
Let J b := RInt_gen (g b) (Rbar_locally m_infty) (Rbar_locally p_infty).
Lemma s_pos : 0 < s. Proof. apply sqrt_lt_R0. nra. Qed.
Lemma s_sq : s * s = 1 + a * a. Proof. apply sqrt_sqrt. nra. Qed.
Lemma g_full b : exists G, full (g b) G (J b).
Proof.
  destruct (full_ex (fun x => NF (a * x + b))) as (G & Z & HG & IZ).
  - intros x. apply (continuous_comp (fun x => a * x + b) NF); [apply (ex_derive_continuous (fun x => a * x + b)); auto_derive; auto|apply NF_cont].
  - intros x. split; [apply NF_pos|left; apply NF_lt1].
  - exists G. assert (J b = Z) as ->; [|exact HG]. apply (is_RInt_gen_unique (V := R_CompleteNormedModule) (Fa := Rbar_locally m_infty) _ _ IZ).
Qed.
Lemma phi_prod b x : phi x * phi (a * x + b) = phi (b / s) * phi (s * x + a * b / s).
Proof.
  pose proof s_pos as Hs. pose proof s_sq as E. rewrite !phi_alt. assert (forall u v K, exp u / K * (exp v / K) = exp (u + v) / (K * K)) as P.
  { intros. rewrite exp_plus. unfold Rdiv. rewrite Rinv_mult. ring. }
  rewrite !P. do 2 f_equal. apply (Rmult_eq_reg_r (s * s)); [|nra].
  replace ((- (x * x / 2) + - ((a * x + b) * (a * x + b) / 2)) * (s * s)) with (- ((x * x + (a * x + b) * (a * x + b)) * (s * s) / 2)) by field.
  replace ((- (b / s * (b / s) / 2) + - ((s * x + a * b / s) * (s * x + a * b / s) / 2)) * (s * s)) with (- ((b * b + (s * s * x + a * b) * (s * s * x + a * b)) / 2)) by (field; lra).
  rewrite E. field.
Qed.
Lemma prod_full b : full (fun x => phi x * phi (a * x + b)) (fun x => phi (b / s) / s * NF (s * x + a * b / s)) (phi (b / s) / s).
Proof.
  pose proof s_pos as Hs. eapply full_ext; [| | |exact (full_scal _ _ _ (phi (b / s) / s) (full_aff _ _ _ s (a * b / s) Hs full_phi))].
  - intros x. cbv beta. rewrite phi_prod. field. lra.
  - reflexivity.
  - ring.
Qed.
Lemma J_diff b h : Rabs (J (b + h) - J b - h * (phi (b / s) / s)) <= h * h.
Proof.
  destruct (g_full b) as [G HG]. destruct (g_full (b + h)) as [G' HG'].
  pose proof (full_lin _ _ _ _ _ _ 1 (- h) (full_lin _ _ _ _ _ _ 1 (-1) HG' HG) (prod_full b)) as K. pose proof (full_scal _ _ _ (h * h) full_phi) as K2. pose proof (full_scal _ _ _ (- (h * h)) full_phi) as K3.
  assert (forall x, Rabs (1 * (1 * g (b + h) x + -1 * g b x) + - h * (phi x * phi (a * x + b))) <= h * h * phi x) as B.
  { intros x. unfold g. replace (1 * (1 * (phi x * NF (a * x + (b + h))) + -1 * (phi x * NF (a * x + b))) + - h * (phi x * phi (a * x + b))) with (phi x * (NF (a * x + b + h) - NF (a * x + b) - h * phi (a * x + b))) by (replace (a * x + (b + h)) with (a * x + b + h) by ring; ring).
    rewrite Rabs_mult, (Rabs_right (phi x)) by (left; apply phi_pos). pose proof (NF_taylor (a * x + b) h). pose proof (phi_pos x). nra. }
  apply Rabs_le. split.
  - enough (- (h * h) * 1 <= 1 * (1 * J (b + h) + -1 * J b) + - h * (phi (b / s) / s)) by lra. eapply full_le; [|exact K3|exact K]. intros x. cbv beta. specialize (B x). apply Rabs_le_between in B. lra.
  - enough (1 * (1 * J (b + h) + -1 * J b) + - h * (phi (b / s) / s) <= h * h * 1) by lra. eapply full_le; [|exact K|exact K2]. intros x. cbv beta. specialize (B x). apply Rabs_le_between in B. lra.
Qed.
Lemma J_der b : is_derive J b (phi (b / s) / s).
Proof.
  apply is_derive_Reals. intros e He. exists (mkposreal e He). intros h Hh Hd. simpl in Hd.
  replace ((J (b + h) - J b) / h - phi (b / s) / s) with ((J (b + h) - J b - h * (phi (b / s) / s)) / h) by (assert (s <> 0) by (pose proof s_pos; lra); field; auto).
  rewrite Rabs_div by auto. pose proof (J_diff b h) as K. assert (0 < Rabs h) as P by now apply Rabs_pos_lt.
  apply Rle_lt_trans with (Rabs h); auto. apply (Rmult_le_reg_r (Rabs h)); auto. unfold Rdiv. rewrite Rmult_assoc, Rinv_l, Rmult_1_r by lra.
  rewrite <- Rabs_mult, (Rabs_right (h * h)) by nra. exact K.
Qed.
Lemma J_0 : J 0 = 1 / 2.
Proof.
  destruct (g_full 0) as [G HG]. pose proof (full_lin _ _ _ _ _ _ 1 1 HG (full_flip _ _ _ HG)) as K.
  assert (1 * J 0 + 1 * J 0 = 1) as E; [|lra]. eapply full_unique; [exact K|]. eapply full_ext; [|reflexivity|reflexivity|exact full_phi].
  intros x. cbv beta. unfold g. rewrite phi_even. replace (a * - x + 0) with (- (a * x + 0)) by ring. rewrite NF_opp. ring.
Qed.
Lemma J_val b : J b = NF (b / s).
Proof.
  pose proof s_pos as Hs. pose proof (prim_const m_infty p_infty J (fun b => phi (b / s) / s) (fun b => NF (b / s)) b 0) as K.
  assert (NF (0 / s) = 1 / 2) as E by (unfold Rdiv at 1; rewrite Rmult_0_l; exact NF0).
  rewrite J_0, E in K. enough (J b - NF (b / s) = 1 / 2 - 1 / 2) by lra. apply K; [intros t _; apply J_der| |split; exact I..].
  intros t _. evar_last; [apply (is_derive_comp NF (fun b => b / s) t (phi (t / s)) (1 / s)); [apply NF_der|auto_derive; [lra|field; lra]]|].
  unfold scal; simpl; unfold mult; simpl. field. lra.
Qed.
End conv.
(** the two integrals *)
Lemma conv_full a b : exists G, full (fun x => phi x * NF (a * x + b)) G (NF (b / sqrt (1 + a * a))).
Proof. destruct (g_full a b) as [G HG]. exists G. rewrite <- J_val. exact HG. Qed.
Lemma conv_phi a b : exists G, full (fun x => phi x * phi (a * x + b)) G (phi (b / sqrt (1 + a * a)) / sqrt (1 + a * a)).
Proof. eexists. apply prod_full. Qed.
