(** Broadcasting through the gamma, beta and t functions. *)
From Verif Require Export L_logp L_gam.
From Coq Require Import Psatz.
From Coquelicot Require Import Coquelicot.
Open Scope R_scope.

Lemma gamma_f1 a : 0 < a -> ngamma (Fin a) = Fin (Rgamma a).
Proof. intros. simpl. destruct (Rlt_dec 0 a); [auto|lra]. Qed.
Lemma beta_f1 a b : 0 < a -> 0 < b -> nbeta (Fin a) (Fin b) = Fin (Rbeta a b).
Proof. intros. simpl. destruct (Rlt_dec 0 a); [|lra]. destruct (Rlt_dec 0 b); [auto|lra]. Qed.
Lemma betainc_f1 a b x : 0 < a -> 0 < b -> 0 <= x <= 1 -> nbetainc (Fin a) (Fin b) (Fin x) = Fin (Rbetainc a b x).
Proof. intros. simpl. destruct (Rlt_dec 0 a); [|lra]. destruct (Rlt_dec 0 b); [|lra]. destruct (Rle_dec 0 x); [|lra]. destruct (Rle_dec x 1); [auto|lra]. Qed.
Lemma gamma_form a r y : 0 < a -> 0 < r -> 0 < y -> Rpower r a * Rpower y (a - 1) * exp (- r * y) / Rgamma a = gamma_pdf a r y.
Proof.
  intros Ha Hr Hy. unfold gamma_pdf. destruct (Rle_dec y 0); [lra|]. change (Euler_gamma a) with (Rgamma a). rewrite Rpower_mult_l by auto.
  replace (Rpower r a) with (r * Rpower r (a - 1)) by (rewrite <- (Rpower_1 r) at 1 by auto; rewrite <- Rpower_plus; f_equal; ring). replace (- r * y) with (- (r * y)) by ring. unfold Rdiv. ring.
Qed.
Lemma gamma_pdf_pos a r y : 0 < a -> 0 < r -> 0 < y -> 0 < gamma_pdf a r y.
Proof. intros. rewrite <- gamma_form by auto. pose proof (Rgamma_pos a H). pd. Qed.
(** t *)
Definition tcv (x d : num) : num :=
  let b := nbetainc (d ./ Fin 2) (Fin (1 / 2)) (d ./ (nsq x .+ d)) in
  if nleb (Fin 0) x then Fin 1 .- Fin (1 / 2) .* b else Fin (1 / 2) .* b.
Definition tpv (x d : num) : num :=
  if neqb (nabs x) PInf then Fin 0 else
  npow (Fin 1 .+ nsq x ./ d) (nopp (d .+ Fin 1) ./ Fin 2) ./ (nsqrt d .* nbeta (Fin (1 / 2)) (d ./ Fin 2)).
Lemma tb_t_cdf X D s i x d L1 L2 : tb X s i x L1 -> tb D s i d L2 -> tb (_t_cdf X D) s i (tcv x d) (L1 ++ L2).
Proof.
  intros H1 H2. eapply tb_incl; [eapply tb_eq; [tbs|intros Hi]|].
  - unfold tcv. change (nofnat 0) with (Fin 0). change (nofnat 1) with (Fin 1). destruct (nleb (Fin 0) x); nev; reflexivity.
  - intros t Ht. repeat rewrite in_app_iff in *. tauto.
Qed.
Lemma tb_t_pdf X D s i x d L1 L2 : tb X s i x L1 -> tb D s i d L2 -> tb (_t_pdf X D) s i (tpv x d) (L1 ++ L2).
Proof.
  intros H1 H2. eapply tb_incl; [eapply tb_eq; [tbs|intros Hi]|].
  - unfold tpv. change (nofnat 2) with (Fin 2). change (nofnat 1) with (Fin 1). destruct (neqb (nabs x) PInf); nev; reflexivity.
  - intros t Ht. repeat rewrite in_app_iff in *. tauto.
Qed.
Lemma t_arg_bound n x : 0 < n -> 0 <= t_arg n x <= 1.
Proof.
  intros Hn. unfold t_arg. assert (0 <= x * x) by nra. split; [apply Rdiv_le_0_compat; lra|]. apply (Rmult_le_reg_r (x * x + n)); [lra|]. unfold Rdiv. rewrite Rmult_assoc, Rinv_l by lra. lra.
Qed.
Lemma tcv_ext n b : 0 < n -> tcv (rbn b) (Fin n) = Fin (ext_cdf (t_cdf n) b).
Proof.
  intros Hn. assert (Rbetainc (n / 2) (1 / 2) 0 = 0) as E0 by (unfold Rbetainc; destruct (Rle_dec 0 0); [auto|lra]).
  destruct b as [x| |]; cbn [rbn ext_cdf]; unfold tcv; cbv zeta.
  - rewrite t_cdf_tF by auto. unfold tF. assert (0 < x * x + n) by nra. nev. fold (t_arg n x). pose proof (t_arg_bound n x Hn). rewrite betainc_f1 by lra.
    destruct (Rlt_dec x 0); nev; reflexivity.
  - nev. rewrite betainc_f1 by lra. rewrite E0. change (nleb (Fin 0) PInf) with true. nev. f_equal. ring.
  - nev. rewrite betainc_f1 by lra. rewrite E0. change (nleb (Fin 0) NInf) with false. nev. f_equal. ring.
Qed.
Lemma tpv_fin n w : 0 < n -> tpv (Fin w) (Fin n) = Fin (t_pdf n w).
Proof.
  intros Hn. unfold tpv. nev. rewrite beta_f1 by lra. pose proof (sqrt_lt_R0 n Hn). pose proof (Rbeta_pos (1 / 2) (n / 2) ltac:(lra) ltac:(lra)).
  assert (0 < sqrt n * Rbeta (1 / 2) (n / 2)) by now apply Rmult_lt_0_compat. assert (0 <= w * w / n) by (apply Rdiv_le_0_compat; nra).
  nev. unfold t_pdf. f_equal. replace (w ^ 2) with (w * w) by ring. replace (- (n + 1) / 2) with (- ((n + 1) / 2)) by field. reflexivity.
Qed.
Ltac tbt :=
  lazymatch goal with
  | |- tb (let x := ?T in @?k x) ?s ?i _ _ => eapply (tb_let T k); [tbt|let t := fresh "t" in let Ht := fresh "Ht" in intros t Ht; cbv beta; tbt]
  | |- tb (sci _) _ _ _ _ => eapply tb_sci
  | |- tb (sc _) _ _ _ _ => eapply tb_sc
  | |- tb (scn _) _ _ _ _ => eapply tb_scn
  | |- tb (awhere _ _ _) _ _ _ _ => eapply tb_where; tbt
  | |- tb (_t_cdf _ _) _ _ _ _ => eapply tb_t_cdf; tbt
  | |- tb (_t_pdf _ _) _ _ _ _ => eapply tb_t_pdf; tbt
  | |- tb (abetainc _ _ _) _ _ _ _ => eapply tb_betainc; tbt
  | H : tb ?T ?s ?i _ _ |- tb ?T ?s ?i _ _ => exact H
  | |- tb (amap _ _ _) _ _ _ _ => eapply tb_map; tbt
  | |- tb (abin _ _ _ _) _ _ _ _ => eapply tb_bin; tbt
  | |- tb ?T _ _ _ _ => let h := head_of T in unfold h; tbt
  end.
Ltac rett H := lazymatch goal with |- returns ?T ?s ?f =>
  let i := fresh "i" in let Hi := fresh "Hi" in
  eapply (tb_returns T s f); [intros i; eapply tb_eq; [tb_args H i; tbt|intros Hi; cbv beta]|exact H|ret_in] end.
Definition std_end (m c : R) (b : Rbar) : Rbar := match b with Finite x => Finite ((x - m) / c) | _ => b end.
Lemma std_rbn m c b : 0 < c -> (rbn b .- Fin m) ./ Fin c = rbn (std_end m c b).
Proof. intros Hc. destruct b; cbn [rbn std_end]; nev; reflexivity. Qed.
Lemma ext_ls F m c b : ext_cdf (ls_cdf F m c) b = ext_cdf F (std_end m c b).
Proof. destruct b; reflexivity. Qed.
Lemma t_cdf_incr n x y : 0 < n -> x < y -> t_cdf n x < t_cdf n y.
Proof.
  intros Hn H. pose proof (dist0_seg _ _ _ _ x y (t_dist0 n Hn) I ltac:(lra) I) as S. assert (0 < RInt (t_pdf n) x y); [|rewrite (is_RInt_unique _ _ _ _ S) in H0; lra].
  apply RInt_gt_0; auto; intros; [now apply t_pdf_pos|now apply t_pdf_cont].
Qed.
Lemma t_cdf_in n x : 0 < n -> 0 < t_cdf n x < 1.
Proof.
  intros Hn. assert (forall y, 0 <= t_cdf n y <= 1) as B.
  { intros y. rewrite t_cdf_tF by auto. unfold tF. pose proof (t_arg_bound n y Hn). assert (0 <= Rbetainc (n / 2) (1 / 2) (t_arg n y) <= 1); [|destruct (Rlt_dec y 0); lra].
    destruct (Rbeta_improper (n / 2) (1 / 2) ltac:(lra) ltac:(lra)) as (HZ & _ & G & _ & _ & _ & Bd & IG). unfold Rbetainc. destruct (Rle_dec _ 0); [lra|]. destruct (Rle_dec 1 _); [lra|].
    assert (inn 0 1 (t_arg n y)) as It by (apply (inn_beta (t_arg n y)); lra).
    specialize (Bd _ It). specialize (IG _ It). rewrite (is_RInt_gen_unique (V := R_CompleteNormedModule) (Fa := at_right 0) _ _ IG).
    split; [apply Rdiv_le_0_compat; lra|]. apply (Rmult_le_reg_r (Rbeta (n / 2) (1 / 2))); [lra|]. unfold Rdiv. rewrite Rmult_assoc, Rinv_l by lra. lra. }
  pose proof (t_cdf_incr n (x - 1) x Hn ltac:(lra)). pose proof (t_cdf_incr n x (x + 1) Hn ltac:(lra)). pose proof (B (x - 1)). pose proof (B (x + 1)). lra.
Qed.
