(** Proofs that the log scores are minus the logarithm of densities (statements in P_logsc.v). *)
From Verif Require Export L_tt L_disc.
From Coq Require Import Psatz.
From Coquelicot Require Import Coquelicot.
Open Scope R_scope.
Lemma comb_half : exists v, 0 < v /\ ncomb (Fin 1) (Fin (1 / 2)) = Fin v.
Proof.
  exists (Rgamma (1 + 1) / (Rgamma (1 / 2 + 1) * Rgamma (1 - 1 / 2 + 1))). split.
  - pose proof (Rgamma_pos (1 + 1) ltac:(lra)). pose proof (Rgamma_pos (1 / 2 + 1) ltac:(lra)). pose proof (Rgamma_pos (1 - 1 / 2 + 1) ltac:(lra)). pd.
  - unfold ncomb. destruct (Rle_dec 0 (1 / 2)); [|lra]. destruct (Rle_dec (1 / 2) 1); [|lra]. unfold Rcomb. destruct (is_intR (1 / 2)) eqn:E; auto. exfalso.
    unfold is_intR, reqb in E. destruct (Req_EM_T (IZR (Int_part (1 / 2))) (1 / 2)) as [E'|E']; [|discriminate].
    assert (0 < Int_part (1 / 2) < 1)%Z as L by (split; apply lt_IZR; rewrite E'; lra). lia.
Qed.
Lemma C41_gamma_l :
forall (obs shape rate : arr) (s : list nat) (y a r : list nat -> R),
  params s [(obs, fins y); (shape, fins a); (rate, fins r)]%list -> (forall i, inb s i -> 0 < a i /\ 0 < r i) ->
  returns (logs_gamma obs shape (Some rate) None) s (fun i => logp (gamma_pdf (a i) (r i) (y i))) /\
  forall i, inb s i -> distribution (gamma_cdf (a i) (r i)) (gamma_pdf (a i) (r i)) 0 p_infty.
Proof.
intros obs shape rate s y a r P H. split.
- ret P. destruct (H i Hi) as [Ha Hr]. unfold fins. pose proof (Rgamma_pos _ Ha) as Hg. 
  destruct (Rle_dec (y i) 0) as [L|L].
  + nev. rewrite ?log_0. apply logp_0. unfold gamma_pdf. destruct (Rle_dec (y i) 0); [auto|lra].
  + pose proof (gamma_pdf_pos (a i) (r i) (y i) Ha ltac:(auto) ltac:(lra)) as Hp. nev. rewrite gamma_f1 by auto. nev. rewrite gamma_form by (auto; lra). nev. lp. reflexivity.
- intros i Hi. specialize (H i Hi). destruct H as [Ha Hr]. apply dist0_distribution, gamma_dist0; auto.
Qed.
Lemma C41_gamma_scale_l :
forall (obs shape scale : arr) (s : list nat) (y a c : list nat -> R),
  params s [(obs, fins y); (shape, fins a); (scale, fins c)]%list -> (forall i, inb s i -> 0 < a i /\ 0 < c i) ->
  returns (logs_gamma obs shape None (Some scale)) s (fun i => logp (gamma_pdf (a i) (1 / c i) (y i))) /\
  forall i, inb s i -> distribution (gamma_cdf (a i) (1 / c i)) (gamma_pdf (a i) (1 / c i)) 0 p_infty.
Proof.
intros obs shape scale s y a c P H. split.
- ret P. destruct (H i Hi) as [Ha Hr]. unfold fins. pose proof (Rgamma_pos _ Ha) as Hg. assert (0 < 1 / c i) as Hq by (apply Rdiv_lt_0_compat; lra).
  destruct (Rle_dec (y i) 0) as [L|L].
  + nev. rewrite ?log_0. apply logp_0. unfold gamma_pdf. destruct (Rle_dec (y i) 0); [auto|lra].
  + pose proof (gamma_pdf_pos (a i) (1 / c i) (y i) Ha ltac:(auto) ltac:(lra)) as Hp. nev. rewrite gamma_f1 by auto. nev. rewrite gamma_form by (auto; lra). nev. lp. reflexivity.
- intros i Hi. specialize (H i Hi). destruct H as [Ha Hr]. apply dist0_distribution, gamma_dist0; auto. apply Rdiv_lt_0_compat; lra.
Qed.
Lemma C41_beta_l :
forall (obs a b lower upper : arr) (s : list nat) (y p q l u : list nat -> R),
  params s [(obs, fins y); (a, fins p); (b, fins q); (lower, fins l); (upper, fins u)]%list -> (forall i, inb s i -> 0 < p i /\ 0 < q i /\ l i < u i /\ y i <> l i /\ y i <> u i) ->
  returns (logs_beta obs a b lower upper) s (fun i => logp (ls_pdf (beta_pdf (p i) (q i)) (l i) (u i - l i) (y i))) /\
  forall i, inb s i -> distribution (ls_cdf (beta_cdf (p i) (q i)) (l i) (u i - l i)) (ls_pdf (beta_pdf (p i) (q i)) (l i) (u i - l i)) (l i) (u i).
Proof.
intros obs a b lower upper s y p q l u P H. split.
- ret P. destruct (H i Hi) as (Hp & Hq & Hlu & N1 & N2). unfold fins, ls_pdf. pose proof (Rbeta_pos _ _ Hp Hq) as Hb. nev.
  set (w := (y i - l i) / (u i - l i)). assert (y i - l i = w * (u i - l i)) as Ew by (unfold w; field; lra). unfold beta_pdf. change (Euler_beta (p i) (q i)) with (Rbeta (p i) (q i)).
  assert (w <> 0) by (intros E; rewrite E in Ew; lra). assert (w <> 1) by (intros E; rewrite E in Ew; lra).
  destruct (Rle_dec w 0) as [L|L]; [nev; apply logp_0; unfold Rdiv; ring|].
  destruct (Rle_dec 1 w) as [U|U]; [nev; apply logp_0; unfold Rdiv; ring|].
  rewrite beta_f1 by auto. assert (0 < Rpower w (p i - 1) * Rpower (1 - w) (q i - 1) / Rbeta (p i) (q i) / (u i - l i)) by pd. nev. lp. reflexivity.
- intros i Hi. specialize (H i Hi). destruct H as (Hp & Hq & Hlu & _). apply dist0_distribution. pose proof (dist0_ls _ _ 0 1 (l i) (u i - l i) ltac:(lra) (beta_dist0 _ _ Hp Hq)) as D. simpl in D.
  replace (l i + (u i - l i) * 0) with (l i) in D by ring. replace (l i + (u i - l i) * 1) with (u i) in D by ring. exact D.
Qed.
Lemma C41_t_l :
forall (obs df location scale : arr) (s : list nat) (y n m c : list nat -> R),
  params s [(obs, fins y); (df, fins n); (location, fins m); (scale, fins c)]%list -> (forall i, inb s i -> 0 < n i /\ 0 < c i) ->
  returns (logs_t obs df location scale) s (fun i => logp (ls_pdf (t_pdf (n i)) (m i) (c i) (y i))) /\
  forall i, inb s i -> distribution (ls_cdf (t_cdf (n i)) (m i) (c i)) (ls_pdf (t_pdf (n i)) (m i) (c i)) m_infty p_infty.
Proof.
intros obs df location scale s y n m c P H. split.
- rett P. destruct (H i Hi) as [Hn Hc]. unfold fins, ls_pdf. nev. rewrite tpv_fin by auto. pose proof (t_pdf_pos (n i) ((y i - m i) / c i) Hn).
  assert (0 < t_pdf (n i) ((y i - m i) / c i) / c i) by (now apply Rdiv_lt_0_compat). nev. lp. reflexivity.
- intros i Hi. specialize (H i Hi). destruct H as [Hn Hc]. apply dist0_distribution. apply (dist0_ls _ _ m_infty p_infty); auto. now apply t_dist0.
Qed.
Lemma C41_tt_l :
forall (obs df location scale lower upper : arr) (s : list nat) (y n m c : list nat -> R) (l u : list nat -> Rbar),
  params s [(obs, fins y); (df, fins n); (location, fins m); (scale, fins c); (lower, fun i => rbn (l i)); (upper, fun i => rbn (u i))]%list ->
  (forall i, inb s i -> 0 < n i /\ 0 < c i /\ Rbar_lt (l i) (u i)) ->
  returns (logs_tt obs df location scale lower upper) s (fun i => logp (trunc_pdf (ls_cdf (t_cdf (n i)) (m i) (c i)) (ls_pdf (t_pdf (n i)) (m i) (c i)) (l i) (u i) (y i))) /\
  forall i, inb s i -> distribution (truncensx (ls_cdf (t_cdf (n i)) (m i) (c i)) (l i) (u i) 0 0) (trunc_pdf (ls_cdf (t_cdf (n i)) (m i) (c i)) (ls_pdf (t_pdf (n i)) (m i) (c i)) (l i) (u i)) (l i) (u i).
Proof.
intros obs df location scale lower upper s y n m c l u P H.
assert (forall i, inb s i -> ext_cdf (ls_cdf (t_cdf (n i)) (m i) (c i)) (l i) < ext_cdf (ls_cdf (t_cdf (n i)) (m i) (c i)) (u i)) as Hd.
{ intros i Hi. destruct (H i Hi) as (Hn & Hc & Hlu). destruct (l i) as [a| |], (u i) as [b| |]; simpl in Hlu; try contradiction; cbn [ext_cdf]; unfold ls_cdf; try lra.
  - apply t_cdf_incr; auto. apply (std_lt (m i) (c i) a b Hc). exact Hlu.
  - now apply t_cdf_in.
  - now apply t_cdf_in. }
split.
- rett P. destruct (H i Hi) as (Hn & Hc & Hlu). specialize (Hd i Hi). unfold trunc_pdf. rewrite !ext_ls in *. unfold fins, ls_pdf. rewrite !std_rbn, !tcv_ext by auto. nev. rewrite tpv_fin by auto.
  pose proof (t_pdf_pos (n i) ((y i - m i) / c i) Hn) as Hp. set (w := (y i - m i) / c i) in *. set (D := ext_cdf (t_cdf (n i)) (std_end (m i) (c i) (u i)) - ext_cdf (t_cdf (n i)) (std_end (m i) (c i) (l i))) in *.
  assert (0 < D) by (unfold D; lra). assert (0 < t_pdf (n i) w / c i) by now apply Rdiv_lt_0_compat. assert (0 < t_pdf (n i) w / c i / D) by now apply Rdiv_lt_0_compat.
  assert (nltb (Fin w) (rbn (std_end (m i) (c i) (l i))) = if Rbar_lt_dec (y i) (l i) then true else false) as ->.
  { destruct (l i) as [a| |]; [|destruct (Rbar_lt_dec (y i) p_infty) as [A|A]; [reflexivity|simpl in A; tauto]|destruct (Rbar_lt_dec (y i) m_infty) as [A|A]; [easy|reflexivity]].
    pose proof (std_lt (m i) (c i) (y i) a Hc) as K. simpl in K. fold w in K. cbn [rbn std_end]. destruct (Rbar_lt_dec (y i) a) as [A|A]; simpl in A; [apply ltb_t; tauto|apply ltb_f, Rnot_lt_le; tauto]. }
  assert (nltb (rbn (std_end (m i) (c i) (u i))) (Fin w) = if Rbar_lt_dec (u i) (y i) then true else false) as ->.
  { destruct (u i) as [a| |]; [|destruct (Rbar_lt_dec p_infty (y i)) as [A|A]; [easy|reflexivity]|destruct (Rbar_lt_dec m_infty (y i)) as [A|A]; [reflexivity|simpl in A; tauto]].
    pose proof (std_lt (m i) (c i) a (y i) Hc) as K. simpl in K. fold w in K. cbn [rbn std_end]. destruct (Rbar_lt_dec a (y i)) as [A|A]; simpl in A; [apply ltb_t; tauto|apply ltb_f, Rnot_lt_le; tauto]. }
  destruct (Rbar_lt_dec (y i) (l i)); [nev; now apply logp_0|]. destruct (Rbar_lt_dec (u i) (y i)); [nev; now apply logp_0|]. cbn [orb]. nev. lp. reflexivity.
- intros i Hi. specialize (Hd i Hi). destruct (H i Hi) as (Hn & Hc & Hlu). apply dist0_distribution, dist0_trunc; auto. apply (dist0_ls _ _ m_infty p_infty); auto. now apply t_dist0.
Qed.
Lemma C41_gamma_exponential_refuted_l :
(forall t, 0 < t -> gamma_pdf 1 1 t = exponential_pdf 1 t) /\
  returns (logs_gamma (farr nil (fun _ => 0)) (farr nil (fun _ => 1)) (Some (farr nil (fun _ => 1))) None) nil (fun _ => PInf) /\
  returns (logs_exponential (farr nil (fun _ => 0)) (farr nil (fun _ => 1))) nil (fun _ => Fin 0).
Proof.
split; [|split].
- assert (forall t, 0 < t -> gamma_f 1 t = exp (- t)) as E.
  { intros t Ht. unfold gamma_f, Rpower. replace ((1 - 1) * ln t) with 0 by ring. rewrite exp_0. ring. }
  assert (Rgamma 1 = 1) as G.
  { destruct (Rgamma_improper 1 ltac:(lra)) as (_ & IG & _). assert (dist0 (exponential_cdf 1) (exponential_pdf 1) 0 p_infty) as D by (apply exponential_dist; lra).
    apply dist0_distribution in D. destruct D as (_ & _ & _ & _ & I1). apply (is_RInt_gen_unique (V := R_CompleteNormedModule) (Fa := at_right 0) (Fb := Rbar_locally p_infty) (gamma_f 1) 1).
    eapply (is_RInt_gen_ext (Fa := at_right 0) (Fb := Rbar_locally p_infty) (exponential_pdf 1)); [|exact I1].
    apply (Filter_prod _ _ _ (fun x : R => Rbar_lt 0 x /\ x < 1) (fun x : R => Rbar_lt x p_infty /\ 1 < x)); [apply (below_in 0 1); simpl; lra|apply (above_in p_infty 1); exact I|].
    intros a b [A1 A2] [B1 B2] x Hx. simpl in *. rewrite Rmin_left, Rmax_right in Hx by lra. rewrite E by lra. unfold exponential_pdf. destruct (Rlt_dec x 0); [lra|]. rewrite !Rmult_1_l. reflexivity. }
  intros t Ht. unfold gamma_pdf, exponential_pdf. destruct (Rle_dec t 0); [lra|]. destruct (Rlt_dec t 0); [lra|]. change (Euler_gamma 1) with (Rgamma 1). rewrite G, !Rmult_1_l.
  change (Rpower t (1 - 1) * exp (- t)) with (gamma_f 1 t). rewrite E by auto. field.
- assert (params nil [(farr nil (fun _ => 0), fins (fun _ => 0)); (farr nil (fun _ => 1), fins (fun _ => 1)); (farr nil (fun _ => 1), fins (fun _ => 1))]%list) as P by (split; [reflexivity|repeat constructor]).
  ret P. unfold fins. nev. rewrite ?log_0. reflexivity.
- assert (params nil [(farr nil (fun _ => 0), fins (fun _ => 0)); (farr nil (fun _ => 1), fins (fun _ => 1))]%list) as P by (split; [reflexivity|repeat constructor]).
  ret P. unfold fins. nev. rewrite Rmult_0_r, exp_0, Rmult_1_l. nev. rewrite ln_1, Ropp_0. reflexivity.
Qed.
Lemma C41_fraction_refuted_l :
exists y : R, (exists v, returns (logs_binomial (farr nil (fun _ => y)) (farr nil (fun _ => 1)) (farr nil (fun _ => 1 / 2))) nil (fun _ => Fin v)) /\
  (exists v, returns (logs_hypergeometric (farr nil (fun _ => y)) (farr nil (fun _ => 1)) (farr nil (fun _ => 1)) (farr nil (fun _ => 1))) nil (fun _ => Fin v)) /\
  logp (outcome (binomial_pmf 1 (1 / 2)) y) = PInf /\ logp (outcome (hypergeometric_pmf 1 1 1) y) = PInf.
Proof.
exists (1 / 2). destruct comb_half as (v & Hv & C).
assert (forall p, logp (outcome p (1 / 2)) = PInf) as O.
{ intros p. destruct (count_cases (1 / 2)) as [[n E]|[N|[N N']]]; [|lra|rewrite outcome_frac by auto; symmetry; now apply logp_0].
  exfalso. destruct n; [simpl in E; lra|]. rewrite S_INR in E. pose proof (pos_INR n). lra. }
split; [|split; [|split; apply O]].
- assert (params nil [(farr nil (fun _ => 1 / 2), fins (fun _ => 1 / 2)); (farr nil (fun _ => 1), fins (fun _ => 1)); (farr nil (fun _ => 1 / 2), fins (fun _ => 1 / 2))]%list) as P by (split; [reflexivity|repeat constructor]).
  eexists. ret P. unfold fins. nev. rewrite C. assert (forall a b, 0 < Rpower a b) as Rp by (intros; apply exp_pos).
  assert (0 < v * Rpower (1 / 2) (1 / 2) * Rpower (1 - 1 / 2) (1 - 1 / 2)) by (apply Rmult_lt_0_compat; [apply Rmult_lt_0_compat|]; auto). nev. reflexivity.
- assert (params nil [(farr nil (fun _ => 1 / 2), fins (fun _ => 1 / 2)); (farr nil (fun _ => 1), fins (fun _ => 1)); (farr nil (fun _ => 1), fins (fun _ => 1)); (farr nil (fun _ => 1), fins (fun _ => 1))]%list) as P by (split; [reflexivity|repeat constructor]).
  eexists. ret P. unfold fins. nev. replace (1 - (1 + 1) + 1) with 0 by ring. replace (1 + 1 - 1) with 1 by ring. replace (1 - 1 / 2) with (1 / 2) by field. rewrite (Rmax_left 0 0), (Rmin_left 1 1), C by lra.
  assert (ncomb (Fin (1 + 1)) (Fin 1) = Fin 2) as -> by (change (1 + 1) with (INR 2); change 1 with (INR 1); rewrite comb_nat; reflexivity).
  rewrite !leb_t by lra. cbn [andb b2n]. nev. assert (0 < 1 * v * v / 2) by (rewrite Rmult_1_l; pd; now apply Rmult_lt_0_compat). nev. reflexivity.
Qed.
