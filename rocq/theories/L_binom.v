(** The binomial distribution function by the incomplete beta function, and the effect of adding a small number to its
    first argument. *)
From Verif Require Export L_crpshyp L_crpsnb.
From Coq Require Import Psatz Lia.
From Coquelicot Require Import Coquelicot.
Open Scope R_scope.

Lemma at_right_in0 t : 0 < t -> at_right 0 (fun s => 0 < s < t).
Proof.
  intros H. exists (mkposreal t H). intros s Hs H0. simpl in Hs. unfold ball in Hs; simpl in Hs; unfold AbsRing_ball, abs, minus, plus, opp in Hs; simpl in Hs. apply Rabs_def2 in Hs. lra.
Qed.
Lemma at_left_in1 t : t < 1 -> at_left 1 (fun s => t < s < 1).
Proof.
  intros H. assert (0 < 1 - t) as H' by lra. exists (mkposreal _ H'). intros s Hs H0. simpl in Hs. unfold ball in Hs; simpl in Hs; unfold AbsRing_ball, abs, minus, plus, opp in Hs; simpl in Hs. apply Rabs_def2 in Hs. lra.
Qed.
Section sign.
Variables (G g : R -> R).
Hypothesis HG : forall t, 0 < t < 1 -> is_derive G t (g t).
Hypothesis Hg : forall t, 0 < t < 1 -> 0 <= g t.
Lemma sign_le s t : 0 < s -> s <= t -> t < 1 -> G s <= G t.
Proof. intros. apply (mono_der G g); auto; intros; [apply HG|apply Hg]; lra. Qed.
Lemma sign0 v t : filterlim G (at_right 0) (locally v) -> 0 < t < 1 -> v <= G t.
Proof.
  intros L Ht. apply (filterlim_le (F := at_right 0) G (fun _ => G t) v (G t)); [|exact L|apply filterlim_const].
  eapply filter_imp; [|apply (at_right_in0 t); lra]. intros s Hs. apply sign_le; lra.
Qed.
Lemma sign1 w t : filterlim G (at_left 1) (locally w) -> 0 < t < 1 -> G t <= w.
Proof.
  intros L Ht. apply (filterlim_le (F := at_left 1) (fun _ => G t) G (G t) w); [|apply filterlim_const|exact L].
  eapply filter_imp; [|apply (at_left_in1 t); lra]. intros s Hs. apply sign_le; lra.
Qed.
End sign.

(** the primitive of t^(a-1) (1-t)^(b-1) from 0 *)
Definition iB (a b t : R) : R := Rbeta a b * Rbetainc a b t.
Lemma iB_der a b t : 0 < a -> 0 < b -> 0 < t < 1 -> is_derive (iB a b) t (beta_f a b t).
Proof.
  intros Ha Hb Ht. pose proof (Rbeta_pos a b Ha Hb). pose proof (is_derive_scal _ t (Rbeta a b) _ (Ibeta_der a b t Ha Hb Ht)) as D.
  replace (beta_f a b t) with (Rbeta a b * (beta_f a b t / Rbeta a b)) by (field; lra). exact D.
Qed.
Lemma iB_lim0 a b : 0 < a -> 0 < b -> filterlim (iB a b) (at_right 0) (locally 0).
Proof.
  intros Ha Hb. destruct (Ibeta_lims a b Ha Hb) as [L _]. replace (locally 0) with (locally (scal (Rbeta a b) 0)) by (f_equal; apply Rmult_0_r).
  apply (filterlim_comp _ _ _ (Rbetainc a b) (fun u => Rbeta a b * u) _ (locally 0)); [exact L|apply (filterlim_scal_r (Rbeta a b) 0)].
Qed.
Lemma iB_lim1 a b : 0 < a -> 0 < b -> filterlim (iB a b) (at_left 1) (locally (Rbeta a b)).
Proof.
  intros Ha Hb. destruct (Ibeta_lims a b Ha Hb) as [_ L]. replace (locally (Rbeta a b)) with (locally (scal (Rbeta a b) 1)) by (f_equal; apply Rmult_1_r).
  apply (filterlim_comp _ _ _ (Rbetainc a b) (fun u => Rbeta a b * u) _ (locally 1)); [exact L|apply (filterlim_scal_r (Rbeta a b) 1)].
Qed.
Lemma beta_f_pos a b t : 0 < beta_f a b t.
Proof. apply Rmult_lt_0_compat; apply exp_pos. Qed.
Lemma betainc_in a b t : 0 < a -> 0 < b -> 0 < t < 1 -> 0 <= Rbetainc a b t <= 1.
Proof.
  intros Ha Hb Ht. destruct (Ibeta_lims a b Ha Hb) as [L0 L1]. pose proof (Rbeta_pos a b Ha Hb).
  assert (forall t, 0 < t < 1 -> 0 <= beta_f a b t / Rbeta a b) as P by (intros s Hs; left; apply Rdiv_lt_0_compat; [apply beta_f_pos|auto]).
  split; [apply (sign0 _ _ (fun s Hs => Ibeta_der a b s Ha Hb Hs) P 0 t L0 Ht)|apply (sign1 _ _ (fun s Hs => Ibeta_der a b s Ha Hb Hs) P 1 t L1 Ht)].
Qed.
Lemma exp_mono x y : x <= y -> exp x <= exp y.
Proof. intros [H|H]; [left; now apply exp_increasing|subst; lra]. Qed.
Lemma Rpower_le1 t e : 0 < t < 1 -> 0 <= e -> Rpower t e <= 1.
Proof. intros Ht He. unfold Rpower. rewrite <- exp_0. apply exp_mono. assert (ln t < 0) by (rewrite <- ln_1; apply ln_increasing; lra). nra. Qed.
Lemma one_minus_pow t e : 0 < t < 1 -> 0 <= e -> 1 - Rpower t e <= 2 * e * Rpower t (- (1 / 2)).
Proof.
  intros Ht He. unfold Rpower. pose proof (exp_ineq1_le (e * ln t)) as A. pose proof (exp_ineq1_le (- (1 / 2) * ln t)) as B. assert (ln t < 0) by (rewrite <- ln_1; apply ln_increasing; lra).
  assert (- ln t <= 2 * exp (- (1 / 2) * ln t)) by lra. nra.
Qed.
Lemma beta_f_shift a b e t : beta_f (a + e) b t = Rpower t e * beta_f a b t.
Proof. unfold beta_f. replace (a + e - 1) with (e + (a - 1)) by ring. rewrite Rpower_plus. ring. Qed.
Lemma iB_shift a b e t : 1 <= a -> 0 < b -> 0 < e -> 0 < t < 1 -> 0 <= iB a b t - iB (a + e) b t <= 2 * e * iB (a - 1 / 2) b t.
Proof.
  intros Ha Hb He Ht.
  assert (filterlim (fun t => iB a b t + -1 * iB (a + e) b t) (at_right 0) (locally 0)) as L1.
  { replace (locally 0) with (locally (1 * 0 + -1 * 0)) by (f_equal; ring). eapply filterlim_ext; [|apply (lim_lin2 (at_right 0) (iB a b) (iB (a + e) b) 1 (-1) 0 0); apply iB_lim0; lra]. intros s. simpl. lra. }
  assert (forall s, 0 < s < 1 -> is_derive (fun t => iB a b t + -1 * iB (a + e) b t) s ((1 - Rpower s e) * beta_f a b s)) as D1.
  { intros s Hs. replace ((1 - Rpower s e) * beta_f a b s) with (beta_f a b s + -1 * beta_f (a + e) b s) by (rewrite beta_f_shift; ring).
    apply (is_derive_plus (iB a b) (fun t => -1 * iB (a + e) b t)); [apply iB_der; lra|]. apply (is_derive_scal (iB (a + e) b)). apply iB_der; lra. }
  split.
  - assert (0 <= iB a b t + -1 * iB (a + e) b t); [|lra]. apply (sign0 _ _ D1); auto. intros s Hs. pose proof (Rpower_le1 s e Hs ltac:(lra)). pose proof (beta_f_pos a b s). nra.
  - assert (0 <= 2 * e * iB (a - 1 / 2) b t + -1 * (iB a b t + -1 * iB (a + e) b t)); [|lra].
    apply (sign0 (fun t => 2 * e * iB (a - 1 / 2) b t + -1 * (iB a b t + -1 * iB (a + e) b t)) (fun s => 2 * e * beta_f (a - 1 / 2) b s + -1 * ((1 - Rpower s e) * beta_f a b s))); auto.
    + intros s Hs. apply (is_derive_plus (fun t => 2 * e * iB (a - 1 / 2) b t) (fun t => -1 * (iB a b t + -1 * iB (a + e) b t))); [apply (is_derive_scal (iB (a - 1 / 2) b)), iB_der; lra|]. apply (is_derive_scal (fun t => iB a b t + -1 * iB (a + e) b t)). auto.
    + intros s Hs. replace (beta_f (a - 1 / 2) b s) with (Rpower s (- (1 / 2)) * beta_f a b s) by (rewrite <- beta_f_shift; f_equal; ring). pose proof (one_minus_pow s e Hs ltac:(lra)). pose proof (beta_f_pos a b s). nra.
    + replace (locally 0) with (locally (2 * e * 0 + -1 * 0)) by (f_equal; ring). apply (lim_lin2 (at_right 0) (iB (a - 1 / 2) b)); [apply iB_lim0; lra|exact L1].
Qed.
Lemma Rbeta_shift a b e : 1 <= a -> 0 < b -> 0 < e -> 0 <= Rbeta a b - Rbeta (a + e) b <= 2 * e * Rbeta (a - 1 / 2) b.
Proof.
  intros Ha Hb He.
  assert (filterlim (fun t => 1 * iB a b t + -1 * iB (a + e) b t) (at_left 1) (locally (1 * Rbeta a b + -1 * Rbeta (a + e) b))) as L1 by (apply (lim_lin2 (at_left 1) (iB a b)); apply iB_lim1; lra).
  assert (forall s, 0 < s < 1 -> 0 <= 1 * iB a b s + -1 * iB (a + e) b s <= 2 * e * iB (a - 1 / 2) b s) as K by (intros s Hs; pose proof (iB_shift a b e s Ha Hb He Hs); lra).
  assert (at_left 1 (fun s => 0 < s < 1)) as In by (apply at_left_in1; lra).
  split.
  - assert (0 <= 1 * Rbeta a b + -1 * Rbeta (a + e) b); [|lra]. apply (filterlim_le (F := at_left 1) (fun _ => 0) (fun t => 1 * iB a b t + -1 * iB (a + e) b t) 0 (1 * Rbeta a b + -1 * Rbeta (a + e) b)); [|apply filterlim_const|exact L1].
    eapply filter_imp; [|exact In]. intros s Hs. now apply K.
  - assert (1 * Rbeta a b + -1 * Rbeta (a + e) b <= 2 * e * Rbeta (a - 1 / 2) b); [|lra].
    apply (filterlim_le (F := at_left 1) (fun t => 1 * iB a b t + -1 * iB (a + e) b t) (fun t => 2 * e * iB (a - 1 / 2) b t) (1 * Rbeta a b + -1 * Rbeta (a + e) b) (2 * e * Rbeta (a - 1 / 2) b)); [|exact L1|].
    + eapply filter_imp; [|exact In]. intros s Hs. now apply K.
    + apply (filterlim_comp _ _ _ (iB (a - 1 / 2) b) (fun u => 2 * e * u) _ (locally (Rbeta (a - 1 / 2) b))); [apply iB_lim1; lra|apply (filterlim_scal_r (2 * e) (Rbeta (a - 1 / 2) b))].
Qed.
Lemma Rbeta_half a b : 1 <= a -> 0 < b -> Rbeta (a - 1 / 2) b <= 2 * (a + b) * Rbeta a b.
Proof.
  intros Ha Hb. pose proof (beta_rec (a - 1 / 2) b ltac:(lra) Hb) as E. replace (a - 1 / 2 + 1) with (a + 1 / 2) in E by field. destruct (Rbeta_shift a b (1 / 2) Ha Hb ltac:(lra)) as [L _].
  pose proof (Rbeta_pos (a - 1 / 2) b ltac:(lra) Hb). pose proof (Rbeta_pos a b ltac:(lra) Hb). pose proof (Rbeta_pos (a + 1 / 2) b ltac:(lra) Hb). nra.
Qed.
Lemma betainc_shift a b e t : 1 <= a -> 0 < b -> 0 < e -> 0 < t < 1 -> Rabs (Rbetainc (a + e) b t - Rbetainc a b t) <= 4 * e * (a + b).
Proof.
  intros Ha Hb He Ht. pose proof (Rbeta_pos a b ltac:(lra) Hb) as P. pose proof (Rbeta_pos (a + e) b ltac:(lra) Hb) as Pe. destruct (Rbeta_shift a b e Ha Hb He) as [B1 B2]. destruct (iB_shift a b e t Ha Hb He Ht) as [I1 I2]. pose proof (Rbeta_half a b Ha Hb) as Bh.
  destruct (betainc_in a b t ltac:(lra) Hb Ht) as [U1 U2]. destruct (betainc_in (a + e) b t ltac:(lra) Hb Ht) as [V1 V2]. destruct (betainc_in (a - 1 / 2) b t ltac:(lra) Hb Ht) as [W1 W2].
  pose proof (Rbeta_pos (a - 1 / 2) b ltac:(lra) Hb) as Ph.
  unfold iB in *. set (B := Rbeta a b) in *. set (Be := Rbeta (a + e) b) in *. set (Bm := Rbeta (a - 1 / 2) b) in *. set (U := Rbetainc a b t) in *. set (V := Rbetainc (a + e) b t) in *. set (W := Rbetainc (a - 1 / 2) b t) in *.
  assert (Bm * W <= Bm) by nra. assert (2 * e * (Bm * W) <= 2 * e * (2 * (a + b) * B)) by (apply Rmult_le_compat_l; lra). assert (2 * e * Bm <= 2 * e * (2 * (a + b) * B)) by (apply Rmult_le_compat_l; lra).
  apply Rabs_le. split; apply (Rmult_le_reg_l B); auto.
  - (* B (V - U) >= - 4 e (a+b) B *) assert (Be * V <= B * V) by nra. nra.
  - assert (B * V - Be * V <= B - Be) by nra. nra.
Qed.

(** ** first argument close to 0 *)
Lemma beta_one b : 0 < b -> b * Rbeta 1 b = 1.
Proof. intros Hb. pose proof (proj1 (betainc_1 b Hb)) as E. now rewrite (Rbeta_sym 1 b) in E by lra. Qed.
Lemma beta_small e n : 0 < e -> / e - INR n <= Rbeta e (INR n + 1) <= / e.
Proof.
  intros He. pose proof (Rinv_0_lt_compat e He) as Hi. induction n as [|n IH].
  - simpl. rewrite Rplus_0_l. pose proof (proj1 (betainc_1 e He)) as E. assert (Rbeta e 1 = / e) by (apply (Rmult_eq_reg_l e); [rewrite E; field|]; lra). lra.
  - rewrite S_INR. pose proof (pos_INR n) as Hn. set (b := INR n + 1) in *. assert (1 <= b) by (unfold b; lra). assert (INR n = b - 1) as Eb by (unfold b; ring). pose proof (beta_rec b e ltac:(lra) He) as E. rewrite (Rbeta_sym e (b + 1)), (Rbeta_sym e b) in E by lra.
    pose proof (Rbeta_pos e b He ltac:(lra)) as P. pose proof (Rbeta_pos e (b + 1) He ltac:(lra)) as P1. set (B := Rbeta e b) in *. set (B1 := Rbeta e (b + 1)) in *.
    assert (e * B <= 1). { apply (Rmult_le_reg_l (/ e)); auto. rewrite <- Rmult_assoc, Rinv_l by lra. lra. }
    split.
    + assert (B - 1 <= B1); [|lra]. apply (Rmult_le_reg_l (b + e)); [lra|]. rewrite E. nra.
    + assert (B1 <= B); [|lra]. apply (Rmult_le_reg_l (b + e)); [lra|]. rewrite E. nra.
Qed.
Lemma betainc_small e n x : 0 < e -> INR n * e <= 1 / 2 -> 0 < x < 1 -> 0 <= 1 - Rbetainc e (INR n + 1) x <= 2 * e * - ln x.
Proof.
  intros He Hn Hx. pose proof (pos_INR n) as H0. destruct (betainc_in e (INR n + 1) x He ltac:(lra) Hx) as [_ U]. split; [lra|].
  destruct (beta_small e n He) as [B1 _]. set (B := Rbeta e (INR n + 1)) in *. pose proof (Rinv_0_lt_compat e He) as Hi. assert (e * / e = 1) as Ei by (field; lra).
  assert (INR n <= 1 / 2 * / e) as Hn' by (replace (INR n) with (INR n * e * / e) by (field; lra); apply Rmult_le_compat_r; lra). assert (/ (2 * e) <= B) as B2 by (rewrite Rinv_mult; lra). assert (0 < B) as PB by (apply Rbeta_pos; lra).
  assert (filterlim (fun t => / B * ln t + -1 * Rbetainc e (INR n + 1) t) (at_left 1) (locally (/ B * 0 + -1 * 1))) as L.
  { apply (lim_lin2 (at_left 1) ln); [|apply Ibeta_lims; lra]. rewrite <- ln_1. apply (filterlim_filter_le_1 (G := at_left 1) (F := locally 1)); [apply filter_le_within|]. apply (ex_derive_continuous ln). exists (/ 1). apply is_derive_Reals. apply derivable_pt_lim_ln. lra. }
  assert (/ B * ln x + -1 * Rbetainc e (INR n + 1) x <= / B * 0 + -1 * 1) as K.
  { apply (sign1 (fun t => / B * ln t + -1 * Rbetainc e (INR n + 1) t) (fun t => / B * / t + -1 * (beta_f e (INR n + 1) t / B))); auto.
    - intros t Ht. apply (is_derive_plus (fun t => / B * ln t) (fun t => -1 * Rbetainc e (INR n + 1) t)).
      + apply (is_derive_scal ln). apply is_derive_Reals, derivable_pt_lim_ln. lra.
      + apply (is_derive_scal (Rbetainc e (INR n + 1))). apply Ibeta_der; lra.
    - intros t Ht. assert (beta_f e (INR n + 1) t <= / t).
      { unfold beta_f. replace (INR n + 1 - 1) with (INR n) by ring. replace (e - 1) with (e + - (1)) by ring. rewrite Rpower_plus, Rpower_Ropp, Rpower_1 by lra. pose proof (Rpower_le1 t e Ht ltac:(lra)). pose proof (Rpower_le1 (1 - t) (INR n) ltac:(lra) H0).
        assert (0 < / t) by (apply Rinv_0_lt_compat; lra). pose proof (exp_pos (INR n * ln (1 - t))). fold (Rpower (1 - t) (INR n)) in *. pose proof (exp_pos (e * ln t)). fold (Rpower t e) in *. assert (Rpower t e * Rpower (1 - t) (INR n) <= 1) by nra. replace (Rpower t e * / t * Rpower (1 - t) (INR n)) with (Rpower t e * Rpower (1 - t) (INR n) * / t) by ring. nra. }
      pose proof (Rinv_0_lt_compat B PB). unfold Rdiv. nra. }
  assert (- ln x * / B <= - ln x * (2 * e)); [|lra]. assert (ln x < 0) by (rewrite <- ln_1; apply ln_increasing; lra). apply Rmult_le_compat_l; [lra|]. replace (2 * e) with (/ / (2 * e)) by (apply Rinv_inv). apply Rinv_le_contravar; auto. apply Rinv_0_lt_compat. lra.
Qed.

(** ** the binomial distribution function *)
Lemma rising_choose n k : (k <= n)%nat -> rising (INR (n - k) + 1) k = INR (choose n k).
Proof.
  induction k as [|k IH]; intros Hk; [now rewrite choose_0|]. apply (Rmult_eq_reg_l (INR (S k))); [|apply not_0_INR; lia].
  rewrite rising_bias, choose_step. replace (INR (n - S k) + 1) with (INR (n - k)) by (replace (n - k)%nat with (S (n - S k)) by lia; rewrite S_INR; ring). rewrite IH by lia. rewrite minus_INR by lia. ring.
Qed.
Lemma binom_nb n k x : (k < n)%nat -> 0 < x <= 1 -> sumn (S k) (negbinom_pmf (INR (n - k)) x) = sumn (S k) (binomial_pmf n (1 - x)).
Proof.
  intros Hk Hx. assert (forall m, (m < n)%nat -> Rpower x (INR (n - m)) = x ^ (n - m)) as Hp by (intros; apply Rpower_pow; lra). induction k as [|k IH].
  - rewrite !sumn_S, !sumn_0. unfold negbinom_pmf, binomial_pmf. rewrite Hp by lia. rewrite choose_0. simpl. replace (1 - (1 - x)) with x by ring. ring.
  - rewrite (sumn_S (S k) (binomial_pmf n (1 - x))), <- IH by lia. rewrite nb_F by lra. replace (INR (n - S k) + 1) with (INR (n - k)) by (replace (n - k)%nat with (S (n - S k)) by lia; rewrite S_INR; ring).
    rewrite (sumn_S (S k)). assert (negbinom_pmf (INR (n - k)) x (S k) = x * binomial_pmf n (1 - x) (S k)) as ->; [|field; lra].
    unfold negbinom_pmf, binomial_pmf. replace (INR (n - k)) with (INR (n - S k) + 1) at 1 by (replace (n - k)%nat with (S (n - S k)) by lia; rewrite S_INR; ring). rewrite rising_choose by lia. rewrite Hp by lia.
    replace (n - k)%nat with (S (n - S k)) by lia. replace (1 - (1 - x)) with x by ring. change (x ^ S (n - S k)) with (x * x ^ (n - S k)). ring.
Qed.
Lemma binom_cdf n k p : (k < n)%nat -> 0 <= p < 1 -> Rbetainc (INR (n - k)) (INR k + 1) (1 - p) = sumn (S k) (binomial_pmf n p).
Proof.
  intros Hk Hp. rewrite inc_nb by (try lra; apply lt_0_INR; lia). rewrite binom_nb by (auto; lra). f_equal. replace (1 - (1 - p)) with p by ring. reflexivity.
Qed.
Lemma binom_F_bound n p k : 0 <= p <= 1 -> (n <= k)%nat -> sumn (S k) (binomial_pmf n p) = 1.
Proof. intros Hp Hk. apply (F_tail (binomial_pmf n p) n (binomial_sum n p Hp)); auto. intros j Hj. unfold binomial_pmf. rewrite choose_out by lia. simpl. ring. Qed.
(** the distribution function of the code *)
Definition Fe (e : R) (n : nat) (p : R) (k : nat) : R := Rbetainc (INR (n - k) + e) (INR k + 1) (1 - p).
Definition Fe_err (e : R) (n : nat) (p : R) : R := e * (4 * (INR n + 1) - 2 * ln (1 - p)).
Lemma ln_neg x : 0 < x <= 1 -> 0 <= - ln x.
Proof. intros [H [L|L]]; [|subst; rewrite ln_1; lra]. assert (ln x < 0) by (rewrite <- ln_1; apply ln_increasing; lra). lra. Qed.
Lemma Fe_close e n p k : 0 < e -> INR n * e <= 1 / 2 -> 0 <= p < 1 -> (k <= n)%nat -> Rabs (Fe e n p k - sumn (S k) (binomial_pmf n p)) <= Fe_err e n p.
Proof.
  intros He Hn Hp Hk. unfold Fe, Fe_err. pose proof (pos_INR n) as Pn. pose proof (ln_neg (1 - p) ltac:(lra)) as Pl. assert (k = n \/ (k < n)%nat) as [->|L] by lia.
  - rewrite binom_F_bound by (auto; lra). rewrite Nat.sub_diag. simpl (INR 0). rewrite Rplus_0_l. destruct (Req_dec p 0) as [->|Np].
    + rewrite Rminus_0_r. unfold Rbetainc. destruct (Rle_dec 1 0); [lra|]. destruct (Rle_dec 1 1); [|lra]. rewrite Rminus_eq_0, Rabs_R0. rewrite Rminus_0_r in Pl. nra.
    + destruct (betainc_small e n (1 - p) He Hn ltac:(lra)) as [A B]. rewrite Rabs_minus_sym, Rabs_pos_eq by auto. nra.
  - rewrite <- binom_cdf by auto. destruct (Req_dec p 0) as [->|Np].
    + rewrite Rminus_0_r in *. unfold Rbetainc. destruct (Rle_dec 1 0); [lra|]. destruct (Rle_dec 1 1); [|lra]. rewrite Rminus_eq_0, Rabs_R0. nra.
    + assert (1 <= INR (n - k)) by (change 1 with (INR 1); apply le_INR; lia). pose proof (pos_INR k). eapply Rle_trans; [apply betainc_shift; lra|]. rewrite minus_INR by lia. nra.
Qed.
(** the score of the code *)
Definition binom_s (e : R) (n : nat) (p y : R) : R :=
  2 * sumn (S n) (fun k => binomial_pmf n p k * (gt_ind y k - (Fe e n p k - 1 / 2 * binomial_pmf n p k)) * (INR k - y)).
Lemma binom_support n p k : (n < k)%nat -> binomial_pmf n p k = 0.
Proof. intros H. unfold binomial_pmf. rewrite choose_out by lia. simpl. ring. Qed.
Lemma sumn_abs n (f g : nat -> R) : (forall k, (k < n)%nat -> Rabs (f k) <= g k) -> Rabs (sumn n f) <= sumn n g.
Proof.
  induction n as [|n IH]; intros H; [rewrite !sumn_0, Rabs_R0; lra|]. rewrite !sumn_S. eapply Rle_trans; [apply Rabs_triang|]. apply Rplus_le_compat; [apply IH; intros; apply H; lia|apply H; lia].
Qed.
Theorem binom_crps e n p y : 0 < e -> INR n * e <= 1 / 2 -> 0 <= p < 1 ->
  exists v, is_crps (count_cdf (binomial_pmf n p)) y v /\ Rabs (binom_s e n p y - v) <= 2 * (INR n + Rabs y) * Fe_err e n p.
Proof.
  intros He Hn Hp. eexists. split; [apply (fin_crps (binomial_pmf n p) n y (binomial_sum n p ltac:(lra))); intros; now apply binom_support|]. unfold binom_s. rewrite <- Rmult_minus_distr_l, <- sumn_minus.
  rewrite Rabs_mult, Rabs_pos_eq by lra. rewrite Rmult_assoc. apply Rmult_le_compat_l; [lra|]. destruct (binomial_sum n p ltac:(lra)) as [P0 _]. pose proof (binom_F_bound n p n ltac:(lra) (le_n n)) as P1.
  eapply Rle_trans; [apply (sumn_abs (S n) _ (fun k => (INR n + Rabs y) * Fe_err e n p * binomial_pmf n p k))|].
  - intros k Hk. replace (_ - _) with (binomial_pmf n p k * (- ((Fe e n p k - sumn (S k) (binomial_pmf n p)) * (INR k - y)))) by field. rewrite Rabs_mult, Rabs_Ropp, Rabs_mult. rewrite (Rabs_pos_eq (binomial_pmf n p k)) by apply P0.
    rewrite (Rmult_comm _ (binomial_pmf n p k)). apply Rmult_le_compat_l; [apply P0|]. rewrite Rmult_comm. apply Rmult_le_compat; try apply Rabs_pos.
    + eapply Rle_trans; [apply Rabs_triang|]. rewrite Rabs_Ropp. rewrite (Rabs_pos_eq (INR k)) by apply pos_INR. apply Rplus_le_compat_r, le_INR. lia.
    + apply Fe_close; auto. lia.
  - rewrite sumn_scal, P1. lra.
Qed.
(** for p = 1 the distribution function of the code vanishes *)
Lemma binom_one e n y : binom_s e n 1 y = if Rlt_dec y (INR n) then 3 * (INR n - y) else INR n - y.
Proof.
  unfold binom_s. rewrite sumn_S. rewrite (sumn_ext n _ (fun _ => 0)).
  - rewrite sumn_zero. unfold Fe, Rbetainc. destruct (Rle_dec (1 - 1) 0); [|lra]. unfold binomial_pmf. rewrite Nat.sub_diag, pow1. assert (choose n n = 1%nat) as -> by (clear; induction n; [reflexivity|]; cbn [choose]; rewrite IHn, choose_out by lia; reflexivity). unfold gt_ind. simpl. destruct (Rlt_dec y (INR n)); field.
  - intros k Hk. unfold binomial_pmf. rewrite Rminus_eq_0, pow_i by lia. ring.
Qed.
Lemma point_crps n y : is_crps (count_cdf (binomial_pmf n 1)) y (Rabs (INR n - y)).
Proof.
  pose proof (fin_crps (binomial_pmf n 1) n y (binomial_sum n 1 ltac:(lra)) ltac:(intros; now apply binom_support)) as K.
  match type of K with is_crps _ _ ?v => replace (Rabs (INR n - y)) with v; [exact K|] end. rewrite sumn_S. rewrite (sumn_ext n _ (fun _ => 0)).
  - rewrite sumn_zero, (binom_F_bound n 1 n) by (auto; lra). unfold binomial_pmf. rewrite Nat.sub_diag, pow1. assert (choose n n = 1%nat) as -> by (clear; induction n; [reflexivity|]; cbn [choose]; rewrite IHn, choose_out by lia; reflexivity). unfold gt_ind. simpl. destruct (Rlt_dec y (INR n)); [rewrite Rabs_pos_eq by lra|rewrite Rabs_left1 by lra]; field.
  - intros k Hk. unfold binomial_pmf. rewrite Rminus_eq_0, pow_i by lia. ring.
Qed.
