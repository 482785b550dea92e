(** Proofs that the log scores are minus the logarithm of densities (statements in P_logs2.v). *)
From Verif Require Export L_logp.
From Coq Require Import Psatz.
From Coquelicot Require Import Coquelicot.
Open Scope R_scope.
Lemma C41_tnormal_l :
forall (obs location scale lower upper : arr) (s : list nat) (y m c : list nat -> R) (l u : list nat -> Rbar),
  params s [(obs, fins y); (location, fins m); (scale, fins c); (lower, fun i => rbn (l i)); (upper, fun i => rbn (u i))]%list ->
  (forall i, inb s i -> 0 < c i /\ Rbar_lt (l i) (u i)) ->
  returns (logs_tnormal obs location scale lower upper) s
    (fun i => logp (trunc_pdf (normal_cdf (m i) (c i)) (normal_pdf (m i) (c i)) (l i) (u i) (y i))) /\
  forall i, inb s i -> distribution (truncensx (normal_cdf (m i) (c i)) (l i) (u i) 0 0)
    (trunc_pdf (normal_cdf (m i) (c i)) (normal_pdf (m i) (c i)) (l i) (u i)) (l i) (u i).
Proof.
intros obs location scale lower upper s y m c l u P H.
assert (forall i t, normal_cdf (m i) (c i) t = NF ((t - m i) / c i)) as EF by (intros; unfold normal_cdf; apply Phi_NF).
assert (forall i, inb s i -> ext_cdf (normal_cdf (m i) (c i)) (l i) < ext_cdf (normal_cdf (m i) (c i)) (u i)) as Hd.
{ intros i Hi. destruct (H i Hi) as [Hc Hlu]. destruct (l i) as [a| |], (u i) as [b| |]; simpl in Hlu; try contradiction; cbn [ext_cdf]; rewrite ?EF; try lra.
  - apply NF_incr. apply (std_lt (m i) (c i) a b Hc). exact Hlu.
  - apply NF_lt1.
  - apply NF_pos. }
split.
- retn P. destruct (H i Hi) as [Hc Hlu]. specialize (Hd i Hi). unfold trunc_pdf, normal_pdf, fins. set (w := (y i - m i) / c i).
  assert (forall b : R, w < (b - m i) / c i <-> y i < b) as K1 by (intros b; apply (std_lt (m i) (c i) (y i) b Hc)).
  assert (forall b : R, (b - m i) / c i < w <-> b < y i) as K2 by (intros b; apply (std_lt (m i) (c i) b (y i) Hc)).
  assert (0 < phi w / c i) as Hp by (pd).
  
  assert (0 < phi w / c i / (ext_cdf (normal_cdf (m i) (c i)) (u i) - ext_cdf (normal_cdf (m i) (c i)) (l i))) as Hq by (apply Rdiv_lt_0_compat; lra).
  destruct (l i) as [a| |], (u i) as [b| |]; simpl in Hlu; try contradiction; cbn [rbn ext_cdf] in *; rewrite ?EF in *.
  + specialize (K2 b). specialize (K1 a). destruct (Rbar_lt_dec (y i) a) as [A|A]; [|destruct (Rbar_lt_dec b (y i)) as [B|B]]; simpl in A.
    * assert (w < (a - m i) / c i) by tauto. nev. fold w. nev. now apply logp_0.
    * simpl in B. assert ((b - m i) / c i < w) by tauto. assert (~ w < (a - m i) / c i) by tauto. nev. fold w. nev. now apply logp_0.
    * simpl in B. assert (~ (b - m i) / c i < w) by tauto. assert (~ w < (a - m i) / c i) by tauto. nev. fold w. nev. lp. reflexivity.
  + specialize (K1 a). destruct (Rbar_lt_dec (y i) a) as [A|A]; simpl in A.
    * assert (w < (a - m i) / c i) by tauto. nev. fold w. nev. now apply logp_0.
    * assert (~ w < (a - m i) / c i) by tauto. destruct (Rbar_lt_dec p_infty (y i)) as [B|B]; [easy|]. nev. fold w. nev. lp. reflexivity.
  + specialize (K2 b). destruct (Rbar_lt_dec (y i) m_infty) as [A|A]; [easy|]. destruct (Rbar_lt_dec b (y i)) as [B|B]; simpl in B.
    * assert ((b - m i) / c i < w) by tauto. nev. fold w. nev. now apply logp_0.
    * assert (~ (b - m i) / c i < w) by tauto. nev. fold w. nev. lp. reflexivity.
  + destruct (Rbar_lt_dec (y i) m_infty) as [A|A]; [easy|]. destruct (Rbar_lt_dec p_infty (y i)) as [B|B]; [easy|]. nev. fold w. nev. lp. reflexivity.
- intros i Hi. specialize (Hd i Hi). destruct (H i Hi) as [Hc Hlu]. apply dist0_distribution, dist0_trunc; auto. now apply normal_dist.
Qed.
Lemma C41_tlogistic_l :
forall (obs location scale lower upper : arr) (s : list nat) (y m c : list nat -> R) (l u : list nat -> Rbar),
  params s [(obs, fins y); (location, fins m); (scale, fins c); (lower, fun i => rbn (l i)); (upper, fun i => rbn (u i))]%list ->
  (forall i, inb s i -> 0 < c i /\ Rbar_lt (l i) (u i)) ->
  returns (logs_tlogistic obs location scale lower upper) s
    (fun i => logp (trunc_pdf (logistic_cdf (m i) (c i)) (logistic_pdf (m i) (c i)) (l i) (u i) (y i))) /\
  forall i, inb s i -> distribution (truncensx (logistic_cdf (m i) (c i)) (l i) (u i) 0 0)
    (trunc_pdf (logistic_cdf (m i) (c i)) (logistic_pdf (m i) (c i)) (l i) (u i)) (l i) (u i).
Proof.
intros obs location scale lower upper s y m c l u P H.
assert (forall i t, logistic_cdf (m i) (c i) t = Ncdf ((t - m i) / c i)) as EF by (reflexivity).
assert (forall i, inb s i -> ext_cdf (logistic_cdf (m i) (c i)) (l i) < ext_cdf (logistic_cdf (m i) (c i)) (u i)) as Hd.
{ intros i Hi. destruct (H i Hi) as [Hc Hlu]. destruct (l i) as [a| |], (u i) as [b| |]; simpl in Hlu; try contradiction; cbn [ext_cdf]; rewrite ?EF; try lra.
  - apply Ncdf_incr. apply (std_lt (m i) (c i) a b Hc). exact Hlu.
  - apply Ncdf_lt1.
  - apply Ncdf_pos. }
split.
- retn P. destruct (H i Hi) as [Hc Hlu]. specialize (Hd i Hi). unfold trunc_pdf, logistic_pdf, fins. set (w := (y i - m i) / c i).
  assert (forall b : R, w < (b - m i) / c i <-> y i < b) as K1 by (intros b; apply (std_lt (m i) (c i) (y i) b Hc)).
  assert (forall b : R, (b - m i) / c i < w <-> b < y i) as K2 by (intros b; apply (std_lt (m i) (c i) b (y i) Hc)).
  assert (0 < exp (- w) / ((1 + exp (- w)) * (1 + exp (- w))) / c i) as Hp by (pose proof (exp_pos (- w)); pd).
  pose proof (exp_pos (- w)). assert (0 < (1 + exp (- w)) * (1 + exp (- w))) by nra.
  assert (0 < exp (- w) / ((1 + exp (- w)) * (1 + exp (- w))) / c i / (ext_cdf (logistic_cdf (m i) (c i)) (u i) - ext_cdf (logistic_cdf (m i) (c i)) (l i))) as Hq by (apply Rdiv_lt_0_compat; lra).
  destruct (l i) as [a| |], (u i) as [b| |]; simpl in Hlu; try contradiction; cbn [rbn ext_cdf] in *; rewrite ?EF in *.
  + specialize (K2 b). specialize (K1 a). destruct (Rbar_lt_dec (y i) a) as [A|A]; [|destruct (Rbar_lt_dec b (y i)) as [B|B]]; simpl in A.
    * assert (w < (a - m i) / c i) by tauto. nev. fold w. nev. now apply logp_0.
    * simpl in B. assert ((b - m i) / c i < w) by tauto. assert (~ w < (a - m i) / c i) by tauto. nev. fold w. nev. now apply logp_0.
    * simpl in B. assert (~ (b - m i) / c i < w) by tauto. assert (~ w < (a - m i) / c i) by tauto. nev. fold w. nev. lp. fold w. field. repeat split; lra.
  + specialize (K1 a). destruct (Rbar_lt_dec (y i) a) as [A|A]; simpl in A.
    * assert (w < (a - m i) / c i) by tauto. nev. fold w. nev. now apply logp_0.
    * assert (~ w < (a - m i) / c i) by tauto. destruct (Rbar_lt_dec p_infty (y i)) as [B|B]; [easy|]. nev. fold w. nev. lp. fold w. field. repeat split; lra.
  + specialize (K2 b). destruct (Rbar_lt_dec (y i) m_infty) as [A|A]; [easy|]. destruct (Rbar_lt_dec b (y i)) as [B|B]; simpl in B.
    * assert ((b - m i) / c i < w) by tauto. nev. fold w. nev. now apply logp_0.
    * assert (~ (b - m i) / c i < w) by tauto. nev. fold w. nev. lp. fold w. field. repeat split; lra.
  + destruct (Rbar_lt_dec (y i) m_infty) as [A|A]; [easy|]. destruct (Rbar_lt_dec p_infty (y i)) as [B|B]; [easy|]. nev. fold w. nev. lp. fold w. field. repeat split; lra.
- intros i Hi. specialize (Hd i Hi). destruct (H i Hi) as [Hc Hlu]. apply dist0_distribution, dist0_trunc; auto. now apply logistic_dist.
Qed.
Lemma C41_mixnorm_l :
forall (obs m sd : arr) (w : option arr) (ax : Z) (s : list nat) (p M : nat) (y mu sg ww : list nat -> R),
  mix_args obs m sd w ax s p M y mu sg ww -> mix_ok s p M sg ww ->
  returns (logs_mixnorm obs m sd w ax) s
    (fun r => logp (mixture M (member p ww r) (fun k => normal_pdf (member p mu r k) (member p sg r k)) (y r))) /\
  forall r, inb s r -> distribution (mixture M (member p ww r) (fun k => normal_cdf (member p mu r k) (member p sg r k)))
    (mixture M (member p ww r) (fun k => normal_pdf (member p mu r k) (member p sg r k))) m_infty p_infty.
Proof.
intros obs m sd w ax s p M y mu sg ww (Hm & Hs & Hw) Hk. split.
- assert (returns (Ok (mkArr DFloat (sh m) (fun _ => Fin 1)) / sci M)%A (insert_at p M s) (fun _ => Fin (/ INR M))) as He.
  { destruct Hm as (_ & (Sm & _) & Hp & _). eapply full_tb; [intros i|].
    -     assert (tb (Ok (mkArr DFloat (sh m) (fun _ => Fin 1))) (insert_at p M s) i (Fin 1) (sh m :: nil)).
    { rewrite Sm. apply (tb_full _ _ (fun _ => Fin 1)). exists DFloat. eexists. split; [reflexivity|]. repeat split. }
    eapply tb_eq; [tbs|intros Hi].
    destruct M as [|M]; [destruct (inb_remove p 0 s i Hp Hi) as [? ?]; lia|]. pose proof (lt_0_INR (S M) ltac:(lia)). unfold nofnat. nev. f_equal. field. lra.
    - left. exact Sm. }
  destruct (mix_form obs m sd ax s p M y mu sg ww Hm Hs w (fun M => Ok (mkArr DFloat (sh m) (fun _ => Fin 1)) / sci M)%A mixnorm_logs_core Hw He) as (m' & s' & w' & d1 & d2 & d3 & E & Am & As & Aw).
  unfold logs_mixnorm. rewrite E. eapply ret_ext; [exact (mix_logs_core _ _ _ _ _ _ _ _ _ _ _ _ _ _ (real_arr_is _ _ _ (proj1 Hm)) Am As Aw)|].
  intros r Hr. destruct (Hk r Hr) as [K S]. unfold moved. cbn [hd tl]. cbv beta.
  rewrite (nsumn_Fin M _ (fun k => member p ww r k * normal_pdf (member p mu r k) (member p sg r k) (y r))).
  + fold (mixture M (member p ww r) (fun k => normal_pdf (member p mu r k) (member p sg r k)) (y r)).
    assert (0 < mixture M (member p ww r) (fun k => normal_pdf (member p mu r k) (member p sg r k)) (y r)) as Hp.
    { destruct (sum_pos M (member p ww r)) as (k & Hk1 & Hk2); [intros; apply K; auto|lra|].
      assert (forall k, (k < M)%nat -> 0 < normal_pdf (member p mu r k) (member p sg r k) (y r)) as Np.
      { intros j Hj. destruct (K j Hj). apply Rdiv_lt_0_compat; [apply phi_pos|lra]. }
      apply (sumn_pos1 M _ k); auto.
      - intros j Hj. apply Rmult_le_pos; [apply K; auto|left; auto].
      - apply Rmult_lt_0_compat; auto. }
    nev. lp. reflexivity.
  + intros k Hk'. destruct (K k Hk'). unfold dn. nev. reflexivity.
- intros r Hr. destruct (Hk r Hr) as [K S]. apply dist0_distribution, dist0_mix; auto; intros k Hk'; [apply normal_dist|]; apply K; auto.
Qed.
Lemma C41_gibbs_l :
forall (F f G g : R -> R) (l u l' u' : Rbar) (A B : R), Rbar_lt l u -> distribution F f l u -> distribution G g l' u' ->
  (forall t : R, Rbar_lt l t -> Rbar_lt t u -> 0 < g t) ->
  is_RInt_gen (fun t => f t * - ln (g t)) (from_below l) (from_above u) A ->
  is_RInt_gen (fun t => f t * - ln (f t)) (from_below l) (from_above u) B -> B <= A.
Proof.
intros F f G g l u l' u' A B. exact (gibbs F f l u G g l' u' A B).
Qed.
Lemma C41_gibbs_discrete_l :
forall (p q : nat -> R) (A B : R), (forall n, 0 <= p n) -> (forall n, 0 <= q n) -> (forall n, 0 < p n -> 0 < q n) ->
  is_series p 1 -> is_series q 1 -> is_series (fun n => p n * - ln (q n)) A -> is_series (fun n => p n * - ln (p n)) B -> B <= A.
Proof.
exact gibbs_discrete.
Qed.
