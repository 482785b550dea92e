(** Lemmas about the ensemble log score and the conditional and censored likelihood scores. *)
From Verif Require Export S_logs M_logs L_dss L_tcn.
From Coq Require Import Psatz.
From Coquelicot Require Import Coquelicot.
Open Scope R_scope.

Lemma bshape_comm t s u : bshape t s = Some u -> bshape s t = Some u.
Proof.
  revert s u; induction t as [|a t IH]; intros [|b s] u H; cbn [bshape] in *; auto.
  destruct (bdim a b) as [c|] eqn:E; [|discriminate]. destruct (bshape t s) as [v|] eqn:E2; [|discriminate]. rewrite (IH _ _ E2).
  assert (bdim b a = Some c) as ->; auto. unfold bdim in *. destruct (Nat.eqb_spec a b), (Nat.eqb_spec b a), (Nat.eqb_spec a 1), (Nat.eqb_spec b 1); congruence.
Qed.
Lemma bto_of t s : bshape s t = Some s -> bto t s.
Proof.
  revert t; induction s as [|e s IH]; intros [|d t] H; cbn [bshape] in *; try easy; try discriminate.
  destruct (bdim e d) as [c|] eqn:E; [|discriminate]. destruct (bshape s t) as [v|] eqn:E2; [|discriminate].
  injection H as -> ->. split; [|now apply IH]. unfold bdim in E. destruct (Nat.eqb_spec e d); [now left|]. destruct (Nat.eqb_spec e 1) as [->|].
  - injection E; intros; left; auto.
  - destruct (Nat.eqb_spec d 1); [now right|discriminate].
Qed.
(** a tensor of full shape *)
Lemma tb_full T s f i : returns T s f -> tb T s i (f i) (s :: nil).
Proof.
  intros (d & a & -> & Hd & Hs & Ha). exists a. split; [reflexivity|]. rewrite Hs. repeat split.
  - apply bto_refl.
  - intros Hi. rewrite bidx_id by auto. auto.
  - intros j t [<-|[]]; auto.
Qed.
Lemma full_tb T s f L : (forall i, tb T s i (f i) L) -> In s L -> returns T s f.
Proof.
  intros H HL. destruct (H []) as (a & -> & H1 & _ & H3).
  assert (sh a = s) as E.
  { apply bto_pres_eq; auto. intros j Hj. eapply H3; [exact HL|]. destruct (nth_error s j) as [d|] eqn:E; [exists d; auto|].
    apply nth_error_None in E. lia. }
  exists (dt a), a. split; [reflexivity|]. repeat split; auto. intros i Hi.
  destruct (H i) as (a' & E' & _ & H2 & _). injection E' as <-. rewrite <- (H2 Hi). now rewrite E, bidx_id.
Qed.
Lemma ret_ext T s f g : returns T s f -> (forall i, inb s i -> f i = g i) -> returns T s g.
Proof. intros (d & H) E. exists d. eapply ten_ext; eauto. Qed.
(** reductions *)
Lemma ret_mean T M s f : returns T (M :: s) f -> returns (amean T) s (fun r => meann M (fun k => f (k :: r))).
Proof. intros (d & H). exists DFloat. eapply ten_conv; [ten|dtf|]. intros r Hr. reflexivity. Qed.
Lemma ret_sum T M s f : returns T (M :: s) f -> returns (asum T) s (fun r => nsumn M (fun k => f (k :: r))).
Proof. intros (d & H). exists d. eapply ten_conv; [ten|dtf|]. intros r Hr. reflexivity. Qed.

(** densities and probabilities of members *)
Definition dn (y x h : num) : num := xpdf phi ((y .- x) ./ h) ./ h.
Definition pn (a x h : num) : num := xcdf NF ((a .- x) ./ h).
Section arrays.
Variables (obs fct bw : arr) (d1 d2 : dtype) (s : list nat) (M : nat) (y x h : list nat -> num).
Hypothesis Ho : arr_is obs d1 s y.
Hypothesis Hf : arr_is fct d2 (M :: s) x.
Hypothesis Hb : broadcasts bw s h.
Let xr r k := x (k :: r).
Let bwE : tensor := Ok (mkArr (dt bw) (M :: sh bw) (fun i => at_ bw (tl i))).
Lemma tb_obs i : tb (aexpand 0 (Ok obs)) (M :: s) i (y (tl i)) ((1%nat :: s) :: nil).
Proof.
  destruct Ho as (Hd & Hs & Ha). eexists. split; [reflexivity|]. cbn [sh at_ insert_at]. rewrite Hs. repeat split.
  - right; reflexivity.
  - apply bto_refl.
  - destruct i as [|k i]; intros Hi; [easy|]. destruct Hi as [Hk Hi]. cbn [bidx tl remove_at].
    rewrite bidx_id by auto. apply Ha. auto.
  - intros j t [<-|[]]; auto.
Qed.
Lemma tb_fct i : tb (Ok fct) (M :: s) i (x i) ((M :: s) :: nil).
Proof. apply tb_full. exists d2, fct. auto. Qed.
Lemma tb_bw i : tb bwE (M :: s) i (h (tl i)) ((M :: sh bw) :: nil).
Proof.
  destruct Hb as (H1 & H2). apply bto_of in H1. eexists. split; [reflexivity|]. cbn [sh at_]. repeat split.
  - left; reflexivity.
  - auto.
  - destruct i as [|k i]; intros Hi; [easy|]. destruct Hi as [Hk Hi]. cbn [bidx tl]. auto.
  - intros j t [<-|[]]; auto.
Qed.
Lemma dens_is : returns (_norm_pdf ((aexpand 0 (Ok obs) - Ok fct) / bwE) / bwE)%A (M :: s) (fun i => dn (y (tl i)) (x i) (h (tl i))).
Proof.
  eapply full_tb.
  - intros i. pose proof (tb_obs i). pose proof (tb_fct i). pose proof (tb_bw i). generalize dependent bwE. intros B ?.
    eapply tb_eq; [tbn|intros Hi; reflexivity].
  - rewrite !in_app_iff. left. left. right. now left.
Qed.
Lemma tb_of a t f i : broadcasts a t f -> tb (Ok a) t i (f i) nil.
Proof. intros (H1 & H2). exists a. split; [reflexivity|]. repeat split; auto; [now apply bto_of|easy]. Qed.
Lemma broadcasts_num0 a t : broadcasts (num0 a) t (fun _ => a).
Proof. split; [destruct t; reflexivity|reflexivity]. Qed.
Lemma probs_is a al : broadcasts a (M :: s) al -> returns (_norm_cdf ((Ok a - Ok fct) / bwE)%A) (M :: s) (fun i => pn (al i) (x i) (h (tl i))).
Proof.
  intros H. eapply full_tb.
  - intros i. pose proof (tb_fct i). pose proof (tb_bw i). pose proof (tb_of _ _ _ i H). generalize dependent bwE. intros B ?.
    eapply tb_eq; [tbn|intros Hi; reflexivity].
  - rewrite !in_app_iff. left. right. now left.
Qed.
Definition wgt : tensor := (Ok (mkArr DFloat (sh fct) (fun _ => Fin 1)) / sci (lastdim fct))%A.
Lemma logs_core_is : returns (mixnorm_logs_core (Ok obs) (Ok fct) bwE wgt) s
  (fun r => nopp (nlog (nsumn M (fun k => Fin 1 ./ nofnat M .* dn (y r) (xr r k) (h r))))).
Proof.
  assert (lastdim fct = M) as LM by (eapply lastdim_f; exact Hf).
  assert (returns (wgt * (_norm_pdf ((aexpand 0 (Ok obs) - Ok fct) / bwE) / bwE))%A (M :: s) (fun i => Fin 1 ./ nofnat M .* dn (y (tl i)) (x i) (h (tl i)))) as E.
  { eapply full_tb.
    - intros i. pose proof (tb_full _ _ _ i dens_is) as K. set (D := (_ / _)%A) in K at 1. 
      assert (tb (Ok (mkArr DFloat (sh fct) (fun _ => Fin 1))) (M :: s) i (Fin 1) ((M :: s) :: nil)).
      { apply (tb_full _ (M :: s) (fun _ => Fin 1)). destruct Hf as (_ & E & _). rewrite E. exists DFloat. eexists. split; [reflexivity|]. repeat split. }
      unfold wgt. rewrite LM. eapply tb_eq; [tbn|intros Hi; reflexivity].
    - rewrite !in_app_iff. left. left. now left. }
  unfold mixnorm_logs_core. cbv zeta. apply ret_sum in E. eapply full_tb.
  - intros i. pose proof (tb_full _ _ _ i E) as K. set (D := asum _) in *. eapply tb_eq; [tbn|intros Hi; reflexivity].
  - now left.
Qed.
(** the bounds a, b and the bounds am, bm which the members are compared with *)
Definition clogsv (a b : num) (am bm : nat -> num) (cens : bool) (y : num) (x : nat -> num) (h : num) : num :=
  let s1 := nopp (nlog (meann M (fun k => dn y (x k) h))) in
  let cons := meann M (fun k => pn (bm k) (x k) h) .- meann M (fun k => pn (am k) (x k) h) in
  if nltb a y && nltb y b then if cens then s1 else s1 .+ nlog cons
  else if cens then nopp (nlog (nofnat 1 .- cons)) else Fin 0.
Lemma clogs_core_gen a b al bl am bm cens : broadcasts a s al -> broadcasts b s bl -> broadcasts a (M :: s) am -> broadcasts b (M :: s) bm ->
  returns (clogs_core (Ok obs) (Ok fct) (Ok a) (Ok b) bwE cens) s
  (fun r => clogsv (al r) (bl r) (fun k => am (k :: r)) (fun k => bm (k :: r)) cens (y r) (xr r) (h r)).
Proof.
  intros Sa Sb Sam Sbm.
  unfold clogs_core. cbv zeta. pose proof (ret_mean _ _ _ _ dens_is) as K1. pose proof (ret_mean _ _ _ _ (probs_is a am Sam)) as K2. pose proof (ret_mean _ _ _ _ (probs_is b bm Sbm)) as K3.
  set (D := amean _) in K1 at 1. set (FA := amean _) in K2 at 1. set (FB := amean _) in K3 at 1.
  assert (forall i, tb (Ok obs) s i (y i) (s :: nil)) as Ko by (intros; apply tb_full; exists d1, obs; auto).
  assert (forall i, tb (Ok a) s i (al i) nil) as Ka by (intros; now apply tb_of).
  assert (forall i, tb (Ok b) s i (bl i) nil) as Kb by (intros; now apply tb_of).
  destruct cens; (eapply full_tb;
    [intros i; pose proof (tb_full _ _ _ i K1); pose proof (tb_full _ _ _ i K2); pose proof (tb_full _ _ _ i K3); specialize (Ko i); specialize (Ka i); specialize (Kb i);
     eapply tb_eq; [tbn|intros Hi]|rewrite !in_app_iff; simpl; tauto]).
  - nev. unfold clogsv. now destruct (nltb (al i) (y i) && nltb (y i) (bl i)).
  - nev. unfold clogsv. now destruct (nltb (al i) (y i) && nltb (y i) (bl i)).
Qed.
Definition clogsn (a b : num) := clogsv a b (fun _ => a) (fun _ => b).
Lemma clogs_core_is (a b : num) cens : returns (clogs_core (Ok obs) (Ok fct) (Ok (num0 a)) (Ok (num0 b)) bwE cens) s
  (fun r => clogsn a b cens (y r) (xr r) (h r)).
Proof. apply (clogs_core_gen _ _ (fun _ => a) (fun _ => b) (fun _ => a) (fun _ => b)); apply broadcasts_num0. Qed.
End arrays.

(** * Silverman's rule *)
Definition silvn (M : nat) (x : nat -> num) : num :=
  Fin (106 / 100) .* nmin (sdn 1 M x) ((nquantile (3 / 4) (rw M x) .- nquantile (1 / 4) (rw M x)) ./ Fin (134 / 100)) .* npow (nofnat M) (Fin (- 1 / 5)).
Lemma ret_quantile q fct d s M x : arr_is fct d (M :: s) x -> returns (aquantile q (Ok fct)) s (fun r => nquantile q (rw M (fun k => x (k :: r)))).
Proof.
  intros (Hd & Hs & Ha). exists (dfloat1 (dt fct)). unfold aquantile, areduce. cbn [bind]. rewrite Hs. eexists. split; [reflexivity|]. repeat split.
  intros r Hr. cbn [at_]. f_equal. unfold row, rw. apply map_ext_in. intros k Hk. apply Ha. split; auto. apply in_seq in Hk. lia.
Qed.
Lemma silverman_is fct d s M x : arr_is fct d (M :: s) x -> returns (silverman fct) s (fun r => silvn M (fun k => x (k :: r))).
Proof.
  intros Hf. pose proof (astd_is fct d s M x Hf false) as T1. pose proof (ret_quantile (3 / 4) _ _ _ _ _ Hf) as T2. pose proof (ret_quantile (1 / 4) _ _ _ _ _ Hf) as T3.
  unfold silverman. cbv zeta. rewrite (lastdim_f fct d s M x Hf). set (sd := astd false fct) in *. set (qa := aquantile (3 / 4) _) in *. set (qb := aquantile (1 / 4) _) in *.
  assert (returns sd s (fun r => sdn 1 M (fun k => x (k :: r)))) as T1' by (exists DFloat; exact T1).
  eapply full_tb.
  - intros i. pose proof (tb_full _ _ _ i T1'). pose proof (tb_full _ _ _ i T2). pose proof (tb_full _ _ _ i T3).
    eapply tb_eq; [tbn|intros Hi; reflexivity].
  - rewrite !in_app_iff. simpl. tauto.
Qed.
Lemma nth_map_Fin k l : (k < length l)%nat -> nth k (map Fin l) NaN = Fin (nth k l 0).
Proof. revert l; induction k; intros [|a l] H; simpl in *; try lia; auto. apply IHk. lia. Qed.
Lemma existsb_Fin l : existsb nisnan (map Fin l) = false.
Proof. induction l; simpl; auto. Qed.
Lemma Int_part_lt h n : 0 <= h -> h <= INR n -> (Z.to_nat (Int_part h) <= n)%nat.
Proof.
  intros H0 H1. pose proof (base_Int_part h) as [B1 B2]. apply Nat2Z.inj_le. 
  assert (IZR (Int_part h) <= INR n) as K by lra. rewrite INR_IZR_INZ in K. apply le_IZR in K.
  destruct (Z_le_gt_dec 0 (Int_part h)); [rewrite Z2Nat.id; auto|]. lia.
Qed.
Lemma quantile_real q M X l : 0 <= q <= 1 -> (0 < M)%nat -> Permutation l (map X (seq 0 M)) -> StronglySorted Rle l ->
  nquantile q (rw M (fun k => Fin (X k))) = Fin (qtl q l).
Proof.
  intros Hq HM P S. unfold nquantile. rewrite rw_length. assert (rw M (fun k => Fin (X k)) = map Fin (map X (seq 0 M))) as -> by (unfold rw; now rewrite map_map).
  rewrite existsb_Fin, (nsort_unique _ l S) by now symmetry.
  assert (length l = M) as L by (rewrite (Permutation_length P), map_length, seq_length; reflexivity).
  unfold qtl. rewrite L. cbv zeta. assert (INR (M - 1) = INR M - 1) as -> by (rewrite minus_INR by lia; reflexivity).
  set (h := q * (INR M - 1)). assert (0 <= INR M - 1) as M1 by (assert (1 <= INR M) by (apply (le_INR 1); lia); lra).
  assert (Z.to_nat (Int_part h) <= M - 1)%nat as K.
  { apply Int_part_lt; [unfold h; nra|]. rewrite minus_INR by lia. unfold h. simpl. nra. }
  rewrite !nth_map_Fin by lia. reflexivity.
Qed.
Lemma sort_ex (l : list R) : exists l', Permutation l' l /\ StronglySorted Rle l'.
Proof.
  destruct (nsort_Fin_ex l) as (l' & E & S). exists l'. split; auto. apply Permutation_map_Fin. rewrite <- E. apply nsort_perm.
Qed.
Lemma silvn_real M X : (1 < M)%nat -> exists v, silvn M (fun k => Fin (X k)) = Fin v /\ silverman_bw M X v.
Proof.
  intros HM. destruct (sort_ex (map X (seq 0 M))) as (l & P & S). eexists. split; [|exists l; split; [exact P|split; [exact S|reflexivity]]].
  unfold silvn. rewrite !(quantile_real _ M X l) by (auto; lra || lia). change (sdn 1 M) with (sdn (ddof false) M). rewrite sdn_real by auto.
  assert (0 < INR M) by (apply lt_0_INR; lia). unfold nofnat. nev. reflexivity.
Qed.
Lemma silvn_1 X : silvn 1 (fun k => Fin (X k)) = NaN.
Proof.
  unfold silvn. assert (sdn 1 1 (fun k => Fin (X k)) = NaN) as ->; [|nev; reflexivity].
  unfold sdn. rewrite mean_real by lia. rewrite (nsumn_Fin 1 _ (fun k => 0)).
  - rewrite sumn_zero. simpl. destruct (Req_EM_T 0 0); [|lra]. unfold infsgn. repeat destruct (Rlt_dec _ _); try lra. reflexivity.
  - intros k Hk. assert (k = 0)%nat as -> by lia. unfold mean. rewrite sumn_S, sumn_0. unfold nsq, nsub, nopp, nadd, nmul. f_equal. simpl. field.
Qed.
(** * rows *)
Definition finan (h : num) : Prop := h = NaN \/ exists r, h = Fin r.
Lemma dn_f y x h : h <> 0 -> dn (Fin y) (Fin x) (Fin h) = Fin (phi ((y - x) / h) / h).
Proof. intros H. unfold dn. nev. reflexivity. Qed.
Lemma dn_nan y x h : h = NaN \/ h = Fin 0 -> dn (Fin y) (Fin x) h = NaN.
Proof.
  intros [->| ->]; unfold dn; nev; [reflexivity|]. unfold ndiv. destruct (Req_EM_T 0 0); [|lra]. unfold infsgn.
  destruct (Rlt_dec 0 (y - x)); [|destruct (Rlt_dec (y - x) 0)]; cbn [xpdf]; auto; destruct (Req_EM_T 0 0); try lra; destruct (Rlt_dec 0 0); try lra; reflexivity.
Qed.
Lemma pn_b (b : Rbar) x h : 0 < h -> pn (rbn b) (Fin x) (Fin h) = Fin (ext_cdf (fun t => NF ((t - x) / h)) b).
Proof. intros H. unfold pn. destruct b as [b| |]; cbn [rbn ext_cdf]; nev; reflexivity. Qed.
Section rows.
Variables (M : nat) (X : nat -> R) (Y : R).
Hypothesis HM : (0 < M)%nat.
Let x k := Fin (X k).
Lemma M_pos : 0 < INR M. Proof. apply lt_0_INR. auto. Qed.
Definition kdef h := sumn M (fun k => phi ((Y - X k) / h) / h) / INR M.
Lemma mean_dn h : h <> 0 -> meann M (fun k => dn (Fin Y) (x k) (Fin h)) = Fin (kde M X h Y).
Proof.
  intros H. unfold meann. rewrite (nsumn_Fin M _ (fun k => phi ((Y - X k) / h) / h)) by (intros; now apply dn_f).
  pose proof M_pos. unfold nofnat. nev. reflexivity.
Qed.
Lemma wsum_dn h : h <> 0 -> nsumn M (fun k => Fin 1 ./ nofnat M .* dn (Fin Y) (x k) (Fin h)) = Fin (kde M X h Y).
Proof.
  intros H. pose proof M_pos. rewrite (nsumn_Fin M _ (fun k => 1 / INR M * (phi ((Y - X k) / h) / h))).
  - f_equal. rewrite sumn_scal. unfold kde, Rdiv. ring.
  - intros k Hk. unfold x. rewrite dn_f by auto. unfold nofnat. nev. reflexivity.
Qed.
Lemma kde_pos h : 0 < h -> 0 < kde M X h Y.
Proof.
  intros H. unfold kde. apply Rdiv_lt_0_compat; [|apply M_pos]. destruct M as [|m]; [lia|]. rewrite sumn_S.
  assert (forall k, 0 < phi ((Y - X k) / h) / h) as K by (intros; apply Rdiv_lt_0_compat; auto; apply phi_pos).
  pose proof (sumn_nonneg m (fun k => phi ((Y - X k) / h) / h) ltac:(intros; left; apply K)). specialize (K m). lra.
Qed.
Lemma kde_neg h : h < 0 -> kde M X h Y < 0.
Proof.
  intros H. assert (kde M X h Y = - kde M X (- h) Y) as ->.
  { unfold kde. unfold Rdiv at 1 4. rewrite Ropp_mult_distr_l, <- sumn_opp. f_equal. apply sumn_ext. intros k _.
    replace ((Y - X k) / - h) with (- ((Y - X k) / h)) by (field; lra). rewrite phi_even. field. lra. }
  assert (0 < kde M X (- h) Y); [|lra]. unfold kde. apply Rdiv_lt_0_compat; [|apply M_pos]. destruct M as [|m]; [lia|]. rewrite sumn_S.
  assert (forall k, 0 < phi ((Y - X k) / - h) / - h) as K by (intros; apply Rdiv_lt_0_compat; [apply phi_pos|lra]).
  pose proof (sumn_nonneg m (fun k => phi ((Y - X k) / - h) / - h) ltac:(intros; left; apply K)). specialize (K m). lra.
Qed.
Lemma kcdf_NF h t : kcdf M X h t = sumn M (fun k => NF ((t - X k) / h)) / INR M.
Proof. unfold kcdf. f_equal. apply sumn_ext. intros; apply Phi_NF. Qed.
Lemma mean_pn (b : Rbar) h : 0 < h -> meann M (fun k => pn (rbn b) (x k) (Fin h)) = Fin (ext_cdf (kcdf M X h) b).
Proof.
  intros H. unfold meann. rewrite (nsumn_Fin M _ (fun k => ext_cdf (fun t => NF ((t - X k) / h)) b)) by (intros; now apply pn_b).
  pose proof M_pos. unfold nofnat. nev. f_equal. destruct b as [b| |]; cbn [ext_cdf].
  - now rewrite kcdf_NF.
  - rewrite sumn_const. field. lra.
  - rewrite sumn_zero. field. lra.
Qed.
Lemma clogs_inf cens h : finan h ->
  clogsn M NInf PInf cens (Fin Y) x h = nopp (nlog (nsumn M (fun k => Fin 1 ./ nofnat M .* dn (Fin Y) (x k) h))).
Proof.
  intros Hh. unfold clogsn, clogsv. cbn [nltb andb].
  assert (h = NaN \/ h = Fin 0 \/ exists r, h = Fin r /\ r <> 0) as [N|[N|(r & -> & N)]].
  { destruct Hh as [->|(r & ->)]; auto. destruct (Req_dec r 0) as [->|]; eauto. }
  1,2: assert (h = NaN \/ h = Fin 0) as N' by auto;
    assert (meann M (fun k => dn (Fin Y) (x k) h) = NaN) as -> by (unfold meann; rewrite (nsumn_NaN M _ 0) by (auto; now apply dn_nan); reflexivity);
    rewrite (nsumn_NaN M _ 0) by (auto; unfold x; rewrite dn_nan by auto; apply ev_mul_nr); destruct cens; reflexivity.
  rewrite mean_dn, wsum_dn by auto. destruct cens; [reflexivity|]. destruct (Rlt_dec 0 r) as [P|P].
  - change NInf with (rbn m_infty). change PInf with (rbn p_infty). rewrite !mean_pn by auto. cbn [ext_cdf].
    pose proof (kde_pos r P). nev. rewrite Rminus_0_r. nev. rewrite ln_1. f_equal. ring.
  - pose proof (kde_neg r ltac:(lra)). assert (nlog (Fin (kde M X r Y)) = NaN) as ->; [|reflexivity].
    simpl. destruct (Rlt_dec 0 _); [lra|]. destruct (Rlt_dec _ 0); [reflexivity|lra].
Qed.
Lemma kcdf_incr h a b : 0 < h -> a < b -> kcdf M X h a < kcdf M X h b.
Proof.
  intros Hh H. rewrite !kcdf_NF. unfold Rdiv. apply Rmult_lt_compat_r; [apply Rinv_0_lt_compat, M_pos|].
  destruct M as [|m]; [lia|]. rewrite !sumn_S. 
  assert (forall k, NF ((a - X k) / h) < NF ((b - X k) / h)) as K.
  { intros k. apply NF_incr. apply (std_lt (X k) h a b Hh). exact H. }
  pose proof (sumn_le m (fun k => NF ((a - X k) / h)) (fun k => NF ((b - X k) / h)) ltac:(intros; left; apply K)). specialize (K m). lra.
Qed.
Lemma kcdf_bounds h t : 0 < h -> 0 < kcdf M X h t < 1.
Proof.
  intros Hh. assert (forall t, 0 <= kcdf M X h t <= 1) as K.
  { intros u. rewrite kcdf_NF. pose proof M_pos. split.
    - apply Rdiv_le_0_compat; auto. apply sumn_nonneg. intros; left; apply NF_pos.
    - apply (Rmult_le_reg_r (INR M)); auto. unfold Rdiv. rewrite Rmult_assoc, Rinv_l, Rmult_1_r, Rmult_1_l by lra.
      rewrite <- (Rmult_1_r (INR M)), <- sumn_const. apply sumn_le. intros; left; apply NF_lt1. }
  pose proof (K (t - 1)). pose proof (K (t + 1)). pose proof (kcdf_incr h (t - 1) t Hh ltac:(lra)). pose proof (kcdf_incr h t (t + 1) Hh ltac:(lra)). lra.
Qed.
Lemma kprob_pos h (a b : Rbar) : 0 < h -> Rbar_lt a b -> 0 < kprob M X h a b.
Proof.
  intros Hh H. unfold kprob. destruct a as [a| |], b as [b| |]; simpl in *; try contradiction.
  - pose proof (kcdf_incr h a b Hh H). lra.
  - pose proof (kcdf_bounds h a Hh). lra.
  - pose proof (kcdf_bounds h b Hh). lra.
  - lra.
Qed.
Lemma kprob_lt1 h (a b : Rbar) : 0 < h -> a <> m_infty \/ b <> p_infty -> kprob M X h a b < 1.
Proof.
  intros Hh H. unfold kprob. destruct a as [a| |], b as [b| |]; simpl; try lra;
  repeat match goal with |- context [kcdf M X h ?t] => lazymatch goal with _ : 0 < kcdf M X h t < 1 |- _ => fail | _ => pose proof (kcdf_bounds h t Hh) end end; try lra.
  destruct H; congruence.
Qed.
Lemma ltb_rb (a : Rbar) y : nltb (rbn a) (Fin y) = if Rbar_lt_dec a y then true else false.
Proof. destruct a as [a| |]; simpl; destruct (Rbar_lt_dec _ y) as [H|H]; simpl in H; auto; try contradiction; unfold rltb; destruct (Rlt_dec a y); auto; contradiction. Qed.
Lemma ltb_rb' (a : Rbar) y : nltb (Fin y) (rbn a) = if Rbar_lt_dec y a then true else false.
Proof. destruct a as [a| |]; simpl; destruct (Rbar_lt_dec y _) as [H|H]; simpl in H; auto; try contradiction; unfold rltb; destruct (Rlt_dec y a); auto; contradiction. Qed.
Lemma clogs_value (cens : bool) (a b : Rbar) h : 0 < h ->
  clogsn M (rbn a) (rbn b) cens (Fin Y) x (Fin h) = Fin (if cens then censored_score M X h a b Y else conditional_score M X h a b Y).
Proof.
  intros Hh. unfold clogsn, clogsv. rewrite ltb_rb, ltb_rb', mean_dn by lra. rewrite !mean_pn by auto. nev. fold (kprob M X h a b).
  pose proof (kde_pos h Hh) as Kp. unfold censored_score, conditional_score, log_score.
  destruct (Rbar_lt_dec a Y) as [H1|H1], (Rbar_lt_dec Y b) as [H2|H2]; cbn [andb].
  - assert (Rbar_lt a b) as H3 by (eapply Rbar_lt_trans; eauto). pose proof (kprob_pos h a b Hh H3) as P.
    destruct cens; nev; f_equal. unfold Rdiv. rewrite ln_mult, ln_Rinv; auto; [ring|now apply Rinv_0_lt_compat].
  - assert (kprob M X h a b < 1) by (apply kprob_lt1; auto; right; intros ->; apply H2; exact I). destruct cens; nev; reflexivity.
  - assert (kprob M X h a b < 1) by (apply kprob_lt1; auto; left; intros ->; apply H1; exact I). destruct cens; nev; reflexivity.
  - assert (kprob M X h a b < 1) by (apply kprob_lt1; auto; left; intros ->; apply H1; exact I). destruct cens; nev; reflexivity.
Qed.
Lemma logs_value h : 0 < h -> nopp (nlog (nsumn M (fun k => Fin 1 ./ nofnat M .* dn (Fin Y) (x k) (Fin h)))) = Fin (log_score (kde M X h) Y).
Proof. intros Hh. rewrite wsum_dn by lra. pose proof (kde_pos h Hh). nev. reflexivity. Qed.
End rows.
