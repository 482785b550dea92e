(** Proofs of the ensemble log score properties (statements in P_clogs.v). *)
From Verif Require Export L_logs.
From Coq Require Import Psatz.
From Coquelicot Require Import Coquelicot.
Open Scope R_scope.
Lemma bw_some fct d s M x b : arr_is fct d (M :: s) x -> (0 < M)%nat ->
  bandwidths fct (Some b) = Ok (mkArr (dt b) (M :: sh b) (fun i => at_ b (tl i))).
Proof. intros H HM. unfold bandwidths. cbn [bind]. rewrite (lastdim_f fct d s M x H). destruct (Nat.eqb_spec M 0); [lia|reflexivity]. Qed.
Lemma bw_none fct d s M x : arr_is fct d (M :: s) x ->
  exists b, arr_is b (dt b) s (fun r => silvn M (fun k => x (k :: r))) /\ bandwidths fct None = bandwidths fct (Some b).
Proof.
  intros H. destruct (silverman_is fct d s M x H) as (d' & b & E & Hb). exists b. split; [destruct Hb as (_ & Hs & Hv); repeat split; auto|].
  unfold bandwidths. rewrite E. reflexivity.
Qed.
Lemma broadcasts_id b d s f : arr_is b d s f -> broadcasts b s f.
Proof.
  intros (_ & Hs & Hv). split; rewrite Hs; [apply bshape_refl|]. intros i Hi. rewrite bidx_id by auto. auto.
Qed.
Section calls.
Variables (obs fct : arr) (ax : Z) (s : list nat) (p M : nat) (y x : list nat -> num) (b : arr) (h : list nat -> num).
Hypothesis Ha : ens_nums obs fct ax s p M y x.
Hypothesis HM : (0 < M)%nat.
Lemma logs_call : broadcasts b s h -> returns (logs_ensemble obs fct ax (Some b)) s
  (fun r => nopp (nlog (nsumn M (fun k => Fin 1 ./ nofnat M .* dn (y r) (member p x r k) (h r))))).
Proof.
  intros Hb. pose proof (nums_inputs _ _ _ _ _ _ _ _ Ha) as Hin.
  destruct (check_in obs fct ax _ _ s p M _ _ Hin) as (f' & E & Hf). pose proof Hin as (Ho & _).
  unfold logs_ensemble. rewrite E. cbn [bind]. cbv zeta. rewrite (bw_some _ _ _ _ _ b Hf HM). fold (wgt f').
  eapply ret_ext; [eapply logs_core_is; eauto|]. intros r Hr. reflexivity.
Qed.
Lemma clogs_call_arr a c al cl am cm cens : broadcasts b s h -> broadcasts a s al -> broadcasts c s cl -> broadcasts a (M :: s) am -> broadcasts c (M :: s) cm ->
  returns (clogs_ensemble obs fct a c ax (Some b) cens) s
  (fun r => clogsv M (al r) (cl r) (fun k => am (k :: r)) (fun k => cm (k :: r)) cens (y r) (member p x r) (h r)).
Proof.
  intros Hb S1 S2 S3 S4. pose proof (nums_inputs _ _ _ _ _ _ _ _ Ha) as Hin.
  destruct (check_in obs fct ax _ _ s p M _ _ Hin) as (f' & E & Hf). pose proof Hin as (Ho & _).
  unfold clogs_ensemble. rewrite E. cbn [bind]. cbv zeta. rewrite (bw_some _ _ _ _ _ b Hf HM).
  eapply ret_ext; [eapply clogs_core_gen; eauto|]. intros r Hr. reflexivity.
Qed.
Lemma clogs_call lo up cens : broadcasts b s h -> returns (clogs_ensemble obs fct (num0 lo) (num0 up) ax (Some b) cens) s
  (fun r => clogsn M lo up cens (y r) (member p x r) (h r)).
Proof.
  intros Hb. pose proof (nums_inputs _ _ _ _ _ _ _ _ Ha) as Hin.
  destruct (check_in obs fct ax _ _ s p M _ _ Hin) as (f' & E & Hf). pose proof Hin as (Ho & _).
  unfold clogs_ensemble. rewrite E. cbn [bind]. cbv zeta. rewrite (bw_some _ _ _ _ _ b Hf HM).
  eapply ret_ext; [eapply clogs_core_is; eauto|]. intros r Hr. reflexivity.
Qed.
Lemma silv_call : exists b', arr_is b' (dt b') s (fun r => silvn M (member p x r)) /\ logs_ensemble obs fct ax None = logs_ensemble obs fct ax (Some b') /\
  forall lo up cens, clogs_ensemble obs fct lo up ax None cens = clogs_ensemble obs fct lo up ax (Some b') cens.
Proof.
  pose proof (nums_inputs _ _ _ _ _ _ _ _ Ha) as Hin.
  destruct (check_in obs fct ax _ _ s p M _ _ Hin) as (f' & E & Hf). unfold logs_ensemble, clogs_ensemble. rewrite E. cbn [bind].
  destruct (bw_none _ _ _ _ _ Hf) as (b' & Hb' & E'). exists b'. rewrite E'. split; [exact Hb'|split; reflexivity].
Qed.
End calls.
Lemma silvn_finan M X : finan (silvn M (fun k => Fin (X k))) \/ M = 0%nat.
Proof.
  destruct M as [|[|M]]; [now right|left; left; apply silvn_1|left; right]. destruct (silvn_real (S (S M)) X) as (v & -> & _); [lia|eauto].
Qed.
Lemma C42_reduction_l :
forall obs fct ax s p M y x bw cens, ens_args obs fct ax s p M y x -> (0 < M)%nat -> finite_bw bw s ->
  exists f, returns (logs_ensemble obs fct ax bw) s f /\
    returns (clogs_ensemble obs fct (num0 NInf) (num0 PInf) ax bw cens) s f.
Proof.
intros obs fct ax s p M y x bw cens Ha HM Hb. pose proof (args_nums _ _ _ _ _ _ _ _ Ha) as Hn.
assert (forall b h, broadcasts b s h -> (forall i, inb s i -> finan (h i)) -> exists f, returns (logs_ensemble obs fct ax (Some b)) s f /\
    returns (clogs_ensemble obs fct (num0 NInf) (num0 PInf) ax (Some b) cens) s f) as K.
{ intros b h Hb' Hh. eexists. split; [eapply logs_call; eauto|]. eapply ret_ext; [eapply clogs_call; eauto|].
  intros r Hr. cbv beta. apply (clogs_inf M (member p x r) (y r) HM cens (h r)). auto. }
destruct bw as [b|].
- destruct Hb as (h & Hb). apply (K b _ Hb). intros i _. right. eauto.
- destruct (silv_call _ _ _ _ _ _ _ _ Hn) as (b & Hb1 & -> & E). rewrite E. eapply K; [eapply broadcasts_id; exact Hb1|].
  intros r _. destruct (silvn_finan M (member p x r)) as [F|F]; [exact F|lia].
Qed.
Lemma C42_log_score_l :
forall obs fct ax s p M y x b h, ens_args obs fct ax s p M y x -> (0 < M)%nat -> broadcasts b s (fun r => Fin (h r)) ->
  (forall r, inb s r -> 0 < h r) ->
  returns (logs_ensemble obs fct ax (Some b)) s (fun r => Fin (log_score (kde M (member p x r) (h r)) (y r))).
Proof.
intros obs fct ax s p M y x b h Ha HM Hb Hh. pose proof (args_nums _ _ _ _ _ _ _ _ Ha) as Hn.
eapply ret_ext; [eapply logs_call; eauto|]. intros r Hr. cbv beta. apply (logs_value M (member p x r) (y r) HM (h r)). auto.
Qed.
Lemma C42_likelihood_scores_l :
forall obs fct ax s p M y x b h (lo up : Rbar) (cens : bool), ens_args obs fct ax s p M y x -> (0 < M)%nat ->
  broadcasts b s (fun r => Fin (h r)) -> (forall r, inb s r -> 0 < h r) ->
  returns (clogs_ensemble obs fct (num0 (rbn lo)) (num0 (rbn up)) ax (Some b) cens) s
    (fun r => Fin (if cens then censored_score M (member p x r) (h r) lo up (y r)
                   else conditional_score M (member p x r) (h r) lo up (y r))).
Proof.
intros obs fct ax s p M y x b h lo up cens Ha HM Hb Hh. pose proof (args_nums _ _ _ _ _ _ _ _ Ha) as Hn.
eapply ret_ext; [eapply clogs_call; eauto|]. intros r Hr. cbv beta. apply (clogs_value M (member p x r) (y r) HM cens lo up (h r)). auto.
Qed.
Lemma C42_conditional_mass_l :
forall M x h (lo up : Rbar), (0 < M)%nat -> 0 < h -> Rbar_lt lo up ->
  0 < kprob M x h lo up <= 1 /\ (kprob M x h lo up = 1 <-> lo = m_infty /\ up = p_infty).
Proof.
intros M x h lo up HM Hh H. pose proof (kprob_pos M x HM h lo up Hh H) as P.
assert (kprob M x h m_infty p_infty = 1) as Q by (unfold kprob; simpl; ring).
assert (lo <> m_infty \/ up <> p_infty -> kprob M x h lo up < 1) as K by (intros; now apply kprob_lt1).
assert (lo = m_infty /\ up = p_infty \/ (lo <> m_infty \/ up <> p_infty)) as [(-> & ->)|N].
{ destruct lo; auto; destruct up; auto; right; try (now left); right; congruence. }
- rewrite Q. split; [lra|tauto].
- specialize (K N). split; [lra|]. split; [lra|]. intros (-> & ->). lra.
Qed.
Lemma C42_silverman_l :
forall obs fct ax s p M y x, ens_args obs fct ax s p M y x -> (1 < M)%nat ->
  exists b h, arr_is b (dt b) s (fun r => Fin (h r)) /\ (forall r, inb s r -> silverman_bw M (member p x r) (h r)) /\
    logs_ensemble obs fct ax None = logs_ensemble obs fct ax (Some b) /\
    forall lo up cens, clogs_ensemble obs fct lo up ax None cens = clogs_ensemble obs fct lo up ax (Some b) cens.
Proof.
intros obs fct ax s p M y x Ha HM. pose proof (args_nums _ _ _ _ _ _ _ _ Ha) as Hn. destruct (silv_call _ _ _ _ _ _ _ _ Hn) as (b & Hb1 & E1 & E2).
exists b. set (g := fun r => match silvn M (member p (fun i => Fin (x i)) r) with Fin v => v | _ => 0 end). exists g.
assert (forall r, silvn M (member p (fun i => Fin (x i)) r) = Fin (g r) /\ silverman_bw M (member p x r) (g r)) as K.
{ intros r. destruct (silvn_real M (member p x r) HM) as (v & E & Hv). unfold g. change (member p (fun i => Fin (x i)) r) with (fun k => Fin (member p x r k)). rewrite E. auto. }
split; [|split; [intros; apply K|split; auto]]. destruct Hb1 as (H1 & H2 & H3). repeat split; auto. intros r Hr. rewrite H3 by auto. apply K.
Qed.
Lemma C42_silverman_one_member_l :
forall obs fct ax s p y x, ens_args obs fct ax s p 1 y x ->
  returns (logs_ensemble obs fct ax None) s (fun _ => NaN).
Proof.
intros obs fct ax s p y x Ha. pose proof (args_nums _ _ _ _ _ _ _ _ Ha) as Hn. destruct (silv_call _ _ _ _ _ _ _ _ Hn) as (b & Hb1 & -> & _).
eapply ret_ext; [eapply logs_call; eauto; eapply broadcasts_id; exact Hb1|]. intros r Hr. cbv beta.
change (member p (fun i => Fin (x i)) r) with (fun k => Fin (member p x r k)). rewrite silvn_1.
rewrite (nsumn_NaN 1 _ 0) by (auto; rewrite dn_nan by auto; apply ev_mul_nr). reflexivity.
Qed.
Lemma C42_silverman_ties_refuted_l :
exists obs fct y x, ens_args obs fct (-1) nil 0 5 y x /\ spread 5 (member 0 x nil) /\
  returns (logs_ensemble obs fct (-1) None) nil (fun _ => NaN).
Proof.
set (x := fun i => match i with k :: _ => if (k =? 4)%nat then 1 else 0 | _ => 0 end).
exists (farr nil (fun _ => 2)), (farr (5%nat :: nil) (fun i => (x i))), (fun _ => 2), x.
assert (ens_args (farr nil (fun _ => 2)) (farr (5%nat :: nil) (fun i => (x i))) (-1) nil 0 5 (fun _ => 2) x) as Ha by (repeat split; auto; try (left; reflexivity); try (right; reflexivity)).
split; [exact Ha|]. split; [exists 0%nat, 4%nat; unfold member, x; simpl; repeat split; try lia; lra|].
pose proof (args_nums _ _ _ _ _ _ _ _ Ha) as Hn. destruct (silv_call _ _ _ _ _ _ _ _ Hn) as (b & Hb1 & -> & _).
eapply ret_ext; [eapply logs_call; eauto; [lia|eapply broadcasts_id; exact Hb1]|]. intros r Hr. destruct r; [|easy]. cbv beta.
change (member 0 (fun i => Fin (x i)) nil) with (fun k => Fin (member 0 x nil k)).
assert (silvn 5 (fun k => Fin (member 0 x nil k)) = Fin 0) as ->.
{ set (l := (0 :: 0 :: 0 :: 0 :: 1 :: nil)).
  unfold silvn. rewrite !(quantile_real _ 5 _ l); try lra; try lia.
  2,4: reflexivity.
  2,3: unfold l; repeat first [apply SSorted_nil | apply SSorted_cons | apply Forall_nil | apply Forall_cons]; lra.
  change (sdn 1 5) with (sdn (ddof false) 5). rewrite sdn_real by lia. 
  assert (qtl (3 / 4) l = 0 /\ qtl (1 / 4) l = 0) as [-> ->].
  { assert (forall z, Int_part (IZR z) = z) as I by (intros z; pose proof (base_Int_part (IZR z)) as [B1 B2]; apply le_IZR in B1; apply (f_equal Z.opp) || idtac;
      assert (IZR (Int_part (IZR z)) > IZR (z - 1)) as B3 by (rewrite minus_IZR; lra); apply lt_IZR in B3; lia).
    unfold qtl, l. cbn [length INR]. replace (3 / 4 * (1 + 1 + 1 + 1 + 1 - 1)) with 3 by lra. replace (1 / 4 * (1 + 1 + 1 + 1 + 1 - 1)) with 1 by lra.
    rewrite !I. simpl. lra. }
  assert (0 < INR 5) by (apply lt_0_INR; lia). unfold nofnat. nev. replace ((0 - 0) / (134 / 100)) with 0 by lra. rewrite Rmin_right by apply sqrt_pos. f_equal. ring. }
rewrite (nsumn_NaN 5 _ 0) by (try lia; rewrite dn_nan by auto; apply ev_mul_nr). reflexivity.
Qed.
Lemma C42_array_bounds_refuted_l :
exists obs fct a b y x, ens_args obs fct (-1) (2%nat :: nil) 0 3 y x /\ arr_is a DFloat (2%nat :: nil) (fun _ => NInf) /\
  arr_is b DFloat (2%nat :: nil) (fun _ => PInf) /\
  forall cens, clogs_ensemble obs fct a b (-1) (Some (num0 (Fin 1))) cens = Err ValueError.
Proof.
exists (farr (2%nat :: nil) (fun _ => 0)), (farr (3%nat :: 2%nat :: nil) (fun _ => 0)), (mkArr DFloat (2%nat :: nil) (fun _ => NInf)), (mkArr DFloat (2%nat :: nil) (fun _ => PInf)), (fun _ => 0), (fun _ => 0).
split; [repeat split; auto; try (left; reflexivity); try (right; reflexivity)|]. split; [repeat split; auto; try (left; reflexivity); try (right; reflexivity)|]. split; [repeat split; auto; try (left; reflexivity); try (right; reflexivity)|]. intros [|]; reflexivity.
Qed.
Lemma C42_array_bounds_mixed_refuted_l :
exists obs fct a b y x v w, ens_args obs fct (-1) (2%nat :: nil) 0 2 y x /\ arr_is a DFloat (2%nat :: nil) (fun r => if (hd 0%nat r =? 0)%nat then NInf else Fin 0) /\ arr_is b DFloat (2%nat :: nil) (fun _ => PInf) /\
  returns (clogs_ensemble obs fct a b (-1) (Some (num0 (Fin 1))) false) (2%nat :: nil) v /\
  returns (clogs_ensemble obs fct (num0 NInf) (num0 PInf) (-1) (Some (num0 (Fin 1))) false) (2%nat :: nil) w /\
  v (0%nat :: nil) <> w (0%nat :: nil).
Proof.
set (al := fun r : list nat => if (hd 0%nat r =? 0)%nat then NInf else Fin 0).
set (obs := farr (2%nat :: nil) (fun _ => 0)). set (fct := farr (2%nat :: 2%nat :: nil) (fun _ => 0)).
set (a := mkArr DFloat (2%nat :: nil) al). set (b := mkArr DFloat (2%nat :: nil) (fun _ => PInf)).
assert (ens_args obs fct (-1) (2%nat :: nil) 0 2 (fun _ => 0) (fun _ => 0)) as Ha by (repeat split; auto; try (left; reflexivity); try (right; reflexivity)). pose proof (args_nums _ _ _ _ _ _ _ _ Ha) as Hn.
exists obs, fct, a, b, (fun _ => 0), (fun _ => 0). eexists. eexists. split; [exact Ha|]. split; [repeat split; auto; try (left; reflexivity); try (right; reflexivity)|]. split; [repeat split; auto; try (left; reflexivity); try (right; reflexivity)|].
split; [|split].
- eapply (clogs_call_arr _ _ _ _ _ _ _ _ _ (fun _ => Fin 1) Hn ltac:(lia) a b al (fun _ => PInf) (fun i => al (hd 0%nat i :: nil)) (fun _ => PInf) false); [apply broadcasts_num0| | | |];
  (split; [reflexivity|]); intros [|k [|r [|]]] Hi; try easy; try (destruct Hi as (H1 & H2)); try easy; destruct k as [|[|]]; try lia; reflexivity.
- apply (clogs_call _ _ _ _ _ _ _ _ _ (fun _ => Fin 1) Hn ltac:(lia)). apply broadcasts_num0.
- cbv beta. unfold clogsn, clogsv. cbn [hd al nltb andb Nat.eqb].
  change (member 0 (fun _ => Fin 0) (0%nat :: nil)) with (fun k : nat => Fin 0). unfold meann, al, nsumn. cbn [seq map hd Nat.eqb fold_left fold_right]. unfold dn, pn. nev.
  replace ((0 - 0) / 1) with 0 by field. assert (NF 0 = 1 / 2) as -> by (pose proof (NF_opp 0) as N; rewrite Ropp_0 in N; lra).
  idtac.
  unfold nsum. cbn [fold_left fold_right]. pose proof (phi_pos 0). nev.
  replace ((phi 0 / 1 + (phi 0 / 1 + 0)) / 2) with (phi 0) by field.
  replace ((1 + (1 + 0)) / 2 - (0 + (1 / 2 + 0)) / 2) with (3 / 4) by lra. replace ((1 + (1 + 0)) / 2 - (0 + (0 + 0)) / 2) with 1 by lra. nev. rewrite ln_1.
  intros E. assert (ln (3 / 4) < ln 1) by (apply ln_increasing; lra). rewrite ln_1 in *. assert (ln (3 / 4) = 0) by (injection E; lra). lra.
Qed.
