(** Proofs of the energy score properties (statements in P_energy.v). *)
From Verif Require Export L_energy_api L_kscore.
Open Scope R_scope.
Lemma wpos_S p q : (q < p)%nat -> p = S (wpos p q).
Proof. intros H. unfold wpos. destruct (Nat.ltb_spec q p); lia. Qed.
Lemma fair_names e' (P : Prop) : (mname e' = "fair"%string -> P) -> e' = MFair -> P.
Proof. intros H ->. now apply H. Qed.
Lemma lagb_lt (b : impl) M k : (k < M)%nat -> ((match b with Array => lagc M | Numba => lagf M end) k < M)%nat.
Proof. intros H. destruct b; [now apply lagc_lt|apply lagf_lt; lia]. Qed.
Lemma mval_ext b e M er d er' d' : (0 < M)%nat -> (forall i, (i < M)%nat -> er i = er' i) ->
  (forall i j, (i < M)%nat -> (j < M)%nat -> d i j = d' i j) -> mval b e M er d = mval b e M er' d'.
Proof.
  intros HM H1 H2. destruct e; cbn [mval]; [apply k_exact_ext|apply k_fair_ext|apply k_lag_ext|apply k_lag_ext]; auto using lag1_lt, lagb_lt.
Qed.
Lemma mval_w_ext b e M w w' er d er' d' : (0 < M)%nat -> (forall i, (i < M)%nat -> w i = w' i) -> (forall i, (i < M)%nat -> er i = er' i) ->
  (forall i j, (i < M)%nat -> (j < M)%nat -> d i j = d' i j) -> mval_w b e M w er d = mval_w b e M w' er' d'.
Proof.
  intros HM H0 H1 H2. destruct e; cbn [mval_w]; [apply k_wexact_ext|apply k_wfair_ext|apply k_wlag_ext|apply k_wlag_ext]; auto using lag1_lt, lagb_lt.
Qed.
Lemma mval_scale b e M c er d : mval b e M (fun i => c * er i) (fun i j => c * d i j) = c * mval b e M er d.
Proof. destruct e; [apply k_exact_scale|apply k_fair_scale|apply k_lag_scale|apply k_lag_scale]. Qed.
Lemma mval_w_scale b e M w c er d : mval_w b e M w (fun i => c * er i) (fun i j => c * d i j) = c * mval_w b e M w er d.
Proof. destruct e; [apply k_wexact_scale|apply k_wfair_scale|apply k_wlag_scale|apply k_wlag_scale]. Qed.
Lemma mval_impl b e M D y x : (0 < M)%nat -> mval b e M (es_err D y x) (es_dist D x) = mval Array e M (es_err D y x) (es_dist D x).
Proof.
  intros HM. destruct e, b; try reflexivity. cbn [mval]. symmetry. apply k_lag_sym; auto. apply es_dist_sym.
Qed.
Lemma es_err_1 y x i : es_err 1 y x i = Rabs (x i 0%nat - y 0%nat). Proof. apply eucl_1. Qed.
Lemma es_dist_1 x i j : es_dist 1 x i j = Rabs (x i 0%nat - x j 0%nat). Proof. apply eucl_1. Qed.
Lemma nw_const' M w c : (0 < M)%nat -> (forall k, (k < M)%nat -> w k = c) -> 0 < sumn M w ->
  forall k, (k < M)%nat -> nw M w k = / INR M.
Proof.
  intros HM H Hp k Hk. pose proof (INR_pos M HM). unfold nw. rewrite H by auto.
  rewrite (sumn_ext M w (fun _ => c)) in Hp |- * by auto. rewrite sumn_const in *. field. split; nra.
Qed.
Lemma mval_unif b e M w er d : (0 < M)%nat -> (e = MFair -> (1 < M)%nat) -> (forall k, (k < M)%nat -> w k = / INR M) ->
  mval_w b e M w er d = mval b e M er d.
Proof.
  intros HM H2 H. rewrite (mval_w_ext b e M w (fun _ => / INR M) er d er d) by auto.
  destruct e; cbn [mval mval_w]; [now apply k_exact_unif|apply k_fair_unif; auto|now apply k_lag_unif|now apply k_lag_unif].
Qed.
Lemma real2_args M D y x : mv_args (real1 D y) (real2 M D x) (-2) (-1) [] 1 0 M D (fun i => y (hd 0%nat i)) (fun i => x (hd 0%nat (tl i)) (hd 0%nat i)).
Proof. repeat split; simpl; auto; try (now left). Qed.
Lemma real1_wts M w : (forall k, (k < M)%nat -> 0 <= w k) -> 0 < sumn M w ->
  mv_wts (real1 M w) [] (wpos 1 0) M (fun i => w (hd 0%nat i)).
Proof. intros H0 H1. repeat split; simpl; auto. Qed.
Lemma nw_sum1 M w : 0 < sumn M w -> sumn M (nw M w) = 1.
Proof. intros H. unfold nw. rewrite sumn_div. field. lra. Qed.
Lemma C32_energy_crps_l :
  forall srt b obs fct m v s p q M y x obs1 fct1 ax p1 y1 x1 e,
  argsort_ok srt -> mv_args obs fct m v s p q M 1 y x -> ens_args obs1 fct1 ax s p1 M y1 x1 -> (0 < M)%nat ->
  (forall r, inb s r -> obsv q y r 0 = y1 r) ->
  (forall r i, inb s r -> (i < M)%nat -> memv p q x r i 0 = member p1 x1 r i) ->
  In e ["nrg"; "fair"; "akr"; "akr_circperm"]%string -> (e = "fair"%string -> (1 < M)%nat) ->
  (b = Numba -> floats obs fct /\ dt obs1 = DFloat) ->
  exists u, returns (es_ensemble b obs fct m v None e) s (fun r => Fin (u r)) /\
            returns (crps_ensemble srt b obs1 fct1 ax None e false "propagate") s (fun r => Fin (u r)).
Proof.
  intros srt b obs fct m v s p q M y x obs1 fct1 ax p1 y1 x1 e Hs Ha Ha1 HM Hy Hx He H2 Hfl.
  destruct (name_mest e He) as (e' & ->).
  set (e1 := match e' with MNrg => Nrg | MFair => Fair | MAkr => Akr | MCirc => Circ end).
  exists (fun r => real_un e1 M (y1 r) (member p1 x1 r)). split.
  - eapply returns_ext; [eapply returns_is, (es_call b obs fct m v s p q M 1 y x Ha HM); auto|].
    + intros E; now destruct (Hfl E).
    + now apply fair_names.
    + intros r Hr. cbv beta. f_equal. unfold eserr, esdist. rewrite mval_impl by auto.
      rewrite (mval_ext _ _ _ _ _ (fun i => Rabs (member p1 x1 r i - y1 r)) (fun i j => Rabs (member p1 x1 r i - member p1 x1 r j)) HM).
      * destruct e'; cbn [mval e1 real_un]; try reflexivity;
        unfold k_lag, lag_crps, mae; pose proof (INR_nz M HM); field; auto.
      * intros i Hi. rewrite es_err_1, Hy, Hx; auto.
      * intros i j Hi Hj. rewrite es_dist_1, !Hx; auto.
  - replace (mname e') with (ename e1) by (destruct e'; reflexivity).
    eapply returns_is. apply (call_un srt b obs1 fct1 ax s p1 M y1 x1 e1 false "propagate"); auto; try easy.
    + intros E; now destruct (Hfl E).
    + now left.
    + intros E. destruct e'; try discriminate. now apply H2.
Qed.
Lemma C32_energy_crps_weighted_l :
  forall srt b obs fct wt m v s p q M y x w obs1 fct1 wt1 ax p1 y1 x1 w1 e,
  argsort_ok srt -> mv_args obs fct m v s p q M 1 y x -> ens_args obs1 fct1 ax s p1 M y1 x1 -> (0 < M)%nat ->
  (q < p)%nat -> mv_wts wt s (wpos p q) M w -> wts_args wt1 fct1 s p1 M w1 ->
  (forall r, inb s r -> obsv q y r 0 = y1 r) ->
  (forall r i, inb s r -> (i < M)%nat -> memv p q x r i 0 = member p1 x1 r i) ->
  (forall r i, inb s r -> (i < M)%nat -> member (wpos p q) w r i = member p1 w1 r i) ->
  In e ["nrg"; "fair"; "akr"]%string ->
  (e = "fair"%string -> forall r, inb s r -> two_positive M (member p1 w1 r)) ->
  (b = Numba -> floats obs fct /\ dt obs1 = DFloat) ->
  exists u, returns (es_ensemble b obs fct m v (Some wt) e) s (fun r => Fin (u r)) /\
            returns (crps_ensemble srt b obs1 fct1 ax (Some wt1) e false "propagate") s (fun r => Fin (u r)).
Proof.
  intros srt b obs fct wt m v s p q M y x w obs1 fct1 wt1 ax p1 y1 x1 w1 e Hs Ha Ha1 HM Hqp Hw Hw1 Hy Hx Hww He H2 Hfl.
  assert (exists e' e1, e = mname e' /\ e = ename e1 /\ (forall y x w, mval_w b e' M w (fun i => Rabs (x i - y)) (fun i j => Rabs (x i - x j)) = real_w b e1 M w y x)
    /\ (need2 e1 = true -> e = "fair"%string)) as (e' & e1 & E & E1 & V & N2).
  { names He; [exists MNrg, Nrg|exists MFair, Fair|exists MAkr, Akr]; repeat split; try reflexivity; intros; discriminate. }
  exists (fun r => real_w b e1 M (nw M (member p1 w1 r)) (y1 r) (member p1 x1 r)). split.
  - rewrite E. eapply returns_ext; [eapply returns_is, (es_call_w b obs fct m v s p q M 1 y x Ha HM ltac:(lia) ltac:(intros E'; apply (Hfl E')) wt _ w Hw (wpos_S _ _ Hqp) e')|].
    + intros -> r Hr. destruct (H2 E r Hr) as (i & j & Hi & Hj & N & Pi & Pj). exists i, j.
      rewrite !Hww by auto. repeat split; auto.
    + intros r Hr. cbv beta. f_equal. unfold eserr, esdist. rewrite <- V. apply mval_w_ext; auto.
      * intros i Hi. unfold nw. rewrite Hww by auto. f_equal. apply sumn_ext; auto.
      * intros i Hi. rewrite es_err_1, Hy, Hx; auto.
      * intros i j Hi Hj. rewrite es_dist_1, !Hx; auto.
  - rewrite E1. eapply returns_is. apply (call_w srt b obs1 fct1 wt1 ax s p1 M y1 x1 w1 e1 false "propagate"); auto; try easy.
    + intros E'; now destruct (Hfl E').
    + now left.
Qed.
Lemma C33_values_l :
  forall b obs fct m v s p q M D y x e,
  mv_args obs fct m v s p q M D y x -> (0 < M)%nat -> (0 < D)%nat -> (b = Numba -> floats obs fct) ->
  let er r := es_err D (obsv q y r) (memv p q x r) in
  let d r := es_dist D (memv p q x r) in
  (e = "nrg"%string -> returns (es_ensemble b obs fct m v None e) s (fun r => Fin (k_exact M (er r) (d r)))) /\
  (e = "fair"%string -> (1 < M)%nat -> returns (es_ensemble b obs fct m v None e) s (fun r => Fin (k_fair M (er r) (d r)))) /\
  (e = "akr"%string -> returns (es_ensemble b obs fct m v None e) s (fun r => Fin (k_lag M (lag1 M) (er r) (d r)))) /\
  (e = "akr_circperm"%string -> returns (es_ensemble b obs fct m v None e) s (fun r => Fin (k_lag M (lagc M) (er r) (d r)))).
Proof.
  intros b obs fct m v s p q M D y x e Ha HM HD Hfl er d. repeat split; intros ->.
  - exact (returns_is _ _ _ _ (es_call b obs fct m v s p q M D y x Ha HM HD Hfl MNrg ltac:(easy))).
  - intros H2. exact (returns_is _ _ _ _ (es_call b obs fct m v s p q M D y x Ha HM HD Hfl MFair ltac:(easy))).
  - exact (returns_is _ _ _ _ (es_call b obs fct m v s p q M D y x Ha HM HD Hfl MAkr ltac:(easy))).
  - eapply returns_ext; [exact (returns_is _ _ _ _ (es_call b obs fct m v s p q M D y x Ha HM HD Hfl MCirc ltac:(easy)))|].
    intros r Hr. cbv beta. f_equal. apply (mval_impl b MCirc); auto.
Qed.
Lemma C33_agree_l :
  forall obs fct m v s p q M D y x e,
  mv_args obs fct m v s p q M D y x -> (0 < M)%nat -> (0 < D)%nat -> floats obs fct ->
  In e ["nrg"; "fair"; "akr"; "akr_circperm"]%string -> (e = "fair"%string -> (1 < M)%nat) ->
  exists u, returns (es_ensemble Array obs fct m v None e) s (fun r => Fin (u r)) /\
            returns (es_ensemble Numba obs fct m v None e) s (fun r => Fin (u r)).
Proof.
  intros obs fct m v s p q M D y x e Ha HM HD Hfl He H2. destruct (name_mest e He) as (e' & ->).
  eexists. split.
  - eapply returns_is, (es_call Array obs fct m v s p q M D y x Ha HM HD ltac:(easy) e' (fair_names _ _ H2)).
  - eapply returns_ext; [eapply returns_is, (es_call Numba obs fct m v s p q M D y x Ha HM HD ltac:(auto) e' (fair_names _ _ H2))|].
    intros r Hr. cbv beta. f_equal. apply (mval_impl Numba); auto.
Qed.
Lemma C33_agree_weighted_l :
  forall obs fct wt m v s p q M D y x w e,
  mv_args obs fct m v s p q M D y x -> (0 < M)%nat -> (0 < D)%nat -> floats obs fct ->
  (q < p)%nat -> mv_wts wt s (wpos p q) M w ->
  In e ["nrg"; "fair"; "akr"; "akr_circperm"]%string ->
  (e = "fair"%string -> forall r, inb s r -> two_positive M (member (wpos p q) w r)) ->
  (e = "akr_circperm"%string -> Nat.even M = true) ->
  exists u, returns (es_ensemble Array obs fct m v (Some wt) e) s (fun r => Fin (u r)) /\
            returns (es_ensemble Numba obs fct m v (Some wt) e) s (fun r => Fin (u r)).
Proof.
  intros obs fct wt m v s p q M D y x w e Ha HM HD Hfl Hqp Hw He H2 Hev. destruct (name_mest e He) as (e' & ->).
  eexists. split.
  - eapply returns_is, (es_call_w Array obs fct m v s p q M D y x Ha HM HD ltac:(easy) wt _ w Hw (wpos_S _ _ Hqp) e' (fair_names _ _ H2)).
  - eapply returns_ext; [eapply returns_is, (es_call_w Numba obs fct m v s p q M D y x Ha HM HD ltac:(auto) wt _ w Hw (wpos_S _ _ Hqp) e' (fair_names _ _ H2))|].
    intros r Hr. cbv beta. f_equal. destruct e'; try reflexivity. cbn [mval_w].
    apply k_wlag_ext; auto; [|intros; apply lagf_lt; lia]. intros i Hi. symmetry. apply lag_even; auto.
Qed.
Lemma C33_circperm_refuted_l :
  exists obs fct wt M D y x w, mv_args obs fct (-2) (-1) [] 1 0 M D y x /\ mv_wts wt [] (wpos 1 0) M w /\ floats obs fct /\
  exists u v, u <> v /\
    returns (es_ensemble Array obs fct (-2) (-1) (Some wt) "akr_circperm") [] (fun _ => Fin u) /\
    returns (es_ensemble Numba obs fct (-2) (-1) (Some wt) "akr_circperm") [] (fun _ => Fin v).
Proof.
  set (x := fun i k : nat => match i with 1%nat => 1 | _ => 0 end : R).
  set (w := fun i : nat => match i with 0%nat => 1 | _ => 0 end : R).
  exists (real1 1 (fun _ => 0)), (real2 3 1 x), (real1 3 w), 3%nat, 1%nat,
    (fun _ => 0), (fun i => x (hd 0%nat (tl i)) (hd 0%nat i)), (fun i => w (hd 0%nat i)).
  assert (Ha := real2_args 3 1 (fun _ => 0) x).
  assert (Hw : mv_wts (real1 3 w) [] (wpos 1 0) 3 (fun i => w (hd 0%nat i))).
  { apply real1_wts; [intros [|k] _; simpl; lra|]. unfold sumn, Rsum, w; simpl. lra. }
  split; [exact Ha|]. split; [exact Hw|]. split; [easy|].
  exists 0, (-/2). split; [lra|]. split.
  - eapply returns_ext; [eapply returns_is, (es_call_w Array _ _ _ _ _ _ _ _ _ _ _ Ha ltac:(lia) ltac:(lia) ltac:(easy) _ _ _ Hw eq_refl MCirc); easy|].
    intros [|? ?] Hr; [|easy]. cbv beta. f_equal. cbn [mval_w].
    unfold k_wlag, eserr, esdist, nw, lagc, sumn, Rsum, member. simpl. rewrite !es_err_1, !es_dist_1.
    unfold memv, obsv, x, w; simpl. rewrite !Rminus_eq_0, !Rabs_R0. field.
  - eapply returns_ext; [eapply returns_is, (es_call_w Numba _ _ _ _ _ _ _ _ _ _ _ Ha ltac:(lia) ltac:(lia) ltac:(easy) _ _ _ Hw eq_refl MCirc); easy|].
    intros [|? ?] Hr; [|easy]. cbv beta. f_equal. cbn [mval_w].
    unfold k_wlag, eserr, esdist, nw, lagf, sumn, Rsum, member. simpl. rewrite !es_err_1, !es_dist_1.
    unfold memv, obsv, x, w; simpl. rewrite !Rminus_eq_0, !Rabs_R0. rewrite Rminus_0_l, Rabs_Ropp, Rabs_R1. field.
Qed.
Lemma C33_uniform_l :
  forall b obs fct wt m v s p q M D y x w c e,
  mv_args obs fct m v s p q M D y x -> (0 < M)%nat -> (0 < D)%nat -> (b = Numba -> floats obs fct) ->
  (q < p)%nat -> mv_wts wt s (wpos p q) M w ->
  (forall r k, inb s r -> (k < M)%nat -> member (wpos p q) w r k = c r) ->
  In e ["nrg"; "fair"; "akr"; "akr_circperm"]%string -> (e = "fair"%string -> (1 < M)%nat) ->
  exists u, returns (es_ensemble b obs fct m v (Some wt) e) s (fun r => Fin (u r)) /\
            returns (es_ensemble b obs fct m v None e) s (fun r => Fin (u r)).
Proof.
  intros b obs fct wt m v s p q M D y x w c e Ha HM HD Hfl Hqp Hw Hc He H2. destruct (name_mest e He) as (e' & ->).
  eexists. split; [|eapply returns_is, (es_call b obs fct m v s p q M D y x Ha HM HD Hfl e' (fair_names _ _ H2))].
  eapply returns_ext; [eapply returns_is, (es_call_w b obs fct m v s p q M D y x Ha HM HD Hfl wt _ w Hw (wpos_S _ _ Hqp) e')|].
  - intros -> r Hr. specialize (H2 eq_refl). exists 0%nat, 1%nat.
    destruct Hw as (_ & _ & W3). specialize (W3 r Hr).
    rewrite (sumn_ext M _ (fun _ => c r)) in W3 by (intros; now apply Hc). rewrite sumn_const in W3.
    pose proof (INR_pos M HM). rewrite !Hc by (auto; lia). repeat split; try lia; nra.
  - intros r Hr. cbv beta. f_equal. apply mval_unif; auto.
    + now apply fair_names.
    + destruct Hw as (_ & _ & W3). intros k Hk. eapply nw_const'; eauto.
Qed.
Lemma C34_similarity_l :
  forall b obs fct obs' fct' m v s p q M D y x y' x' c h e,
  mv_args obs fct m v s p q M D y x -> mv_args obs' fct' m v s p q M D y' x' -> (0 < M)%nat -> (0 < D)%nat ->
  (b = Numba -> floats obs fct /\ floats obs' fct') ->
  (forall r, inb s r -> similarity D (c r) (h r)) ->
  (forall r k, inb s r -> (k < D)%nat -> obsv q y' r k = h r (obsv q y r) k) ->
  (forall r i k, inb s r -> (i < M)%nat -> (k < D)%nat -> memv p q x' r i k = h r (memv p q x r i) k) ->
  In e ["nrg"; "fair"; "akr"; "akr_circperm"]%string -> (e = "fair"%string -> (1 < M)%nat) ->
  exists u, returns (es_ensemble b obs fct m v None e) s (fun r => Fin (u r)) /\
            returns (es_ensemble b obs' fct' m v None e) s (fun r => Fin (c r * u r)).
Proof.
  intros b obs fct obs' fct' m v s p q M D y x y' x' c h e Ha Ha' HM HD Hfl Hh Hy Hx He H2.
  destruct (name_mest e He) as (e' & ->). eexists. split.
  - eapply returns_is, (es_call b obs fct m v s p q M D y x Ha HM HD ltac:(intros E; apply (Hfl E)) e' (fair_names _ _ H2)).
  - eapply returns_ext; [eapply returns_is, (es_call b obs' fct' m v s p q M D y' x' Ha' HM HD ltac:(intros E; apply (Hfl E)) e' (fair_names _ _ H2))|].
    intros r Hr. cbv beta. f_equal. rewrite <- mval_scale. unfold eserr, esdist, es_err, es_dist. apply mval_ext; auto.
    + intros i Hi. rewrite <- (Hh r Hr). apply eucl_ext; auto.
    + intros i j Hi Hj. rewrite <- (Hh r Hr). apply eucl_ext; auto.
Qed.
Lemma C34_similarity_weighted_l :
  forall b obs fct obs' fct' wt m v s p q M D y x y' x' w c h e,
  mv_args obs fct m v s p q M D y x -> mv_args obs' fct' m v s p q M D y' x' -> (0 < M)%nat -> (0 < D)%nat ->
  (b = Numba -> floats obs fct /\ floats obs' fct') -> (q < p)%nat -> mv_wts wt s (wpos p q) M w ->
  (forall r, inb s r -> similarity D (c r) (h r)) ->
  (forall r k, inb s r -> (k < D)%nat -> obsv q y' r k = h r (obsv q y r) k) ->
  (forall r i k, inb s r -> (i < M)%nat -> (k < D)%nat -> memv p q x' r i k = h r (memv p q x r i) k) ->
  In e ["nrg"; "fair"; "akr"; "akr_circperm"]%string ->
  (e = "fair"%string -> forall r, inb s r -> two_positive M (member (wpos p q) w r)) ->
  exists u, returns (es_ensemble b obs fct m v (Some wt) e) s (fun r => Fin (u r)) /\
            returns (es_ensemble b obs' fct' m v (Some wt) e) s (fun r => Fin (c r * u r)).
Proof.
  intros b obs fct obs' fct' wt m v s p q M D y x y' x' w c h e Ha Ha' HM HD Hfl Hqp Hw Hh Hy Hx He H2.
  destruct (name_mest e He) as (e' & ->). eexists. split.
  - eapply returns_is, (es_call_w b obs fct m v s p q M D y x Ha HM HD ltac:(intros E; apply (Hfl E)) wt _ w Hw (wpos_S _ _ Hqp) e' (fair_names _ _ H2)).
  - eapply returns_ext; [eapply returns_is, (es_call_w b obs' fct' m v s p q M D y' x' Ha' HM HD ltac:(intros E; apply (Hfl E)) wt _ w Hw (wpos_S _ _ Hqp) e' (fair_names _ _ H2))|].
    intros r Hr. cbv beta. f_equal. rewrite <- mval_w_scale. unfold eserr, esdist, es_err, es_dist. apply mval_w_ext; auto.
    + intros i Hi. rewrite <- (Hh r Hr). apply eucl_ext; auto.
    + intros i j Hi Hj. rewrite <- (Hh r Hr). apply eucl_ext; auto.
Qed.
Lemma C34_orthogonal_maps_l :
  forall D c A b, orthogonal D A -> similarity D (Rabs c) (affine_map D c A b).
Proof.
  intros D c A b HA u v. unfold eucl, affine_map.
  set (z j := u j - v j).
  assert (E : sumn D (fun k => (c * sumn D (fun j => A k j * u j) + b k - (c * sumn D (fun j => A k j * v j) + b k)) ^ 2)
    = c ^ 2 * sumn D (fun j => (u j - v j) ^ 2)).
  { rewrite (sumn_ext D _ (fun k => c ^ 2 * (sumn D (fun j => A k j * z j)) ^ 2)).
    2:{ intros k Hk. rewrite (sumn_ext D (fun j => A k j * z j) (fun j => A k j * u j - A k j * v j)) by (intros; unfold z; ring).
        rewrite sumn_minus. ring. }
    rewrite sumn_scal. f_equal.
    rewrite (sumn_ext D _ (fun k => sumn D (fun i => sumn D (fun j => A k i * A k j * (z i * z j))))).
    2:{ intros k Hk. simpl. rewrite Rmult_1_r, sumn_mul. apply sumn_ext; intros; apply sumn_ext; intros; ring. }
    rewrite sumn_swap. apply sumn_ext; intros i Hi. rewrite sumn_swap.
    rewrite (sumn_ext D _ (fun j => if Nat.eq_dec j i then z i * z i else 0)).
    - rewrite sumn_delta by auto. unfold z; ring.
    - intros j Hj. rewrite sumn_scal_r, HA by auto.
      destruct (Nat.eqb_spec i j), (Nat.eq_dec j i); subst; try easy; ring. }
  rewrite E, sqrt_mult by (try apply pow2_ge_0; apply sumn_nonneg; intros; apply pow2_ge_0).
  f_equal. replace (c ^ 2) with (Rsqr c) by (unfold Rsqr; ring). apply sqrt_Rsqr_abs.
Qed.
Lemma C34_permutation_l :
  forall b obs fct fct' m v s p q M D y x x' g e,
  mv_args obs fct m v s p q M D y x -> mv_args obs fct' m v s p q M D y x' -> (0 < M)%nat -> (0 < D)%nat ->
  (b = Numba -> floats obs fct /\ floats obs fct') ->
  (forall r, inb s r -> reorders M (g r)) ->
  (forall r i k, inb s r -> (i < M)%nat -> (k < D)%nat -> memv p q x' r i k = memv p q x r (g r i) k) ->
  In e ["nrg"; "fair"]%string -> (e = "fair"%string -> (1 < M)%nat) ->
  exists u, returns (es_ensemble b obs fct m v None e) s (fun r => Fin (u r)) /\
            returns (es_ensemble b obs fct' m v None e) s (fun r => Fin (u r)).
Proof.
  intros b obs fct fct' m v s p q M D y x x' g e Ha Ha' HM HD Hfl Hg Hx He H2.
  assert (exists e', e = mname e' /\ (e' = MNrg \/ e' = MFair)) as (e' & -> & Ee).
  { names He; [exists MNrg|exists MFair]; auto. }
  eexists. split.
  - eapply returns_is, (es_call b obs fct m v s p q M D y x Ha HM HD ltac:(intros E; apply (Hfl E)) e' (fair_names _ _ H2)).
  - eapply returns_ext; [eapply returns_is, (es_call b obs fct' m v s p q M D y x' Ha' HM HD ltac:(intros E; apply (Hfl E)) e' (fair_names _ _ H2))|].
    intros r Hr. cbv beta. f_equal.
    rewrite (mval_ext b e' M _ _ (fun i => eserr D q p y x r (g r i)) (fun i j => esdist D q p x r (g r i) (g r j)) HM).
    + destruct Ee as [-> | ->]; cbn [mval]; [apply k_exact_perm|apply k_fair_perm]; now apply Hg.
    + intros i Hi. unfold eserr, es_err. apply eucl_ext; auto.
    + intros i j Hi Hj. unfold esdist, es_dist. apply eucl_ext; auto.
Qed.
Lemma C34_permutation_weighted_l :
  forall b obs fct fct' wt wt' m v s p q M D y x x' w w' g e,
  mv_args obs fct m v s p q M D y x -> mv_args obs fct' m v s p q M D y x' -> (0 < M)%nat -> (0 < D)%nat ->
  (b = Numba -> floats obs fct /\ floats obs fct') ->
  (q < p)%nat -> mv_wts wt s (wpos p q) M w -> mv_wts wt' s (wpos p q) M w' ->
  (forall r, inb s r -> reorders M (g r)) ->
  (forall r i k, inb s r -> (i < M)%nat -> (k < D)%nat -> memv p q x' r i k = memv p q x r (g r i) k) ->
  (forall r i, inb s r -> (i < M)%nat -> member (wpos p q) w' r i = member (wpos p q) w r (g r i)) ->
  In e ["nrg"; "fair"]%string ->
  (e = "fair"%string -> forall r, inb s r -> two_positive M (member (wpos p q) w r) /\ two_positive M (member (wpos p q) w' r)) ->
  exists u, returns (es_ensemble b obs fct m v (Some wt) e) s (fun r => Fin (u r)) /\
            returns (es_ensemble b obs fct' m v (Some wt') e) s (fun r => Fin (u r)).
Proof.
  intros b obs fct fct' wt wt' m v s p q M D y x x' w w' g e Ha Ha' HM HD Hfl Hqp Hw Hw' Hg Hx Hww He H2.
  assert (exists e', e = mname e' /\ (e' = MNrg \/ e' = MFair)) as (e' & -> & Ee).
  { names He; [exists MNrg|exists MFair]; auto. }
  eexists. split.
  - eapply returns_is, (es_call_w b obs fct m v s p q M D y x Ha HM HD ltac:(intros E; apply (Hfl E)) wt _ w Hw (wpos_S _ _ Hqp) e').
    intros -> r Hr. now apply H2.
  - eapply returns_ext; [eapply returns_is, (es_call_w b obs fct' m v s p q M D y x' Ha' HM HD ltac:(intros E; apply (Hfl E)) wt' _ w' Hw' (wpos_S _ _ Hqp) e')|].
    + intros -> r Hr. now apply H2.
    + intros r Hr. cbv beta. f_equal.
      rewrite (mval_w_ext b e' M _ (fun i => nw M (member (wpos p q) w r) (g r i)) _ _ (fun i => eserr D q p y x r (g r i)) (fun i j => esdist D q p x r (g r i) (g r j)) HM).
      * destruct Ee as [-> | ->]; cbn [mval_w]; [apply k_wexact_perm|apply k_wfair_perm]; now apply Hg.
      * intros i Hi. unfold nw. rewrite Hww by auto. f_equal.
        rewrite (sumn_ext M _ (fun i => member (wpos p q) w r (g r i))) by auto. now apply sumn_permutes, Hg.
      * intros i Hi. unfold eserr, es_err. apply eucl_ext; auto.
      * intros i j Hi Hj. unfold esdist, es_dist. apply eucl_ext; auto.
Qed.
Lemma C35_nonnegative_l :
  forall b obs fct m v s p q M D y x,
  mv_args obs fct m v s p q M D y x -> (0 < M)%nat -> (0 < D)%nat -> (b = Numba -> floats obs fct) ->
  (exists u, returns (es_ensemble b obs fct m v None "nrg") s (fun r => Fin (u r)) /\ forall r, 0 <= u r) /\
  (forall wt w, (q < p)%nat -> mv_wts wt s (wpos p q) M w ->
   exists u, returns (es_ensemble b obs fct m v (Some wt) "nrg") s (fun r => Fin (u r)) /\ forall r, inb s r -> 0 <= u r).
Proof.
  intros b obs fct m v s p q M D y x Ha HM HD Hfl. split.
  - eexists. split; [exact (returns_is _ _ _ _ (es_call b obs fct m v s p q M D y x Ha HM HD Hfl MNrg ltac:(easy)))|].
    intros r. cbv beta. cbn [mval]. rewrite <- k_exact_unif by auto. apply es_nonneg.
    rewrite sumn_const. field. now apply INR_nz.
  - intros wt w Hqp Hw.
    eexists. split; [exact (returns_is _ _ _ _ (es_call_w b obs fct m v s p q M D y x Ha HM HD Hfl wt _ w Hw (wpos_S _ _ Hqp) MNrg ltac:(easy)))|].
    intros r Hr. cbv beta. cbn [mval_w]. apply es_nonneg. apply nw_sum1. destruct Hw as (_ & _ & W3). auto.
Qed.
Lemma C35_proper_l :
  forall b D M f x N g z, (0 < D)%nat ->
  (forall k, (k < M)%nat -> 0 <= f k) -> 0 < sumn M f ->
  (forall j, (j < N)%nat -> 0 <= g j) -> 0 < sumn N g ->
  exists S T : nat -> R,
    (forall j, (j < N)%nat -> returns (es_ensemble b (real1 D (z j)) (real2 M D x) (-2) (-1) (Some (real1 M f)) "nrg")
       [] (fun _ => Fin (S j))) /\
    (forall j, (j < N)%nat -> returns (es_ensemble b (real1 D (z j)) (real2 N D z) (-2) (-1) (Some (real1 N g)) "nrg")
       [] (fun _ => Fin (T j))) /\
    sumn N (fun j => g j / sumn N g * T j) <= sumn N (fun j => g j / sumn N g * S j).
Proof.
  intros b D M f x N g z HD Hf Hf1 Hg Hg1.
  assert (HM : (0 < M)%nat) by (destruct M; [unfold sumn, Rsum in Hf1; simpl in Hf1; lra|lia]).
  assert (HN : (0 < N)%nat) by (destruct N; [unfold sumn, Rsum in Hg1; simpl in Hg1; lra|lia]).
  assert (C : forall L u p j, (0 < L)%nat -> (forall k, (k < L)%nat -> 0 <= u k) -> 0 < sumn L u ->
    returns (es_ensemble b (real1 D (z j)) (real2 L D p) (-2) (-1) (Some (real1 L u)) "nrg") []
      (fun _ => Fin (k_wexact L (nw L u) (es_err D (z j) p) (es_dist D p)))).
  { intros L u p j HL Hu Hu1.
    eapply returns_ext; [exact (returns_is _ _ _ _ (es_call_w b _ _ _ _ _ _ _ _ _ _ _ (real2_args L D (z j) p) HL HD ltac:(easy) _ _ _ (real1_wts L u Hu Hu1) eq_refl MNrg ltac:(easy)))|].
    intros [|? ?] Hr; [|easy]. reflexivity. }
  exists (fun j => k_wexact M (nw M f) (es_err D (z j) x) (es_dist D x)),
         (fun j => k_wexact N (nw N g) (es_err D (z j) z) (es_dist D z)).
  split; [intros; now apply C|]. split; [intros; now apply C|].
  apply (es_proper M N D (nw M f) x (nw N g) z); now apply nw_sum1.
Qed.
Lemma C46_weights_l :
  forall b obs fct wt m v s p q M D y x w,
  mv_args obs fct m v s p q M D y x -> (0 < M)%nat -> (0 < D)%nat -> (b = Numba -> floats obs fct) ->
  (q < p)%nat -> mv_wts wt s (wpos p q) M w ->
  let er r := es_err D (obsv q y r) (memv p q x r) in
  let d r := es_dist D (memv p q x r) in
  let wr r := nw M (member (wpos p q) w r) in
  returns (es_ensemble b obs fct m v (Some wt) "nrg") s (fun r => Fin (k_wexact M (wr r) (er r) (d r))) /\
  ((forall r, inb s r -> two_positive M (member (wpos p q) w r)) ->
   returns (es_ensemble b obs fct m v (Some wt) "fair") s (fun r => Fin (k_wfair M (wr r) (er r) (d r)))) /\
  returns (es_ensemble b obs fct m v (Some wt) "akr") s (fun r => Fin (k_wlag M (lag1 M) (wr r) (er r) (d r))).
Proof.
  intros b obs fct wt m v s p q M D y x w Ha HM HD Hfl Hqp Hw er d wr. repeat split.
  - exact (returns_is _ _ _ _ (es_call_w b obs fct m v s p q M D y x Ha HM HD Hfl wt _ w Hw (wpos_S _ _ Hqp) MNrg ltac:(easy))).
  - intros H2. exact (returns_is _ _ _ _ (es_call_w b obs fct m v s p q M D y x Ha HM HD Hfl wt _ w Hw (wpos_S _ _ Hqp) MFair ltac:(easy))).
  - exact (returns_is _ _ _ _ (es_call_w b obs fct m v s p q M D y x Ha HM HD Hfl wt _ w Hw (wpos_S _ _ Hqp) MAkr ltac:(easy))).
Qed.
Lemma C46_last_axis_refuted_l :
  forall b obs fct wt m v s q M D y x e,
  mv_args obs fct m v s 0 q M D y x -> length (sh wt) = S (length s) ->
  raises (es_ensemble b obs fct m v (Some wt) e) AxisError.
Proof.
  intros b obs fct wt m v s q M D y x e Ha Hw.
  destruct (mv_check _ _ _ _ _ _ _ _ _ _ _ Ha) as (obs' & fct' & E & Ho & Hf).
  unfold raises, es_ensemble. rewrite E. cbn [bind].
  destruct Ha as (_ & _ & _ & _ & H5 & _). pose proof Hf as (_ & Hs & _).
  unfold multivariate_weight_check. rewrite (ens_axis_shift m (S (length s)) 0 fct' H5) by (rewrite ?Hs; simpl; lia).
  unfold amove_last. cbn [bind]. rewrite Hw. unfold rev_axis, norm_axis.
  destruct ((_ <=? _)%Z && (_ <? _)%Z)%bool eqn:B; [|reflexivity].
  apply andb_prop in B. destruct B as [_ B]. apply Z.ltb_lt in B. lia.
Qed.
Lemma C46_transposed_refuted_l :
  exists obs fct wt y x w, mv_args obs fct 1 0 [2%nat] 1 1 2 1 y x /\ mv_wts wt [2%nat] (wpos 1 1) 2 w /\ floats obs fct /\
  exists f, (forall b, returns (es_ensemble b obs fct 1 0 (Some wt) "nrg") [2%nat] f) /\
    f [0%nat] = Fin (/ 4) /\
    k_wexact 2 (nw 2 (member (wpos 1 1) w [0%nat])) (es_err 1 (obsv 1 y [0%nat]) (memv 1 1 x [0%nat]))
      (es_dist 1 (memv 1 1 x [0%nat])) = 0.
Proof.
  set (x := fun i : list nat => INR (nth 1 i 0%nat)).
  set (w := fun i : list nat => match i with [_; 0%nat] => 1 | [0%nat; _] => 0 | _ => 0 end : R).
  exists (farr [2; 1]%nat (fun _ => 0)), (farr [2; 2; 1]%nat x), (farr [2; 2]%nat w), (fun _ => 0), x, w.
  assert (Ha : mv_args (farr [2; 1]%nat (fun _ => 0)) (farr [2; 2; 1]%nat x) 1 0 [2%nat] 1 1 2 1 (fun _ => 0) x).
  { repeat split; simpl; auto; now right. }
  split; [exact Ha|]. split; [|split; [easy|]].
  { split; [repeat split|]. split.
    - intros r k Hr Hk. destruct r as [|i [|? ?]]; [destruct Hr| |destruct Hr as (_ & [])]. unfold member; simpl. destruct k, i; simpl; lra.
    - intros r Hr. destruct r as [|i [|? ?]]; [destruct Hr| |destruct Hr as (_ & [])]. unfold member, sumn, Rsum; simpl. unfold Rsum; simpl. destruct i; lra. }
  destruct (mv_check _ _ _ _ _ _ _ _ _ _ _ Ha) as (obs' & fct' & E & Ho & Hf).
  (* the code's view of the weights: grid point 0 has weights 1, 1; grid point 1 has 0, 0 *)
  assert (W : exists wt', multivariate_weight_check (farr [2; 2]%nat w) fct' 1 = Ok wt' /\
     arr_is wt' DFloat [2; 2]%nat (fun i => if (hd 0 (tl i) =? 0)%nat then Fin (/ 2) else NaN)).
  { pose proof Hf as (_ & Hs & _). unfold multivariate_weight_check.
    assert (Es : shift_axis 1 fct' = 1%Z) by (unfold shift_axis; rewrite Hs; reflexivity). rewrite Es.
    assert (Hw : arr_is (farr [2; 2]%nat w) DFloat (insert_at 0 2%nat [2%nat]) (fun i => Fin (w i))) by (repeat split).
    destruct (ten_move_last 1 (Ok (farr [2; 2]%nat w)) DFloat 0 2%nat [2%nat] _ (ten_Ok _ _ _ _ Hw) ltac:(simpl; lia) eq_refl)
      as (wm & Em & Hm). rewrite Em. cbn [bind]. pose proof Hm as (_ & Hsm & _). rewrite Hsm, Hs. cbn [tl].
    rewrite shape_eqb_refl. cbn [negb].
    destruct (aany_spec (Ok wm <? sci 0)%A DInt [2; 2]%nat (fun i => b2n (nltb (Fin (w i)) (Fin 0)))) as (b0 & Eb & Hb).
    { eapply ten_conv; [eapply ten_bin_scr; apply ten_Ok; exact Hm|reflexivity|]. intros i Hi. idx. reflexivity. }
    rewrite Eb. cbn [bind]. destruct b0.
    { destruct Hb as [Hb _]. destruct (Hb eq_refl) as (i & Hi & Ei). rewrite neqb_b2n in Ei. unfold nltb in Ei.
      destruct (rltb _ _) eqn:El in Ei; [|discriminate]. apply rltb_true in El. exfalso.
      revert El. unfold w. destruct i as [|i1 [|[|i2] [|? ?]]]; try lra; destruct i1; lra. }
    assert (T : ten_is (Ok wm / asum_keep (Ok wm))%A DFloat [2; 2]%nat (fun i => if (hd 0 (tl i) =? 0)%nat then Fin (/ 2) else NaN)).
    { eapply ten_conv; [eapply ten_bin; [apply ten_Ok; exact Hm|eapply ten_sum_keep; apply ten_Ok; exact Hm|bsolve|intros; reflexivity]|reflexivity|].
      intros i Hi. idx. cbn [hd tl]. bidx_simp. cbn [hd tl insert_at].
      rewrite (nsumn_Fin 2 _ (fun j => w [j; k0])) by reflexivity.
      destruct k0 as [|[|k0]]; [| |lia]; destruct k as [|[|k]]; try lia; unfold w, sumn, Rsum; simpl; unfold Rsum; simpl.
      all: destruct (Req_EM_T _ _); try lra.
      1,2: f_equal; lra.
      all: unfold infsgn; rdec; try easy; lra. }
    destruct T as (a & Ea & Ta). exists a. auto. }
  destruct W as (wt' & Ew & Hw').
  exists (fun r => if (hd 0 r =? 0)%nat then Fin (/ 4) else NaN). split; [|split; [reflexivity|]].
  - intros b. unfold es_ensemble. rewrite E. cbn [bind]. rewrite Ew. cbn [bind].
    destruct b.
    + unfold es_ensemble_w_arr, es_nrg_w_arr. cbn [String.eqb Ascii.eqb Bool.eqb].
      pose proof (err_norm_is [2%nat] 1 2 obs' fct' _ _ (obsv 1 (fun _ => 0)) (memv 1 1 x) ltac:(lia) Ho Hf) as Te. pose proof (spread_norm_is [2%nat] 1 2 fct' _ (memv 1 1 x) ltac:(lia) Hf) as Td.
      eapply returns_is. eapply ten_conv; [cbv zeta; ten|reflexivity|].
      intros r Hr. destruct r as [|k [|? ?]]; [destruct Hr| |destruct Hr as (_ & [])].
      assert (Hk : (k < 2)%nat) by (destruct Hr; auto). bidx_simp. cbn [hd tl].
      destruct k as [|[|k]]; [| |lia].
      * cbn [Nat.eqb]. eapply fv_eq; [finv; cbn [Nat.eqb hd tl]; finv|].
        unfold sumn, Rsum; simpl. rewrite !es_err_1, !es_dist_1. unfold memv, obsv, x; simpl.
        unfold Rsum; simpl. rewrite ?Rminus_eq_0, ?Rminus_0_r, ?Rminus_0_l, ?Rabs_Ropp, ?Rabs_R0, ?Rabs_R1. unfold half. field.
      * cbn [Nat.eqb]. unfold nsumn. simpl. now rewrite ?nmul_NaN_r.
    + unfold es_gufuncs_w, needs_float. pose proof Hf as (F3 & _). rewrite F3. cbn [dtype_eqb String.eqb Ascii.eqb Bool.eqb dt farr].
      eapply returns_is. eapply ten_ext; [eapply (gu_vmv_is _ _ _ _ _ _ _ 1 2); [apply outs_lazy_mv|lia|exact Ho|exact Hf|exact Hw']|].
      intros r Hr. destruct r as [|k [|? ?]]; [destruct Hr| |destruct Hr as (_ & [])].
      assert (Hk : (k < 2)%nat) by (destruct Hr; auto). cbv beta. cbn [hd tl].
      destruct k as [|[|k]]; [| |lia].
      * cbn [Nat.eqb].
        rewrite (es_nrg_w_k_real 2 1 _ _ (obsv 1 (fun _ => 0) [0%nat]) (memv 1 1 x [0%nat])) with (w := fun _ => / 2) by auto.
        f_equal. unfold k_wexact, sumn, Rsum; simpl. rewrite !es_err_1, !es_dist_1. unfold memv, obsv, x; simpl.
        unfold Rsum; simpl. rewrite ?Rminus_eq_0, ?Rminus_0_r, ?Rminus_0_l, ?Rabs_Ropp, ?Rabs_R0, ?Rabs_R1. field.
      * cbn [Nat.eqb]. unfold es_nrg_w_k, es_e1e2_w. rewrite mrw_length. unfold rw at 2 3 4. simpl.
        rewrite ?nmul_NaN_r, ?nadd_NaN_r, ?nadd_NaN_l. reflexivity.
  - unfold k_wexact, nw, sumn, Rsum; simpl. rewrite !es_err_1, !es_dist_1. unfold memv, obsv, member, x, w; simpl.
    unfold Rsum; simpl. rewrite ?Rminus_eq_0, ?Rminus_0_r, ?Rminus_0_l, ?Rabs_Ropp, ?Rabs_R0, ?Rabs_R1. field.
Qed.
