(** Proofs of the properties of the weighted energy scores (statements in P_energy_w.v). *)
From Coq Require Import FunctionalExtensionality.
From Verif Require Export T_energy.
Open Scope R_scope.
Lemma vr_nonneg M D a u y x : 0 <= k_vr M a u (es_err D y x) (es_dist D x) (enorm D y) (fun i => enorm D (x i)).
Proof.
  set (U := sumn M u). set (v := fun j : nat => if (j =? 0)%nat then a else U - a).
  set (z := fun j : nat => if (j =? 0)%nat then y else fun _ => 0).
  pose proof (eucl_two M 2 D u x v z) as H.
  assert (S2 : forall f, sumn 2 f = f 0%nat + f 1%nat) by (intros; unfold sumn, Rsum; simpl; ring).
  rewrite !S2 in H. specialize (H ltac:(unfold v, U; simpl; ring)).
  assert (N : forall w, eucl D w (fun _ => 0) = enorm D w) by (intros; unfold eucl, enorm; f_equal; apply sumn_ext; intros; ring).
  unfold v, z in H. cbn [Nat.eqb] in H.
  rewrite (sumn_ext M (fun i => u i * eucl D (x i) (fun _ => 0)) (fun i => u i * enorm D (x i))) in H by (intros; now rewrite N).
  rewrite !eucl_refl, (eucl_sym D (fun _ => 0) y), !N in H. unfold k_vr, es_err, es_dist. fold U. nra.
Qed.
Lemma vr_unit M D y x : (0 < M)%nat -> k_vr M 1 (fun _ => / INR M) (es_err D y x) (es_dist D x) (enorm D y) (fun i => enorm D (x i))
  = k_exact M (es_err D y x) (es_dist D x).
Proof.
  intros HM. pose proof (INR_nz M HM). rewrite <- k_exact_unif by auto. unfold k_vr, k_wexact.
  rewrite (sumn_const M (/ INR M)). field. auto.
Qed.
Lemma gu_err k obs fct : (exists D M s, sh obs = D :: s /\ sh fct = D :: M :: s) ->
  gu_vm out_float_mv k obs fct = if dtype_eqb (dt obs) DFloat then gu_vm out_float_mv k obs fct else Err TypeError.
Proof.
  intros (D & M & s & H1 & H2). destruct (dtype_eqb (dt obs) DFloat) eqn:E; [reflexivity|].
  unfold gu_vm, gcore1, gcore2. rewrite H1, H2. cbn [bind]. rewrite Nat.eqb_refl. cbn [bind check].
  rewrite (gloop_same s) by (repeat constructor; easy). cbn [bind]. unfold out_float_mv. now rewrite E.
Qed.
Lemma C48_chain_l :
  forall b obs fct obs' fct' vf m v s p q M D y x y' x' h e,
  vf obs = Ok obs' -> vf fct = Ok fct' ->
  mv_args obs' fct' m v s p q M D y' x' -> (0 < M)%nat -> (0 < D)%nat -> (b = Numba -> floats obs' fct') ->
  (forall r k, inb s r -> (k < D)%nat -> obsv q y' r k = h (obsv q y r) k) ->
  (forall r i k, inb s r -> (i < M)%nat -> (k < D)%nat -> memv p q x' r i k = h (memv p q x r i) k) ->
  let er r := es_err D (h (obsv q y r)) (fun i => h (memv p q x r i)) in
  let d r := es_dist D (fun i => h (memv p q x r i)) in
  (e = "nrg"%string -> returns (twes_ensemble b obs fct vf m v None e) s (fun r => Fin (k_exact M (er r) (d r)))) /\
  (e = "fair"%string -> (1 < M)%nat -> returns (twes_ensemble b obs fct vf m v None e) s (fun r => Fin (k_fair M (er r) (d r)))) /\
  (e = "akr"%string -> returns (twes_ensemble b obs fct vf m v None e) s (fun r => Fin (k_lag M (lag1 M) (er r) (d r)))) /\
  (e = "akr_circperm"%string -> returns (twes_ensemble b obs fct vf m v None e) s (fun r => Fin (k_lag M (lagc M) (er r) (d r)))).
Proof.
  intros b obs fct obs' fct' vf m v s p q M D y x y' x' h e E1 E2 Ha HM HD Hfl Hy Hx er d.
  unfold twes_ensemble, mv_weighted_score_chain. rewrite E1. cbn [bind]. rewrite E2. cbn [bind].
  destruct (C33_values_l b obs' fct' m v s p q M D y' x' e Ha HM HD Hfl) as (V1 & V2 & V3 & V4).
  assert (X1 : forall r i, inb s r -> (i < M)%nat -> es_err D (obsv q y' r) (memv p q x' r) i = er r i).
  { intros r i Hr Hi. apply eucl_ext; auto. }
  assert (X2 : forall r i j, inb s r -> (i < M)%nat -> (j < M)%nat -> es_dist D (memv p q x' r) i j = d r i j).
  { intros r i j Hr Hi Hj. apply eucl_ext; auto. }
  repeat split.
  - intros Ee. eapply returns_ext; [exact (V1 Ee)|]. intros r Hr; cbv beta; f_equal; apply k_exact_ext; auto.
  - intros Ee H2. eapply returns_ext; [exact (V2 Ee H2)|]. intros r Hr; cbv beta; f_equal; apply k_fair_ext; auto.
  - intros Ee. eapply returns_ext; [exact (V3 Ee)|]. intros r Hr; cbv beta; f_equal; apply k_lag_ext; auto using lag1_lt.
  - intros Ee. eapply returns_ext; [exact (V4 Ee)|]. intros r Hr; cbv beta; f_equal; apply k_lag_ext; auto using lagc_lt.
Qed.
Lemma C48_outcome_weighted_l :
  forall b obs fct wf g m v s p q M D y x,
  mv_args obs fct m v s p q M D y x -> (0 < M)%nat -> (0 < D)%nat -> ~ In 0%nat s -> (b = Numba -> floats obs fct) ->
  vweight D wf g ->
  let gx r k := g (memv p q x r k) in
  (forall r, inb s r -> 0 < sumn M (gx r)) ->
  returns (owes_ensemble b obs fct wf m v None) s
    (fun r => Fin (g (obsv q y r) * k_wexact M (nw M (gx r)) (es_err D (obsv q y r) (memv p q x r)) (es_dist D (memv p q x r)))).
Proof.
  intros b obs fct wf g m v s p q M D y x Ha HM HD Hs Hfl Hg gx Hp.
  eapply returns_is, (owes_call b obs fct m v s p q M D y x Ha HM HD Hfl); auto.
  intros r Hr E. specialize (Hp r Hr). unfold gx in Hp. lra.
Qed.
Lemma C48_vertical_l :
  forall b obs fct wf g m v s p q M D y x,
  mv_args obs fct m v s p q M D y x -> (0 < M)%nat -> (0 < D)%nat -> ~ In 0%nat s -> (b = Numba -> floats obs fct) ->
  vweight D wf g ->
  returns (vres_ensemble b obs fct wf m v None) s
    (fun r => Fin (k_vr M (g (obsv q y r)) (fun k => g (memv p q x r k) / INR M)
       (es_err D (obsv q y r) (memv p q x r)) (es_dist D (memv p q x r))
       (enorm D (obsv q y r)) (fun k => enorm D (memv p q x r k)))).
Proof.
  intros b obs fct wf g m v s p q M D y x Ha HM HD Hs Hfl Hg.
  eapply returns_is, (vres_call b obs fct m v s p q M D y x Ha HM HD Hfl); auto.
Qed.
Lemma C48_weighted_array_l :
  forall obs fct wt wf g m v s p q M D y x w,
  mv_args obs fct m v s p q M D y x -> (0 < M)%nat -> (0 < D)%nat -> ~ In 0%nat s ->
  vweight D wf g -> (q < p)%nat -> mv_wts wt s (wpos p q) M w ->
  let u r k := g (memv p q x r k) * nw M (member (wpos p q) w r) k in
  ((forall r, inb s r -> 0 < sumn M (u r)) ->
   returns (owes_ensemble Array obs fct wf m v (Some wt)) s
    (fun r => Fin (g (obsv q y r) * k_wexact M (nw M (u r)) (es_err D (obsv q y r) (memv p q x r)) (es_dist D (memv p q x r))))) /\
  returns (vres_ensemble Array obs fct wf m v (Some wt)) s
    (fun r => Fin (k_vr M (g (obsv q y r)) (u r) (es_err D (obsv q y r) (memv p q x r)) (es_dist D (memv p q x r))
       (enorm D (obsv q y r)) (fun k => enorm D (memv p q x r k)))).
Proof.
  intros obs fct wt wf g m v s p q M D y x w Ha HM HD Hs Hg Hqp Hw u. split.
  - intros Hp. eapply returns_is, (owes_call_w Array obs fct m v s p q M D y x Ha HM HD wf g Hg Hs wt _ w Hw (wpos_S _ _ Hqp) eq_refl); auto.
    intros r Hr E. specialize (Hp r Hr). unfold u in Hp. lra.
  - eapply returns_is, (vres_call_w Array obs fct m v s p q M D y x Ha HM HD wf g Hg Hs wt _ w Hw (wpos_S _ _ Hqp) eq_refl); auto.
Qed.
Lemma C48_unit_l :
  forall b obs fct wf m v s p q M D y x,
  mv_args obs fct m v s p q M D y x -> (0 < M)%nat -> (0 < D)%nat -> ~ In 0%nat s -> (b = Numba -> floats obs fct) ->
  vweight D wf (fun _ => 1) ->
  exists u, returns (es_ensemble b obs fct m v None "nrg") s (fun r => Fin (u r)) /\
            returns (owes_ensemble b obs fct wf m v None) s (fun r => Fin (u r)) /\
            returns (vres_ensemble b obs fct wf m v None) s (fun r => Fin (u r)).
Proof.
  intros b obs fct wf m v s p q M D y x Ha HM HD Hs Hfl Hg. pose proof (INR_pos M HM).
  destruct (C33_values_l b obs fct m v s p q M D y x "nrg" Ha HM HD Hfl) as (V1 & _).
  eexists. split; [exact (V1 eq_refl)|]. split.
  - eapply returns_ext; [apply (C48_outcome_weighted_l b obs fct wf (fun _ => 1) m v s p q M D y x); auto|].
    + intros r Hr. rewrite sumn_const. lra.
    + intros r Hr. cbv beta. f_equal. rewrite Rmult_1_l, <- k_exact_unif by auto. apply k_wexact_ext; auto.
      intros i Hi. unfold nw. rewrite sumn_const. field. lra.
  - eapply returns_ext; [apply (C48_vertical_l b obs fct wf (fun _ => 1) m v s p q M D y x); auto|].
    intros r Hr. cbv beta. f_equal. rewrite <- vr_unit by auto. f_equal. extensionality i. field. lra.
Qed.
Lemma C48_nonnegative_l :
  forall b obs fct wf g m v s p q M D y x,
  mv_args obs fct m v s p q M D y x -> (0 < M)%nat -> (0 < D)%nat -> ~ In 0%nat s -> (b = Numba -> floats obs fct) ->
  vweight D wf g ->
  ((forall r, inb s r -> 0 < sumn M (fun k => g (memv p q x r k))) ->
   exists u, returns (owes_ensemble b obs fct wf m v None) s (fun r => Fin (u r)) /\ forall r, inb s r -> 0 <= u r) /\
  exists u, returns (vres_ensemble b obs fct wf m v None) s (fun r => Fin (u r)) /\ forall r, 0 <= u r.
Proof.
  intros b obs fct wf g m v s p q M D y x Ha HM HD Hs Hfl Hg. split.
  - intros Hp. eexists. split; [apply (C48_outcome_weighted_l b obs fct wf g m v s p q M D y x); auto|].
    intros r Hr. apply Rmult_le_pos; [apply (Hg (obsv q y r))|]. apply es_nonneg, nw_sum1. auto.
  - eexists. split; [apply (C48_vertical_l b obs fct wf g m v s p q M D y x); auto|].
    intros r. apply vr_nonneg.
Qed.
Lemma C48_numba_refuted_l :
  forall obs fct wt wf g m v s p q M D y x w,
  mv_args obs fct m v s p q M D y x -> (0 < M)%nat -> (0 < D)%nat -> ~ In 0%nat s ->
  vweight D wf g -> (q < p)%nat -> mv_wts wt s (wpos p q) M w ->
  raises (owes_ensemble Numba obs fct wf m v (Some wt)) NumbaError /\
  raises (vres_ensemble Numba obs fct wf m v (Some wt)) NumbaError.
Proof.
  intros obs fct wt wf g m v s p q M D y x w Ha HM HD Hs Hg Hqp Hw.
  destruct (mv_check _ _ _ _ _ _ _ _ _ _ _ Ha) as (obs' & fct' & E & Hin).
  unfold raises, owes_ensemble, vres_ensemble. rewrite E. cbn [bind]. pose proof Hin as (Ho & Hf).
  destruct (mv_weights s p q M D y x HM HD wf g Hg Hs _ _ _ _ Hin) as (ow & fw & E' & Hw1 & Hw2). rewrite E'. cbn [bind].
  destruct (wt_ok obs fct m v s p q M D y x Ha wt _ w Hw (wpos_S _ _ Hqp) fct' _ _ Hf) as (wt' & Ew & Hw'). rewrite Ew. split; reflexivity.
Qed.
Lemma C49_array_types_l :
  forall obs fct obs' fct' m v s p q M D y x e,
  mv_args obs fct m v s p q M D y x -> mv_args obs' fct' m v s p q M D y x -> (0 < M)%nat -> (0 < D)%nat ->
  In e ["nrg"; "fair"; "akr"; "akr_circperm"]%string -> (e = "fair"%string -> (1 < M)%nat) ->
  exists u, returns (es_ensemble Array obs fct m v None e) s (fun r => Fin (u r)) /\
            returns (es_ensemble Array obs' fct' m v None e) s (fun r => Fin (u r)).
Proof.
  intros obs fct obs' fct' m v s p q M D y x e Ha Ha' HM HD He H2. destruct (name_mest e He) as (e' & ->).
  eexists. split.
  - eapply returns_is, (es_call Array obs fct m v s p q M D y x Ha HM HD ltac:(easy) e' (fair_names _ _ H2)).
  - eapply returns_is, (es_call Array obs' fct' m v s p q M D y x Ha' HM HD ltac:(easy) e' (fair_names _ _ H2)).
Qed.
Lemma C49_numba_types_refuted_l :
  forall obs fct m v s p q M D y x, mv_args obs fct m v s p q M D y x ->
  (dt obs <> DFloat -> raises (es_ensemble Numba obs fct m v None "nrg") TypeError /\
                       raises (es_ensemble Numba obs fct m v None "fair") TypeError) /\
  (dt fct <> DFloat -> raises (es_ensemble Numba obs fct m v None "akr") NumbaError /\
                       raises (es_ensemble Numba obs fct m v None "akr_circperm") NumbaError).
Proof.
  intros obs fct m v s p q M D y x Ha.
  destruct (mv_check _ _ _ _ _ _ _ _ _ _ _ Ha) as (obs' & fct' & E & Ho & Hf).
  unfold raises, es_ensemble. rewrite E. cbn [bind].
  destruct Ho as (Do & So & _), Hf as (Df & Sf & _). rewrite <- Do, <- Df. split; intros N; split;
    unfold es_gufuncs, needs_float; cbn [String.eqb Ascii.eqb Bool.eqb orb].
  - rewrite gu_err; [destruct (dt obs'); try reflexivity; easy|]. exists D, M, s; auto.
  - rewrite gu_err; [destruct (dt obs'); try reflexivity; easy|]. exists D, M, s; auto.
  - destruct (dt fct'); try reflexivity; easy.
  - destruct (dt fct'); try reflexivity; easy.
Qed.
