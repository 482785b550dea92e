(** Proofs about rejected inputs of the Gaussian kernel scores (statements in P_kvalid.v). *)
From Verif Require Export T_mvvalid T_kernels L_crps_more.
Open Scope R_scope.
Lemma unums_check obs fct ax s p M y x : ens_nums obs fct ax s p M y x ->
  exists f', univariate_array_check obs fct ax = Ok (obs, f') /\ arr_is obs (dt obs) s y /\
    arr_is f' (dt fct) (M :: s) (fun i => x (insert_at p (hd 0%nat i) (tl i))).
Proof.
  intros ((S1 & V1) & (S2 & V2) & Hp & Hax).
  destruct (array_check_ok obs fct (dt obs) (dt fct) p M s y x ax) as (f' & E & Hf); auto using ens_axis_ok; try (now repeat split).
  exists f'. repeat split; auto; apply Hf.
Qed.
Lemma uweights_err obs fct d1 d2 s s2 y x a c wf : arr_is obs d1 s y -> arr_is fct d2 s2 x ->
  uv_weighted_score_weights obs fct a c wf = Err ValueError \/ exists ow fw, uv_weighted_score_weights obs fct a c wf = Ok (ow, fw).
Proof.
  intros Ho Hf. unfold uv_weighted_score_weights.
  destruct (weights1_is a c wf _ _ _ _ (ten_Ok _ _ _ _ Ho)) as (ow & E1 & H1).
  destruct (weights1_is a c wf _ _ _ _ (ten_Ok _ _ _ _ Hf)) as (fw & E2 & H2).
  unfold tensor in *. rewrite E1, E2. cbn [bind].
  destruct (any_neg _ _ _ _ H1) as (b1 & E3 & _). destruct (any_neg _ _ _ _ H2) as (b2 & E4 & _).
  rewrite E3, E4. cbn [bind]. destruct (b1 || b2)%bool; [now left|right; eauto].
Qed.
Lemma uv_weight_shape wt fct' M s p ax M' s' : sh fct' = M :: s -> sh wt = insert_at p M' s' ->
  length s' = length s -> (M', s') <> (M, s) -> (p <= length s)%nat -> ens_axis ax (length s) p ->
  univariate_weight_check wt fct' ax = Err ValueError.
Proof.
  intros Hs Sw Hl Hne Hp Hax. unfold univariate_weight_check, shift_axis. rewrite Hs. cbn [length].
  destruct (norm_axis_shift _ _ _ (ens_axis_ok _ _ _ Hax Hp)) as [Hk E]. rewrite E.
  assert (Hw : arr_is wt (dt wt) (insert_at p M' s') (at_ wt)) by (repeat split; auto).
  destruct (ten_move_last (Z.of_nat (length s - p)) (Ok wt) (dt wt) p M' s' _ (ten_Ok _ _ _ _ Hw)) as (w' & E' & H'); [lia| |].
  { rewrite norm_axis_nat by lia. f_equal; lia. }
  rewrite E'. cbn [bind]. pose proof H' as (_ & Hs' & _). rewrite Hs'.
  destruct (shape_eqb _ _) eqn:E2; [|reflexivity]. apply shape_eqb_true in E2. congruence.
Qed.
Lemma ename e l n : ~ In e l -> In n l -> (e =s? n) = false.
Proof. intros H1 H2. destruct (String.eqb_spec e n) as [->|]; [easy|reflexivity]. Qed.
Ltac ks_unfold := unfold raises, gksuv_ensemble, owgksuv_ensemble, vrgksuv_ensemble, gksmv_ensemble, owgksmv_ensemble, vrgksmv_ensemble.
Lemma fold_pair_NaN (f : nat -> num) (g : num -> nat -> num) l : forall a b,
  a = NaN \/ (exists i, In i l /\ f i = NaN) ->
  fst (fold_left (fun '(a, b) i => (a .+ f i, g b i)) l (a, b)) = NaN.
Proof.
  induction l as [|j l IH]; intros a b H; cbn [fold_left].
  - destruct H as [->|(i & [] & _)]. reflexivity.
  - apply IH. destruct H as [->|(i & [->|Hi] & H)]; [left; reflexivity|left; rewrite H; apply nadd_NaN_r|right; eauto].
Qed.
Lemma gkn_nan a b : a = NaN \/ b = NaN -> gkn_uv a b = NaN.
Proof. intros [->| ->]; unfold gkn_uv; rewrite ?nsub_NaN_l, ?nsub_NaN_r; reflexivity. Qed.
Lemma ks_k_nan (M : nat) ky kx kyy i : (i < M)%nat -> ky i = NaN ->
  ks_nrg_k M ky kx kyy = NaN /\ ks_fair_k M ky kx kyy = NaN /\ ks_akr_k M ky kx kyy = NaN /\ ks_akr_circperm_k M ky kx kyy = NaN.
Proof.
  intros Hi H. assert (X : exists j, In j (seq 0 M) /\ ky j = NaN) by (exists i; split; auto; apply in_seq; lia).
  unfold ks_nrg_k, ks_fair_k, ks_akr_k, ks_akr_circperm_k.
  repeat split;
    match goal with |- context [fold_left (fun '(a, b) i => (a .+ ky i, @?G b i)) ?l ?z] =>
      pose proof (fold_pair_NaN ky G l n0 n0 (or_intror X)) as F; cbv beta in F; destruct (fold_left _ _ _) as [e1 e2]; cbn [fst] in F
    end; rewrite F; reflexivity.
Qed.
Ltac nanl := repeat first [rewrite ndiv_NaN_l|rewrite nsub_NaN_l|rewrite nsub_NaN_r|rewrite nmul_NaN_l|rewrite nmul_NaN_r]; try reflexivity.
Lemma C54_uv_shapes_l :
  forall b obs fct ax k a c wf ow e,
  (k < length (sh fct))%nat -> (ax = Z.of_nat k \/ ax = (Z.of_nat k - Z.of_nat (length (sh fct)))%Z) ->
  remove_at (length (sh fct) - 1 - k) (sh fct) <> sh obs ->
  raises (gksuv_ensemble b obs fct ax ow e) ValueError /\ raises (owgksuv_ensemble b obs fct a c ax ow wf) ValueError /\
  raises (vrgksuv_ensemble b obs fct a c ax ow wf) ValueError.
Proof.
  intros b obs fct ax k a c wf ow e Hk Hax Hne.
  assert (E : univariate_array_check obs fct ax = Err ValueError).
  { apply (array_check_bad obs fct ax k).
    - destruct Hax as [->| ->]; [now apply norm_axis_nat|now apply norm_axis_neg].
    - intros p M Hp -> E. apply Hne. rewrite E. rewrite insert_at_length.
      replace (S (length (sh obs)) - 1 - (length (sh obs) - p))%nat with p by lia. now apply remove_insert. }
  ks_unfold. rewrite E. repeat split.
Qed.
Lemma C54_mv_shapes_l :
  forall b obs fct m v k wf ow e,
  (k < length (sh fct))%nat -> (m = Z.of_nat k \/ m = (Z.of_nat k - Z.of_nat (length (sh fct)))%Z) ->
  remove_at (length (sh fct) - 1 - k) (sh fct) <> sh obs ->
  raises (gksmv_ensemble b obs fct m v ow e) ValueError /\ raises (owgksmv_ensemble b obs fct wf m v ow) ValueError /\
  raises (vrgksmv_ensemble b obs fct wf m v ow) ValueError.
Proof.
  intros b obs fct m v k wf ow e Hk Hm Hne.
  assert (E : multivariate_array_check obs fct m v = Err ValueError).
  { unfold multivariate_array_check. rewrite (shape_check_bad obs fct m k); auto.
    destruct Hm as [->| ->]; [now apply norm_axis_nat|now apply norm_axis_neg]. }
  ks_unfold. rewrite E. repeat split.
Qed.
Lemma C54_negative_function_l :
  (forall b obs fct ax s p M y x a c d f ow,
   ens_nums obs fct ax s p M y x ->
   (exists r, inb s r /\ nltb (f (y r)) (Fin 0) = true) \/
   (exists r i, inb s r /\ (i < M)%nat /\ nltb (f (member p x r i)) (Fin 0) = true) ->
   raises (owgksuv_ensemble b obs fct a c ax ow (Some (d, f))) ValueError /\
   raises (vrgksuv_ensemble b obs fct a c ax ow (Some (d, f))) ValueError) /\
  (forall b obs fct m v s p q M D y x d f ow,
   mv_nums obs fct m v s p q M D y x ->
   (exists r, inb s r /\ nltb (f (obsl q D y r)) (Fin 0) = true) \/
   (exists r i, inb s r /\ (i < M)%nat /\ nltb (f (meml p q D x r i)) (Fin 0) = true) ->
   raises (owgksmv_ensemble b obs fct (d, f) m v ow) ValueError /\ raises (vrgksmv_ensemble b obs fct (d, f) m v ow) ValueError).
Proof.
  split.
  - intros b obs fct ax s p M y x a c d f ow Ha H.
    destruct (unums_check _ _ _ _ _ _ _ _ Ha) as (f' & E & Ho & Hf).
    assert (E2 : uv_weighted_score_weights obs f' a c (Some (d, f)) = Err ValueError).
    { apply (weights_neg obs f' _ _ s (M :: s) y _ a c (Some (d, f)) Ho Hf).
      destruct H as [H|(r & i & Hr & Hi & H)]; [now left|right]. exists (i :: r). split; [split; auto|]. exact H. }
    ks_unfold. rewrite E. cbn [bind]. rewrite E2. repeat split.
  - intros b obs fct m v s p q M D y x d f ow Ha H.
    destruct (nums_check _ _ _ _ _ _ _ _ _ _ _ Ha) as (obs' & fct' & E & Ho & Hf).
    pose proof (weights_neg_mv obs' fct' _ _ s D M _ _ (d, f) Ho Hf H) as E2.
    ks_unfold. rewrite E. cbn [bind]. rewrite E2. repeat split.
Qed.
Lemma C54_negative_weight_l :
  (forall b obs fct wt ax s p M y x w a c wf e,
   ens_nums obs fct ax s p M y x -> sh wt = insert_at p M s -> (forall i, inb (sh wt) i -> at_ wt i = w i) ->
   (exists r k, inb s r /\ (k < M)%nat /\ nltb (member p w r k) (Fin 0) = true) ->
   raises (gksuv_ensemble b obs fct ax (Some wt) e) ValueError /\ raises (owgksuv_ensemble b obs fct a c ax (Some wt) wf) ValueError /\
   raises (vrgksuv_ensemble b obs fct a c ax (Some wt) wf) ValueError) /\
  (forall b obs fct wt m v s p q M D y x w wf e,
   mv_nums obs fct m v s p q M D y x -> (q < p)%nat -> sh wt = insert_at (wpos p q) M s ->
   (forall i, inb (sh wt) i -> at_ wt i = w i) ->
   (exists r k, inb s r /\ (k < M)%nat /\ nltb (member (wpos p q) w r k) (Fin 0) = true) ->
   raises (gksmv_ensemble b obs fct m v (Some wt) e) ValueError /\ raises (owgksmv_ensemble b obs fct wf m v (Some wt)) ValueError /\
   raises (vrgksmv_ensemble b obs fct wf m v (Some wt)) ValueError).
Proof.
  split.
  - intros b obs fct wt ax s p M y x w a c wf e Ha Sw Vw (r & k & Hr & Hk & H).
    destruct (unums_check _ _ _ _ _ _ _ _ Ha) as (f' & E & Ho & Hf). destruct Ha as (_ & _ & Hp & Hax). rewrite Sw in Vw.
    assert (E2 : univariate_weight_check wt f' ax = Err ValueError).
    { apply (weight_check_neg wt f' (dt wt) s M w ax p (insert_at p k r)); auto using ens_axis_ok.
      - apply Hf.
      - now repeat split.
      - now apply insert_inb. }
    ks_unfold. rewrite E. cbn [bind]. rewrite E2.
    destruct (uweights_err obs f' _ _ s (M :: s) _ _ a c wf Ho Hf) as [E3|(ow & fw & E3)]; rewrite E3; cbn [bind]; rewrite ?E2; repeat split.
  - intros b obs fct wt m v s p q M D y x w wf e Ha Hqp Sw Vw H.
    destruct (nums_check _ _ _ _ _ _ _ _ _ _ _ Ha) as (obs' & fct' & E & Ho & Hf). rewrite Sw in Vw.
    destruct Ha as (_ & _ & _ & H4 & H5 & _).
    pose proof (mv_weight_neg wt fct' D M s p (wpos p q) w m (proj1 (proj2 Hf)) Sw Vw (wpos_S _ _ Hqp) H4 H5 H) as E2.
    ks_unfold. rewrite E. cbn [bind].
    destruct (weights_err obs' fct' _ _ s D M _ _ wf Ho Hf) as [E3|(ow & fw & E3)]; rewrite E3; cbn [bind]; rewrite E2; repeat split.
Qed.
Lemma C54_weight_shape_l :
  (forall b obs fct wt ax s p M y x M' s' a c wf e,
   ens_nums obs fct ax s p M y x -> sh wt = insert_at p M' s' -> length s' = length s -> (M', s') <> (M, s) ->
   raises (gksuv_ensemble b obs fct ax (Some wt) e) ValueError /\ raises (owgksuv_ensemble b obs fct a c ax (Some wt) wf) ValueError /\
   raises (vrgksuv_ensemble b obs fct a c ax (Some wt) wf) ValueError) /\
  (forall b obs fct wt m v s p q M D y x M' s' wf e,
   mv_nums obs fct m v s p q M D y x -> (q < p)%nat -> sh wt = insert_at (wpos p q) M' s' -> length s' = length s ->
   (M', s') <> (M, s) ->
   raises (gksmv_ensemble b obs fct m v (Some wt) e) ValueError /\ raises (owgksmv_ensemble b obs fct wf m v (Some wt)) ValueError /\
   raises (vrgksmv_ensemble b obs fct wf m v (Some wt)) ValueError).
Proof.
  split.
  - intros b obs fct wt ax s p M y x M' s' a c wf e Ha Sw Hl Hne.
    destruct (unums_check _ _ _ _ _ _ _ _ Ha) as (f' & E & Ho & Hf). destruct Ha as (_ & _ & Hp & Hax).
    pose proof (uv_weight_shape wt f' M s p ax M' s' (proj1 (proj2 Hf)) Sw Hl Hne Hp Hax) as E2.
    ks_unfold. rewrite E. cbn [bind]. rewrite E2.
    destruct (uweights_err obs f' _ _ s (M :: s) _ _ a c wf Ho Hf) as [E3|(ow & fw & E3)]; rewrite E3; cbn [bind]; rewrite ?E2; repeat split.
  - intros b obs fct wt m v s p q M D y x M' s' wf e Ha Hqp Sw Hl Hne.
    destruct (nums_check _ _ _ _ _ _ _ _ _ _ _ Ha) as (obs' & fct' & E & Ho & Hf).
    destruct Ha as (_ & _ & _ & H4 & H5 & _).
    pose proof (mv_weight_shape wt fct' D M s p (wpos p q) m M' s' (proj1 (proj2 Hf)) Sw Hl Hne (wpos_S _ _ Hqp) H4 H5) as E2.
    ks_unfold. rewrite E. cbn [bind].
    destruct (weights_err obs' fct' _ _ s D M _ _ wf Ho Hf) as [E3|(ow & fw & E3)]; rewrite E3; cbn [bind]; rewrite E2; repeat split.
Qed.
Lemma C54_estimator_l :
  forall b e,
  ~ In e ["nrg"; "fair"; "akr"; "akr_circperm"; "akr_circperm_w"; "ow"; "vr"]%string ->
  (forall obs fct ax s p M y x, ens_nums obs fct ax s p M y x ->
     raises (gksuv_ensemble b obs fct ax None e) ValueError) /\
  (forall obs fct wt ax s p M y x w, ens_args obs fct ax s p M y x -> (0 < M)%nat -> uv_wts wt s p M w ->
     raises (gksuv_ensemble b obs fct ax (Some wt) e) ValueError) /\
  (forall obs fct m v s p q M D y x, mv_nums obs fct m v s p q M D y x ->
     raises (gksmv_ensemble b obs fct m v None e) ValueError /\
     forall wt w, (q < p)%nat -> mv_wts wt s (wpos p q) M w -> raises (gksmv_ensemble b obs fct m v (Some wt) e) ValueError).
Proof.
  intros b e Hn.
  pose proof (fun n => ename e _ n Hn) as N.
  split; [|split].
  - intros obs fct ax s p M y x Ha. destruct (unums_check _ _ _ _ _ _ _ _ Ha) as (f' & E & Ho & Hf).
    ks_unfold. rewrite E. cbn [bind]. unfold ks_gufuncs_uv, ks_ensemble_uv_arr.
    rewrite !N by (simpl; auto 10). destruct b; reflexivity.
  - intros obs fct wt ax s p M y x w Ha HM Hw. destruct (uv_check _ _ _ _ _ _ _ _ Ha) as (f' & E & Ho & Hf).
    destruct (uv_wt_ok obs fct ax s p M y x Ha HM wt w Hw f' _ _ Hf) as (wt' & E' & Hw').
    ks_unfold. rewrite E. cbn [bind]. rewrite E'. cbn [bind]. unfold ks_gufuncs_uv_w, ks_ensemble_uv_w_arr.
    rewrite !N by (simpl; auto 10). destruct b; reflexivity.
  - intros obs fct m v s p q M D y x Ha. destruct (nums_check _ _ _ _ _ _ _ _ _ _ _ Ha) as (obs' & fct' & E & Ho & Hf).
    split.
    + ks_unfold. rewrite E. cbn [bind]. unfold ks_gufuncs_mv, ks_ensemble_mv_arr. rewrite !N by (simpl; auto 10). destruct b; reflexivity.
    + intros wt w Hqp (W1 & W2 & W3). destruct Ha as (_ & _ & H3 & H4 & H5 & _).
      destruct (mv_weight_ok wt fct' DFloat (dt wt) D M s p (wpos p q) w m (proj1 (proj2 Hf)) (real_arr_is _ _ _ W1) (wpos_S _ _ Hqp) H4 H5 W2 W3 eq_refl) as (wt' & Ew & _).
      ks_unfold. rewrite E. cbn [bind]. rewrite Ew. cbn [bind]. unfold ks_gufuncs_mv_w, ks_ensemble_mv_w_arr.
      rewrite !N by (simpl; auto 10). destruct b; reflexivity.
Qed.
Lemma C54_internal_names_l :
  forall e, In e ["ow"; "vr"]%string ->
  (forall obs fct ax s p M y x, ens_nums obs fct ax s p M y x ->
     raises (gksuv_ensemble Array obs fct ax None e) ValueError /\ raises (gksuv_ensemble Numba obs fct ax None e) TypeError) /\
  (forall obs fct wt ax s p M y x w, ens_args obs fct ax s p M y x -> (0 < M)%nat -> uv_wts wt s p M w ->
     raises (gksuv_ensemble Array obs fct ax (Some wt) e) ValueError /\ raises (gksuv_ensemble Numba obs fct ax (Some wt) e) TypeError) /\
  (forall obs fct m v s p q M D y x, mv_nums obs fct m v s p q M D y x ->
     raises (gksmv_ensemble Array obs fct m v None e) ValueError /\ raises (gksmv_ensemble Numba obs fct m v None e) TypeError).
Proof.
  intros e He. split; [|split].
  - intros obs fct ax s p M y x Ha. destruct (unums_check _ _ _ _ _ _ _ _ Ha) as (f' & E & Ho & Hf).
    ks_unfold. rewrite E. cbn [bind]. names He; repeat split.
  - intros obs fct wt ax s p M y x w Ha HM Hw. destruct (uv_check _ _ _ _ _ _ _ _ Ha) as (f' & E & Ho & Hf).
    destruct (uv_wt_ok obs fct ax s p M y x Ha HM wt w Hw f' _ _ Hf) as (wt' & E' & Hw').
    ks_unfold. rewrite E. cbn [bind]. rewrite E'. cbn [bind]. names He; repeat split.
  - intros obs fct m v s p q M D y x Ha. destruct (nums_check _ _ _ _ _ _ _ _ _ _ _ Ha) as (obs' & fct' & E & Ho & Hf).
    ks_unfold. rewrite E. cbn [bind]. names He; repeat split.
Qed.
Lemma C54_nan_l :
  forall b obs fct ax s p M y x e,
  ens_nums obs fct ax s p M y x -> dt obs = DFloat -> dt fct = DFloat -> (0 < M)%nat ->
  In e ["nrg"; "fair"; "akr"; "akr_circperm"]%string ->
  exists v, returns (gksuv_ensemble b obs fct ax None e) s v /\
    forall r, inb s r -> (y r = NaN \/ exists k, (k < M)%nat /\ member p x r k = NaN) -> v r = NaN.
Proof.
  intros b obs fct ax s p M y x e Ha D1 D2 HM He. destruct (unums_check _ _ _ _ _ _ _ _ Ha) as (f' & E & Ho & Hf).
  rewrite D1 in Ho. rewrite D2 in Hf.
  assert (T0 : exists K, ten_is (kobs_uv obs f') DFloat (M :: s) K /\
    forall r, inb s r -> (y r = NaN \/ exists k, (k < M)%nat /\ member p x r k = NaN) -> exists k, (k < M)%nat /\ K (k :: r) = NaN).
  { exists (fun i => gkn_uv (y (tl i)) (x (insert_at p (hd 0%nat i) (tl i)))). split.
    - unfold kobs_uv, gk_uv. eapply ten_conv; [ten|dtf|]; intros i Hi; idx; bidx_simp; cbn [hd tl]; reflexivity.
    - intros r Hr [Hy|(k & Hk & Hx)]; [exists 0%nat|exists k]; (split; [auto|]); cbn [hd tl]; apply gkn_nan; auto. }
  destruct T0 as (K & TK & HK).
  assert (TF : exists K2, ten_is (kfct_uv f') DFloat (M :: M :: s) K2).
  { eexists. unfold kfct_uv, gk_uv. eapply ten_conv; [ten|dtf|reflexivity]. }
  assert (TS : exists K3, ten_is (kself_uv obs) DFloat s K3).
  { eexists. unfold kself_uv, gk_uv. eapply ten_conv; [ten|dtf|reflexivity]. }
  assert (TD : exists K4, ten_is (kself_uv f') DFloat (M :: s) K4).
  { eexists. unfold kself_uv, gk_uv. eapply ten_conv; [ten|dtf|reflexivity]. }
  assert (TL : forall n, exists K5, ten_is (klag_uv n f') DFloat (M :: s) K5).
  { intros n. eexists. unfold klag_uv, gk_uv. eapply ten_conv; [ten|dtf|reflexivity]. }
  destruct TF as (K2 & TF). destruct TS as (K3 & TS). destruct TD as (K4 & TD).
  destruct (TL 1%nat) as (K5 & TL1). destruct (TL (M / 2)%nat) as (K6 & TL2).
  unfold gksuv_ensemble. rewrite E. cbn [bind].
  destruct b.
  - unfold ks_ensemble_uv_arr. assert (HL : lastdim f' = M) by (destruct Hf as (_ & Q & _); unfold lastdim; now rewrite Q). rewrite HL.
    names He; cbn [String.eqb Ascii.eqb Bool.eqb]; unfold ks_nrg_arr, ks_fair_arr, ks_lag_arr;
      (eexists; split; [eapply returns_is; ten|]); intros r Hr Hn; destruct (HK r Hr Hn) as (k & Hk & Kk); cbv beta;
      (rewrite (nsumn_NaN M _ k); [nanl|exact Hk|bidx_simp; exact Kk]).
  - unfold ks_gufuncs_uv. names He; cbn [String.eqb Ascii.eqb Bool.eqb];
      (eexists; split; [eapply returns_is, (gu_sv_is _ (fun d => d)); [apply outs_lazy|exact Ho|exact Hf]|]);
      intros r Hr Hn; cbv beta; rewrite ncast_float; cbn [hd tl]; unfold on_uv;
      (destruct Hn as [->|(k & Hk & Hx)]; [reflexivity|]); (destruct (nisnan (y r)); [reflexivity|]);
      unfold ks_fair_swap_k; rewrite rw_length;
      (edestruct (ks_k_nan M (fun i => gkn_uv (ith (rw M (fun j => x (insert_at p j r))) i) (y r))) as (A1 & A2 & A3 & A4);
       [exact Hk|cbv beta; apply gkn_nan; left; rewrite rw_ith by auto; exact Hx|]); first [exact A1|exact A2|exact A3|exact A4].
Qed.
