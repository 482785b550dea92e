(** Lemmas about the Dawid-Sebastiani and error-spread scores. *)
From Verif Require Export M_dss S_dss L_crps_call L_kscore.
Open Scope R_scope.

Ltac dtf := solve [reflexivity | unfold dfloat1, dfloat2; reflexivity].

Lemma djoin_fr d : djoin d DFloat = DFloat. Proof. destruct d; reflexivity. Qed.
Lemma djoin_fl d : djoin DFloat d = DFloat. Proof. destruct d; reflexivity. Qed.
Ltac dtj := unfold dfloat1, dfloat2; rewrite ?djoin_fr, ?djoin_fl; reflexivity.

(** * values of rows *)
Definition meann (M : nat) (x : nat -> num) : num := nsumn M x ./ nofnat M.
Definition sdn (d M : nat) (x : nat -> num) : num :=
  nsqrt (nsumn M (fun k => nsq (x k .- meann M x)) ./ nofnat (M - d)).
Definition dssn (d M : nat) (y : num) (x : nat -> num) : num :=
  nsq ((y .- meann M x) ./ sdn d M x) .+ nofnat 2 .* nlog (sdn d M x).
Definition essn (M : nat) (e : num) (x : nat -> num) : num :=
  let s := sdn 1 M x in
  let g := nsumn M (fun k => ncube ((x k .- meann M x) ./ s)) ./ nofnat ((M - 1) * (M - 2)) in
  nsq (nsq s .- nsq e .- e .* s .* g).
Definition ddof (bias : bool) : nat := if bias then 0%nat else 1%nat.

Section arrays.
Variables (obs fct : arr) (d1 d2 : dtype) (s : list nat) (M : nat) (y x : list nat -> num).
Hypothesis Ho : arr_is obs d1 s y.
Hypothesis Hf : arr_is fct d2 (M :: s) x.
Let xr r k := x (k :: r).
Lemma lastdim_f : lastdim fct = M.
Proof. destruct Hf as (_ & E & _). unfold lastdim. now rewrite E. Qed.
Lemma astd_is (bias : bool) : ten_is (astd bias fct) DFloat s (fun r => sdn (ddof bias) M (xr r)).
Proof.
  unfold astd. rewrite lastdim_f. cbv zeta. eapply ten_conv; [ten|dtf|]. intros r Hr. cbv beta. unfold sdn, meann, ddof, xr.
  destruct bias; f_equal; f_equal; apply nsumn_ext; intros; bidx_simp; reflexivity.
Qed.
Lemma amean_is : ten_is (amean (Ok fct)) DFloat s (fun r => meann M (xr r)).
Proof. eapply ten_conv; [ten|dtf|]. intros r Hr. reflexivity. Qed.
Lemma ds_score_uv_is (bias : bool) : ten_is (ds_score_uv obs fct bias) DFloat s (fun r => dssn (ddof bias) M (y r) (xr r)).
Proof.
  pose proof (astd_is bias) as T1. pose proof amean_is as T2. unfold ds_score_uv. cbv zeta.
  eapply ten_conv; [ten|dtf|]. intros r Hr. bidx_simp. reflexivity.
Qed.
End arrays.

(** * the error-spread score *)
Section ess.
Variables (obs fct : arr) (d1 d2 : dtype) (s : list nat) (M : nat) (y x : list nat -> num).
Hypothesis Ho : arr_is obs d1 s y.
Hypothesis Hf : arr_is fct d2 (M :: s) x.
Let xr r k := x (k :: r).
Definition ess_core : tensor :=
  let M := lastdim fct in
  let m := amean (Ok fct) in
  let dev := (Ok fct - aexpand 0 m)%A in
  let s := asqrt (asum (asq dev) / sci (M - 1))%A in
  let g := (asum (acube (dev / aexpand 0 s)) / sci ((M - 1) * (M - 2)))%A in
  let e := (m - Ok obs)%A in
  (asq (asq s - asq e - e * s * g)%A).
Lemma ess_core_is : ten_is ess_core DFloat s (fun r => essn M (meann M (xr r) .- y r) (xr r)).
Proof.
  unfold ess_core. rewrite (lastdim_f fct d2 s M x Hf). cbv zeta.
  pose proof (amean_is fct d2 s M x Hf) as T2. 
  assert (TD : ten_is (Ok fct - aexpand 0 (amean (Ok fct)))%A DFloat (M :: s) (fun i => x i .- meann M (xr (tl i)))).
  { eapply ten_conv; [ten|dtj|]. intros r Hr. idx. bidx_simp. reflexivity. }
  set (dev := (Ok fct - aexpand 0 (amean (Ok fct)))%A) in *.
  assert (TS : ten_is (asqrt (asum (asq dev) / sci (M - 1))%A) DFloat s (fun r => sdn 1 M (xr r))).
  { eapply ten_conv; [ten|dtf|]. intros r Hr. bidx_simp. reflexivity. }
  set (sd := (asqrt (asum (asq dev) / sci (M - 1))%A)) in *.
  assert (TG : ten_is (asum (acube (dev / aexpand 0 sd)) / sci ((M - 1) * (M - 2)))%A DFloat s
    (fun r => nsumn M (fun k => ncube ((xr r k .- meann M (xr r)) ./ sdn 1 M (xr r))) ./ nofnat ((M - 1) * (M - 2)))).
  { unfold acube. eapply ten_conv; [ten|dtf|]. intros r Hr. cbv beta. f_equal. apply nsumn_ext; intros; bidx_simp; reflexivity. }
  set (gg := (asum (acube (dev / aexpand 0 sd)) / sci ((M - 1) * (M - 2)))%A) in *.
  eapply ten_conv; [ten|dtj|]. intros r Hr. bidx_simp. reflexivity.
Qed.
End ess.
Lemma inb_unsqueeze s i : inb (squeeze_shape s) i -> inb s (unsqueeze_idx s i).
Proof.
  revert i; induction s as [|d s IH]; intros i H; [exact I|]. cbn [squeeze_shape unsqueeze_idx] in *.
  destruct (Nat.eqb_spec d 1) as [->|N]; [split; [lia|auto]|]. destruct i as [|k i]; [easy|]. destruct H. split; auto.
Qed.
Lemma ess_arr_core obs fct : ess_arr obs fct = asqueeze (ess_core obs fct).
Proof. reflexivity. Qed.
Lemma squeeze_no_unit s : no_unit s -> squeeze_shape s = s.
Proof.
  induction s as [|d s IH]; intros H; [reflexivity|]. cbn [squeeze_shape].
  destruct (Nat.eqb_spec d 1) as [->|N]; [exfalso; apply (H 1%nat); [now left|reflexivity]|].
  f_equal. apply IH. intros e He; apply H; now right.
Qed.
Lemma unsqueeze_no_unit s i : no_unit s -> inb s i -> unsqueeze_idx s i = i.
Proof.
  revert i. induction s as [|d s IH]; intros [|k i] H Hi; try easy. cbn [unsqueeze_idx].
  destruct (Nat.eqb_spec d 1) as [->|N]; [exfalso; apply (H 1%nat); [now left|reflexivity]|].
  f_equal. apply IH; [|apply Hi]. intros e He; apply H; now right.
Qed.
Lemma ten_squeeze T d s f : ten_is T d s f -> no_unit s -> ten_is (asqueeze T) d s f.
Proof.
  intros (a & -> & Hd & Hs & Ha) H. unfold asqueeze. cbn [bind]. rewrite Hs, squeeze_no_unit by auto.
  eexists; split; [reflexivity|]. repeat split; auto. intros i Hi. cbn [at_]. rewrite unsqueeze_no_unit by auto. auto.
Qed.

(** * compiled kernels *)
Lemma pred_num (M : nat) : (0 < M)%nat -> nofnat M .- Fin 1 = nofnat (M - 1).
Proof. intros H. unfold nofnat. cbn. f_equal. rewrite minus_INR by lia. simpl. lra. Qed.
Lemma nmean_rw M x : nmean (rw M x) = meann M x.
Proof. unfold nmean, meann. rewrite rw_length. reflexivity. Qed.
Lemma dss_uv_k_row bias M y x : (0 < M)%nat -> dss_uv_k bias y (rw M x) = dssn (ddof bias) M y x.
Proof.
  intros HM. unfold dss_uv_k, dssn, sdn. rewrite nmean_rw, rw_length, pred_num by auto.
  assert (E : (if bias then nofnat (M - 1) .+ Fin 1 else nofnat (M - 1)) = nofnat (M - ddof bias)).
  { destruct bias; [|reflexivity]. unfold nofnat. cbn. f_equal. rewrite minus_INR by lia. rewrite Nat.sub_0_r. simpl. lra. }
  rewrite E. unfold rw. rewrite map_map. unfold nofnat at 3. replace (INR 2) with 2 by (simpl; lra). reflexivity.
Qed.
Lemma fold_sum (f : num -> num) l a : fold_left (fun s x => s .+ f x) l a = a .+ nsum (map f l).
Proof.
  revert a; induction l as [|x l IH]; intros a; cbn [fold_left map nsum fold_right].
  - now rewrite nadd_0_r.
  - rewrite IH. unfold nsum. cbn [map fold_right]. now rewrite nadd_assoc.
Qed.
Lemma ess_k_row M y x : ess_k y (rw M x) = essn M (nsumn M (fun k => x k .- y) ./ nofnat M) x.
Proof.
  unfold ess_k. rewrite rw_length.
  assert (E : fold_left (fun m x => m .+ x) (rw M x) n0 = nsumn M x).
  { rewrite (fold_sum (fun z => z)). unfold n0. rewrite nadd_0_l, map_id. reflexivity. }
  rewrite E. rewrite !fold_sum. unfold n0. rewrite !nadd_0_l. unfold rw. rewrite !map_map. reflexivity.
Qed.
(** * real rows *)
Section real.
Variables (M : nat) (X : nat -> R).
Let x k := Fin (X k).
Lemma mean_real : (0 < M)%nat -> meann M x = Fin (mean M X).
Proof.
  intros H. unfold meann. rewrite (nsumn_Fin M _ X) by reflexivity. unfold nofnat. cbn.
  destruct (Req_EM_T (INR M) 0) as [E|_]; [now apply INR_nz in E|reflexivity].
Qed.
Lemma spread_2 : spread M X -> (1 < M)%nat.
Proof. intros (i & j & Hi & Hj & H). assert (i <> j) by congruence. lia. Qed.
Lemma dof_pos (bias : bool) : (1 < M)%nat -> 0 < (if bias then INR M else INR M - 1).
Proof. intros H. assert (1 < INR M) by (apply lt_1_INR; lia). destruct bias; lra. Qed.
Lemma ss_nonneg : 0 <= sumn M (fun k => (X k - mean M X)²).
Proof. apply sumn_nonneg. intros; apply Rle_0_sqr. Qed.
Lemma ss_pos : spread M X -> 0 < sumn M (fun k => (X k - mean M X)²).
Proof.
  intros (i & j & Hi & Hj & H). destruct ss_nonneg as [P|E]; auto. exfalso. apply H. symmetry in E.
  pose proof (sumn_zero_inv M _ ltac:(intros; apply Rle_0_sqr) E) as Z.
  assert (A : forall k, (k < M)%nat -> X k = mean M X).
  { intros k Hk. specialize (Z k Hk). cbv beta in Z. apply Rsqr_0_uniq in Z. lra. }
  rewrite (A i), (A j); auto.
Qed.
Lemma variance_pos (bias : bool) : spread M X -> 0 < variance bias M X.
Proof.
  intros H. unfold variance. apply Rdiv_lt_0_compat; [now apply ss_pos|]. apply dof_pos, spread_2, H.
Qed.
Lemma ddof_num (bias : bool) : (1 < M)%nat -> nofnat (M - ddof bias) = Fin (if bias then INR M else INR M - 1).
Proof.
  intros H. unfold nofnat. destruct bias; cbn [ddof]; [now rewrite Nat.sub_0_r|]. f_equal. rewrite minus_INR by lia. simpl; lra.
Qed.
Lemma sdn_real (bias : bool) : (1 < M)%nat -> sdn (ddof bias) M x = Fin (sqrt (variance bias M X)).
Proof.
  intros H. unfold sdn. rewrite mean_real by lia. rewrite ddof_num by auto.
  rewrite (nsumn_Fin M _ (fun k => (X k - mean M X)²)) by (intros; reflexivity).
  pose proof (dof_pos bias H) as D. cbn [ndiv]. destruct (Req_EM_T _ 0) as [E|_]; [lra|].
  fold (variance bias M X). assert (0 <= variance bias M X) by (unfold variance; apply Rdiv_le_0_compat; [apply ss_nonneg|auto]).
  cbn [nsqrt]. destruct (Rlt_dec _ 0); [lra|reflexivity].
Qed.
Lemma dssn_real (bias : bool) Y : spread M X -> dssn (ddof bias) M (Fin Y) x = Fin (ds_score (mean M X) (variance bias M X) Y).
Proof.
  intros H. pose proof (spread_2 H) as H2. pose proof (variance_pos bias H) as P. unfold dssn. rewrite sdn_real, mean_real by lia.
  pose proof (sqrt_lt_R0 _ P) as PS. cbn. destruct (Req_EM_T _ 0) as [E|_]; [lra|]. cbn.
  destruct (Rlt_dec 0 _) as [_|]; [|lra]. cbn. f_equal. unfold ds_score, Rsqr.
  assert (E : variance bias M X = sqrt (variance bias M X) * sqrt (variance bias M X)) by (symmetry; apply sqrt_sqrt; lra).
  set (q := sqrt _) in *. rewrite E. rewrite ln_mult by auto. field. lra.
Qed.
Lemma flat_mean : ~ spread M X -> forall k, (k < M)%nat -> X k = mean M X.
Proof.
  intros H k Hk. unfold mean. rewrite (sumn_ext M X (fun _ => X k)).
  - rewrite sumn_const. field. apply INR_nz; lia.
  - intros j Hj. destruct (Req_EM_T (X j) (X k)); auto. exfalso. apply H. exists j, k; auto.
Qed.
Lemma sdn_flat d : (0 < M)%nat -> ~ spread M X -> sdn d M x = NaN \/ sdn d M x = Fin 0.
Proof.
  intros HM H. unfold sdn. rewrite mean_real by auto.
  rewrite (nsumn_Fin M _ (fun k => 0)).
  2:{ intros k Hk. unfold x. cbn. f_equal. rewrite (flat_mean H k Hk). ring. }
  rewrite sumn_zero. unfold nofnat. cbn [ndiv]. destruct (Req_EM_T (INR (M - d)) 0) as [E|E].
  - left. unfold infsgn. destruct (Rlt_dec 0 0); [lra|]. reflexivity.
  - right. unfold Rdiv. rewrite Rmult_0_l. cbn. destruct (Rlt_dec 0 0); [lra|]. now rewrite sqrt_0.
Qed.
Lemma dssn_flat d Y : (0 < M)%nat -> ~ spread M X -> dssn d M (Fin Y) x = NaN.
Proof.
  intros HM H. unfold dssn. destruct (sdn_flat d HM H) as [->| ->].
  - rewrite ndiv_NaN_r. reflexivity.
  - rewrite mean_real by auto. cbn. destruct (Rlt_dec 0 0); [lra|]. destruct (Req_EM_T 0 0); [|easy].
    cbn. unfold infsgn. destruct (Rlt_dec 0 (1 + 1)); [|lra]. repeat (destruct (Rlt_dec _ _)); reflexivity.
Qed.
Lemma essn_real E : (2 < M)%nat -> spread M X ->
  essn M (Fin E) x = Fin ((variance false M X - E² - E * sqrt (variance false M X) * skew_code M X)²).
Proof.
  intros HM H. pose proof (variance_pos false H) as P. pose proof (sqrt_lt_R0 _ P) as PS. unfold essn.
  change (sdn 1 M x) with (sdn (ddof false) M x); rewrite (sdn_real false) by lia. rewrite mean_real by lia.
  rewrite (nsumn_Fin M _ (fun k => ((X k - mean M X) / sqrt (variance false M X)) ^ 3)).
  2:{ intros k Hk. unfold x, ncube, nsub. cbn [nopp nadd ndiv]. destruct (Req_EM_T _ 0); [lra|]. cbn [nmul]. f_equal. unfold Rminus. ring. }
  assert (D : nofnat ((M - 1) * (M - 2)) = Fin ((INR M - 1) * (INR M - 2))).
  { unfold nofnat. rewrite mult_INR, !minus_INR by lia. simpl. try f_equal; try ring. }
  rewrite D. assert (2 < INR M) by (change 2 with (INR 2); apply lt_INR; lia).
  assert (Z : (INR M - 1) * (INR M - 2) <> 0) by (apply Rmult_integral_contrapositive_currified; lra).
  cbn. destruct (Req_EM_T _ 0) as [E0|_]; [now elim Z|]. cbn. f_equal.
  fold (cubes M X). unfold skew_code, Rsqr.
  replace (sqrt (variance false M X) * sqrt (variance false M X)) with (variance false M X) by (symmetry; apply sqrt_sqrt; lra).
  reflexivity.
Qed.
Lemma essn_flat e : (0 < M)%nat -> ~ spread M X -> essn M e x = NaN.
Proof.
  intros HM H. unfold essn. rewrite (nsumn_NaN M _ 0).
  - rewrite ndiv_NaN_l, nmul_NaN_r, nsub_NaN_r. reflexivity.
  - auto.
  - rewrite mean_real by auto. change (x 0%nat) with (Fin (X 0%nat)). rewrite (flat_mean H 0 HM).
    destruct (sdn_flat 1 HM H) as [->| ->]; [reflexivity|]. cbn. destruct (Req_EM_T 0 0); [|easy].
    unfold infsgn. destruct (Rlt_dec 0 _); [lra|]. destruct (Rlt_dec _ 0); [lra|]. reflexivity.
Qed.
(** two members: the cubes cancel and the code divides 0 by 0 *)
Lemma essn_two e : M = 2%nat -> essn M e x = NaN.
Proof.
  intros E. destruct (Req_EM_T (X 0%nat) (X 1%nat)) as [F|F].
  - apply essn_flat; [lia|]. intros (i & j & Hi & Hj & N). assert (i = 0 \/ i = 1)%nat as [->| ->] by lia;
      assert (j = 0 \/ j = 1)%nat as [->| ->] by lia; congruence.
  - assert (S : spread M X) by (exists 0%nat, 1%nat; repeat split; auto; lia).
    pose proof (variance_pos false S) as P. pose proof (sqrt_lt_R0 _ P) as PS. unfold essn. change (sdn 1 M x) with (sdn (ddof false) M x); rewrite (sdn_real false) by lia. rewrite mean_real by lia.
    rewrite (nsumn_Fin M _ (fun k => ((X k - mean M X) / sqrt (variance false M X)) ^ 3)).
    2:{ intros k Hk. unfold x, ncube, nsub. cbn [nopp nadd ndiv]. destruct (Req_EM_T _ 0); [lra|]. cbn [nmul]. f_equal. unfold Rminus. ring. }
    replace (sumn M _) with 0.
    2:{ set (q := sqrt _) in *. clearbody q. unfold mean. rewrite E, !sumn_S, !sumn_0. simpl. field. lra. }
    rewrite E. cbn. destruct (Req_EM_T 0 0); [|easy]. unfold infsgn. destruct (Rlt_dec 0 0); [lra|].
    rewrite nmul_NaN_r, nsub_NaN_r. reflexivity.
Qed.
Lemma err_mean Y : (0 < M)%nat -> nsumn M (fun k => x k .- Fin Y) ./ nofnat M = Fin (mean M X - Y).
Proof.
  intros H. rewrite (nsumn_Fin M _ (fun k => X k - Y)) by reflexivity. unfold nofnat. cbn.
  pose proof (INR_nz M H). destruct (Req_EM_T (INR M) 0); [easy|]. f_equal.
  rewrite sumn_minus, sumn_const. unfold mean. field. auto.
Qed.
End real.
