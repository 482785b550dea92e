(** Proofs about the parameters of the parametric scores (statements in P_pvalid.v). *)
From Verif Require Export L_closed.
From Coq Require Import Psatz.
Open Scope R_scope.
Lemma tb_ok T s i x L : tb T s i x L -> exists a, T = Ok a.
Proof. intros (a & E & _). eauto. Qed.
Ltac succeeds P := let S0 := lazymatch type of P with params ?s _ => s end in eapply (tb_ok _ S0 (@nil nat)); tb_args P (@nil nat); tbs.

Lemma C43_crps_gamma_l :
forall (obs shape : arr) (rate scale : option arr),
  (forall p, rate = Some p \/ scale = Some p -> broadcast [obs; shape; p]%list) ->
  (crps_gamma obs shape rate scale = Err ValueError <-> ~ one_of rate scale).
Proof.
intros obs shape rate scale H. split; intros X.
- intros O. destruct rate as [r|], scale as [c|]; try (destruct O as [[? ?]|[? ?]]; congruence).
  + destruct (H r) as (s & Hs); auto. pose proof (params_of _ _ Hs) as P; cbn [map] in P.
    assert (exists a, crps_gamma obs shape (Some r) None = Ok a) as (a & E) by (unfold crps_gamma; succeeds P). congruence.
  + destruct (H c) as (s & Hs); auto. pose proof (params_of _ _ Hs) as P; cbn [map] in P.
    assert (exists a, crps_gamma obs shape None (Some c) = Ok a) as (a & E) by (unfold crps_gamma; succeeds P). congruence.
- destruct rate as [r|], scale as [c|]; try reflexivity; exfalso; apply X; [right|left]; split; congruence.
Qed.
Lemma C43_crps_csg0_l :
forall (obs shape shift : arr) (rate scale : option arr),
  (forall p, rate = Some p \/ scale = Some p -> broadcast [obs; shape; shift; p]%list) ->
  (crps_csg0 obs shape rate scale shift = Err ValueError <-> ~ one_of rate scale).
Proof.
intros obs shape shift rate scale H. split; intros X.
- intros O. destruct rate as [r|], scale as [c|]; try (destruct O as [[? ?]|[? ?]]; congruence).
  + destruct (H r) as (s & Hs); auto. pose proof (params_of _ _ Hs) as P; cbn [map] in P.
    assert (exists a, crps_csg0 obs shape (Some r) None shift = Ok a) as (a & E) by (unfold crps_csg0; succeeds P). congruence.
  + destruct (H c) as (s & Hs); auto. pose proof (params_of _ _ Hs) as P; cbn [map] in P.
    assert (exists a, crps_csg0 obs shape None (Some c) shift = Ok a) as (a & E) by (unfold crps_csg0; succeeds P). congruence.
- destruct rate as [r|], scale as [c|]; try reflexivity; exfalso; apply X; [right|left]; split; congruence.
Qed.
Lemma C43_logs_gamma_l :
forall (obs shape : arr) (rate scale : option arr),
  (forall p, rate = Some p \/ scale = Some p -> broadcast [obs; shape; p]%list) ->
  (logs_gamma obs shape rate scale = Err ValueError <-> ~ one_of rate scale).
Proof.
intros obs shape rate scale H. split; intros X.
- intros O. destruct rate as [r|], scale as [c|]; try (destruct O as [[? ?]|[? ?]]; congruence).
  + destruct (H r) as (s & Hs); auto. pose proof (params_of _ _ Hs) as P; cbn [map] in P.
    assert (exists a, logs_gamma obs shape (Some r) None = Ok a) as (a & E) by (unfold logs_gamma; succeeds P). congruence.
  + destruct (H c) as (s & Hs); auto. pose proof (params_of _ _ Hs) as P; cbn [map] in P.
    assert (exists a, logs_gamma obs shape None (Some c) = Ok a) as (a & E) by (unfold logs_gamma; succeeds P). congruence.
- destruct rate as [r|], scale as [c|]; try reflexivity; exfalso; apply X; [right|left]; split; congruence.
Qed.
Lemma C43_crps_negbinom_l :
forall (obs n : arr) (prob mu : option arr),
  (forall p, prob = Some p \/ mu = Some p -> broadcast [obs; n; p]%list) ->
  (crps_negbinom obs n prob mu = Err ValueError <-> ~ one_of prob mu).
Proof.
intros obs n prob mu H. split; intros X.
- intros O. destruct prob as [r|], mu as [c|]; try (destruct O as [[? ?]|[? ?]]; congruence).
  + destruct (H r) as (s & Hs); auto. pose proof (params_of _ _ Hs) as P; cbn [map] in P.
    assert (exists a, crps_negbinom obs n (Some r) None = Ok a) as (a & E) by (unfold crps_negbinom; succeeds P). congruence.
  + destruct (H c) as (s & Hs); auto. pose proof (params_of _ _ Hs) as P; cbn [map] in P.
    assert (exists a, crps_negbinom obs n None (Some c) = Ok a) as (a & E) by (unfold crps_negbinom; succeeds P). congruence.
- destruct prob as [r|], mu as [c|]; try reflexivity; exfalso; apply X; [right|left]; split; congruence.
Qed.
Lemma C43_logs_negbinom_l :
forall (obs n : arr) (prob mu : option arr),
  (forall p, prob = Some p \/ mu = Some p -> broadcast [obs; n; p]%list) ->
  (logs_negbinom obs n prob mu = Err ValueError <-> ~ one_of prob mu).
Proof.
intros obs n prob mu H. split; intros X.
- intros O. destruct prob as [r|], mu as [c|]; try (destruct O as [[? ?]|[? ?]]; congruence).
  + destruct (H r) as (s & Hs); auto. pose proof (params_of _ _ Hs) as P; cbn [map] in P.
    assert (exists a, logs_negbinom obs n (Some r) None = Ok a) as (a & E) by (unfold logs_negbinom; succeeds P). congruence.
  + destruct (H c) as (s & Hs); auto. pose proof (params_of _ _ Hs) as P; cbn [map] in P.
    assert (exists a, logs_negbinom obs n None (Some c) = Ok a) as (a & E) by (unfold logs_negbinom; succeeds P). congruence.
- destruct prob as [r|], mu as [c|]; try reflexivity; exfalso; apply X; [right|left]; split; congruence.
Qed.
Lemma C43_gamma_scale_l :
forall (obs shape shift rate scale : arr) (s : list nat) (y a d : list nat -> num) (r c : list nat -> R),
  params s [(obs, y); (shape, a); (rate, fins r)]%list -> params s [(obs, y); (shape, a); (scale, fins c)]%list ->
  params s [(obs, y); (shape, a); (shift, d); (rate, fins r)]%list -> params s [(obs, y); (shape, a); (shift, d); (scale, fins c)]%list ->
  (forall i, inb s i -> c i <> 0 /\ r i = 1 / c i) ->
  (exists f, returns (crps_gamma obs shape (Some rate) None) s f /\ returns (crps_gamma obs shape None (Some scale)) s f) /\
  (exists f, returns (logs_gamma obs shape (Some rate) None) s f /\ returns (logs_gamma obs shape None (Some scale)) s f) /\
  (exists f, returns (crps_csg0 obs shape (Some rate) None shift) s f /\ returns (crps_csg0 obs shape None (Some scale) shift) s f).
Proof.
intros obs shape shift rate scale s y a d r c P1 P2 P3 P4 Hc.
assert (forall i, inb s i -> ndiv (Fin 1) (fins c i) = fins r i) as E.
{ intros i Hi. unfold fins. destruct (Hc i Hi) as [Hn ->]. now apply ndiv_Fin. }
split; [|split]; eexists (fun i => _); split.
- unfold crps_gamma. ret P1. reflexivity.
- unfold crps_gamma. ret P2. rewrite (E i Hi). reflexivity.
- unfold logs_gamma. ret P1. reflexivity.
- unfold logs_gamma. ret P2. rewrite (E i Hi). reflexivity.
- unfold crps_csg0. ret P3. reflexivity.
- unfold crps_csg0. ret P4. rewrite (E i Hi). reflexivity.
Qed.
Lemma C43_negbinom_mean_l :
forall (obs n prob mu : arr) (s : list nat) (y : list nat -> num) (k p m : list nat -> R),
  params s [(obs, y); (n, fins k); (prob, fins p)]%list -> params s [(obs, y); (n, fins k); (mu, fins m)]%list ->
  (forall i, inb s i -> 0 < k i /\ 0 < p i /\ m i = k i * (1 - p i) / p i) ->
  (exists f, returns (crps_negbinom obs n (Some prob) None) s f /\ returns (crps_negbinom obs n None (Some mu)) s f) /\
  (exists f, returns (logs_negbinom obs n (Some prob) None) s f /\ returns (logs_negbinom obs n None (Some mu)) s f).
Proof.
intros obs n prob mu s y k p m P1 P2 Hc.
assert (forall i, inb s i -> ndiv (fins k i) (nadd (fins k i) (fins m i)) = fins p i) as E.
{ intros i Hi. unfold fins. destruct (Hc i Hi) as (Hk & Hp & ->). cbn [nadd].
  assert (k i + k i * (1 - p i) / p i = k i / p i) as -> by (field; lra).
  assert (k i / p i <> 0) by (apply Rgt_not_eq; apply Rdiv_lt_0_compat; lra).
  rewrite ndiv_Fin by assumption. f_equal. field. lra. }
split; eexists (fun i => _); split.
- unfold crps_negbinom. ret P1. reflexivity.
- unfold crps_negbinom. ret P2. rewrite (E i Hi). reflexivity.
- unfold logs_negbinom. ret P1. reflexivity.
- unfold logs_negbinom. ret P2. rewrite (E i Hi). reflexivity.
Qed.
Lemma C43_crps_beta_l :
forall (obs a b lower upper : arr) (s : list nat) (l u : list nat -> num),
  broadcast [obs; a; b; lower; upper]%list -> params s [(lower, l); (upper, u)]%list ->
  (crps_beta obs a b lower upper = Err ValueError <-> exists i, inb s i /\ nleb (u i) (l i) = true).
Proof.
intros obs a b lower upper s l u (t & Ht) P. pose proof (params_of _ _ Ht) as Q; cbn [map] in Q. clear Ht.
assert (forall T : tensor, (forall i, exists x L, tb T t i x L) -> T <> Err ValueError) as NE.
{ intros T H E. destruct (H []) as (x & L & c & E' & _). congruence. }
assert (forall i, tb (Ok lower) s i (l i) (sh lower :: nil)) as TL by (intros i; apply (params_tb s _ lower l i P); simpl; tauto).
assert (forall i, tb (Ok upper) s i (u i) (sh upper :: nil)) as TU by (intros i; apply (params_tb s _ upper u i P); simpl; tauto).
unfold crps_beta.
destruct (_is_scalar_value lower 0 && _is_scalar_value upper 1) eqn:E.
- apply andb_true_iff in E as [E1 E2]. cbn [bind]. split.
  + intros X. exfalso. revert X. apply NE. intros i. do 2 eexists. tb_args Q i. tbs.
  + intros (i & Hi & C). exfalso.
    destruct (TL i) as (c & Ec & Bc & Hc & _). injection Ec as <-.
    destruct (TU i) as (d & Ed & Bd & Hd & _). injection Ed as <-.
    rewrite (scalar_value _ _ _ _ E1 Bc Hi) in Hc. rewrite (scalar_value _ _ _ _ E2 Bd Hi) in Hd.
    rewrite <- Hc, <- Hd in C by auto. simpl in C. unfold rleb in C. destruct (Rle_dec 1 0); [lra|discriminate].
- assert (returns (age (Ok lower) (Ok upper)) s (fun i => b2n (nleb (u i) (l i)))) as (dd & c & Ec & _ & Sc & Vc).
  { ret P. reflexivity. }
  rewrite Ec. unfold aany. cbn [bind]. rewrite Sc.
  destruct (existsb (fun i => negb (neqb (at_ c i) (Fin 0))) (all_idx s)) eqn:X.
  + split; [|auto]. intros _. apply existsb_exists in X as (i & Hi & C). apply inb_all_idx in Hi. exists i. split; auto.
    rewrite Vc in C by auto. destruct (nleb (u i) (l i)); auto. simpl in C. unfold reqb in C. destruct (Req_EM_T 0 0); [discriminate|lra].
  + split.
    * intros Y. exfalso. revert Y. apply NE. intros i. do 2 eexists. tb_args Q i. tbs.
    * intros (i & Hi & C). exfalso. rewrite <- not_true_iff_false in X. apply X. apply existsb_exists. exists i. split; [now apply inb_all_idx|].
      rewrite Vc, C by auto. simpl. unfold reqb. destruct (Req_EM_T 1 0); [lra|reflexivity].
Qed.
Lemma C43_gpd_nan_l :
forall (obs shape location scale mass : arr) (s : list nat) (y l c : list nat -> num) (xi m : list nat -> R),
  params s [(obs, y); (shape, fins xi); (location, l); (scale, c); (mass, fins m)]%list ->
  exists f, returns (crps_gpd obs shape location scale mass) s f /\
    forall i, inb s i -> 1 <= xi i \/ m i < 0 \/ 1 < m i -> f i = NaN.
Proof.
intros obs shape location scale mass s y l c xi m P. eexists (fun i => _). split; [ret P; reflexivity|].
intros i Hi H. cbv beta.
assert (forall x, nmul x NaN = NaN) as M1 by (intros []; reflexivity). assert (forall x, nmul NaN x = NaN) as M2 by (intros []; reflexivity).
assert (forall x, nadd x NaN = NaN) as A1 by (intros []; reflexivity). assert (forall x, nadd NaN x = NaN) as A2 by (intros []; reflexivity).
assert (forall x, nsub x NaN = NaN) as S1 by (intros []; reflexivity). assert (forall x, nsub NaN x = NaN) as S2 by (intros []; reflexivity).
assert (forall x, ndiv x NaN = NaN) as D1 by (intros []; reflexivity). assert (forall x, ndiv NaN x = NaN) as D2 by (intros []; reflexivity).
assert (xi i < 1 \/ (if neqb (b2n (nltb (fins xi i) (Fin 1))) (Fin 0) then NaN else fins xi i) = NaN) as [Hx|Hx].
{ destruct (Rlt_dec (xi i) 1) as [|n]; [left; auto|right]. unfold fins. simpl. unfold rltb. destruct (Rlt_dec (xi i) 1); [lra|]. simpl. unfold reqb. destruct (Req_EM_T 0 0); [reflexivity|lra]. }
- assert ((if neqb (nmul (b2n (nleb (Fin 0) (fins m i))) (b2n (nleb (fins m i) (Fin 1)))) (Fin 0) then NaN else fins m i) = NaN) as ->.
  { unfold fins. simpl. unfold rleb. destruct (Rle_dec 0 (m i)), (Rle_dec (m i) 1); try lra; simpl; unfold reqb; destruct (Req_EM_T _ 0); try reflexivity; lra. }
  repeat rewrite ?S1, ?M1, ?M2, ?D2, ?D1, ?A2, ?A1, ?S2. reflexivity.
- rewrite Hx. repeat rewrite ?S1, ?M1, ?M2, ?D2, ?D1, ?A2, ?A1, ?S2. reflexivity.
Qed.
Lemma C43_negative_scale_refuted_l :
exists obs location scale : arr, at_ scale []%list = Fin (-1) /\
  exists v, returns (crps_laplace obs location scale) []%list (fun _ => Fin v) /\ v < 0.
Proof.
exists (num0 (Fin 0)), (num0 (Fin 0)), (num0 (Fin (-1))). split; [reflexivity|]. exists (-1 / 4). split; [|lra].
assert (params []%list [(num0 (Fin 0), fun _ => Fin 0); (num0 (Fin 0), fun _ => Fin 0); (num0 (Fin (-1)), fun _ => Fin (-1))]%list) as P by (split; [reflexivity|repeat constructor]).
ret P. fin; [lra|lra|]. replace ((0 - 0) / -1) with 0 by field. rewrite Rabs_R0, Ropp_0, exp_0. lra.
Qed.
Lemma C43_exponentialM_scalar_obs_refuted_l :
exists obs mass location scale : arr, broadcast [obs; mass; location; scale]%list /\
  crps_exponentialM obs mass location scale = Err ValueError /\ exists a, crps_2pexponential obs scale scale location = Ok a.
Proof.
exists (farr [] (fun _ => 1)), (farr [] (fun _ => 0)), (real1 2 (fun k => INR k)), (farr [] (fun _ => 1)).
split; [eexists; reflexivity|]. split; [reflexivity|]. eexists; reflexivity.
Qed.
Lemma C43_exponentialM_integer_refuted_l :
exists obs obsf mass location scale : arr, dt obs = DInt /\ dt obsf = DFloat /\ sh obs = sh obsf /\
  (forall i, at_ obs i = at_ obsf i) /\ crps_exponentialM obs mass location scale = Err TypeError /\
  exists a, crps_exponentialM obsf mass location scale = Ok a.
Proof.
exists (mkArr DInt [2%nat]%list (fun i => Fin (INR (hd 0%nat i)))), (real1 2 INR), (farr [] (fun _ => 0)), (farr [] (fun _ => 1 / 2)), (farr [] (fun _ => 1)).
assert (_is_scalar_value (farr [] (fun _ => 1 / 2)) 0 = false) as E.
{ unfold _is_scalar_value. simpl. unfold reqb. destruct (Req_EM_T (1 / 2) 0); [lra|reflexivity]. }
repeat split; unfold crps_exponentialM, crps_exponentialM_mem; rewrite E; cbn.
- reflexivity.
- unfold _is_scalar_value. simpl. unfold reqb. destruct (Req_EM_T 0 0); [|lra]. destruct (Req_EM_T 1 1); [|lra]. eexists; reflexivity.
Qed.
Lemma C44_exponentialM_after_l :
forall (obs mass location scale : arr) (s : list nat) (y l : list nat -> R) (m c : list nat -> num),
  dt obs = DFloat -> sh obs = s ->
  params s [(obs, fins y); (mass, m); (location, fins l); (scale, c)]%list ->
  real_arr (snd (crps_exponentialM_mem obs mass location scale)) s (fun i => y i - l i).
Proof.
intros obs mass location scale s y l m c Hd Hs P. destruct (exponentialM_after _ _ _ _ _ _ _ _ _ P Hd Hs) as (o & -> & O1 & O2 & O3 & _). split; auto.
Qed.
Lemma C44_exponentialM_refuted_l :
exists obs mass location scale : arr, let obs' := snd (crps_exponentialM_mem obs mass location scale) in
  at_ obs (0%nat :: nil)%list <> at_ obs' (0%nat :: nil)%list /\
  exists v v', returns (crps_exponentialM obs mass location scale) (1%nat :: nil)%list (fun _ => Fin v) /\
    returns (crps_exponentialM obs' mass location scale) (1%nat :: nil)%list (fun _ => Fin v') /\ v <> v'.
Proof.
exists (farr (1%nat :: nil)%list (fun _ => 2)), (farr nil (fun _ => 0)), (farr nil (fun _ => 1)), (farr nil (fun _ => 2)). cbv zeta.
assert (params (1%nat :: nil)%list [(farr (1%nat :: nil)%list (fun _ => 2), fins (fun _ => 2)); (farr nil (fun _ => 0), fins (fun _ => 0)); (farr nil (fun _ => 1), fins (fun _ => 1)); (farr nil (fun _ => 2), fins (fun _ => 2))]%list) as P
  by (split; [reflexivity|repeat constructor]).
destruct (exponentialM_after _ _ _ _ _ _ _ _ _ P eq_refl eq_refl) as (o & -> & O1 & O2 & O3 & _).
split.
- rewrite (O3 (0%nat :: nil)%list) by (simpl; auto). simpl. intros X. injection X. lra.
- exists (1 - 2 * (1 - 0) * (2 * Rmax (1 - exp (- (1 / 2))) 0 - 1 / 2 * (1 - 0))), 1. split; [|split].
  + eapply returns_eq; [apply (exponentialM_value _ _ _ _ _ _ _ _ _ P eq_refl eq_refl); intros; lra|]. intros i Hi. cbv beta zeta.
    replace (2 - 1) with 1 by ring. rewrite Rabs_R1. reflexivity.
  + assert (params (1%nat :: nil)%list [(o, fins (fun _ => 1)); (farr nil (fun _ => 0), fins (fun _ => 0)); (farr nil (fun _ => 1), fins (fun _ => 1)); (farr nil (fun _ => 2), fins (fun _ => 2))]%list) as P'.
    { split; [simpl; rewrite O2; reflexivity|]. repeat constructor. intros i Hi. simpl. rewrite O2, bidx_id, O3 by auto. unfold fins. f_equal. ring. }
    eapply returns_eq; [apply (exponentialM_value _ _ _ _ _ _ _ _ _ P' O1 O2); intros; lra|]. intros i Hi. cbv beta zeta.
    replace (1 - 1) with 0 by ring. rewrite Rabs_R0. replace (- (0 / 2)) with 0 by field. rewrite exp_0. rewrite Rmax_right by lra. f_equal. lra.
  + pose proof (exp_ineq1 (1 / 2) ltac:(lra)) as G. rewrite exp_Ropp. set (e := exp (1 / 2)) in *.
    assert (0 < / e < 1) as [I1 I2]. { split; [apply Rinv_0_lt_compat; lra|]. rewrite <- Rinv_1. apply Rinv_lt_contravar; lra. }
    rewrite Rmax_left by lra. intros X. assert (/ e = 3 / 4) as Y by lra.
    assert (e = 4 / 3) as Z by (rewrite <- (Rinv_inv e), Y; field). lra.
Qed.
Lemma C44_logs_exponential2_after_l :
forall (obs location scale : arr) (s : list nat) (y l : list nat -> R) (c : list nat -> num),
  dt obs = DFloat -> sh obs = s -> params s [(obs, fins y); (location, fins l); (scale, c)]%list ->
  real_arr (snd (logs_exponential2_mem obs location scale)) s (fun i => y i - l i).
Proof.
intros obs location scale s y l c Hd Hs P. destruct (exponential2_after _ _ _ _ _ _ _ P Hd Hs) as (o & -> & O1 & O2 & O3 & _). split; auto.
Qed.
Lemma C44_logs_exponential2_refuted_l :
exists obs location scale : arr,
  at_ obs (0%nat :: nil)%list <> at_ (snd (logs_exponential2_mem obs location scale)) (0%nat :: nil)%list /\
  exists a, logs_exponential2 obs location scale = Ok a.
Proof.
exists (farr (1%nat :: nil)%list (fun _ => 2)), (farr nil (fun _ => 1)), (farr nil (fun _ => 2)).
assert (params (1%nat :: nil)%list [(farr (1%nat :: nil)%list (fun _ => 2), fins (fun _ => 2)); (farr nil (fun _ => 1), fins (fun _ => 1)); (farr nil (fun _ => 2), fins (fun _ => 2))]%list) as P
  by (split; [reflexivity|repeat constructor]).
destruct (exponential2_after _ _ _ _ _ _ _ P eq_refl eq_refl) as (o & -> & O1 & O2 & O3 & E). split.
- rewrite (O3 (0%nat :: nil)%list) by (simpl; auto). simpl. intros X. injection X. lra.
- unfold logs_exponential2. rewrite E. pose proof (tb_full o (1%nat :: nil)%list []%list (at_ o []%list) O2 ltac:(auto)).
  succeeds P.
Qed.
