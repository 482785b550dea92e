(** [dssmv_ensemble] on real data. *)
From Verif Require Export L_dssmv S_mvnum.
From Coq Require Import Psatz Lia Classical.
Open Scope R_scope.

Section row.
Variables (bias : bool) (M D : nat) (y : nat -> R) (x : nat -> nat -> R).
Hypothesis HM : (2 <= M)%nat.
Let Y := rw D (fun k => Fin (y k)).
Let F := mrw M D (fun i k => Fin (x i k)).
Let C := mvcov bias M x.
Lemma column_rw a : (a < D)%nat -> column F a = rw M (fun i => Fin (x i a)).
Proof. intros Ha. unfold column, F, mrw, rw. rewrite map_map. apply map_ext. intros i. unfold ith. fold (rw D (fun k => Fin (x i k))). now rewrite rw_nth. Qed.
Lemma nmean_column a : (a < D)%nat -> nmean (column F a) = Fin (mvmean M x a).
Proof.
  intros Ha. rewrite column_rw by auto. unfold nmean. rewrite rw_length. change (nsum (rw M (fun i => Fin (x i a)))) with (nsumn M (fun i => Fin (x i a))).
  rewrite (nsumn_Fin M _ (fun i => x i a)) by reflexivity. unfold nofnat. rewrite ndiv_Fin; [reflexivity|]. apply not_0_INR; lia.
Qed.
Lemma ncov_real a b : (a < D)%nat -> (b < D)%nat -> ncov bias F a b = Fin (C a b).
Proof.
  intros Ha Hb. unfold ncov. rewrite !nmean_column by auto. unfold F at 1, mrw. rewrite map_map. 
  change (nsum (map (fun i => (ith (rw D (fun k => Fin (x i k))) a .- Fin (mvmean M x a)) .* (ith (rw D (fun k => Fin (x i k))) b .- Fin (mvmean M x b))) (seq 0 M))) with (nsumn M (fun i => (ith (rw D (fun k => Fin (x i k))) a .- Fin (mvmean M x a)) .* (ith (rw D (fun k => Fin (x i k))) b .- Fin (mvmean M x b)))).
  rewrite (nsumn_Fin M _ (fun i => (x i a - mvmean M x a) * (x i b - mvmean M x b))).
  2:{ intros i Hi. unfold ith. rewrite !rw_nth by auto. reflexivity. }
  unfold F. rewrite mrw_length. unfold nofnat. rewrite ndiv_Fin by (apply not_0_INR; destruct bias; lia). unfold C, mvcov. cbn [nmul]. f_equal.
  destruct bias; [rewrite Nat.sub_0_r|rewrite minus_INR by lia; simpl (INR 1)]; unfold Rdiv; ring.
Qed.
Lemma all_fin_real : all_fin D (ncov bias F) = true.
Proof.
  unfold all_fin. apply forallb_forall. intros a Ha. apply in_seq in Ha. apply forallb_forall. intros b Hb. apply in_seq in Hb. rewrite ncov_real by lia. reflexivity.
Qed.
Lemma real_of_cov : mat_eq D (fun a b => real_of (ncov bias F a b)) C.
Proof. intros a b Ha Hb. rewrite ncov_real by auto. reflexivity. Qed.
Lemma Rinvm_ext n A B : mat_eq n A B -> mat_eq n (Rinvm n A) (Rinvm n B).
Proof. intros H a b Ha Hb. unfold Rinvm. rewrite (Rdet_ext n A B H). f_equal. apply Rdet_ext. intros i j Hi Hj. destruct (i =? b)%nat; auto. Qed.
Lemma dss_mat_real bad : dss_mat bad bias Y F =
  if Req_EM_T (Rdet D C) 0 then Err LinAlgError else Ok (Fin (quad D (Rinvm D C) (fun k => y k - mvmean M x k)) .+ nlog (Fin (Rdet D C))).
Proof.
  assert (length Y = D) as EL by apply rw_length. unfold dss_mat. rewrite !EL. rewrite all_fin_real. rewrite (Rdet_ext D _ C real_of_cov). destruct (Req_EM_T (Rdet D C) 0); auto. f_equal. f_equal.
  match goal with |- nsum (map ?f (seq 0 D)) = _ => change (nsumn D f = Fin (quad D (Rinvm D C) (fun k => y k - mvmean M x k))) end.
  assert (forall a, (a < D)%nat -> ith Y a .- nmean (column F a) = Fin (y a - mvmean M x a)) as E. { intros a Ha. unfold ith, Y. rewrite rw_nth, nmean_column by auto. reflexivity. }
  rewrite (nsumn_Fin D _ (fun b => sumn D (fun a => (y a - mvmean M x a) * Rinvm D C a b * (y b - mvmean M x b)))).
  - unfold quad. now rewrite sumn_swap.
  - intros b Hb. cbv beta. rewrite E by auto. match goal with |- nsum (map ?f (seq 0 D)) .* _ = _ => assert (nsum (map f (seq 0 D)) = Fin (sumn D (fun a => (y a - mvmean M x a) * Rinvm D C a b))) as ->; [apply (nsumn_Fin D f)|] end.
    + intros a Ha. rewrite E by auto. cbn [nmul]. f_equal. f_equal. now apply (Rinvm_ext D _ C real_of_cov).
    + cbn [nmul]. f_equal. now rewrite sumn_scal_r.
Qed.
End row.

Definition rkern (b : impl) (bias : bool) : list num -> list (list num) -> res num :=
  match b with Array => ds_score_mv_mat bias | Numba => dss_mv_k bias end.
Lemma first_err_ok l : (forall k, In k l -> exists v, k = Ok v) -> first_err l = Ok tt.
Proof. induction l as [|k l IH]; intros H; auto. destruct (H k (or_introl eq_refl)) as [v ->]. simpl. apply IH. intros; apply H; now right. Qed.
Lemma first_err_in l e : (forall k, In k l -> k = Err e \/ exists v, k = Ok v) -> In (Err e) l -> first_err l = Err e.
Proof.
  induction l as [|k l IH]; intros H I; [easy|]. destruct (H k (or_introl eq_refl)) as [->|[v ->]]; auto. simpl. apply IH; [intros; apply H; now right|]. destruct I as [I|I]; [discriminate|auto].
Qed.
Lemma first_err_all l e : l <> [] -> (forall k, In k l -> k = Err e) -> first_err l = Err e.
Proof. destruct l as [|k l]; [easy|]. intros _ H. rewrite (H k (or_introl eq_refl)). reflexivity. Qed.

Section calls.
Variables (b : impl) (bias : bool) (obs fct : arr) (m v : Z) (s : list nat) (p q M D : nat) (y x : list nat -> R).
Hypothesis Ha : mv_args obs fct m v s p q M D y x.
Hypothesis HM : (0 < M)%nat.
Hypothesis HD : (0 < D)%nat.
Hypothesis Hfl : b = Numba -> dt obs = DFloat.
Hypothesis Hne : b = Array -> nonempty s.
Let yr r := rw D (fun k => Fin (obsv q y r k)).
Let xr r := mrw M D (fun i k => Fin (memv p q x r i k)).
Lemma dssmv_ok : (forall r, inb s r -> exists u, rkern b bias (yr r) (xr r) = Ok u) ->
  ten_is (dssmv_ensemble b obs fct m v bias) DFloat s (fun r => val_of (rkern b bias (yr r) (xr r))).
Proof.
  intros H. destruct (mv_check _ _ _ _ _ _ _ _ _ _ _ Ha) as (obs' & fct' & E & Ho & Hf).
  assert (forall r, inb s r -> gV obs' r = yr r) as EV. { intros r Hr. rewrite (gV_is _ _ _ _ _ _ Ho Hr). reflexivity. }
  assert (forall r, inb s r -> gM fct' r = xr r) as EM. { intros r Hr. rewrite (gM_is _ _ _ _ _ _ _ Hf Hr). reflexivity. }
  unfold dssmv_ensemble. rewrite E. cbn [bind]. destruct b; cbn [rkern] in *.
  - unfold ds_score_mv. pose proof Hf as (_ & Hs & _). rewrite Hs. destruct D as [|D']; [lia|]. destruct M as [|M']; [lia|]. cbn [Nat.eqb orb].
    rewrite (no_zero s (Hne eq_refl)). rewrite first_err_ok.
    + cbn [bind]. apply ten_Ok. repeat split; auto. intros r Hr. cbn [at_]. now rewrite EV, EM.
    + intros k Hk. apply in_map_iff in Hk. destruct Hk as (r & <- & Hr). apply inb_all_idx in Hr. destruct (H r Hr) as [u Hu]. exists u. now rewrite EV, EM.
  - specialize (Hfl eq_refl). rewrite Hfl in Ho. unfold gcore1, gcore2. pose proof Ho as (_ & Hs & _). pose proof Hf as (_ & Hs' & _). rewrite Hs, Hs'. cbn [bind].
    rewrite (gloop_same s) by (repeat constructor; easy). cbn [bind]. rewrite first_err_ok.
    + cbn [bind]. eapply ten_ext; [eapply gu_vm_is; eauto using outs_lazy_mv|]. intros r Hr. reflexivity.
    + intros k Hk. apply in_map_iff in Hk. destruct Hk as (r & <- & Hr). apply inb_all_idx in Hr. destruct (H r Hr) as [u Hu]. exists u. now rewrite EV, EM.
Qed.
Lemma dssmv_err e : nonempty s -> (forall r, inb s r -> rkern b bias (yr r) (xr r) = Err e \/ exists u, rkern b bias (yr r) (xr r) = Ok u) -> (exists r, inb s r /\ rkern b bias (yr r) (xr r) = Err e) ->
  raises (dssmv_ensemble b obs fct m v bias) e.
Proof.
  intros Hs0 H (r0 & Hr0 & H0). destruct (mv_check _ _ _ _ _ _ _ _ _ _ _ Ha) as (obs' & fct' & E & Ho & Hf).
  assert (forall r, inb s r -> gV obs' r = yr r) as EV. { intros r Hr. rewrite (gV_is _ _ _ _ _ _ Ho Hr). reflexivity. }
  assert (forall r, inb s r -> gM fct' r = xr r) as EM. { intros r Hr. rewrite (gM_is _ _ _ _ _ _ _ Hf Hr). reflexivity. }
  unfold raises, dssmv_ensemble. rewrite E. cbn [bind]. destruct b; cbn [rkern] in *.
  - unfold ds_score_mv. pose proof Hf as (_ & Hs & _). rewrite Hs. destruct D as [|D']; [lia|]. destruct M as [|M']; [lia|]. cbn [Nat.eqb orb].
    rewrite (no_zero s (Hne eq_refl)). rewrite (first_err_in _ e); [reflexivity| |].
    + intros k Hk. apply in_map_iff in Hk. destruct Hk as (r & <- & Hr). apply inb_all_idx in Hr. rewrite EV, EM by auto. now apply H.
    + apply in_map_iff. exists r0. split; [now rewrite EV, EM|now apply inb_all_idx].
  - specialize (Hfl eq_refl). rewrite Hfl in Ho. unfold gcore1, gcore2. pose proof Ho as (_ & Hs & _). pose proof Hf as (_ & Hs' & _). rewrite Hs, Hs'. cbn [bind].
    rewrite (gloop_same s) by (repeat constructor; easy). cbn [bind]. rewrite (first_err_in _ e); [reflexivity| |].
    + intros k Hk. apply in_map_iff in Hk. destruct Hk as (r & <- & Hr). apply inb_all_idx in Hr. rewrite EV, EM by auto. now apply H.
    + apply in_map_iff. exists r0. split; [now rewrite EV, EM|now apply inb_all_idx].
Qed.
Lemma nonempty_idx : nonempty s -> exists r, inb s r.
Proof.
  intros H. exists (map (fun _ => O) s). clear - H. induction s as [|d l IH]; [exact I|]. split; [destruct d; [exfalso; apply H; now left|lia]|]. apply IH. intros K. apply H. now right.
Qed.
Hypothesis HM2 : (2 <= M)%nat.
Hypothesis HD2 : b = Array -> (2 <= D)%nat.
Let Cv r := mvcov bias M (memv p q x r).
Lemma rkern_real r : rkern b bias (yr r) (xr r) =
  if Req_EM_T (Rdet D (Cv r)) 0 then Err LinAlgError else Ok (Fin (quad D (Rinvm D (Cv r)) (fun k => obsv q y r k - mvmean M (memv p q x r) k)) .+ nlog (Fin (Rdet D (Cv r)))).
Proof.
  unfold rkern. destruct b.
  - unfold ds_score_mv_mat. unfold yr at 1. rewrite rw_length. specialize (HD2 eq_refl). destruct (Nat.eqb_spec D 1); [lia|]. unfold yr, xr. now rewrite dss_mat_real.
  - unfold dss_mv_k. unfold xr at 1. rewrite mrw_length. destruct (Nat.eqb_spec M 1); [lia|]. unfold yr, xr. now rewrite dss_mat_real.
Qed.
Lemma dssmv_value P : (forall r, inb s r -> is_inverse D (Cv r) (P r)) ->
  ten_is (dssmv_ensemble b obs fct m v bias) DFloat s (fun r => Fin (mvds_score D (mvmean M (memv p q x r)) (P r) (Rdet D (Cv r)) (obsv q y r))) /\
  forall r, inb s r -> 0 < Rdet D (Cv r).
Proof.
  intros HP. assert (forall r, inb s r -> 0 < Rdet D (Cv r)) as Pd. { intros r Hr. apply pd_det. apply (cov_pd bias M D (memv p q x r) HM2 (P r)). now apply HP. }
  split; auto. eapply ten_ext; [apply dssmv_ok|].
  - intros r Hr. rewrite rkern_real. destruct (Req_EM_T (Rdet D (Cv r)) 0); [specialize (Pd r Hr); lra|]. eauto.
  - intros r Hr. cbv beta. rewrite rkern_real. pose proof (Pd r Hr) as Pr. destruct (Req_EM_T (Rdet D (Cv r)) 0) as [E|N]; [lra|]. cbn [val_of]. unfold nlog. destruct (Rlt_dec 0 (Rdet D (Cv r))); [|lra]. cbn [nadd]. f_equal. unfold mvds_score. f_equal.
    apply quad_ext; auto. apply (inverse_unique D (Cv r)); [now apply Rinvm_right|auto].
Qed.
Lemma dssmv_singular r : nonempty s -> inb s r -> Rdet D (Cv r) = 0 -> raises (dssmv_ensemble b obs fct m v bias) LinAlgError.
Proof.
  intros Hs Hr E. apply dssmv_err; auto.
  - intros r' Hr'. rewrite rkern_real. destruct (Req_EM_T (Rdet D (Cv r')) 0); eauto.
  - exists r. split; auto. rewrite rkern_real. destruct (Req_EM_T (Rdet D (Cv r)) 0); [auto|lra].
Qed.
End calls.
Lemma dssmv_one bias obs fct m v s p q M y x : mv_args obs fct m v s p q M 1 y x -> (0 < M)%nat -> nonempty s ->
  raises (dssmv_ensemble Array obs fct m v bias) LinAlgError.
Proof.
  intros Ha HM Hs. destruct (nonempty_idx s Hs) as [r Hr]. apply (dssmv_err Array bias obs fct m v s p q M 1 y x Ha HM); auto; try (intros; discriminate); try lia.
  exists r. split; auto.
Qed.
(** NaN members *)
Lemma ncov_nan bias M D x i k : (i < M)%nat -> (k < D)%nat -> x i k = NaN -> ncov bias (mrw M D x) k k = NaN.
Proof.
  intros Hi Hk E. unfold ncov. 
  assert (nsum (map (fun x0 => (ith x0 k .- nmean (column (mrw M D x) k)) .* (ith x0 k .- nmean (column (mrw M D x) k))) (mrw M D x)) = NaN) as ->; [|reflexivity].
  unfold mrw at 3. rewrite map_map. apply (nsumn_NaN M _ i Hi). unfold ith. rewrite rw_nth by auto. rewrite E. reflexivity.
Qed.
Lemma all_fin_nan bias M D x i k : (i < M)%nat -> (k < D)%nat -> x i k = NaN -> all_fin D (ncov bias (mrw M D x)) = false.
Proof.
  intros Hi Hk E. apply not_true_iff_false. intros K. unfold all_fin in K. rewrite forallb_forall in K. specialize (K k ltac:(apply in_seq; lia)). rewrite forallb_forall in K. specialize (K k ltac:(apply in_seq; lia)). rewrite (ncov_nan bias M D x i k Hi Hk E) in K. discriminate.
Qed.
Lemma dssmv_nan obs fct m v p q M D y x bias i k :
  mv_nums obs fct m v [] p q M D y x -> (2 <= M)%nat -> (2 <= D)%nat -> dt obs = DFloat ->
  (i < M)%nat -> (k < D)%nat -> x (insert_at p i (insert_at q k [])) = NaN ->
  ten_is (dssmv_ensemble Array obs fct m v bias) DFloat [] (fun _ => NaN) /\
  raises (dssmv_ensemble Numba obs fct m v bias) LinAlgError.
Proof.
  intros (H1 & H2 & H3 & H4 & H5 & H6) HM HD Hf Hi Hk E.
  destruct (mv_check_ok obs fct (dt obs) (dt fct) m v [] p q M D y x) as (o & f & Ec & Ho & Hfc); auto; [split; [reflexivity|exact H1]|split; [reflexivity|exact H2]|].
  unfold dssmv_ensemble, raises. rewrite Ec. cbn [bind]. pose proof (gV_is _ _ _ _ _ [] Ho I) as EV. pose proof (gM_is _ _ _ _ _ _ [] Hfc I) as EM.
  assert (length (gV o []) = D) as L1 by (rewrite EV; apply rw_length). assert (length (gM f []) = M) as L2 by (rewrite EM; apply mrw_length).
  assert (forall bad, dss_mat bad bias (gV o []) (gM f []) = bad) as ED.
  { intros bad. unfold dss_mat. rewrite L1, EM. erewrite all_fin_nan; [reflexivity|exact Hi|exact Hk|exact E]. }
  split.
  - unfold ds_score_mv. pose proof Hfc as (_ & Hs & _). rewrite Hs. destruct (Nat.eqb_spec D 0); [lia|]. destruct (Nat.eqb_spec M 0); [lia|]. cbn [existsb orb all_idx map]. unfold ds_score_mv_mat. rewrite L1. destruct (Nat.eqb_spec D 1); [lia|]. rewrite ED. cbn [first_err bind].
    apply ten_Ok. repeat split. intros r Hr. destruct r; [|destruct Hr]. cbn [at_]. rewrite L1. destruct (Nat.eqb_spec D 1); [lia|]. now rewrite ED.
  - unfold gcore1, gcore2. pose proof Ho as (_ & Hs & _). pose proof Hfc as (_ & Hs' & _). rewrite Hs, Hs'. cbn [bind]. rewrite (gloop_same []) by (repeat constructor; easy). cbn [bind all_idx map]. unfold dss_mv_k. rewrite L2. destruct (Nat.eqb_spec M 1); [lia|]. rewrite ED. reflexivity.
Qed.
