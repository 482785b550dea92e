(** [vs_ensemble] and its weighted variants on real data. *)
From Verif Require Export L_vario L_energy_api L_kscore.
Open Scope R_scope.

(** ** the pair weights *)
Definition hw_ok (hw : arr) (s : list nat) (D : nat) (h : list nat -> nat -> nat -> R) : Prop :=
  exists sw hf, bshape s sw = Some s /\ bshape sw s = Some s /\ (forall r, inb s r -> inb sw (bidx sw r)) /\
    arr_is hw (dt hw) (D :: D :: sw) (fun i => Fin (hf i)) /\
    (forall r i j, inb s r -> (i < D)%nat -> (j < D)%nat -> hf (j :: i :: bidx sw r) = h r i j).
Lemma vs_weights_ok w s D h obs fct M : pair_wts w s D h -> sh obs = D :: s -> sh fct = D :: M :: s ->
  hw_ok (vs_weights obs fct w) s D h.
Proof.
  intros Hw Ho Hf. destruct w as [w|]; cbn [vs_weights pair_wts] in *.
  - destruct Hw as (f & [(Hr & Hv)|(Hr & Hv)]).
    + exists s, f. repeat split; try apply bshape_refl; try apply Hr.
      * intros r Hr'. now rewrite bidx_id.
      * intros r i j Hr' _ _. now rewrite Hv, bidx_id.
    + exists [], f. repeat split; try apply bshape_nil_r; try apply bshape_nil_l; try apply Hr; auto.
  - exists s, (fun _ => 1). rewrite Ho, Hf. cbn [hd]. repeat split; try apply bshape_refl; auto.
    intros r Hr'. now rewrite bidx_id.
Qed.

(** ** gufunc calls *)
Section gu.
Variables (s : list nat) (D M : nat) (obs fct hw : arr) (d2 : dtype) (y x : list nat -> num)
  (h : list nat -> nat -> nat -> R).
Hypothesis HD : (0 < D)%nat.
Hypothesis Ho : arr_is obs DFloat (D :: s) y.
Hypothesis Hf : arr_is fct d2 (D :: M :: s) x.
Hypothesis Hh : hw_ok hw s D h.
Lemma gu_core_ok : exists sw, gu_core obs fct hw = Ok (M, [s; s; sw]) /\ bshape s sw = Some s /\
  bshape sw s = Some s.
Proof.
  destruct Hh as (sw & hf & B1 & B2 & _ & Hw & _). exists sw. split; [|auto].
  unfold gu_core, gcore1, gcore2.
  destruct Ho as (_ & -> & _), Hf as (_ & -> & _), Hw as (_ & -> & _). cbn [bind].
  rewrite !Nat.eqb_refl. reflexivity.
Qed.
Definition hrow (r : list nat) : list (list num) := mrw D D (fun i j => Fin (h r i j)).
Lemma gM_hw r : inb s r -> gM hw r = hrow r.
Proof.
  intros Hr. destruct Hh as (sw & hf & B1 & B2 & B3 & (_ & Hs & Hv) & Hhv).
  unfold gM, hrow, mrw. rewrite Hs. cbn [tl hd].
  apply map_ext_in. intros j Hj; apply in_seq in Hj.
  apply map_ext_in. intros k Hk; apply in_seq in Hk. rewrite Hv.
  - now rewrite Hhv by (auto; lia).
  - repeat split; auto; lia.
Qed.
Let Yr r := rw D (fun j => y (j :: r)).
Let Xr r := mrw M D (fun i j => x (j :: i :: r)).
Lemma gout_is f g : (forall r, inb s r -> f r = g r) -> ten_is (gout_like_mv obs s f) DFloat s g.
Proof. intros H. eapply ten_ext; [apply (outs_lazy_mv obs D s y _ HD Ho)|exact H]. Qed.
Ltac gl B1 B2 := unfold gloop; cbn [fold_right bind app]; rewrite ?bshape_nil_r; cbn [bind];
  repeat (rewrite ?B1, ?B2, ?bshape_refl; cbn [bind]).
Lemma gu_v_is k : ten_is (gu_v k obs fct hw) DFloat s (fun r => k (Yr r) (Xr r) (hrow r)).
Proof.
  destruct gu_core_ok as (sw & E & B1 & B2). unfold gu_v. rewrite E. cbn [bind]. gl B1 B2.
  apply gout_is. intros r Hr. now rewrite (gV_is _ _ _ _ _ _ Ho Hr), (gM_is _ _ _ _ _ _ _ Hf Hr), gM_hw.
Qed.
Lemma gu_vw_is k wt dw w : arr_is wt dw (M :: s) w ->
  ten_is (gu_vw k obs fct hw wt) DFloat s (fun r => k (Yr r) (Xr r) (hrow r) (rw M (fun i => w (i :: r)))).
Proof.
  intros Hw. destruct gu_core_ok as (sw & E & B1 & B2). unfold gu_vw. rewrite E. cbn [bind]. unfold gcore1.
  pose proof Hw as (_ & Hs & _). rewrite Hs. cbn [bind check]. rewrite Nat.eqb_refl. cbn [bind check]. gl B1 B2.
  apply gout_is. intros r Hr.
  now rewrite (gV_is _ _ _ _ _ _ Ho Hr), (gM_is _ _ _ _ _ _ _ Hf Hr), gM_hw, (gV_is _ _ _ _ _ _ Hw Hr).
Qed.
Lemma gu_vo_is k ow fw d3 d4 a w : arr_is ow d3 s a -> arr_is fw d4 (M :: s) w ->
  ten_is (gu_vo k obs fct hw ow fw) DFloat s
    (fun r => k (Yr r) (Xr r) (hrow r) (a r) (rw M (fun i => w (i :: r)))).
Proof.
  intros Ha Hw. destruct gu_core_ok as (sw & E & B1 & B2). unfold gu_vo. rewrite E. cbn [bind]. unfold gcore1.
  pose proof Hw as (_ & Hs & _). rewrite Hs. pose proof Ha as (_ & Hsa & _). rewrite Hsa.
  cbn [bind check]. rewrite Nat.eqb_refl. cbn [bind check]. gl B1 B2.
  apply gout_is. intros r Hr.
  now rewrite (gV_is _ _ _ _ _ _ Ho Hr), (gM_is _ _ _ _ _ _ _ Hf Hr), gM_hw, (gV_is _ _ _ _ _ _ Hw Hr),
    (gS_is _ _ _ _ _ Ha Hr).
Qed.
Lemma gu_vow_is k ow fw wt d3 d4 d5 a w v : arr_is ow d3 s a -> arr_is fw d4 (M :: s) w -> arr_is wt d5 (M :: s) v ->
  ten_is (gu_vow k obs fct hw ow fw wt) DFloat s
    (fun r => k (Yr r) (Xr r) (hrow r) (a r) (rw M (fun i => w (i :: r))) (rw M (fun i => v (i :: r)))).
Proof.
  intros Ha Hw Hv. destruct gu_core_ok as (sw & E & B1 & B2). unfold gu_vow. rewrite E. cbn [bind]. unfold gcore1.
  pose proof Hw as (_ & Hs & _). rewrite Hs. pose proof Hv as (_ & Hsv & _). rewrite Hsv.
  pose proof Ha as (_ & Hsa & _). rewrite Hsa.
  cbn [bind check]. rewrite !Nat.eqb_refl. cbn [bind check andb]. gl B1 B2.
  apply gout_is. intros r Hr.
  now rewrite (gV_is _ _ _ _ _ _ Ho Hr), (gM_is _ _ _ _ _ _ _ Hf Hr), gM_hw, (gV_is _ _ _ _ _ _ Hw Hr),
    (gS_is _ _ _ _ _ Ha Hr), (gV_is _ _ _ _ _ _ Hv Hr).
Qed.
End gu.

(** ** calls *)
Inductive vest := VNrg | VFair.
Definition vname (e : vest) : string := match e with VNrg => "nrg" | VFair => "fair" end%string.
Lemma name_vest e : In e ["nrg"; "fair"]%string -> exists e', e = vname e'.
Proof. intros H; names H; [exists VNrg|exists VFair]; reflexivity. Qed.
Definition vserr (D : nat) h (po : R) (q p : nat) (y x : list nat -> R) (r : list nat) :=
  vs_err D (h r) po (obsv q y r) (memv p q x r).
Definition vsdist (D : nat) h (po : R) (q p : nat) (x : list nat -> R) (r : list nat) :=
  vs_dist D (h r) po (memv p q x r).

Section calls.
Variables (b : impl) (obs fct : arr) (hw : option arr) (m v : Z) (s : list nat) (p q M D : nat) (y x : list nat -> R)
  (h : list nat -> nat -> nat -> R) (po : R).
Hypothesis Ha : mv_args obs fct m v s p q M D y x.
Hypothesis Hh : pair_wts hw s D h.
Hypothesis HM : (0 < M)%nat.
Hypothesis HD : (0 < D)%nat.
Hypothesis Hpo : 0 < po.
Hypothesis Hfl : b = Numba -> dt obs = DFloat.
Let yr r := obsv q y r.
Let xr r := memv p q x r.
Let er r := vserr D h po q p y x r.
Let dr r := vsdist D h po q p x r.

Lemma ncast_float a : ncast DFloat a = a. Proof. destruct a; reflexivity. Qed.
Ltac start obs' fct' Ho Hf Hok :=
  let E := fresh "E" in
  destruct (mv_check _ _ _ _ _ _ _ _ _ _ _ Ha) as (obs' & fct' & E & Ho & Hf);
  unfold vs_ensemble, owvs_ensemble, vrvs_ensemble; rewrite E; cbn [bind];
  pose proof (vs_weights_ok hw s D h obs' fct' M Hh (proj1 (proj2 Ho)) (proj1 (proj2 Hf))) as Hok;
  clear E; set (w' := vs_weights obs' fct' hw) in *.
Lemma vs_call e : (e = VFair -> (1 < M)%nat) ->
  ten_is (vs_ensemble b obs fct hw m v None po (vname e)) DFloat s
    (fun r => Fin (match e with
                   | VNrg => vs_score D (h r) po M (fun _ => / INR M) (yr r) (xr r)
                   | VFair => k_fair M (er r) (dr r) end)).
Proof.
  intros H2. start obs' fct' Ho Hf Hok. destruct b.
  - destruct Hok as (sw & hf & B1 & B2 & _ & Hw & Hv). destruct e; cbn [vname].
    + exact (vs_nrg_arr_is s sw D M obs' fct' w' _ _ _ _ _ hf h po HM Hpo Ho Hf B2 Hw Hv).
    + exact (vs_fair_arr_is s sw D M obs' fct' w' _ _ _ _ _ hf h po HM Hpo Ho Hf B2 Hw Hv (H2 eq_refl)).
  - rewrite (Hfl eq_refl) in Ho. pose proof Ho as (Hd & _). unfold vs_gufuncs.
    destruct e; cbn [vname String.eqb Ascii.eqb Bool.eqb].
    + eapply ten_ext; [eapply gu_v_is; eauto|]. intros r Hr; cbv beta; cbn [hd tl]. unfold hrow. rewrite Hd.
      apply (vs_nrg_k_real M D (fun j => Fin (obsv q y r j)) (fun i j => Fin (memv p q x r i j)) (fun i j => Fin (h r i j)));
        auto using ncast_float.
    + eapply ten_ext; [eapply gu_v_is; eauto|]. intros r Hr; cbv beta; cbn [hd tl]. unfold hrow.
      apply (vs_fair_k_real M D (fun j => Fin (obsv q y r j)) (fun i j => Fin (memv p q x r i j)) (fun i j => Fin (h r i j))); auto.
Qed.
Section weighted.
Variables (wt : arr) (pw : nat) (w : list nat -> R).
Hypothesis Hw : mv_wts wt s pw M w.
Hypothesis Hqp : p = S pw.
Let wr r := nw M (member pw w r).
Lemma vs_call_w e : (e = VFair -> forall r, inb s r -> two_positive M (member pw w r)) ->
  ten_is (vs_ensemble b obs fct hw m v (Some wt) po (vname e)) DFloat s
    (fun r => Fin (match e with
                   | VNrg => vs_score D (h r) po M (wr r) (yr r) (xr r)
                   | VFair => k_wfair M (wr r) (er r) (dr r) end)).
Proof.
  intros H2. start obs' fct' Ho Hf Hok.
  destruct (wt_ok obs fct m v s p q M D y x Ha wt pw w Hw Hqp fct' _ _ Hf) as (wt' & E' & Hw'). rewrite E'. cbn [bind].
  assert (N1 : e = VFair -> forall r, inb s r -> sumn M (fun i => wr r i * wr r i) <> 1).
  { intros Ee r Hr. destruct Hw as (_ & W2 & W3). apply nwsum_ne1; auto. }
  destruct b.
  - destruct Hok as (sw & hf & B1 & B2 & _ & Hw'' & Hv). destruct e; cbn [vname].
    + exact (vs_nrg_w_arr_is s sw D M obs' fct' w' _ _ _ _ _ hf h po HM Hpo Ho Hf B2 Hw'' Hv wt' _ (fun r k => wr r k) Hw').
    + exact (vs_fair_w_arr_is s sw D M obs' fct' w' _ _ _ _ _ hf h po HM Hpo Ho Hf B2 Hw'' Hv wt' _ (fun r k => wr r k) Hw' (N1 eq_refl)).
  - rewrite (Hfl eq_refl) in Ho. pose proof Ho as (Hd & _). unfold vs_gufuncs_w.
    destruct e; cbn [vname String.eqb Ascii.eqb Bool.eqb].
    + eapply ten_ext; [eapply gu_vw_is; eauto|]. intros r Hr; cbv beta; cbn [hd tl]. unfold hrow. rewrite Hd.
      apply (vs_nrg_w_k_real M D (fun j => Fin (obsv q y r j)) (fun i j => Fin (memv p q x r i j)) (fun i j => Fin (h r i j)));
        auto using ncast_float.
    + eapply ten_ext; [eapply gu_vw_is; eauto|]. intros r Hr; cbv beta; cbn [hd tl]. unfold hrow.
      apply (vs_fair_w_k_real M D (fun j => Fin (obsv q y r j)) (fun i j => Fin (memv p q x r i j)) (fun i j => Fin (h r i j))); auto.
Qed.
End weighted.

Section owvr.
Variables (wf : dtype * (list num -> num)) (g : (nat -> R) -> R).
Hypothesis Hg : vweight D wf g.
Hypothesis Hs0 : ~ In O s.
Let gx r k := g (memv p q x r k).
Ltac start2 obs' fct' Ho Hf Hok ow fw Hw1 Hw2 :=
  let E := fresh "E" in let E' := fresh "E" in let Hin := fresh "Hin" in
  destruct (mv_check _ _ _ _ _ _ _ _ _ _ _ Ha) as (obs' & fct' & E & Hin);
  unfold owvs_ensemble, vrvs_ensemble; rewrite E; cbn [bind];
  destruct (mv_weights s p q M D y x HM HD wf g Hg Hs0 _ _ _ _ Hin) as (ow & fw & E' & Hw1 & Hw2); rewrite E'; cbn [bind];
  destruct Hin as (Ho & Hf);
  pose proof (vs_weights_ok hw s D h obs' fct' M Hh (proj1 (proj2 Ho)) (proj1 (proj2 Hf))) as Hok;
  clear E E'; set (w' := vs_weights obs' fct' hw) in *.
Lemma owvs_call : (forall r, inb s r -> sumn M (gx r) <> 0) ->
  ten_is (owvs_ensemble b obs fct wf hw m v None po) DFloat s
    (fun r => Fin (g (yr r) * k_wexact M (nw M (gx r)) (er r) (dr r))).
Proof.
  intros Hnz. start2 obs' fct' Ho Hf Hok ow fw Hw1 Hw2. destruct b.
  - destruct Hok as (sw & hf & B1 & B2 & _ & Hw & Hv).
    exact (owvs_arr_is s sw D M obs' fct' w' _ _ _ _ _ hf h po HM Hpo Ho Hf B2 Hw Hv ow fw _ _ _ gx Hw1 Hw2 Hnz).
  - rewrite (Hfl eq_refl) in Ho.
    eapply ten_ext; [eapply gu_vo_is; eauto|]. intros r Hr; cbv beta; cbn [hd tl]. unfold hrow.
    apply (owvs_k_real M D (fun j => Fin (obsv q y r j)) (fun i j => Fin (memv p q x r i j)) (fun i j => Fin (h r i j))); auto.
Qed.
Lemma vrvs_call :
  ten_is (vrvs_ensemble b obs fct wf hw m v None po) DFloat s
    (fun r => Fin (k_vr M (g (yr r)) (fun k => gx r k / INR M) (er r) (dr r)
       (vnorm D (h r) po (yr r)) (fun k => vnorm D (h r) po (xr r k)))).
Proof.
  start2 obs' fct' Ho Hf Hok ow fw Hw1 Hw2. destruct b.
  - destruct Hok as (sw & hf & B1 & B2 & _ & Hw & Hv).
    exact (vrvs_arr_is s sw D M obs' fct' w' _ _ _ _ _ hf h po HM Hpo Ho Hf B2 Hw Hv ow fw _ _ _ gx Hw1 Hw2).
  - rewrite (Hfl eq_refl) in Ho.
    eapply ten_ext; [eapply gu_vo_is; eauto|]. intros r Hr; cbv beta; cbn [hd tl]. unfold hrow.
    apply (vrvs_k_real M D (fun j => Fin (obsv q y r j)) (fun i j => Fin (memv p q x r i j)) (fun i j => Fin (h r i j))); auto.
Qed.
Section weighted.
Variables (wt : arr) (pw : nat) (w : list nat -> R).
Hypothesis Hw : mv_wts wt s pw M w.
Hypothesis Hqp : p = S pw.
Let u r k := gx r k * nw M (member pw w r) k.
Lemma owvs_call_w : (forall r, inb s r -> sumn M (u r) <> 0) ->
  ten_is (owvs_ensemble b obs fct wf hw m v (Some wt) po) DFloat s
    (fun r => Fin (g (yr r) * k_wexact M (nw M (u r)) (er r) (dr r))).
Proof.
  intros Hnz. start2 obs' fct' Ho Hf Hok ow fw Hw1 Hw2.
  destruct (wt_ok obs fct m v s p q M D y x Ha wt pw w Hw Hqp fct' _ _ Hf) as (wt' & Ew & Hw'). rewrite Ew. cbn [bind].
  destruct b.
  - destruct Hok as (sw & hf & B1 & B2 & _ & Hw0 & Hv).
    exact (owvs_w_arr_is s sw D M obs' fct' w' _ _ _ _ _ hf h po HM Hpo Ho Hf B2 Hw0 Hv ow fw _ _ _ gx Hw1 Hw2
      wt' _ (fun r k => nw M (member pw w r) k) Hw' Hnz).
  - rewrite (Hfl eq_refl) in Ho.
    eapply ten_ext; [eapply gu_vow_is; eauto|]. intros r Hr; cbv beta; cbn [hd tl]. unfold hrow.
    apply (owvs_w_k_real M D (fun j => Fin (obsv q y r j)) (fun i j => Fin (memv p q x r i j)) (fun i j => Fin (h r i j))
      (obsv q y r) (memv p q x r) (h r) po HM Hpo ltac:(auto) ltac:(auto) ltac:(auto)
      (fun i => Fin (gx r i)) (gx r) ltac:(auto) (fun i => Fin (nw M (member pw w r) i)) (nw M (member pw w r))); auto.
    apply Hnz; auto.
Qed.
Lemma vrvs_call_w :
  ten_is (vrvs_ensemble b obs fct wf hw m v (Some wt) po) DFloat s
    (fun r => Fin (k_vr M (g (yr r)) (u r) (er r) (dr r)
       (vnorm D (h r) po (yr r)) (fun k => vnorm D (h r) po (xr r k)))).
Proof.
  start2 obs' fct' Ho Hf Hok ow fw Hw1 Hw2.
  destruct (wt_ok obs fct m v s p q M D y x Ha wt pw w Hw Hqp fct' _ _ Hf) as (wt' & Ew & Hw'). rewrite Ew. cbn [bind].
  destruct b.
  - destruct Hok as (sw & hf & B1 & B2 & _ & Hw0 & Hv).
    exact (vrvs_w_arr_is s sw D M obs' fct' w' _ _ _ _ _ hf h po HM Hpo Ho Hf B2 Hw0 Hv ow fw _ _ _ gx Hw1 Hw2
      wt' _ (fun r k => nw M (member pw w r) k) Hw').
  - rewrite (Hfl eq_refl) in Ho.
    eapply ten_ext; [eapply gu_vow_is; eauto|]. intros r Hr; cbv beta; cbn [hd tl]. unfold hrow.
    apply (vrvs_w_k_real M D (fun j => Fin (obsv q y r j)) (fun i j => Fin (memv p q x r i j)) (fun i j => Fin (h r i j))
      (obsv q y r) (memv p q x r) (h r) po HM Hpo ltac:(auto) ltac:(auto) ltac:(auto)
      (fun i => Fin (gx r i)) (gx r) ltac:(auto) (fun i => Fin (nw M (member pw w r) i)) (nw M (member pw w r))); auto.
Qed.
End weighted.
End owvr.
End calls.
