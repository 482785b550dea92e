(** Proofs of the variogram score properties (statements in P_vario.v). *)
From Coq Require Import FunctionalExtensionality.
From Verif Require Export L_vario_api T_energy.
Open Scope R_scope.
Lemma vfair_names e' (P : Prop) : (vname e' = "fair"%string -> P) -> e' = VFair -> P.
Proof. intros H ->. now apply H. Qed.
Lemma vgram_ext D p u u' i j : (i < D)%nat -> (j < D)%nat -> (forall k, (k < D)%nat -> u k = u' k) ->
  vgram p u i j = vgram p u' i j.
Proof. intros Hi Hj H. unfold vgram. now rewrite !H. Qed.
Lemma sumn2_ext D f g : (forall i j, (i < D)%nat -> (j < D)%nat -> f i j = g i j) ->
  sumn D (fun i => sumn D (f i)) = sumn D (fun i => sumn D (g i)).
Proof. intros H. apply sumn_ext; intros; apply sumn_ext; auto. Qed.
Lemma vdist_ext D h h' p u v u' v' : (forall i j, (i < D)%nat -> (j < D)%nat -> h i j = h' i j) ->
  (forall k, (k < D)%nat -> u k = u' k) -> (forall k, (k < D)%nat -> v k = v' k) ->
  vdist D h p u v = vdist D h' p u' v'.
Proof.
  intros H0 H1 H2. unfold vdist. apply sumn2_ext; intros i j Hi Hj.
  now rewrite H0, (vgram_ext D p u u'), (vgram_ext D p v v') by auto.
Qed.
Lemma vs_score_ext D h h' p M w w' y y' x x' : (forall i j, (i < D)%nat -> (j < D)%nat -> h i j = h' i j) ->
  (forall m, (m < M)%nat -> w m = w' m) -> (forall k, (k < D)%nat -> y k = y' k) ->
  (forall m k, (m < M)%nat -> (k < D)%nat -> x m k = x' m k) ->
  vs_score D h p M w y x = vs_score D h' p M w' y' x'.
Proof.
  intros H0 H1 H2 H3. unfold vs_score. apply sumn2_ext; intros i j Hi Hj.
  rewrite H0, (vgram_ext D p y y') by auto. do 3 f_equal. apply sumn_ext; intros m Hm.
  rewrite H1 by auto. f_equal. apply (vgram_ext D); auto.
Qed.
Lemma vpow_mult a b p : 0 <= a -> 0 <= b -> vpow (a * b) p = vpow a p * vpow b p.
Proof.
  intros Ha Hb. unfold vpow. destruct (Req_EM_T a 0) as [->|Na].
  - rewrite Rmult_0_l. destruct (Req_EM_T 0 0); [ring|easy].
  - destruct (Req_EM_T b 0) as [->|Nb].
    + rewrite Rmult_0_r. destruct (Req_EM_T 0 0); [ring|easy].
    + destruct (Req_EM_T (a * b) 0) as [E|E]; [apply Rmult_integral in E; tauto|].
      symmetry. apply Rpower_mult_distr; lra.
Qed.
Lemma vgram_affine p c b u i j : vgram p (fun k => c * u k + b) i j = vpow (Rabs c) p * vgram p u i j.
Proof.
  unfold vgram. rewrite <- vpow_mult by apply Rabs_pos. f_equal. rewrite <- Rabs_mult. f_equal. ring.
Qed.
Lemma vdist_affine D h p c b u v : vdist D h p (fun k => c * u k + b) (fun k => c * v k + b)
  = vpow (Rabs c) p ^ 2 * vdist D h p u v.
Proof.
  unfold vdist. rewrite <- sumn2_scal. apply sumn2_ext; intros i j _ _. rewrite !vgram_affine. ring.
Qed.
Lemma vs_score_affine D h p M w y x c b :
  vs_score D h p M w (fun k => c * y k + b) (fun m k => c * x m k + b) = vpow (Rabs c) p ^ 2 * vs_score D h p M w y x.
Proof.
  unfold vs_score. rewrite <- sumn2_scal. apply sumn2_ext; intros i j _ _. rewrite vgram_affine.
  rewrite (sumn_ext M _ (fun m => vpow (Rabs c) p * (w m * vgram p (x m) i j))) by (intros; rewrite vgram_affine; ring).
  rewrite sumn_scal. ring.
Qed.
Lemma vs_nonneg D h p M w y x : (forall i j, (i < D)%nat -> (j < D)%nat -> 0 <= h i j) -> 0 <= vs_score D h p M w y x.
Proof.
  intros H. apply sumn_nonneg; intros i Hi. apply sumn_nonneg; intros j Hj.
  apply Rmult_le_pos; [auto|apply pow2_ge_0].
Qed.
Lemma var_min N v b m : sumn N v = 1 ->
  sumn N (fun j => v j * (b j - sumn N (fun k => v k * b k)) ^ 2) <= sumn N (fun j => v j * (b j - m) ^ 2).
Proof.
  intros Hv. set (mu := sumn N (fun k => v k * b k)).
  assert (E : forall c, sumn N (fun j => v j * (b j - c) ^ 2) = sumn N (fun j => v j * b j ^ 2) - 2 * c * mu + c ^ 2).
  { intros c. rewrite (sumn_ext N _ (fun j => v j * b j ^ 2 - 2 * c * (v j * b j) + c ^ 2 * v j)) by (intros; ring).
    rewrite sumn_plus, sumn_minus, !sumn_scal, Hv. fold mu. ring. }
  rewrite !E. pose proof (pow2_ge_0 (mu - m)). nra.
Qed.
Lemma vs_mean_score N v D h p M w z x : sumn N (fun j => v j * vs_score D h p M w (z j) x) =
  sumn D (fun i => sumn D (fun k => h i k *
    sumn N (fun j => v j * (vgram p (z j) i k - sumn M (fun m => w m * vgram p (x m) i k)) ^ 2))).
Proof.
  unfold vs_score.
  rewrite (sumn_ext N _ (fun j => sumn D (fun i => v j * sumn D (fun k => h i k * (vgram p (z j) i k - sumn M (fun m => w m * vgram p (x m) i k)) ^ 2)))).
  2:{ intros j _. now rewrite sumn_scal. }
  rewrite sumn_swap. apply sumn_ext; intros i _.
  rewrite (sumn_ext N _ (fun j => sumn D (fun k => v j * (h i k * (vgram p (z j) i k - sumn M (fun m => w m * vgram p (x m) i k)) ^ 2)))).
  2:{ intros j _. now rewrite sumn_scal. }
  rewrite sumn_swap. apply sumn_ext; intros k _. rewrite <- sumn_scal. apply sumn_ext; intros; ring.
Qed.
Lemma vs_proper M N D h p w x v z : (forall i j, (i < D)%nat -> (j < D)%nat -> 0 <= h i j) -> sumn N v = 1 ->
  sumn N (fun j => v j * vs_score D h p N v (z j) z) <= sumn N (fun j => v j * vs_score D h p M w (z j) x).
Proof.
  intros Hh Hv. rewrite !vs_mean_score. apply sumn_le; intros i Hi. apply sumn_le; intros k Hk.
  apply Rmult_le_compat_l; [auto|]. apply (var_min N v (fun j => vgram p (z j) i k)). exact Hv.
Qed.
(** the vertically re-scaled form is a sum of squares *)
Lemma k_vr_lin M a u D e d ny nx :
  k_vr M a u (fun k => sumn D (fun i => e i k)) (fun k m => sumn D (fun i => d i k m)) (sumn D ny) (fun k => sumn D (fun i => nx i k))
  = sumn D (fun i => k_vr M a u (e i) (d i) (ny i) (nx i)).
Proof.
  unfold k_vr. rewrite sumn_plus, sumn_minus, !sumn_scal.
  rewrite (sumn_ext M (fun i => u i * sumn D (fun i0 => e i0 i)) (fun k => sumn D (fun i => u k * e i k))) by (intros; now rewrite sumn_scal).
  rewrite (sumn_ext M (fun i => u i * sumn D (fun i0 => nx i0 i)) (fun k => sumn D (fun i => u k * nx i k))) by (intros; now rewrite sumn_scal).
  rewrite (sumn_ext M (fun i => sumn M (fun j => u i * u j * sumn D (fun i0 => d i0 i j)))
    (fun k => sumn D (fun i => sumn M (fun m => u k * u m * d i k m)))).
  2:{ intros k _. rewrite sumn_swap. apply sumn_ext; intros m _. now rewrite sumn_scal. }
  rewrite (sumn_swap M D (fun k i => u k * e i k)), (sumn_swap M D (fun k i => u k * nx i k)),
    (sumn_swap M D (fun k i => sumn M (fun m => u k * u m * d i k m))).
  rewrite (sumn_ext D (fun i => (sumn M (fun i0 => u i0 * nx i i0) - a * ny i) * (sumn M u - a))
    (fun i => (sumn M u - a) * (sumn M (fun i0 => u i0 * nx i i0) - a * ny i))) by (intros; ring).
  rewrite sumn_scal, sumn_minus, sumn_scal. ring.
Qed.
Lemma k_vr_scal M a u c e d ny nx :
  k_vr M a u (fun k => c * e k) (fun k m => c * d k m) (c * ny) (fun k => c * nx k) = c * k_vr M a u e d ny nx.
Proof.
  unfold k_vr.
  rewrite (sumn_ext M (fun i => u i * (c * e i)) (fun i => c * (u i * e i))) by (intros; ring).
  rewrite (sumn_ext M (fun i => u i * (c * nx i)) (fun i => c * (u i * nx i))) by (intros; ring).
  rewrite (sumn_ext M (fun i => sumn M (fun j => u i * u j * (c * d i j))) (fun i => c * sumn M (fun j => u i * u j * d i j)))
    by (intros; rewrite <- sumn_scal; apply sumn_ext; intros; ring).
  rewrite !sumn_scal. ring.
Qed.
Lemma k_vr_sq M a u b c : k_vr M a u (fun k => (b k - c) ^ 2) (fun k m => (b k - b m) ^ 2) (c ^ 2) (fun k => b k ^ 2)
  = (a * c - sumn M (fun k => u k * b k)) ^ 2.
Proof.
  set (S0 := sumn M u). set (S1 := sumn M (fun m => u m * b m)). set (S2 := sumn M (fun m => u m * b m ^ 2)).
  assert (E1 : sumn M (fun m => u m * (b m - c) ^ 2) = S2 - 2 * c * S1 + c ^ 2 * S0).
  { rewrite (sumn_ext M _ (fun m => u m * b m ^ 2 - 2 * c * (u m * b m) + c ^ 2 * u m)) by (intros; ring).
    rewrite sumn_plus, sumn_minus, !sumn_scal. reflexivity. }
  assert (E2 : sumn M (fun m => sumn M (fun k => u m * u k * (b m - b k) ^ 2)) = 2 * S2 * S0 - 2 * S1 ^ 2).
  { rewrite (sumn_ext M _ (fun m => S0 * (u m * b m ^ 2) - 2 * S1 * (u m * b m) + S2 * u m)).
    - rewrite sumn_plus, sumn_minus, !sumn_scal. fold S0 S1 S2. ring.
    - intros m _.
      rewrite (sumn_ext M _ (fun k => u m * b m ^ 2 * u k - 2 * (u m * b m) * (u k * b k) + u m * (u k * b k ^ 2)))
        by (intros; ring).
      rewrite sumn_plus, sumn_minus, !sumn_scal. fold S0 S1 S2. ring. }
  unfold k_vr. rewrite E1, E2. fold S0 S1 S2. field.
Qed.
Lemma k_vr_vario D h p M a u y x :
  k_vr M a u (vs_err D h p y x) (vs_dist D h p x) (vnorm D h p y) (fun k => vnorm D h p (x k)) =
  sumn D (fun i => sumn D (fun j => h i j * (a * vgram p y i j - sumn M (fun k => u k * vgram p (x k) i j)) ^ 2)).
Proof.
  unfold vs_err, vs_dist, vnorm, vdist. rewrite k_vr_lin. apply sumn_ext; intros i _.
  rewrite k_vr_lin. apply sumn_ext; intros j _. rewrite k_vr_scal. f_equal.
  apply (k_vr_sq M a u (fun k => vgram p (x k) i j) (vgram p y i j)).
Qed.
Lemma unif_sum M : (0 < M)%nat -> sumn M (fun _ => / INR M) = 1.
Proof. intros HM. rewrite sumn_const. field. now apply INR_nz. Qed.
Lemma C36_values_l :
  forall b obs fct hw m v s p q M D y x h po,
  mv_args obs fct m v s p q M D y x -> pair_wts hw s D h -> (0 < M)%nat -> (0 < D)%nat -> 0 < po ->
  (b = Numba -> dt obs = DFloat) ->
  returns (vs_ensemble b obs fct hw m v None po "nrg") s
    (fun r => Fin (sumn D (fun i => sumn D (fun j => h r i j *
       (vpow (Rabs (obsv q y r i - obsv q y r j)) po
        - sumn M (fun k => vpow (Rabs (memv p q x r k i - memv p q x r k j)) po) / INR M) ^ 2)))) /\
  ((1 < M)%nat -> returns (vs_ensemble b obs fct hw m v None po "fair") s
    (fun r => Fin (k_fair M (fun k => vdist D (h r) po (memv p q x r k) (obsv q y r))
                            (fun k l => vdist D (h r) po (memv p q x r k) (memv p q x r l))))).
Proof.
  intros b obs fct hw m v s p q M D y x h po Ha Hh HM HD Hp Hfl. split.
  - eapply returns_ext; [exact (returns_is _ _ _ _ (vs_call b obs fct hw m v s p q M D y x h po Ha Hh HM HD Hp Hfl VNrg ltac:(easy)))|].
    intros r Hr. cbv beta iota. f_equal. now apply vs_score_unif.
  - intros H2. exact (returns_is _ _ _ _ (vs_call b obs fct hw m v s p q M D y x h po Ha Hh HM HD Hp Hfl VFair ltac:(auto))).
Qed.
Lemma C36_values_weighted_l :
  forall b obs fct hw wt m v s p q M D y x h po w,
  mv_args obs fct m v s p q M D y x -> pair_wts hw s D h -> (0 < M)%nat -> (0 < D)%nat -> 0 < po ->
  (b = Numba -> dt obs = DFloat) -> (q < p)%nat -> mv_wts wt s (wpos p q) M w ->
  let wr r := nw M (member (wpos p q) w r) in
  returns (vs_ensemble b obs fct hw m v (Some wt) po "nrg") s
    (fun r => Fin (vs_score D (h r) po M (wr r) (obsv q y r) (memv p q x r))) /\
  ((forall r, inb s r -> two_positive M (member (wpos p q) w r)) ->
   returns (vs_ensemble b obs fct hw m v (Some wt) po "fair") s
    (fun r => Fin (k_wfair M (wr r) (fun k => vdist D (h r) po (memv p q x r k) (obsv q y r))
                            (fun k l => vdist D (h r) po (memv p q x r k) (memv p q x r l))))).
Proof.
  intros b obs fct hw wt m v s p q M D y x h po w Ha Hh HM HD Hp Hfl Hqp Hw wr. split.
  - exact (returns_is _ _ _ _ (vs_call_w b obs fct hw m v s p q M D y x h po Ha Hh HM HD Hp Hfl wt _ w Hw (wpos_S _ _ Hqp) VNrg ltac:(easy))).
  - intros H2. exact (returns_is _ _ _ _ (vs_call_w b obs fct hw m v s p q M D y x h po Ha Hh HM HD Hp Hfl wt _ w Hw (wpos_S _ _ Hqp) VFair ltac:(auto))).
Qed.
Lemma C36_agree_l :
  forall obs fct hw m v s p q M D y x h po,
  mv_args obs fct m v s p q M D y x -> pair_wts hw s D h -> (0 < M)%nat -> (0 < D)%nat -> 0 < po -> dt obs = DFloat ->
  (forall e, In e ["nrg"; "fair"]%string -> (e = "fair"%string -> (1 < M)%nat) ->
   exists u, returns (vs_ensemble Array obs fct hw m v None po e) s (fun r => Fin (u r)) /\
             returns (vs_ensemble Numba obs fct hw m v None po e) s (fun r => Fin (u r))) /\
  (forall wt w e, (q < p)%nat -> mv_wts wt s (wpos p q) M w -> In e ["nrg"; "fair"]%string ->
   (e = "fair"%string -> forall r, inb s r -> two_positive M (member (wpos p q) w r)) ->
   exists u, returns (vs_ensemble Array obs fct hw m v (Some wt) po e) s (fun r => Fin (u r)) /\
             returns (vs_ensemble Numba obs fct hw m v (Some wt) po e) s (fun r => Fin (u r))).
Proof.
  intros obs fct hw m v s p q M D y x h po Ha Hh HM HD Hp Hfl. split.
  - intros e He H2. destruct (name_vest e He) as (e' & ->). eexists. split.
    + eapply returns_is, (vs_call Array obs fct hw m v s p q M D y x h po Ha Hh HM HD Hp ltac:(easy) e' (vfair_names _ _ H2)).
    + eapply returns_is, (vs_call Numba obs fct hw m v s p q M D y x h po Ha Hh HM HD Hp ltac:(auto) e' (vfair_names _ _ H2)).
  - intros wt w e Hqp Hw He H2. destruct (name_vest e He) as (e' & ->). eexists. split.
    + eapply returns_is, (vs_call_w Array obs fct hw m v s p q M D y x h po Ha Hh HM HD Hp ltac:(easy) wt _ w Hw (wpos_S _ _ Hqp) e' (vfair_names _ _ H2)).
    + eapply returns_is, (vs_call_w Numba obs fct hw m v s p q M D y x h po Ha Hh HM HD Hp ltac:(auto) wt _ w Hw (wpos_S _ _ Hqp) e' (vfair_names _ _ H2)).
Qed.
Lemma C36_default_l :
  forall b obs fct hw m v s p q M D y x po e,
  mv_args obs fct m v s p q M D y x -> (0 < M)%nat -> (0 < D)%nat -> 0 < po -> (b = Numba -> dt obs = DFloat) ->
  real_arr hw [D; D] (fun _ => 1) -> In e ["nrg"; "fair"]%string -> (e = "fair"%string -> (1 < M)%nat) ->
  exists u, returns (vs_ensemble b obs fct None m v None po e) s (fun r => Fin (u r)) /\
            returns (vs_ensemble b obs fct (Some hw) m v None po e) s (fun r => Fin (u r)).
Proof.
  intros b obs fct hw m v s p q M D y x po e Ha HM HD Hp Hfl Hhw He H2. destruct (name_vest e He) as (e' & ->).
  eexists. split.
  - eapply returns_is, (vs_call b obs fct None m v s p q M D y x (fun _ _ _ => 1) po Ha ltac:(easy) HM HD Hp Hfl e' (vfair_names _ _ H2)).
  - eapply returns_is, (vs_call b obs fct (Some hw) m v s p q M D y x (fun _ _ _ => 1) po Ha ltac:(exists (fun _ => 1); right; easy) HM HD Hp Hfl e' (vfair_names _ _ H2)).
Qed.
Lemma C36_kernel_l :
  forall D h p M w y x, sumn M w = 1 ->
  vs_score D h p M w y x = k_wexact M w (fun k => vdist D h p (x k) y) (fun k l => vdist D h p (x k) (x l)).
Proof.
  intros D h p M w y x Hw. exact (vs_score_kernel D h p M w y x Hw).
Qed.
Lemma C36_uniform_l :
  forall b obs fct hw wt m v s p q M D y x h po w c e,
  mv_args obs fct m v s p q M D y x -> pair_wts hw s D h -> (0 < M)%nat -> (0 < D)%nat -> 0 < po ->
  (b = Numba -> dt obs = DFloat) -> (q < p)%nat -> mv_wts wt s (wpos p q) M w ->
  (forall r k, inb s r -> (k < M)%nat -> member (wpos p q) w r k = c r) ->
  In e ["nrg"; "fair"]%string -> (e = "fair"%string -> (1 < M)%nat) ->
  exists u, returns (vs_ensemble b obs fct hw m v (Some wt) po e) s (fun r => Fin (u r)) /\
            returns (vs_ensemble b obs fct hw m v None po e) s (fun r => Fin (u r)).
Proof.
  intros b obs fct hw wt m v s p q M D y x h po w c e Ha Hh HM HD Hp Hfl Hqp Hw Hc He H2. destruct (name_vest e He) as (e' & ->).
  eexists. split; [|eapply returns_is, (vs_call b obs fct hw m v s p q M D y x h po Ha Hh HM HD Hp Hfl e' (vfair_names _ _ H2))].
  eapply returns_ext; [eapply returns_is, (vs_call_w b obs fct hw m v s p q M D y x h po Ha Hh HM HD Hp Hfl wt _ w Hw (wpos_S _ _ Hqp) e')|].
  - intros -> r Hr. specialize (H2 eq_refl). exists 0%nat, 1%nat.
    destruct Hw as (_ & _ & W3). specialize (W3 r Hr).
    rewrite (sumn_ext M _ (fun _ => c r)) in W3 by (intros; now apply Hc). rewrite sumn_const in W3.
    pose proof (INR_pos M HM). rewrite !Hc by (auto; lia). repeat split; try lia; nra.
  - intros r Hr. cbv beta. f_equal.
    assert (U : forall k, (k < M)%nat -> nw M (member (wpos p q) w r) k = / INR M).
    { destruct Hw as (_ & _ & W3). intros k Hk. eapply nw_const'; eauto. }
    destruct e'.
    + apply vs_score_ext; auto.
    + rewrite <- k_fair_unif by auto. apply k_wfair_ext; auto.
Qed.
Lemma C36_nonnegative_l :
  forall b obs fct hw m v s p q M D y x h po,
  mv_args obs fct m v s p q M D y x -> pair_wts hw s D h -> (0 < M)%nat -> (0 < D)%nat -> 0 < po ->
  (b = Numba -> dt obs = DFloat) -> (forall r i j, inb s r -> (i < D)%nat -> (j < D)%nat -> 0 <= h r i j) ->
  (exists u, returns (vs_ensemble b obs fct hw m v None po "nrg") s (fun r => Fin (u r)) /\ forall r, inb s r -> 0 <= u r) /\
  (forall wt w, (q < p)%nat -> mv_wts wt s (wpos p q) M w ->
   exists u, returns (vs_ensemble b obs fct hw m v (Some wt) po "nrg") s (fun r => Fin (u r)) /\ forall r, inb s r -> 0 <= u r).
Proof.
  intros b obs fct hw m v s p q M D y x h po Ha Hh HM HD Hp Hfl Hn. split.
  - eexists. split; [exact (returns_is _ _ _ _ (vs_call b obs fct hw m v s p q M D y x h po Ha Hh HM HD Hp Hfl VNrg ltac:(easy)))|].
    intros r Hr. apply vs_nonneg. auto.
  - intros wt w Hqp Hw. eexists. split; [exact (returns_is _ _ _ _ (vs_call_w b obs fct hw m v s p q M D y x h po Ha Hh HM HD Hp Hfl wt _ w Hw (wpos_S _ _ Hqp) VNrg ltac:(easy)))|].
    intros r Hr. apply vs_nonneg. auto.
Qed.
Lemma C36_perfect_l :
  forall b obs fct hw m v s p q M D y x h po t e,
  mv_args obs fct m v s p q M D y x -> pair_wts hw s D h -> (0 < M)%nat -> (0 < D)%nat -> 0 < po ->
  (b = Numba -> dt obs = DFloat) ->
  (forall r i k, inb s r -> (i < M)%nat -> (k < D)%nat -> memv p q x r i k = obsv q y r k + t r i) ->
  In e ["nrg"; "fair"]%string -> (e = "fair"%string -> (1 < M)%nat) ->
  returns (vs_ensemble b obs fct hw m v None po e) s (fun r => Fin 0).
Proof.
  intros b obs fct hw m v s p q M D y x h po t e Ha Hh HM HD Hp Hfl Hx He H2. destruct (name_vest e He) as (e' & ->).
  eapply returns_ext; [eapply returns_is, (vs_call b obs fct hw m v s p q M D y x h po Ha Hh HM HD Hp Hfl e' (vfair_names _ _ H2))|].
  intros r Hr. cbv beta. f_equal.
  assert (G : forall k i j, (k < M)%nat -> (i < D)%nat -> (j < D)%nat -> vgram po (memv p q x r k) i j = vgram po (obsv q y r) i j).
  { intros k i j Hk Hi Hj. unfold vgram. rewrite !Hx by auto. do 2 f_equal. ring. }
  assert (Z2 : sumn D (fun _ => sumn D (fun _ => 0)) = 0).
  { rewrite (sumn_ext D _ (fun _ => 0)) by (intros; apply sumn_zero). apply sumn_zero. }
  destruct e'.
  - unfold vs_score. rewrite <- Z2. apply sumn2_ext; intros i j Hi Hj.
    rewrite (sumn_ext M _ (fun _ => / INR M * vgram po (obsv q y r) i j)) by (intros; now rewrite G).
    rewrite sumn_const. pose proof (INR_nz M HM). field. auto.
  - assert (E1 : forall k, (k < M)%nat -> vserr D h po q p y x r k = 0).
    { intros k Hk. unfold vserr, vs_err, vdist. rewrite <- Z2. apply sumn2_ext; intros i j Hi Hj. rewrite G by auto. ring. }
    assert (E2 : forall k l, (k < M)%nat -> (l < M)%nat -> vsdist D h po q p x r k l = 0).
    { intros k l Hk Hl. unfold vsdist, vs_dist, vdist. rewrite <- Z2. apply sumn2_ext; intros i j Hi Hj. rewrite !G by auto. ring. }
    rewrite (k_fair_ext M _ _ (fun _ => 0) (fun _ _ => 0)) by auto. unfold k_fair.
    rewrite (sumn_ext M (fun i => sumn M (fun _ => 0)) (fun _ => 0)) by (intros; apply sumn_zero).
    rewrite sumn_zero. unfold Rdiv. ring.
Qed.
Lemma C36_affine_l :
  forall b obs fct obs' fct' hw m v s p q M D y x y' x' h po c t e,
  mv_args obs fct m v s p q M D y x -> mv_args obs' fct' m v s p q M D y' x' -> pair_wts hw s D h ->
  (0 < M)%nat -> (0 < D)%nat -> 0 < po -> (b = Numba -> dt obs = DFloat /\ dt obs' = DFloat) ->
  (forall r k, inb s r -> (k < D)%nat -> obsv q y' r k = c r * obsv q y r k + t r) ->
  (forall r i k, inb s r -> (i < M)%nat -> (k < D)%nat -> memv p q x' r i k = c r * memv p q x r i k + t r) ->
  In e ["nrg"; "fair"]%string -> (e = "fair"%string -> (1 < M)%nat) ->
  exists u, returns (vs_ensemble b obs fct hw m v None po e) s (fun r => Fin (u r)) /\
            returns (vs_ensemble b obs' fct' hw m v None po e) s (fun r => Fin (vpow (Rabs (c r)) po ^ 2 * u r)).
Proof.
  intros b obs fct obs' fct' hw m v s p q M D y x y' x' h po c t e Ha Ha' Hh HM HD Hp Hfl Hy Hx He H2.
  destruct (name_vest e He) as (e' & ->). eexists. split.
  - eapply returns_is, (vs_call b obs fct hw m v s p q M D y x h po Ha Hh HM HD Hp ltac:(intros E; apply (Hfl E)) e' (vfair_names _ _ H2)).
  - eapply returns_ext; [eapply returns_is, (vs_call b obs' fct' hw m v s p q M D y' x' h po Ha' Hh HM HD Hp ltac:(intros E; apply (Hfl E)) e' (vfair_names _ _ H2))|].
    intros r Hr. cbv beta. f_equal. destruct e'.
    + rewrite <- (vs_score_affine D (h r) po M _ _ _ (c r) (t r)). apply vs_score_ext; auto.
    + rewrite <- k_fair_scale. apply k_fair_ext.
      * intros i Hi. unfold vserr, vs_err. rewrite <- (vdist_affine D (h r) po (c r) (t r)). apply vdist_ext; auto.
      * intros i j Hi Hj. unfold vsdist, vs_dist. rewrite <- (vdist_affine D (h r) po (c r) (t r)). apply vdist_ext; auto.
Qed.
Lemma C36_affine_weighted_l :
  forall b obs fct obs' fct' hw wt m v s p q M D y x y' x' h po w c t e,
  mv_args obs fct m v s p q M D y x -> mv_args obs' fct' m v s p q M D y' x' -> pair_wts hw s D h ->
  (0 < M)%nat -> (0 < D)%nat -> 0 < po -> (b = Numba -> dt obs = DFloat /\ dt obs' = DFloat) ->
  (q < p)%nat -> mv_wts wt s (wpos p q) M w ->
  (forall r k, inb s r -> (k < D)%nat -> obsv q y' r k = c r * obsv q y r k + t r) ->
  (forall r i k, inb s r -> (i < M)%nat -> (k < D)%nat -> memv p q x' r i k = c r * memv p q x r i k + t r) ->
  In e ["nrg"; "fair"]%string ->
  (e = "fair"%string -> forall r, inb s r -> two_positive M (member (wpos p q) w r)) ->
  exists u, returns (vs_ensemble b obs fct hw m v (Some wt) po e) s (fun r => Fin (u r)) /\
            returns (vs_ensemble b obs' fct' hw m v (Some wt) po e) s (fun r => Fin (vpow (Rabs (c r)) po ^ 2 * u r)).
Proof.
  intros b obs fct obs' fct' hw wt m v s p q M D y x y' x' h po w c t e Ha Ha' Hh HM HD Hp Hfl Hqp Hw Hy Hx He H2.
  destruct (name_vest e He) as (e' & ->). eexists. split.
  - eapply returns_is, (vs_call_w b obs fct hw m v s p q M D y x h po Ha Hh HM HD Hp ltac:(intros E; apply (Hfl E)) wt _ w Hw (wpos_S _ _ Hqp) e' (vfair_names _ _ H2)).
  - eapply returns_ext; [eapply returns_is, (vs_call_w b obs' fct' hw m v s p q M D y' x' h po Ha' Hh HM HD Hp ltac:(intros E; apply (Hfl E)) wt _ w Hw (wpos_S _ _ Hqp) e' (vfair_names _ _ H2))|].
    intros r Hr. cbv beta. f_equal. destruct e'.
    + rewrite <- (vs_score_affine D (h r) po M _ _ _ (c r) (t r)). apply vs_score_ext; auto.
    + rewrite <- k_wfair_scale. apply k_wfair_ext; auto.
      * intros i Hi. unfold vserr, vs_err. rewrite <- (vdist_affine D (h r) po (c r) (t r)). apply vdist_ext; auto.
      * intros i j Hi Hj. unfold vsdist, vs_dist. rewrite <- (vdist_affine D (h r) po (c r) (t r)). apply vdist_ext; auto.
Qed.
Lemma C36_permutation_l :
  forall b obs fct fct' hw m v s p q M D y x x' h po g e,
  mv_args obs fct m v s p q M D y x -> mv_args obs fct' m v s p q M D y x' -> pair_wts hw s D h ->
  (0 < M)%nat -> (0 < D)%nat -> 0 < po -> (b = Numba -> dt obs = DFloat) ->
  (forall r, inb s r -> reorders M (g r)) ->
  (forall r i k, inb s r -> (i < M)%nat -> (k < D)%nat -> memv p q x' r i k = memv p q x r (g r i) k) ->
  In e ["nrg"; "fair"]%string -> (e = "fair"%string -> (1 < M)%nat) ->
  exists u, returns (vs_ensemble b obs fct hw m v None po e) s (fun r => Fin (u r)) /\
            returns (vs_ensemble b obs fct' hw m v None po e) s (fun r => Fin (u r)).
Proof.
  intros b obs fct fct' hw m v s p q M D y x x' h po g e Ha Ha' Hh HM HD Hp Hfl Hg Hx He H2.
  destruct (name_vest e He) as (e' & ->). eexists. split.
  - eapply returns_is, (vs_call b obs fct hw m v s p q M D y x h po Ha Hh HM HD Hp Hfl e' (vfair_names _ _ H2)).
  - eapply returns_ext; [eapply returns_is, (vs_call b obs fct' hw m v s p q M D y x' h po Ha' Hh HM HD Hp Hfl e' (vfair_names _ _ H2))|].
    intros r Hr. cbv beta. f_equal. destruct e'.
    + rewrite !vs_score_kernel by now apply unif_sum.
      transitivity (k_wexact M (fun i => (fun _ => / INR M) (g r i))
        (fun i => vs_err D (h r) po (obsv q y r) (memv p q x r) (g r i)) (fun i j => vs_dist D (h r) po (memv p q x r) (g r i) (g r j))).
      * apply k_wexact_ext; auto; intros; apply vdist_ext; auto.
      * exact (k_wexact_perm M (g r) (fun _ => / INR M) (vs_err D (h r) po (obsv q y r) (memv p q x r)) (vs_dist D (h r) po (memv p q x r)) (Hg r Hr)).
    + transitivity (k_fair M (fun i => vserr D h po q p y x r (g r i)) (fun i j => vsdist D h po q p x r (g r i) (g r j))).
      * apply k_fair_ext; intros; apply vdist_ext; auto.
      * exact (k_fair_perm M (g r) (vserr D h po q p y x r) (vsdist D h po q p x r) (Hg r Hr)).
Qed.
Lemma C36_proper_l :
  forall b D M f x N g z h po, (0 < D)%nat -> 0 < po ->
  (forall i j, (i < D)%nat -> (j < D)%nat -> 0 <= h i j) ->
  (forall k, (k < M)%nat -> 0 <= f k) -> 0 < sumn M f ->
  (forall j, (j < N)%nat -> 0 <= g j) -> 0 < sumn N g ->
  exists S T : nat -> R,
    (forall j, (j < N)%nat -> returns (vs_ensemble b (real1 D (z j)) (real2 M D x) (Some (real2 D D h)) (-2) (-1)
       (Some (real1 M f)) po "nrg") [] (fun _ => Fin (S j))) /\
    (forall j, (j < N)%nat -> returns (vs_ensemble b (real1 D (z j)) (real2 N D z) (Some (real2 D D h)) (-2) (-1)
       (Some (real1 N g)) po "nrg") [] (fun _ => Fin (T j))) /\
    sumn N (fun j => g j / sumn N g * T j) <= sumn N (fun j => g j / sumn N g * S j).
Proof.
  intros b D M f x N g z h po HD Hp Hh Hf Hf1 Hg Hg1.
  assert (HM : (0 < M)%nat) by (destruct M; [unfold sumn, Rsum in Hf1; simpl in Hf1; lra|lia]).
  assert (HN : (0 < N)%nat) by (destruct N; [unfold sumn, Rsum in Hg1; simpl in Hg1; lra|lia]).
  assert (C : forall L u p j, (0 < L)%nat -> (forall k, (k < L)%nat -> 0 <= u k) -> 0 < sumn L u ->
    returns (vs_ensemble b (real1 D (z j)) (real2 L D p) (Some (real2 D D h)) (-2) (-1) (Some (real1 L u)) po "nrg") []
      (fun _ => Fin (vs_score D h po L (nw L u) (z j) p))).
  { intros L u p j HL Hu Hu1.
    assert (Hpw : pair_wts (Some (real2 D D h)) [] D (fun _ => h)).
    { exists (fun i => h (hd 0%nat (tl i)) (hd 0%nat i)). left. repeat split. }
    eapply returns_ext; [exact (returns_is _ _ _ _ (vs_call_w b _ _ _ _ _ _ _ _ _ _ _ _ _ po (real2_args L D (z j) p) Hpw HL HD Hp ltac:(easy) _ _ _ (real1_wts L u Hu Hu1) eq_refl VNrg ltac:(easy)))|].
    intros [|? ?] Hr; [|easy]. reflexivity. }
  exists (fun j => vs_score D h po M (nw M f) (z j) x), (fun j => vs_score D h po N (nw N g) (z j) z).
  split; [intros; now apply C|]. split; [intros; now apply C|].
  apply (vs_proper M N D h po (nw M f) x (nw N g) z); auto. now apply nw_sum1.
Qed.
Lemma C51_chain_l :
  forall b obs fct obs' fct' vf hw m v s p q M D y x y' x' h po t,
  vf obs = Ok obs' -> vf fct = Ok fct' ->
  mv_args obs' fct' m v s p q M D y' x' -> pair_wts hw s D h -> (0 < M)%nat -> (0 < D)%nat -> 0 < po ->
  (b = Numba -> dt obs' = DFloat) ->
  (forall r k, inb s r -> (k < D)%nat -> obsv q y' r k = t (obsv q y r) k) ->
  (forall r i k, inb s r -> (i < M)%nat -> (k < D)%nat -> memv p q x' r i k = t (memv p q x r i) k) ->
  returns (twvs_ensemble b obs fct vf hw m v None po "nrg") s
    (fun r => Fin (vs_score D (h r) po M (fun _ => / INR M) (t (obsv q y r)) (fun i => t (memv p q x r i)))) /\
  ((1 < M)%nat -> returns (twvs_ensemble b obs fct vf hw m v None po "fair") s
    (fun r => Fin (k_fair M (fun k => vdist D (h r) po (t (memv p q x r k)) (t (obsv q y r)))
                            (fun k l => vdist D (h r) po (t (memv p q x r k)) (t (memv p q x r l)))))).
Proof.
  intros b obs fct obs' fct' vf hw m v s p q M D y x y' x' h po t E1 E2 Ha Hh HM HD Hp Hfl Hy Hx.
  unfold twvs_ensemble, mv_weighted_score_chain. rewrite E1. cbn [bind]. rewrite E2. cbn [bind]. split.
  - eapply returns_ext; [exact (returns_is _ _ _ _ (vs_call b obs' fct' hw m v s p q M D y' x' h po Ha Hh HM HD Hp Hfl VNrg ltac:(easy)))|].
    intros r Hr; cbv beta iota; f_equal; apply vs_score_ext; auto.
  - intros H2. eapply returns_ext; [exact (returns_is _ _ _ _ (vs_call b obs' fct' hw m v s p q M D y' x' h po Ha Hh HM HD Hp Hfl VFair ltac:(auto)))|].
    intros r Hr; cbv beta iota; f_equal; apply k_fair_ext.
    + intros i Hi. apply vdist_ext; auto.
    + intros i j Hi Hj. apply vdist_ext; auto.
Qed.
Lemma C51_outcome_weighted_l :
  forall b obs fct wf g hw m v s p q M D y x h po,
  mv_args obs fct m v s p q M D y x -> pair_wts hw s D h -> (0 < M)%nat -> (0 < D)%nat -> 0 < po -> ~ In 0%nat s ->
  (b = Numba -> dt obs = DFloat) -> vweight D wf g ->
  let gx r k := g (memv p q x r k) in
  (forall r, inb s r -> 0 < sumn M (gx r)) ->
  returns (owvs_ensemble b obs fct wf hw m v None po) s
    (fun r => Fin (g (obsv q y r) * vs_score D (h r) po M (nw M (gx r)) (obsv q y r) (memv p q x r))).
Proof.
  intros b obs fct wf g hw m v s p q M D y x h po Ha Hh HM HD Hp Hs Hfl Hg gx Hpos.
  eapply returns_ext; [eapply returns_is, (owvs_call b obs fct hw m v s p q M D y x h po Ha Hh HM HD Hp Hfl wf g Hg Hs)|].
  - intros r Hr E. specialize (Hpos r Hr). unfold gx in Hpos. lra.
  - intros r Hr. cbv beta. do 2 f_equal. symmetry. apply vs_score_kernel, nw_sum1. exact (Hpos r Hr).
Qed.
Lemma C51_vertical_l :
  forall b obs fct wf g hw m v s p q M D y x h po,
  mv_args obs fct m v s p q M D y x -> pair_wts hw s D h -> (0 < M)%nat -> (0 < D)%nat -> 0 < po -> ~ In 0%nat s ->
  (b = Numba -> dt obs = DFloat) -> vweight D wf g ->
  returns (vrvs_ensemble b obs fct wf hw m v None po) s
    (fun r => Fin (sumn D (fun i => sumn D (fun j => h r i j *
       (g (obsv q y r) * vgram po (obsv q y r) i j
        - sumn M (fun k => g (memv p q x r k) / INR M * vgram po (memv p q x r k) i j)) ^ 2)))).
Proof.
  intros b obs fct wf g hw m v s p q M D y x h po Ha Hh HM HD Hp Hs Hfl Hg.
  eapply returns_ext; [eapply returns_is, (vrvs_call b obs fct hw m v s p q M D y x h po Ha Hh HM HD Hp Hfl wf g Hg Hs)|].
  intros r Hr. cbv beta. f_equal. exact (k_vr_vario D (h r) po M _ _ (obsv q y r) (memv p q x r)).
Qed.
Lemma C51_weighted_l :
  forall b obs fct wt wf g hw m v s p q M D y x h po w,
  mv_args obs fct m v s p q M D y x -> pair_wts hw s D h -> (0 < M)%nat -> (0 < D)%nat -> 0 < po -> ~ In 0%nat s ->
  (b = Numba -> dt obs = DFloat) -> vweight D wf g -> (q < p)%nat -> mv_wts wt s (wpos p q) M w ->
  let u r k := g (memv p q x r k) * nw M (member (wpos p q) w r) k in
  ((forall r, inb s r -> 0 < sumn M (u r)) ->
   returns (owvs_ensemble b obs fct wf hw m v (Some wt) po) s
    (fun r => Fin (g (obsv q y r) * vs_score D (h r) po M (nw M (u r)) (obsv q y r) (memv p q x r)))) /\
  returns (vrvs_ensemble b obs fct wf hw m v (Some wt) po) s
    (fun r => Fin (sumn D (fun i => sumn D (fun j => h r i j *
       (g (obsv q y r) * vgram po (obsv q y r) i j
        - sumn M (fun k => u r k * vgram po (memv p q x r k) i j)) ^ 2)))).
Proof.
  intros b obs fct wt wf g hw m v s p q M D y x h po w Ha Hh HM HD Hp Hs Hfl Hg Hqp Hw u. split.
  - intros Hpos. eapply returns_ext; [eapply returns_is, (owvs_call_w b obs fct hw m v s p q M D y x h po Ha Hh HM HD Hp Hfl wf g Hg Hs wt _ w Hw (wpos_S _ _ Hqp))|].
    + intros r Hr E. specialize (Hpos r Hr). unfold u in Hpos. lra.
    + intros r Hr. cbv beta. do 2 f_equal. symmetry. apply vs_score_kernel, nw_sum1. exact (Hpos r Hr).
  - eapply returns_ext; [eapply returns_is, (vrvs_call_w b obs fct hw m v s p q M D y x h po Ha Hh HM HD Hp Hfl wf g Hg Hs wt _ w Hw (wpos_S _ _ Hqp))|].
    intros r Hr. cbv beta. f_equal. exact (k_vr_vario D (h r) po M _ _ (obsv q y r) (memv p q x r)).
Qed.
Lemma C51_unit_l :
  forall b obs fct wf hw m v s p q M D y x h po,
  mv_args obs fct m v s p q M D y x -> pair_wts hw s D h -> (0 < M)%nat -> (0 < D)%nat -> 0 < po -> ~ In 0%nat s ->
  (b = Numba -> dt obs = DFloat) -> vweight D wf (fun _ => 1) ->
  exists u, returns (vs_ensemble b obs fct hw m v None po "nrg") s (fun r => Fin (u r)) /\
            returns (owvs_ensemble b obs fct wf hw m v None po) s (fun r => Fin (u r)) /\
            returns (vrvs_ensemble b obs fct wf hw m v None po) s (fun r => Fin (u r)).
Proof.
  intros b obs fct wf hw m v s p q M D y x h po Ha Hh HM HD Hp Hs Hfl Hg. pose proof (INR_pos M HM).
  eexists. split; [exact (returns_is _ _ _ _ (vs_call b obs fct hw m v s p q M D y x h po Ha Hh HM HD Hp Hfl VNrg ltac:(easy)))|]. split.
  - eapply returns_ext; [apply (C51_outcome_weighted_l b obs fct wf (fun _ => 1) hw m v s p q M D y x h po); auto|].
    + intros r Hr. rewrite sumn_const. lra.
    + intros r Hr. cbv beta. f_equal. rewrite Rmult_1_l. apply vs_score_ext; auto.
      intros i Hi. unfold nw. rewrite sumn_const. field. lra.
  - eapply returns_ext; [apply (C51_vertical_l b obs fct wf (fun _ => 1) hw m v s p q M D y x h po); auto|].
    intros r Hr. cbv beta. f_equal. unfold vs_score. apply sumn2_ext; intros i j Hi Hj.
    rewrite Rmult_1_l. do 3 f_equal. apply sumn_ext; intros; field; lra.
Qed.
Lemma C51_nonnegative_l :
  forall b obs fct wf g hw m v s p q M D y x h po,
  mv_args obs fct m v s p q M D y x -> pair_wts hw s D h -> (0 < M)%nat -> (0 < D)%nat -> 0 < po -> ~ In 0%nat s ->
  (b = Numba -> dt obs = DFloat) -> vweight D wf g ->
  (forall r i j, inb s r -> (i < D)%nat -> (j < D)%nat -> 0 <= h r i j) ->
  ((forall r, inb s r -> 0 < sumn M (fun k => g (memv p q x r k))) ->
   exists u, returns (owvs_ensemble b obs fct wf hw m v None po) s (fun r => Fin (u r)) /\ forall r, inb s r -> 0 <= u r) /\
  exists u, returns (vrvs_ensemble b obs fct wf hw m v None po) s (fun r => Fin (u r)) /\ forall r, inb s r -> 0 <= u r.
Proof.
  intros b obs fct wf g hw m v s p q M D y x h po Ha Hh HM HD Hp Hs Hfl Hg Hn. split.
  - intros Hpos. eexists. split; [apply (C51_outcome_weighted_l b obs fct wf g hw m v s p q M D y x h po); auto|].
    intros r Hr. apply Rmult_le_pos; [apply (Hg (obsv q y r))|]. apply vs_nonneg; auto.
  - eexists. split; [apply (C51_vertical_l b obs fct wf g hw m v s p q M D y x h po); auto|].
    intros r Hr. apply sumn_nonneg; intros i Hi. apply sumn_nonneg; intros j Hj.
    apply Rmult_le_pos; [auto|apply pow2_ge_0].
Qed.
Lemma C52_array_types_l :
  forall obs fct obs' fct' hw m v s p q M D y x h po e,
  mv_args obs fct m v s p q M D y x -> mv_args obs' fct' m v s p q M D y x -> pair_wts hw s D h ->
  (0 < M)%nat -> (0 < D)%nat -> 0 < po ->
  In e ["nrg"; "fair"]%string -> (e = "fair"%string -> (1 < M)%nat) ->
  exists u, returns (vs_ensemble Array obs fct hw m v None po e) s (fun r => Fin (u r)) /\
            returns (vs_ensemble Array obs' fct' hw m v None po e) s (fun r => Fin (u r)).
Proof.
  intros obs fct obs' fct' hw m v s p q M D y x h po e Ha Ha' Hh HM HD Hp He H2. destruct (name_vest e He) as (e' & ->).
  eexists. split.
  - eapply returns_is, (vs_call Array obs fct hw m v s p q M D y x h po Ha Hh HM HD Hp ltac:(easy) e' (vfair_names _ _ H2)).
  - eapply returns_is, (vs_call Array obs' fct' hw m v s p q M D y x h po Ha' Hh HM HD Hp ltac:(easy) e' (vfair_names _ _ H2)).
Qed.
Lemma C52_numba_integer_refuted_l :
  exists obs fct y x, mv_args obs fct (-2) (-1) [] 1 0 1 2 y x /\ dt obs = DInt /\
    returns (vs_ensemble Array obs fct None (-2) (-1) None 1 "nrg") [] (fun _ => Fin (/ 2)) /\
    returns (vs_ensemble Numba obs fct None (-2) (-1) None 1 "nrg") [] (fun _ => Fin 0).
Proof.
  set (x := fun _ k : nat => match k with 1%nat => / 2 | _ => 0 end : R).
  set (y := fun k : nat => match k with 1%nat => 1 | _ => 0 end : R).
  exists (mkArr DInt [2%nat] (fun i => Fin (y (hd 0%nat i)))), (real2 1 2 x), (fun i => y (hd 0%nat i)),
    (fun i => x (hd 0%nat (tl i)) (hd 0%nat i)).
  assert (Ha : mv_args (mkArr DInt [2%nat] (fun i => Fin (y (hd 0%nat i)))) (real2 1 2 x) (-2) (-1) [] 1 0 1 2
    (fun i => y (hd 0%nat i)) (fun i => x (hd 0%nat (tl i)) (hd 0%nat i))).
  { repeat split; simpl; auto; now left. }
  assert (V0 : vpow (Rabs 0) 1 = 0) by (unfold vpow; rewrite Rabs_R0; destruct (Req_EM_T 0 0); [reflexivity|easy]).
  assert (V1 : vpow (Rabs 1) 1 = 1) by (unfold vpow; rewrite Rabs_R1; destruct (Req_EM_T 1 0); [lra|apply Rpower_1; lra]).
  assert (Vh : vpow (Rabs (/ 2)) 1 = / 2) by (unfold vpow; rewrite Rabs_right by lra; destruct (Req_EM_T (/ 2) 0); [lra|apply Rpower_1; lra]).
  split; [exact Ha|]. split; [reflexivity|]. split.
  - destruct (C36_values_l Array _ _ None _ _ _ _ _ _ _ _ _ (fun _ _ _ => 1) 1 Ha ltac:(easy) ltac:(lia) ltac:(lia) ltac:(lra) ltac:(easy)) as (V & _).
    eapply returns_ext; [exact V|]. intros [|? ?] Hr; [|easy]. cbv beta. f_equal.
    unfold sumn, Rsum, obsv, memv; simpl. unfold x, y; simpl.
    rewrite !Rminus_eq_0, !Rminus_0_r, !Rminus_0_l, !Rabs_Ropp, V0, V1, Vh. field.
  - destruct (mv_check _ _ _ _ _ _ _ _ _ _ _ Ha) as (obs' & fct' & E & Ho & Hf).
    unfold vs_ensemble. rewrite E. cbn [bind].
    assert (Hok := vs_weights_ok None [] 2 (fun _ _ _ => 1) obs' fct' 1 ltac:(easy) (proj1 (proj2 Ho)) (proj1 (proj2 Hf))).
    set (w' := vs_weights obs' fct' None) in *. unfold vs_gufuncs. cbn [String.eqb Ascii.eqb Bool.eqb].
    destruct Hok as (sw & hf & _ & _ & B3 & (_ & Sw & Hw) & Hhv).
    destruct Ho as (Do & So & Vo), Hf as (Df & Sf & Vf).
    assert (Esw : sw = []) by (unfold w' in Sw; cbn in Sw; rewrite So, Sf in Sw; simpl in Sw; congruence). subst sw.
    unfold gu_v, gu_core, gcore1, gcore2. rewrite So, Sf, Sw. cbn [bind check andb Nat.eqb].
    unfold gloop. cbn [fold_right bind bshape]. unfold gout_like_mv. rewrite So, Do. cbn [dt].
    destruct (list_eq_dec Nat.eq_dec [] []) as [_|N]; [|easy].
    eapply returns_is, ten_Ok. split; [reflexivity|]. split; [reflexivity|].
    intros i Hi. destruct i; [|easy]. cbn [at_].
    unfold gV, gM. rewrite So, Sf, Sw. cbn [hd tl seq map bidx Nat.eqb].
    rewrite !Vo, !Vf, !Hw by (simpl; repeat split; lia).
    cbn [hd tl obsv memv insert_at]. pose proof (Hhv [] 0%nat 0%nat I ltac:(lia) ltac:(lia)) as H00.
    pose proof (Hhv [] 0%nat 1%nat I ltac:(lia) ltac:(lia)) as H01.
    pose proof (Hhv [] 1%nat 0%nat I ltac:(lia) ltac:(lia)) as H10.
    pose proof (Hhv [] 1%nat 1%nat I ltac:(lia) ltac:(lia)) as H11. cbn [bidx] in *. rewrite H00, H01, H10, H11.
    assert (P : forall a : R, npow (nabs (Fin a)) (Fin 1) = Fin (vpow (Rabs a) 1)) by (intros; apply fv_powabs; auto; lra).
    assert (RT : forall a, 0 <= a < 1 -> rtrunc a = 0%Z).
    { intros a Hr0. unfold rtrunc. destruct (Rle_dec 0 a); [|lra]. unfold Int_part. rewrite <- (up_tech a 0); [reflexivity|simpl; lra|simpl; lra]. }
    assert (T0 : ncast DInt (Fin 0) = Fin 0) by (cbn [ncast]; rewrite RT by lra; reflexivity).
    assert (T4 : ncast DInt (Fin (/ 4)) = Fin 0) by (cbn [ncast]; rewrite RT by lra; reflexivity).
    unfold vs_nrg_k, rho, ith2, ith, ithv. cbn [length seq fold_left nth]. unfold obsv, memv; cbn [insert_at hd tl]. unfold x, y.
    assert (ST : forall a b u, Rabs (vpow (Rabs a) 1 - vpow (Rabs b) 1) = u -> 0 <= u * u < 1 ->
      ncast DInt (Fin 0 .+ Fin 1 .* nsq (npow (nabs (Fin a)) (Fin 1) .- (n0 .+ npow (nabs (Fin b)) (Fin 1)) ./ nofnat 1)) = Fin 0).
    { intros a b u <- Hu. rewrite <- Rabs_mult, Rabs_pos_eq in Hu by apply Rle_0_sqr. rewrite !P. change n0 with (Fin 0). change (nofnat 1) with (Fin 1). cbn [nadd nsub].
      rewrite (fv_div _ _ _ _ eq_refl eq_refl) by lra. unfold nsq. cbn [nadd nsub nopp nmul ncast]. rewrite RT; [reflexivity|].
      match goal with |- 0 <= ?e < 1 => replace e with ((vpow (Rabs a) 1 - vpow (Rabs b) 1) * (vpow (Rabs a) 1 - vpow (Rabs b) 1)) by field end. exact Hu. }
    assert (Z : forall a b : R, Fin a .- Fin b = Fin (a - b)) by reflexivity.
    assert (Aq : Rabs (1 - / 2) = / 2) by (rewrite Rabs_right; lra).
    change n0 with (Fin 0) at 1. rewrite T0, !Z, !Rminus_eq_0, !Rminus_0_r, !Rminus_0_l.
    rewrite (ST 0 0 0) by (rewrite ?V0, ?Rminus_0_r, ?Rabs_R0; lra).
    rewrite (ST (Ropp 1) (- / 2) (/ 2)) by (rewrite ?Rabs_Ropp, ?V1, ?Vh, ?Aq; lra).
    rewrite (ST 1 (/ 2) (/ 2)) by (rewrite ?V1, ?Vh, ?Aq; lra).
    rewrite (ST 0 0 0) by (rewrite ?V0, ?Rminus_0_r, ?Rabs_R0; lra). exact T0.
Qed.
