(** Proofs that the exact scores depend only on the forecast distribution (statements in P_law.v). *)
From Coq Require Import Psatz Lia.
From Verif Require Export L_law.
Open Scope R_scope.
Lemma C88_crps_l :
forall srt b obs fct wt fct' ax s p M N y x w x' e sf pol,
  argsort_ok srt -> ens_args obs fct ax s p M y x -> ens_args obs fct' ax s p N y x' -> (0 < M)%nat -> (0 < N)%nat ->
  wts_args wt fct s p M w -> In e ["nrg"; "qd"; "int"]%string -> In pol ["propagate"; "raise"]%string ->
  (b = Numba -> dt obs = DFloat) -> sorted_if sf s p M x -> sorted_if sf s p N x' ->
  (forall wt' w', wts_args wt' fct' s p N w' ->
   (forall r, inb s r -> same_law1 M (member p w r) (member p x r) N (member p w' r) (member p x' r)) ->
   (exists v, returns (crps_ensemble srt b obs fct ax (Some wt) e sf pol) s (fun r => Fin (v r)) /\
              returns (crps_ensemble srt b obs fct' ax (Some wt') e sf pol) s (fun r => Fin (v r))) /\
   forall lo hi, thresholds lo hi ->
    exists v, returns (twcrps_ensemble srt b obs fct lo hi ax (Some wt) None e sf pol) s (fun r => Fin (v r)) /\
              returns (twcrps_ensemble srt b obs fct' lo hi ax (Some wt') None e sf pol) s (fun r => Fin (v r))) /\
  ((forall r, inb s r -> same_law1 M (member p w r) (member p x r) N (fun _ => 1) (member p x' r)) ->
   exists v, returns (crps_ensemble srt b obs fct ax (Some wt) e sf pol) s (fun r => Fin (v r)) /\
             returns (crps_ensemble srt b obs fct' ax None e sf pol) s (fun r => Fin (v r))).
Proof.
intros srt b obs fct wt fct' ax s p M N y x w x' e sf pol Hs Ha Ha' HM HN Hw He Hp Hd Hsf Hsf'.
assert (exists e', e = ename e' /\ (forall M y x, real_un e' M y x = exact_crps M y x) /\
     (forall M w y x, real_w b e' M w y x = wexact_crps M w y x) /\ need2 e' = false) as (e' & -> & E1 & E2 & E3).
{ names He; [exists Nrg|exists Qd|exists EInt]; repeat split; reflexivity. }
split; [intros wt' w' Hw' HL; split|intros HL].
- eexists; split; [eapply returns_is, (call_w srt b obs fct wt ax s p M y x _ e' sf pol Hs Ha Hw); auto; congruence|].
  eapply returns_ext; [eapply returns_is, (call_w srt b obs fct' wt' ax s p N y x' _ e' sf pol Hs Ha' Hw'); auto; congruence|].
  intros r Hr. cbv beta. f_equal. rewrite !E2, !wexact_k. symmetry. apply (law_k1 _ _ _ _ _ _ (fun t => Rabs (t - y r)) (fun t u => Rabs (t - u)) (HL r Hr)).
- intros lo hi Ht. eexists; split; [apply (tw_w srt b obs fct wt lo hi ax s p M y x _ e' sf pol Hs Ha HM Ht Hw); auto; congruence|].
  eapply returns_ext; [apply (tw_w srt b obs fct' wt' lo hi ax s p N y x' _ e' sf pol Hs Ha' HN Ht Hw'); auto; congruence|].
  intros r Hr. cbv beta. f_equal. rewrite !E2, !wexact_k. symmetry. apply (law_k1 _ _ _ _ _ _ (fun t => Rabs (clampR lo hi t - clampR lo hi (y r))) (fun t u => Rabs (clampR lo hi t - clampR lo hi u)) (HL r Hr)).
- eexists; split; [eapply returns_is, (call_w srt b obs fct wt ax s p M y x _ e' sf pol Hs Ha Hw); auto; congruence|].
  eapply returns_ext; [eapply returns_is, (call_un srt b obs fct' ax s p N y x' e' sf pol); auto; congruence|].
  intros r Hr. cbv beta. f_equal. rewrite E1, E2, wexact_k, crps_k, <- k_unif by auto. symmetry. apply (law_k1 _ _ _ _ _ _ (fun t => Rabs (t - y r)) (fun t u => Rabs (t - u)) (HL r Hr)).
Qed.
Lemma C88_energy_l :
forall b obs fct wt fct' m v s p q M N D y x w x',
  mv_args obs fct m v s p q M D y x -> mv_args obs fct' m v s p q N D y x' -> (0 < M)%nat -> (0 < N)%nat -> (0 < D)%nat ->
  (b = Numba -> floats obs fct /\ floats obs fct') -> (q < p)%nat -> mv_wts wt s (wpos p q) M w ->
  (forall wt' w', mv_wts wt' s (wpos p q) N w' ->
   (forall r, inb s r -> same_law D M (member (wpos p q) w r) (memv p q x r) N (member (wpos p q) w' r) (memv p q x' r)) ->
   exists u, returns (es_ensemble b obs fct m v (Some wt) "nrg") s (fun r => Fin (u r)) /\
             returns (es_ensemble b obs fct' m v (Some wt') "nrg") s (fun r => Fin (u r))) /\
  ((forall r, inb s r -> same_law D M (member (wpos p q) w r) (memv p q x r) N (fun _ => 1) (memv p q x' r)) ->
   exists u, returns (es_ensemble b obs fct m v (Some wt) "nrg") s (fun r => Fin (u r)) /\
             returns (es_ensemble b obs fct' m v None "nrg") s (fun r => Fin (u r))).
Proof.
intros b obs fct wt fct' m v s p q M N D y x w x' Ha Ha' HM HN HD Hf Hqp Hw.
pose proof (proj1 (C46_weights_l b obs fct wt m v s p q M D y x w Ha HM HD (fun E => proj1 (Hf E)) Hqp Hw)) as V.
split; [intros wt' w' Hw' HL|intros HL]; (eexists; split; [exact V|]).
- eapply returns_ext; [exact (proj1 (C46_weights_l b obs fct' wt' m v s p q N D y x' w' Ha' HN HD (fun E => proj2 (Hf E)) Hqp Hw'))|].
  intros r Hr. cbv beta. f_equal. symmetry. apply (law_kD D _ _ _ _ _ _ (fun u => eucl D u (obsv q y r)) (eucl D) (HL r Hr)); [apply eucl_dep|apply eucl_dep|apply eucl_dep'].
- eapply returns_ext; [exact (proj1 (C33_values_l b obs fct' m v s p q N D y x' "nrg"%string Ha' HN HD (fun E => proj2 (Hf E))) eq_refl)|].
  intros r Hr. cbv beta. f_equal. rewrite <- k_unif by auto. symmetry. apply (law_kD D _ _ _ _ _ _ (fun u => eucl D u (obsv q y r)) (eucl D) (HL r Hr)); [apply eucl_dep|apply eucl_dep|apply eucl_dep'].
Qed.
Lemma C88_kernel_l :
(forall b obs fct wt fct' ax s p M N y x w x',
  ens_args obs fct ax s p M y x -> ens_args obs fct' ax s p N y x' -> (0 < M)%nat -> (0 < N)%nat -> (b = Numba -> dt obs = DFloat) -> uv_wts wt s p M w ->
  (forall wt' w', uv_wts wt' s p N w' ->
   (forall r, inb s r -> same_law1 M (member p w r) (member p x r) N (member p w' r) (member p x' r)) ->
   exists u, returns (gksuv_ensemble b obs fct ax (Some wt) "nrg") s (fun r => Fin (u r)) /\
             returns (gksuv_ensemble b obs fct' ax (Some wt') "nrg") s (fun r => Fin (u r))) /\
  ((forall r, inb s r -> same_law1 M (member p w r) (member p x r) N (fun _ => 1) (member p x' r)) ->
   exists u, returns (gksuv_ensemble b obs fct ax (Some wt) "nrg") s (fun r => Fin (u r)) /\
             returns (gksuv_ensemble b obs fct' ax None "nrg") s (fun r => Fin (u r)))) /\
(forall b obs fct wt fct' m v s p q M N D y x w x',
  mv_args obs fct m v s p q M D y x -> mv_args obs fct' m v s p q N D y x' -> (0 < M)%nat -> (0 < N)%nat -> (0 < D)%nat ->
  (b = Numba -> floats obs fct /\ floats obs fct') -> (q < p)%nat -> mv_wts wt s (wpos p q) M w ->
  (forall wt' w', mv_wts wt' s (wpos p q) N w' ->
   (forall r, inb s r -> same_law D M (member (wpos p q) w r) (memv p q x r) N (member (wpos p q) w' r) (memv p q x' r)) ->
   exists u, returns (gksmv_ensemble b obs fct m v (Some wt) "nrg") s (fun r => Fin (u r)) /\
             returns (gksmv_ensemble b obs fct' m v (Some wt') "nrg") s (fun r => Fin (u r))) /\
  ((forall r, inb s r -> same_law D M (member (wpos p q) w r) (memv p q x r) N (fun _ => 1) (memv p q x' r)) ->
   exists u, returns (gksmv_ensemble b obs fct m v (Some wt) "nrg") s (fun r => Fin (u r)) /\
             returns (gksmv_ensemble b obs fct' m v None "nrg") s (fun r => Fin (u r)))).
Proof.
split.
- intros b obs fct wt fct' ax s p M N y x w x' Ha Ha' HM HN Hf Hw.
  pose proof (proj1 (C37_uv_weighted_l b obs fct wt ax s p M y x w "nrg"%string Ha HM Hf Hw) eq_refl) as V.
  split; [intros wt' w' Hw' HL|intros HL]; (eexists; split; [exact V|]).
  + eapply returns_ext; [exact (proj1 (C37_uv_weighted_l b obs fct' wt' ax s p N y x' w' "nrg"%string Ha' HN Hf Hw') eq_refl)|].
    intros r Hr. cbv beta. f_equal. symmetry. apply (law_k1 _ _ _ _ _ _ (fun u => gauss1 u (y r)) gauss1 (HL r Hr)).
  + eapply returns_ext; [exact (proj1 (C37_uv_values_l b obs fct' ax s p N y x' "nrg"%string Ha' HN Hf) eq_refl)|].
    intros r Hr. cbv beta. f_equal. rewrite <- gk_unif by auto. symmetry. apply (law_k1 _ _ _ _ _ _ (fun u => gauss1 u (y r)) gauss1 (HL r Hr)).
- intros b obs fct wt fct' m v s p q M N D y x w x' Ha Ha' HM HN HD Hf Hqp Hw.
  pose proof (proj1 (C37_mv_weighted_l b obs fct wt m v s p q M D y x w "nrg"%string Ha HM HD (fun E => proj1 (Hf E)) Hqp Hw) eq_refl) as V.
  split; [intros wt' w' Hw' HL|intros HL]; (eexists; split; [exact V|]).
  + eapply returns_ext; [exact (proj1 (C37_mv_weighted_l b obs fct' wt' m v s p q N D y x' w' "nrg"%string Ha' HN HD (fun E => proj2 (Hf E)) Hqp Hw') eq_refl)|].
    intros r Hr. cbv beta. f_equal. symmetry. apply (law_kD D _ _ _ _ _ _ (fun u => gaussD D u (obsv q y r)) (gaussD D) (HL r Hr)); [apply gaussD_dep|apply gaussD_dep|apply gaussD_dep'].
  + eapply returns_ext; [exact (proj1 (C37_mv_values_l b obs fct' m v s p q N D y x' "nrg"%string Ha' HN HD (fun E => proj2 (Hf E))) eq_refl)|].
    intros r Hr. cbv beta. f_equal. rewrite <- gk_unif by auto. symmetry. apply (law_kD D _ _ _ _ _ _ (fun u => gaussD D u (obsv q y r)) (gaussD D) (HL r Hr)); [apply gaussD_dep|apply gaussD_dep|apply gaussD_dep'].
Qed.
Lemma C88_variogram_l :
forall b obs fct hw wt fct' m v s p q M N D y x w x' h po,
  mv_args obs fct m v s p q M D y x -> mv_args obs fct' m v s p q N D y x' -> pair_wts hw s D h -> (0 < M)%nat -> (0 < N)%nat -> (0 < D)%nat -> 0 < po ->
  (b = Numba -> dt obs = DFloat) -> (q < p)%nat -> mv_wts wt s (wpos p q) M w ->
  (forall wt' w', mv_wts wt' s (wpos p q) N w' ->
   (forall r, inb s r -> same_law D M (member (wpos p q) w r) (memv p q x r) N (member (wpos p q) w' r) (memv p q x' r)) ->
   exists u, returns (vs_ensemble b obs fct hw m v (Some wt) po "nrg") s (fun r => Fin (u r)) /\
             returns (vs_ensemble b obs fct' hw m v (Some wt') po "nrg") s (fun r => Fin (u r))) /\
  ((forall r, inb s r -> same_law D M (member (wpos p q) w r) (memv p q x r) N (fun _ => 1) (memv p q x' r)) ->
   exists u, returns (vs_ensemble b obs fct hw m v (Some wt) po "nrg") s (fun r => Fin (u r)) /\
             returns (vs_ensemble b obs fct' hw m v None po "nrg") s (fun r => Fin (u r))).
Proof.
intros b obs fct hw wt fct' m v s p q M N D y x w x' h po Ha Ha' Hh HM HN HD Hpo Hf Hqp Hw.
pose proof (proj1 (C36_values_weighted_l b obs fct hw wt m v s p q M D y x h po w Ha Hh HM HD Hpo Hf Hqp Hw)) as V. cbv beta in V.
assert (S1 : forall K u, (forall r, inb s r -> 0 < sumn K (u r)) -> forall r, inb s r -> sumn K (nw K (u r)) = 1) by (intros K u Hu r Hr; apply nw_sum1; specialize (Hu r Hr); lra).
split; [intros wt' w' Hw' HL|intros HL]; (eexists; split; [exact V|]).
- eapply returns_ext; [exact (proj1 (C36_values_weighted_l b obs fct' hw wt' m v s p q N D y x' h po w' Ha' Hh HN HD Hpo Hf Hqp Hw'))|].
  intros r Hr. cbv beta. f_equal. rewrite !vs_score_kernel by first [apply (S1 M (fun r => member (wpos p q) w r)); auto; apply Hw|apply (S1 N (fun r => member (wpos p q) w' r)); auto; apply Hw']. symmetry.
  apply (law_kD D _ _ _ _ _ _ (fun u => vdist D (h r) po u (obsv q y r)) (vdist D (h r) po) (HL r Hr)); [apply vdist_dep|apply vdist_dep|apply vdist_dep'].
- eapply returns_ext; [exact (proj1 (C36_values_l b obs fct' hw m v s p q N D y x' h po Ha' Hh HN HD Hpo Hf))|].
  intros r Hr. cbv beta. f_equal. etransitivity; [symmetry; exact (vs_score_unif D (h r) po N (obsv q y r) (memv p q x' r) HN)|]. rewrite vs_k by auto.
  rewrite vs_score_kernel by (apply (S1 M (fun r => member (wpos p q) w r)); auto; apply Hw). rewrite <- k_unif by auto. symmetry.
  apply (law_kD D _ _ _ _ _ _ (fun u => vdist D (h r) po u (obsv q y r)) (vdist D (h r) po) (HL r Hr)); [apply vdist_dep|apply vdist_dep|apply vdist_dep'].
Qed.
Lemma C88_operations_l :
(forall (A : Type) c M w (f : A -> R) x, c <> 0 -> wmean M (fun i => c * w i) f x = wmean M w f x) /\
(forall (A : Type) M w keep (f : A -> R) x, NoDup keep -> (forall k, In k keep -> (k < M)%nat) -> (forall k, (k < M)%nat -> ~ In k keep -> w k = 0) ->
   wmean M w f x = wmean (length keep) (fun j => w (nth j keep 0%nat)) f (fun j => x (nth j keep 0%nat))) /\
(forall (A : Type) M N c (f : A -> R) x x', Permutation (map x' (seq 0 N)) (flat_map (fun k => repeat (x k) (c k)) (seq 0 M)) ->
   wmean M (fun k => INR (c k)) f x = wmean N (fun _ => 1) f x').
Proof.
split; [intros; now apply wmean_scale|]. split; [|intros; now apply wmean_repeated].
intros A M w keep f x H1 H2 H3. apply (wmean_kept M w keep f x). now repeat split.
Qed.
