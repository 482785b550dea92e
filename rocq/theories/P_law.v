(** Property C88: the exact scores depend only on the distribution described by members and weights; [same_law1], [same_law], [wmean] are in S_law.v. *)
From Coq Require Import Psatz Lia.
From Verif Require Import T_law L_crps_call L_examples.
Open Scope R_scope.

(** C88.  CRPS and threshold-weighted CRPS: nrg, qd and int give the same value for two weighted ensembles, possibly of different sizes, with the same distribution at every grid point; also for a weighted and an unweighted one. *)
Theorem C88_crps :
forall srt b obs fct wt fct' ax s p M N y x w x' e sf pol,
  argsort_ok srt -> ens_args obs fct ax s p M y x -> ens_args obs fct' ax s p N y x' -> (0 < M)%nat -> (0 < N)%nat ->
  wts_args wt fct s p M w -> In e ["nrg"; "qd"; "int"]%string -> In pol ["propagate"; "raise"]%string ->
  (b = Numba -> dt obs = DFloat) -> sorted_if sf s p M x -> sorted_if sf s p N x' ->
  (forall wt' w', wts_args wt' fct' s p N w' ->
   (forall r, inb s r -> same_law1 M (member p w r) (member p x r) N (member p w' r) (member p x' r)) ->
   (exists v, returns (crps_ensemble srt b obs fct ax (Some wt) e sf pol) s (fun r => Fin (v r)) /\
              returns (crps_ensemble srt b obs fct' ax (Some wt') e sf pol) s (fun r => Fin (v r))) /\
   forall lo hi, thresholds lo hi ->
    exists v, returns (twcrps_ensemble srt b obs fct lo hi ax (Some wt) None e sf pol) s (fun r => Fin (v r)) /\
              returns (twcrps_ensemble srt b obs fct' lo hi ax (Some wt') None e sf pol) s (fun r => Fin (v r))) /\
  ((forall r, inb s r -> same_law1 M (member p w r) (member p x r) N (fun _ => 1) (member p x' r)) ->
   exists v, returns (crps_ensemble srt b obs fct ax (Some wt) e sf pol) s (fun r => Fin (v r)) /\
             returns (crps_ensemble srt b obs fct' ax None e sf pol) s (fun r => Fin (v r))).
Proof. exact C88_crps_l. Qed.
Print Assumptions C88_crps.
(** members 5, 7, 9 of weights 2, 1, 0 and members 7, 5, 5 *)
Example C88_crps_case : same_law1 3 (fun k => nth k [2; 1; 0] 0) (fun k => nth k [5; 7; 9] 0) 3 (fun _ => 1) (fun k => nth k [7; 5; 5] 0).
Proof. intros f. unfold wmean, sumn, Rsum. simpl. field. Qed.

(** C88.  Energy score, nrg. *)
Theorem C88_energy :
forall b obs fct wt fct' m v s p q M N D y x w x',
  mv_args obs fct m v s p q M D y x -> mv_args obs fct' m v s p q N D y x' -> (0 < M)%nat -> (0 < N)%nat -> (0 < D)%nat ->
  (b = Numba -> floats obs fct /\ floats obs fct') -> (q < p)%nat -> mv_wts wt s (wpos p q) M w ->
  (forall wt' w', mv_wts wt' s (wpos p q) N w' ->
   (forall r, inb s r -> same_law D M (member (wpos p q) w r) (memv p q x r) N (member (wpos p q) w' r) (memv p q x' r)) ->
   exists u, returns (es_ensemble b obs fct m v (Some wt) "nrg") s (fun r => Fin (u r)) /\
             returns (es_ensemble b obs fct' m v (Some wt') "nrg") s (fun r => Fin (u r))) /\
  ((forall r, inb s r -> same_law D M (member (wpos p q) w r) (memv p q x r) N (fun _ => 1) (memv p q x' r)) ->
   exists u, returns (es_ensemble b obs fct m v (Some wt) "nrg") s (fun r => Fin (u r)) /\
             returns (es_ensemble b obs fct' m v None "nrg") s (fun r => Fin (u r))).
Proof. exact C88_energy_l. Qed.
Print Assumptions C88_energy.
(** two members in the plane of weights 2 and 1, and three members two of which coincide *)
Example C88_energy_case : same_law 2 2 (fun k => nth k [2; 1] 0) (fun i k => INR (i * k)) 3 (fun _ => 1) (fun i k => INR (nth i [0; 1; 0]%nat 0%nat * k)).
Proof. intros f _. unfold wmean, sumn, Rsum. simpl. field. Qed.

(** C88.  Kernel scores, nrg. *)
Theorem C88_kernel :
(forall b obs fct wt fct' ax s p M N y x w x',
  ens_args obs fct ax s p M y x -> ens_args obs fct' ax s p N y x' -> (0 < M)%nat -> (0 < N)%nat -> (b = Numba -> dt obs = DFloat) -> uv_wts wt s p M w ->
  (forall wt' w', uv_wts wt' s p N w' ->
   (forall r, inb s r -> same_law1 M (member p w r) (member p x r) N (member p w' r) (member p x' r)) ->
   exists u, returns (gksuv_ensemble b obs fct ax (Some wt) "nrg") s (fun r => Fin (u r)) /\
             returns (gksuv_ensemble b obs fct' ax (Some wt') "nrg") s (fun r => Fin (u r))) /\
  ((forall r, inb s r -> same_law1 M (member p w r) (member p x r) N (fun _ => 1) (member p x' r)) ->
   exists u, returns (gksuv_ensemble b obs fct ax (Some wt) "nrg") s (fun r => Fin (u r)) /\
             returns (gksuv_ensemble b obs fct' ax None "nrg") s (fun r => Fin (u r)))) /\
(forall b obs fct wt fct' m v s p q M N D y x w x',
  mv_args obs fct m v s p q M D y x -> mv_args obs fct' m v s p q N D y x' -> (0 < M)%nat -> (0 < N)%nat -> (0 < D)%nat ->
  (b = Numba -> floats obs fct /\ floats obs fct') -> (q < p)%nat -> mv_wts wt s (wpos p q) M w ->
  (forall wt' w', mv_wts wt' s (wpos p q) N w' ->
   (forall r, inb s r -> same_law D M (member (wpos p q) w r) (memv p q x r) N (member (wpos p q) w' r) (memv p q x' r)) ->
   exists u, returns (gksmv_ensemble b obs fct m v (Some wt) "nrg") s (fun r => Fin (u r)) /\
             returns (gksmv_ensemble b obs fct' m v (Some wt') "nrg") s (fun r => Fin (u r))) /\
  ((forall r, inb s r -> same_law D M (member (wpos p q) w r) (memv p q x r) N (fun _ => 1) (memv p q x' r)) ->
   exists u, returns (gksmv_ensemble b obs fct m v (Some wt) "nrg") s (fun r => Fin (u r)) /\
             returns (gksmv_ensemble b obs fct' m v None "nrg") s (fun r => Fin (u r)))).
Proof. exact C88_kernel_l. Qed.
Print Assumptions C88_kernel.
Example C88_kernel_case : same_law1 2 (fun k => nth k [1; 3] 0) (fun k => nth k [0; 2] 0) 4 (fun _ => 1) (fun k => nth k [2; 2; 0; 2] 0).
Proof. intros f. unfold wmean, sumn, Rsum. simpl. field. Qed.

(** C88.  Variogram score, nrg. *)
Theorem C88_variogram :
forall b obs fct hw wt fct' m v s p q M N D y x w x' h po,
  mv_args obs fct m v s p q M D y x -> mv_args obs fct' m v s p q N D y x' -> pair_wts hw s D h -> (0 < M)%nat -> (0 < N)%nat -> (0 < D)%nat -> 0 < po ->
  (b = Numba -> dt obs = DFloat) -> (q < p)%nat -> mv_wts wt s (wpos p q) M w ->
  (forall wt' w', mv_wts wt' s (wpos p q) N w' ->
   (forall r, inb s r -> same_law D M (member (wpos p q) w r) (memv p q x r) N (member (wpos p q) w' r) (memv p q x' r)) ->
   exists u, returns (vs_ensemble b obs fct hw m v (Some wt) po "nrg") s (fun r => Fin (u r)) /\
             returns (vs_ensemble b obs fct' hw m v (Some wt') po "nrg") s (fun r => Fin (u r))) /\
  ((forall r, inb s r -> same_law D M (member (wpos p q) w r) (memv p q x r) N (fun _ => 1) (memv p q x' r)) ->
   exists u, returns (vs_ensemble b obs fct hw m v (Some wt) po "nrg") s (fun r => Fin (u r)) /\
             returns (vs_ensemble b obs fct' hw m v None po "nrg") s (fun r => Fin (u r))).
Proof. exact C88_variogram_l. Qed.
Print Assumptions C88_variogram.
Example C88_variogram_case : same_law 3 2 (fun k => nth k [1; 1] 0) (fun i k => INR (i + k)) 4 (fun _ => 1) (fun i k => INR (nth i [0; 1; 1; 0]%nat 0%nat + k)).
Proof. intros f _. unfold wmean, sumn, Rsum. simpl. field. Qed.

(** C88.  What keeps the distribution: multiplying all weights by a number, deleting members of weight zero, replacing integer weights by repetition in any order. *)
Theorem C88_operations :
(forall (A : Type) c M w (f : A -> R) x, c <> 0 -> wmean M (fun i => c * w i) f x = wmean M w f x) /\
(forall (A : Type) M w keep (f : A -> R) x, NoDup keep -> (forall k, In k keep -> (k < M)%nat) -> (forall k, (k < M)%nat -> ~ In k keep -> w k = 0) ->
   wmean M w f x = wmean (length keep) (fun j => w (nth j keep 0%nat)) f (fun j => x (nth j keep 0%nat))) /\
(forall (A : Type) M N c (f : A -> R) x x', Permutation (map x' (seq 0 N)) (flat_map (fun k => repeat (x k) (c k)) (seq 0 M)) ->
   wmean M (fun k => INR (c k)) f x = wmean N (fun _ => 1) f x').
Proof. exact C88_operations_l. Qed.
Print Assumptions C88_operations.
Example C88_operations_case : Permutation (map (fun k => nth k [5; 7; 5] 0) (seq 0 3)) (flat_map (fun k => repeat (nth k [5; 7] 0) (nth k [2; 1]%nat 0%nat)) (seq 0 2)) /\
  NoDup [2; 0]%nat /\ (forall k, (k < 3)%nat -> ~ In k [2; 0]%nat -> nth k [4; 0; 1] 7 = 0).
Proof.
  split; [simpl; apply perm_skip, perm_swap|]. split; [repeat constructor; simpl; intuition lia|].
  intros [|[|[|k]]] Hk Hn; simpl in *; auto; try tauto; lia.
Qed.
