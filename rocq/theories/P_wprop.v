(** Property C80: the threshold-weighted, outcome-weighted and vertically re-scaled ensemble scores are proper. *)
From Verif Require Import T_wprop.
From Coq Require Import Lra Lia.
Open Scope R_scope.

(** C80.  twcrps_ensemble (thresholds or chaining function, estimators nrg, qd, int): no ensemble has a smaller total score over the observations than the ensemble of the observations. *)
Theorem C80_twcrps :
forall srt be obs fct fctG ax ax' p p' N M z e a c f vf es pol, argsort_ok srt -> (0 < M)%nat -> (0 < N)%nat ->
  same_uv obs fct ax p N M z e -> same_uv obs fctG ax' p' N N z z ->
  (thresholds a c /\ clips a c f /\ vf = None \/ exists h, vf = Some h /\ forall t, h (Fin t) = Fin (f t)) ->
  In es ["nrg"; "qd"; "int"]%string -> In pol ["propagate"; "raise"]%string ->
  not_worse N (twcrps_ensemble srt be obs fctG a c ax' None vf es false pol) (twcrps_ensemble srt be obs fct a c ax None vf es false pol).
Proof. exact C80_twcrps_l. Qed.
Print Assumptions C80_twcrps.
Example C80_twcrps_ex be : not_worse 2 (twcrps_ensemble L_crps_call.asort be ex_o ex_g NInf PInf (-1) None None "nrg" false "propagate")
  (twcrps_ensemble L_crps_call.asort be ex_o ex_f NInf PInf (-1) None None "nrg" false "propagate").
Proof.
  destruct ex_uv as [H1 H2]. apply (C80_twcrps L_crps_call.asort be ex_o ex_f ex_g (-1) (-1) 0 0 2 1 INR (fun _ => 5) NInf PInf (fun t => t)); auto using L_crps_call.asort_ok; try lia; try (simpl; auto).
  left. split; [exact I|]. split; [|reflexivity]. intros t. simpl. tauto.
Qed.

(** C80.  owcrps_ensemble: the same, for ensembles with some weight. *)
Theorem C80_owcrps :
forall be obs fct fctG ax ax' p p' N M z e a c wf g pol, (be = Numba -> dt obs = DFloat) ->
  same_uv obs fct ax p N M z e -> same_uv obs fctG ax' p' N N z z -> weighting a c wf g -> (forall t, 0 <= g t) ->
  0 < sumn M (fun k => g (e k)) -> 0 < sumn N (fun j => g (z j)) -> In pol ["propagate"; "raise"]%string ->
  not_worse N (owcrps_ensemble be obs fctG a c ax' None wf pol) (owcrps_ensemble be obs fct a c ax None wf pol).
Proof. exact C80_owcrps_l. Qed.
Print Assumptions C80_owcrps.
Example C80_owcrps_ex be : exists wf, not_worse 2 (owcrps_ensemble be ex_o ex_g NInf PInf (-1) None wf "propagate")
  (owcrps_ensemble be ex_o ex_f NInf PInf (-1) None wf "propagate").
Proof.
  destruct ex_uv as [H1 H2]. destruct ex_weighting as [W P]. eexists.
  apply (C80_owcrps be ex_o ex_f ex_g (-1) (-1) 0 0 2 1 INR (fun _ => 5) NInf PInf _ _ "propagate" ltac:(reflexivity) H1 H2 W); [intros t; left; apply P| | |now left];
    unfold sumn, Rsum; simpl; repeat (match goal with |- context [ind_le 0 ?t] => pose proof (P t); generalize dependent (ind_le 0 t); intros end); lra.
Qed.

(** C80.  vrcrps_ensemble: the same. *)
Theorem C80_vrcrps :
forall be obs fct fctG ax ax' p p' N M z e a c wf g pol, (be = Numba -> dt obs = DFloat) -> (0 < M)%nat -> (0 < N)%nat ->
  same_uv obs fct ax p N M z e -> same_uv obs fctG ax' p' N N z z -> weighting a c wf g -> (forall t, 0 <= g t) ->
  In pol ["propagate"; "raise"]%string ->
  not_worse N (vrcrps_ensemble be obs fctG a c ax' None wf pol) (vrcrps_ensemble be obs fct a c ax None wf pol).
Proof. exact C80_vrcrps_l. Qed.
Print Assumptions C80_vrcrps.
Example C80_vrcrps_ex be : exists wf, not_worse 2 (vrcrps_ensemble be ex_o ex_g NInf PInf (-1) None wf "propagate")
  (vrcrps_ensemble be ex_o ex_f NInf PInf (-1) None wf "propagate").
Proof.
  destruct ex_uv as [H1 H2]. destruct ex_weighting as [W P]. eexists.
  apply (C80_vrcrps be ex_o ex_f ex_g (-1) (-1) 0 0 2 1 INR (fun _ => 5) NInf PInf _ _ "propagate" ltac:(reflexivity) ltac:(lia) ltac:(lia) H1 H2 W); [intros t; left; apply P|now left].
Qed.

(** C80.  The same for twes_ensemble (estimator nrg), owes_ensemble and vres_ensemble. *)
Theorem C80_energy :
forall b obs fct fctG m v m' v' p q p' q' N M D z e, (0 < M)%nat -> (0 < N)%nat -> (0 < D)%nat ->
  (forall obs' fct' fctG' vf h, vf obs = Ok obs' -> vf fct = Ok fct' -> vf fctG = Ok fctG' ->
  same_mv obs' fct' m v p q N M D (fun j => h (z j)) (fun k => h (e k)) -> same_mv obs' fctG' m' v' p' q' N N D (fun j => h (z j)) (fun j => h (z j)) -> (b = Numba -> floats obs' fct' /\ floats obs' fctG') ->
     not_worse N (twes_ensemble b obs fctG vf m' v' None "nrg") (twes_ensemble b obs fct vf m v None "nrg")) /\
  (forall wf g, same_mv obs fct m v p q N M D z e -> same_mv obs fctG m' v' p' q' N N D z z -> (b = Numba -> floats obs fct /\ floats obs fctG) -> vweight D wf g ->
     (0 < sumn M (fun k => g (e k)) -> 0 < sumn N (fun j => g (z j)) ->
      not_worse N (owes_ensemble b obs fctG wf m' v' None) (owes_ensemble b obs fct wf m v None)) /\
     not_worse N (vres_ensemble b obs fctG wf m' v' None) (vres_ensemble b obs fct wf m v None)).
Proof. exact C80_energy_l. Qed.
Print Assumptions C80_energy.
Example C80_energy_ex b : not_worse 2 (vres_ensemble b ex_om ex_gm ex_wf (-2) (-1) None) (vres_ensemble b ex_om ex_fm ex_wf (-2) (-1) None) /\
  not_worse 2 (twes_ensemble b ex_om ex_gm (fun t => Ok t) (-2) (-1) None "nrg") (twes_ensemble b ex_om ex_fm (fun t => Ok t) (-2) (-1) None "nrg").
Proof.
  destruct ex_mv as [H1 H2]. destruct (C80_energy b ex_om ex_fm ex_gm (-2) (-1) (-2) (-1) 1 0 1 0 2 1 2 (dup INR) (dup (fun _ => 5)) ltac:(lia) ltac:(lia) ltac:(lia)) as [A B].
  split; [apply (B ex_wf _ H1 H2 ltac:(repeat split) ex_vweight)|]. apply (A ex_om ex_fm ex_gm (fun t => Ok t) (fun u => u) eq_refl eq_refl eq_refl H1 H2 ltac:(repeat split)).
Qed.

(** C80.  The same for twgksuv_ensemble (nrg), owgksuv_ensemble and vrgksuv_ensemble. *)
Theorem C80_kernel_uv :
forall b obs fct fctG ax ax' p p' N M z e a c, (0 < M)%nat -> (0 < N)%nat ->
  same_uv obs fct ax p N M z e -> same_uv obs fctG ax' p' N N z z ->
  (forall f vf, (thresholds a c /\ clips a c f /\ vf = None \/ exists h, vf = Some h /\ forall t, h (Fin t) = Fin (f t)) ->
     not_worse N (twgksuv_ensemble b obs fctG a c ax' None vf "nrg") (twgksuv_ensemble b obs fct a c ax None vf "nrg")) /\
  (forall wf g, (b = Numba -> dt obs = DFloat) -> weighting a c wf g -> (forall t, 0 <= g t) ->
     (0 < sumn M (fun k => g (e k)) -> 0 < sumn N (fun j => g (z j)) ->
      not_worse N (owgksuv_ensemble b obs fctG a c ax' None wf) (owgksuv_ensemble b obs fct a c ax None wf)) /\
     not_worse N (vrgksuv_ensemble b obs fctG a c ax' None wf) (vrgksuv_ensemble b obs fct a c ax None wf)).
Proof. exact C80_kernel_uv_l. Qed.
Print Assumptions C80_kernel_uv.
Example C80_kernel_uv_ex b : exists wf, not_worse 2 (vrgksuv_ensemble b ex_o ex_g NInf PInf (-1) None wf) (vrgksuv_ensemble b ex_o ex_f NInf PInf (-1) None wf).
Proof.
  destruct ex_uv as [H1 H2]. destruct ex_weighting as [W P]. eexists.
  destruct (C80_kernel_uv b ex_o ex_f ex_g (-1) (-1) 0 0 2 1 INR (fun _ => 5) NInf PInf ltac:(lia) ltac:(lia) H1 H2) as [_ B].
  apply (B _ _ ltac:(reflexivity) W). intros t. left. apply P.
Qed.

(** C80.  The same for twgksmv_ensemble (nrg), owgksmv_ensemble and vrgksmv_ensemble. *)
Theorem C80_kernel_mv :
forall b obs fct fctG m v m' v' p q p' q' N M D z e, (0 < M)%nat -> (0 < N)%nat -> (0 < D)%nat ->
  (forall obs' fct' fctG' vf h, vf obs = Ok obs' -> vf fct = Ok fct' -> vf fctG = Ok fctG' ->
  same_mv obs' fct' m v p q N M D (fun j => h (z j)) (fun k => h (e k)) -> same_mv obs' fctG' m' v' p' q' N N D (fun j => h (z j)) (fun j => h (z j)) -> (b = Numba -> floats obs' fct' /\ floats obs' fctG') ->
     not_worse N (twgksmv_ensemble b obs fctG vf m' v' None "nrg") (twgksmv_ensemble b obs fct vf m v None "nrg")) /\
  (forall wf g, same_mv obs fct m v p q N M D z e -> same_mv obs fctG m' v' p' q' N N D z z -> (b = Numba -> floats obs fct /\ floats obs fctG) -> vweight D wf g ->
     (0 < sumn M (fun k => g (e k)) -> 0 < sumn N (fun j => g (z j)) ->
      not_worse N (owgksmv_ensemble b obs fctG wf m' v' None) (owgksmv_ensemble b obs fct wf m v None)) /\
     not_worse N (vrgksmv_ensemble b obs fctG wf m' v' None) (vrgksmv_ensemble b obs fct wf m v None)).
Proof. exact C80_kernel_mv_l. Qed.
Print Assumptions C80_kernel_mv.
Example C80_kernel_mv_ex b : not_worse 2 (vrgksmv_ensemble b ex_om ex_gm ex_wf (-2) (-1) None) (vrgksmv_ensemble b ex_om ex_fm ex_wf (-2) (-1) None).
Proof.
  destruct ex_mv as [H1 H2]. destruct (C80_kernel_mv b ex_om ex_fm ex_gm (-2) (-1) (-2) (-1) 1 0 1 0 2 1 2 (dup INR) (dup (fun _ => 5)) ltac:(lia) ltac:(lia) ltac:(lia)) as [A B].
  apply (B ex_wf _ H1 H2 ltac:(repeat split) ex_vweight).
Qed.

(** C80.  The same for twvs_ensemble (nrg), owvs_ensemble and vrvs_ensemble, with pair weights that are the same in all cases and not negative. *)
Theorem C80_variogram :
forall b obs fct fctG m v m' v' p q p' q' N M D z e hw hp po, (0 < M)%nat -> (0 < N)%nat -> (0 < D)%nat -> 0 < po ->
  pair_wts hw (N :: nil) D (fun _ => hp) -> (forall i j, (i < D)%nat -> (j < D)%nat -> 0 <= hp i j) ->
  (forall obs' fct' fctG' vf h, vf obs = Ok obs' -> vf fct = Ok fct' -> vf fctG = Ok fctG' ->
  same_mv obs' fct' m v p q N M D (fun j => h (z j)) (fun k => h (e k)) -> same_mv obs' fctG' m' v' p' q' N N D (fun j => h (z j)) (fun j => h (z j)) -> (b = Numba -> dt obs' = DFloat) ->
     not_worse N (twvs_ensemble b obs fctG vf hw m' v' None po "nrg") (twvs_ensemble b obs fct vf hw m v None po "nrg")) /\
  (forall wf g, same_mv obs fct m v p q N M D z e -> same_mv obs fctG m' v' p' q' N N D z z -> (b = Numba -> dt obs = DFloat) -> vweight D wf g ->
     (0 < sumn M (fun k => g (e k)) -> 0 < sumn N (fun j => g (z j)) ->
      not_worse N (owvs_ensemble b obs fctG wf hw m' v' None po) (owvs_ensemble b obs fct wf hw m v None po)) /\
     not_worse N (vrvs_ensemble b obs fctG wf hw m' v' None po) (vrvs_ensemble b obs fct wf hw m v None po)).
Proof. exact C80_variogram_l. Qed.
Print Assumptions C80_variogram.
Example C80_variogram_ex b : not_worse 2 (vrvs_ensemble b ex_om ex_gm ex_wf None (-2) (-1) None 1) (vrvs_ensemble b ex_om ex_fm ex_wf None (-2) (-1) None 1).
Proof.
  destruct ex_mv as [H1 H2]. destruct (C80_variogram b ex_om ex_fm ex_gm (-2) (-1) (-2) (-1) 1 0 1 0 2 1 2 (dup INR) (dup (fun _ => 5)) None (fun _ _ => 1) 1 ltac:(lia) ltac:(lia) ltac:(lia) ltac:(lra) ltac:(intros r i j; reflexivity) ltac:(intros; lra)) as [A B].
  apply (B ex_wf _ H1 H2 ltac:(reflexivity) ex_vweight).
Qed.
