(** Proofs of the sampling properties of the estimators (statements in P_unbias.v). *)
From Coq Require Import Psatz Lia.
From Verif Require Export L_unbias2 L_split T_crps_inv.
Open Scope R_scope.
Lemma sampled_names e : In e ["fair"; "pwm"; "akr"; "akr_circperm"]%string -> exists e', e = ename e' /\ In e' [Fair; Pwm; Akr; Circ].
Proof. intros H. names H; [exists Fair|exists Pwm|exists Akr|exists Circ]; (split; [reflexivity|simpl; tauto]). Qed.
Lemma C87_crps_l :
forall srt b N M y v e,
  argsort_ok srt -> (0 < N)%nat -> (1 < M)%nat -> In e ["fair"; "pwm"; "akr"; "akr_circperm"]%string ->
  (exists S : list nat -> R,
    (forall t, In t (samples N M) ->
       returns (crps_ensemble srt b (farr [] (fun _ => y)) (real1 M (fun k => v (nth k t 0%nat))) (-1) None e false "propagate")
         [] (fun _ => Fin (S t))) /\
    is_crps (ecdf N v) y (average S (samples N M))) /\
  forall lo hi, thresholds lo hi -> exists S : list nat -> R,
    (forall t, In t (samples N M) ->
       returns (twcrps_ensemble srt b (farr [] (fun _ => y)) (real1 M (fun k => v (nth k t 0%nat))) lo hi (-1) None None e false "propagate")
         [] (fun _ => Fin (S t))) /\
    returns (twcrps_ensemble srt b (farr [] (fun _ => y)) (real1 N v) lo hi (-1) None None "nrg" false "propagate") [] (fun _ => Fin (average S (samples N M))).
Proof.
intros srt b N M y v e Hs HN HM He. destruct (sampled_names e He) as (e' & -> & He'). assert (M0 : (0 < M)%nat) by lia. split.
- exists (fun t => real_un e' M y (fun k => v (nth k t 0%nat))). split.
  + intros t Ht. eapply returns_is, (call_un srt b _ _ _ _ _ _ _ _ e' false "propagate" Hs (real0_args y M (fun k => v (nth k t 0%nat)))); auto; try easy. now left.
  + change (is_crps (ecdf N v) y (avg N M (fun t => real_un e' M y (fun k => v (ix t k))))). rewrite (real_un_avg N M y v e' HN HM He'). now apply is_crps_ecdf.
- intros lo hi Ht. exists (fun t => real_un e' M (clampR lo hi y) (fun k => clampR lo hi (v (nth k t 0%nat)))). split.
  + intros t _. apply (tw_un srt b _ _ lo hi _ _ _ _ _ _ e' false "propagate" Hs (real0_args y M (fun k => v (nth k t 0%nat)))); auto; try easy. now left.
  + eapply returns_ext; [apply (tw_un srt b _ _ lo hi _ _ _ _ _ _ Nrg false "propagate" Hs (real0_args y N v)); auto; try easy; now left|].
    intros r Hr. cbv beta. f_equal. symmetry. exact (real_un_avg N M (clampR lo hi y) (fun i => clampR lo hi (v i)) e' HN HM He').
Qed.
Lemma C87_energy_l :
forall b N M D y v e,
  (0 < N)%nat -> (1 < M)%nat -> (0 < D)%nat -> In e ["fair"; "akr"; "akr_circperm"]%string ->
  exists S : list nat -> R,
    (forall t, In t (samples N M) ->
       returns (es_ensemble b (real1 D y) (real2 M D (fun k => v (nth k t 0%nat))) (-2) (-1) None e) [] (fun _ => Fin (S t))) /\
    returns (es_ensemble b (real1 D y) (real2 N D v) (-2) (-1) None "nrg") [] (fun _ => Fin (average S (samples N M))).
Proof.
intros b N M D y v e HN HM HD He. set (E := fun i => eucl D (v i) y). set (d := fun i j => eucl D (v i) (v j)).
assert (d0 : forall i, d i i = 0) by (intros; apply eucl_refl).
assert (V : forall K x e, (0 < K)%nat -> _) by (intros K x e0 HK; exact (C33_values_l b _ _ _ _ _ _ _ K D _ _ e0 (real2_args K D y x) HK HD ltac:(intros; split; reflexivity))).
cbv zeta in V.
assert (P : forall S, (forall t, In t (samples N M) -> returns (es_ensemble b (real1 D y) (real2 M D (fun k => v (nth k t 0%nat))) (-2) (-1) None e) [] (fun _ => Fin (S t))) -> avg N M S = k_exact N E d ->
  exists S : list nat -> R,
    (forall t, In t (samples N M) -> returns (es_ensemble b (real1 D y) (real2 M D (fun k => v (nth k t 0%nat))) (-2) (-1) None e) [] (fun _ => Fin (S t))) /\
    returns (es_ensemble b (real1 D y) (real2 N D v) (-2) (-1) None "nrg") [] (fun _ => Fin (average S (samples N M)))).
{ intros S H1 H2. exists S. split; [exact H1|]. unfold avg in H2. rewrite H2. exact (proj1 (V N v "nrg"%string HN) eq_refl). }
destruct He as [<-|[<-|[<-|[]]]].
- apply (P (fun t => k_fair M (fun k => E (ix t k)) (fun i j => d (ix t i) (ix t j)))); [exact (fun t _ => proj1 (proj2 (V M (fun k => v (nth k t 0%nat)) _ ltac:(lia))) eq_refl HM)|exact (avg_kfair N M E d HN HM d0)].
- apply (P (fun t => k_lag M (lag1 M) (fun k => E (ix t k)) (fun i j => d (ix t i) (ix t j)))); [exact (fun t _ => proj1 (proj2 (proj2 (V M (fun k => v (nth k t 0%nat)) _ ltac:(lia)))) eq_refl)|exact (avg_klag N M E d HN HM _ (fun k => lag1_other M k HM))].
- apply (P (fun t => k_lag M (lagc M) (fun k => E (ix t k)) (fun i j => d (ix t i) (ix t j)))); [exact (fun t _ => proj2 (proj2 (proj2 (V M (fun k => v (nth k t 0%nat)) _ ltac:(lia)))) eq_refl)|exact (avg_klag N M E d HN HM _ (fun k => lagc_other M k HM))].
Qed.
Lemma C87_energy_bias_l :
forall b N M D y v,
  (0 < N)%nat -> (1 < M)%nat -> (0 < D)%nat ->
  exists S : list nat -> R,
    (forall t, In t (samples N M) ->
       returns (es_ensemble b (real1 D y) (real2 M D (fun k => v (nth k t 0%nat))) (-2) (-1) None "nrg") [] (fun _ => Fin (S t))) /\
    returns (es_ensemble b (real1 D y) (real2 N D v) (-2) (-1) None "nrg") []
      (fun _ => Fin (average S (samples N M) - sumn N (fun i => sumn N (fun j => eucl D (v i) (v j))) / (INR N * INR N) / (2 * INR M))).
Proof.
intros b N M D y v HN HM HD. set (E := fun i => eucl D (v i) y). set (d := fun i j => eucl D (v i) (v j)).
assert (d0 : forall i, d i i = 0) by (intros; apply eucl_refl).
assert (V : forall K x e, (0 < K)%nat -> _) by (intros K x e0 HK; exact (C33_values_l b _ _ _ _ _ _ _ K D _ _ e0 (real2_args K D y x) HK HD ltac:(intros; split; reflexivity))).
exists (fun t => k_exact M (fun k => E (ix t k)) (fun i j => d (ix t i) (ix t j))). split; [exact (fun t _ => proj1 (V M (fun k => v (nth k t 0%nat)) "nrg"%string ltac:(lia)) eq_refl)|].
eapply returns_ext; [exact (proj1 (V N v "nrg"%string HN) eq_refl)|]. intros r Hr. cbv beta. f_equal.
pose proof (avg_kexact N M E d HN HM d0) as A. unfold avg, dbar in A. symmetry. etransitivity; [exact (f_equal (fun z => z - _) A)|]. change (fun i => sumn N (fun j => eucl D (v i) (v j))) with (fun i => sumn N (d i)). unfold Rminus. rewrite Rplus_assoc, Rplus_opp_r, Rplus_0_r. reflexivity.
Qed.
Lemma C87_kernel_l :
(forall b N M y v e,
  (0 < N)%nat -> (1 < M)%nat -> In e ["fair"; "akr"; "akr_circperm"]%string ->
  exists S : list nat -> R,
    (forall t, In t (samples N M) ->
       returns (gksuv_ensemble b (farr [] (fun _ => y)) (real1 M (fun k => v (nth k t 0%nat))) (-1) None e) [] (fun _ => Fin (S t))) /\
    returns (gksuv_ensemble b (farr [] (fun _ => y)) (real1 N v) (-1) None "nrg") [] (fun _ => Fin (average S (samples N M)))) /\
(forall b N M D y v e,
  (0 < N)%nat -> (1 < M)%nat -> (0 < D)%nat -> In e ["fair"; "akr"; "akr_circperm"]%string ->
  exists S : list nat -> R,
    (forall t, In t (samples N M) ->
       returns (gksmv_ensemble b (real1 D y) (real2 M D (fun k => v (nth k t 0%nat))) (-2) (-1) None e) [] (fun _ => Fin (S t))) /\
    returns (gksmv_ensemble b (real1 D y) (real2 N D v) (-2) (-1) None "nrg") [] (fun _ => Fin (average S (samples N M)))).
Proof.
split.
- intros b N M y v e HN HM He. set (A := fun i => gauss1 (v i) y). set (B := fun i j => gauss1 (v i) (v j)).
assert (V : forall K x e, (0 < K)%nat -> _) by (intros K x e0 HK; exact (C37_uv_values_l b _ _ _ _ _ K _ _ e0 (real0_args y K x) HK ltac:(intros; reflexivity))).
cbv zeta in V.
assert (P : forall S, (forall t, In t (samples N M) -> returns (gksuv_ensemble b (farr [] (fun _ => y)) (real1 M (fun k => v (nth k t 0%nat))) (-1) None e) [] (fun _ => Fin (S t))) -> avg N M S = gk_exact N A B ->
  exists S : list nat -> R,
    (forall t, In t (samples N M) -> returns (gksuv_ensemble b (farr [] (fun _ => y)) (real1 M (fun k => v (nth k t 0%nat))) (-1) None e) [] (fun _ => Fin (S t))) /\
    returns (gksuv_ensemble b (farr [] (fun _ => y)) (real1 N v) (-1) None "nrg") [] (fun _ => Fin (average S (samples N M)))).
{ intros S H1 H2. exists S. split; [exact H1|]. unfold avg in H2. rewrite H2. exact (proj1 (V N v "nrg"%string HN) eq_refl). }
destruct He as [<-|[<-|[<-|[]]]].
+ apply (P (fun t => gk_fair M (fun k => A (ix t k)) (fun i j => B (ix t i) (ix t j)))); [exact (fun t _ => proj1 (proj2 (V M (fun k => v (nth k t 0%nat)) _ ltac:(lia))) eq_refl HM)|exact (avg_gkfair N M A B HN HM)].
+ apply (P (fun t => gk_lag M (lag1 M) (fun k => A (ix t k)) (fun i j => B (ix t i) (ix t j)))); [exact (fun t _ => proj1 (proj2 (proj2 (V M (fun k => v (nth k t 0%nat)) _ ltac:(lia)))) eq_refl)|exact (avg_gklag N M A B HN HM _ (fun k => lag1_other M k HM))].
+ apply (P (fun t => gk_lag M (lagc M) (fun k => A (ix t k)) (fun i j => B (ix t i) (ix t j)))); [exact (fun t _ => proj2 (proj2 (proj2 (V M (fun k => v (nth k t 0%nat)) _ ltac:(lia)))) eq_refl)|exact (avg_gklag N M A B HN HM _ (fun k => lagc_other M k HM))].
- intros b N M D y v e HN HM HD He. set (A := fun i => gaussD D (v i) y). set (B := fun i j => gaussD D (v i) (v j)).
assert (V : forall K x e, (0 < K)%nat -> _) by (intros K x e0 HK; exact (C37_mv_values_l b _ _ _ _ _ _ _ K D _ _ e0 (real2_args K D y x) HK HD ltac:(intros; split; reflexivity))).
cbv zeta in V.
assert (P : forall S, (forall t, In t (samples N M) -> returns (gksmv_ensemble b (real1 D y) (real2 M D (fun k => v (nth k t 0%nat))) (-2) (-1) None e) [] (fun _ => Fin (S t))) -> avg N M S = gk_exact N A B ->
  exists S : list nat -> R,
    (forall t, In t (samples N M) -> returns (gksmv_ensemble b (real1 D y) (real2 M D (fun k => v (nth k t 0%nat))) (-2) (-1) None e) [] (fun _ => Fin (S t))) /\
    returns (gksmv_ensemble b (real1 D y) (real2 N D v) (-2) (-1) None "nrg") [] (fun _ => Fin (average S (samples N M)))).
{ intros S H1 H2. exists S. split; [exact H1|]. unfold avg in H2. rewrite H2. exact (proj1 (V N v "nrg"%string HN) eq_refl). }
destruct He as [<-|[<-|[<-|[]]]].
+ apply (P (fun t => gk_fair M (fun k => A (ix t k)) (fun i j => B (ix t i) (ix t j)))); [exact (fun t _ => proj1 (proj2 (V M (fun k => v (nth k t 0%nat)) _ ltac:(lia))) eq_refl HM)|exact (avg_gkfair N M A B HN HM)].
+ apply (P (fun t => gk_lag M (lag1 M) (fun k => A (ix t k)) (fun i j => B (ix t i) (ix t j)))); [exact (fun t _ => proj1 (proj2 (proj2 (V M (fun k => v (nth k t 0%nat)) _ ltac:(lia)))) eq_refl)|exact (avg_gklag N M A B HN HM _ (fun k => lag1_other M k HM))].
+ apply (P (fun t => gk_lag M (lagc M) (fun k => A (ix t k)) (fun i j => B (ix t i) (ix t j)))); [exact (fun t _ => proj2 (proj2 (proj2 (V M (fun k => v (nth k t 0%nat)) _ ltac:(lia)))) eq_refl)|exact (avg_gklag N M A B HN HM _ (fun k => lagc_other M k HM))].
Qed.
Lemma C87_kernel_bias_l :
forall b N M y v,
  (0 < N)%nat -> (1 < M)%nat ->
  exists S : list nat -> R,
    (forall t, In t (samples N M) ->
       returns (gksuv_ensemble b (farr [] (fun _ => y)) (real1 M (fun k => v (nth k t 0%nat))) (-1) None "nrg") [] (fun _ => Fin (S t))) /\
    returns (gksuv_ensemble b (farr [] (fun _ => y)) (real1 N v) (-1) None "nrg") []
      (fun _ => Fin (average S (samples N M) - (1 - sumn N (fun i => sumn N (fun j => exp (- (v i - v j) ^ 2 / 2))) / (INR N * INR N)) / (2 * INR M))).
Proof.
intros b N M y v HN HM. set (A := fun i => gauss1 (v i) y). set (B := fun i j => gauss1 (v i) (v j)).
assert (B1 : forall i, B i i = 1) by (intros; apply gauss1_refl).
assert (V : forall K x e, (0 < K)%nat -> _) by (intros K x e0 HK; exact (C37_uv_values_l b _ _ _ _ _ K _ _ e0 (real0_args y K x) HK ltac:(intros; reflexivity))).
exists (fun t => gk_exact M (fun k => A (ix t k)) (fun i j => B (ix t i) (ix t j))). split; [exact (fun t _ => proj1 (V M (fun k => v (nth k t 0%nat)) "nrg"%string ltac:(lia)) eq_refl)|].
eapply returns_ext; [exact (proj1 (V N v "nrg"%string HN) eq_refl)|]. intros r Hr. cbv beta. f_equal.
pose proof (avg_gkexact N M A B HN HM B1) as Q. unfold avg, dbar in Q. symmetry. etransitivity; [exact (f_equal (fun z => z - _) Q)|].
change (fun i => sumn N (fun j => exp (- (v i - v j) ^ 2 / 2))) with (fun i => sumn N (B i)). unfold Rminus. rewrite Rplus_assoc, Rplus_opp_r, Rplus_0_r. reflexivity.
Qed.
Lemma C87_variogram_l :
forall b N M D y v h po,
  (0 < N)%nat -> (1 < M)%nat -> (0 < D)%nat -> 0 < po ->
  exists S T : list nat -> R,
    (forall t, In t (samples N M) ->
       returns (vs_ensemble b (real1 D y) (real2 M D (fun k => v (nth k t 0%nat))) (Some (real2 D D h)) (-2) (-1) None po "fair") [] (fun _ => Fin (S t)) /\
       returns (vs_ensemble b (real1 D y) (real2 M D (fun k => v (nth k t 0%nat))) (Some (real2 D D h)) (-2) (-1) None po "nrg") [] (fun _ => Fin (T t))) /\
    returns (vs_ensemble b (real1 D y) (real2 N D v) (Some (real2 D D h)) (-2) (-1) None po "nrg") [] (fun _ => Fin (average S (samples N M))) /\
    returns (vs_ensemble b (real1 D y) (real2 N D v) (Some (real2 D D h)) (-2) (-1) None po "nrg") []
      (fun _ => Fin (average T (samples N M) - sumn N (fun i => sumn N (fun j => vdist D h po (v i) (v j))) / (INR N * INR N) / (2 * INR M))).
Proof.
intros b N M D y v h po HN HM HD Hp. set (E := fun i => vdist D h po (v i) y). set (d := fun i j => vdist D h po (v i) (v j)).
assert (d0 : forall i, d i i = 0) by (intros; apply vdist_refl).
assert (PW : pair_wts (Some (real2 D D h)) [] D (fun _ => h)).
{ exists (fun i => h (hd 0%nat (tl i)) (hd 0%nat i)). left. repeat split. }
assert (V : forall K x, (0 < K)%nat -> _) by (intros K x HK; exact (C36_values_l b _ _ (Some (real2 D D h)) _ _ _ _ _ K D _ _ (fun _ => h) po (real2_args K D y x) PW HK HD Hp ltac:(intros; reflexivity))).
assert (W : forall K x, (0 < K)%nat -> returns (vs_ensemble b (real1 D y) (real2 K D x) (Some (real2 D D h)) (-2) (-1) None po "nrg") [] (fun _ => Fin (k_exact K (fun k => vdist D h po (x k) y) (fun k l => vdist D h po (x k) (x l))))).
{ intros K x HK. eapply returns_ext; [exact (proj1 (V K x HK))|]. intros r Hr. cbv beta. f_equal. etransitivity; [symmetry; exact (vs_score_unif D h po K y x HK)|]. now apply vs_k. }
exists (fun t => k_fair M (fun k => E (ix t k)) (fun i j => d (ix t i) (ix t j))), (fun t => k_exact M (fun k => E (ix t k)) (fun i j => d (ix t i) (ix t j))). split; [exact (fun t _ => conj (proj2 (V M (fun k => v (nth k t 0%nat)) ltac:(lia)) HM) (W M (fun k => v (nth k t 0%nat)) ltac:(lia)))|]. split.
- eapply returns_ext; [exact (W N v HN)|]. intros r Hr. cbv beta. f_equal. symmetry. exact (avg_kfair N M E d HN HM d0).
- eapply returns_ext; [exact (W N v HN)|]. intros r Hr. cbv beta. f_equal.
pose proof (avg_kexact N M E d HN HM d0) as A. unfold avg, dbar in A. symmetry. etransitivity; [exact (f_equal (fun z => z - _) A)|].
change (fun i => sumn N (fun j => vdist D h po (v i) (v j))) with (fun i => sumn N (d i)). unfold Rminus. rewrite Rplus_assoc, Rplus_opp_r, Rplus_0_r. reflexivity.
Qed.
