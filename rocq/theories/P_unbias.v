(** Property C87: averages of the estimators over all samples of size M (with replacement) of a finite population; [samples], [average] are in S_sample.v. *)
From Coq Require Import Psatz Lia.
From Verif Require Import T_unbias L_crps_call L_examples.
Open Scope R_scope.

(** C87.  fair, pwm, akr and akr_circperm: the average over all samples of size M > 1 is the exact CRPS of the population, and that of the threshold-weighted score is the score of the population as ensemble. *)
Theorem C87_crps :
forall srt b N M y v e,
  argsort_ok srt -> (0 < N)%nat -> (1 < M)%nat -> In e ["fair"; "pwm"; "akr"; "akr_circperm"]%string ->
  (exists S : list nat -> R,
    (forall t, In t (samples N M) ->
       returns (crps_ensemble srt b (farr [] (fun _ => y)) (real1 M (fun k => v (nth k t 0%nat))) (-1) None e false "propagate")
         [] (fun _ => Fin (S t))) /\
    is_crps (ecdf N v) y (average S (samples N M))) /\
  forall lo hi, thresholds lo hi -> exists S : list nat -> R,
    (forall t, In t (samples N M) ->
       returns (twcrps_ensemble srt b (farr [] (fun _ => y)) (real1 M (fun k => v (nth k t 0%nat))) lo hi (-1) None None e false "propagate")
         [] (fun _ => Fin (S t))) /\
    returns (twcrps_ensemble srt b (farr [] (fun _ => y)) (real1 N v) lo hi (-1) None None "nrg" false "propagate") [] (fun _ => Fin (average S (samples N M))).
Proof. exact C87_crps_l. Qed.
Print Assumptions C87_crps.
(** the population 0, 2 and the observation 1: the four samples of size two *)
Example C87_crps_case : average (fun t => real_un Akr 2 1 (fun k => 2 * INR (nth k t 0%nat))) (samples 2 2) = / 2 /\ samples 2 2 = [[0; 0]; [1; 0]; [0; 1]; [1; 1]]%nat.
Proof.
  split; [|reflexivity].
  pose proof (real_un_avg 2 2 1 (fun i => 2 * INR i) Akr ltac:(lia) ltac:(lia) ltac:(simpl; auto)) as Q. unfold avg, ix in Q. rewrite Q.
  unfold exact_crps, mae, pairsum, sumn, Rsum. simpl.
  repeat match goal with |- context [Rabs ?a] => first [rewrite (Rabs_pos_eq a) by lra | rewrite (Rabs_left a) by lra] end. field.
Qed.

(** C87.  Energy score: the average of fair, akr and akr_circperm is the score of the population as ensemble. *)
Theorem C87_energy :
forall b N M D y v e,
  (0 < N)%nat -> (1 < M)%nat -> (0 < D)%nat -> In e ["fair"; "akr"; "akr_circperm"]%string ->
  exists S : list nat -> R,
    (forall t, In t (samples N M) ->
       returns (es_ensemble b (real1 D y) (real2 M D (fun k => v (nth k t 0%nat))) (-2) (-1) None e) [] (fun _ => Fin (S t))) /\
    returns (es_ensemble b (real1 D y) (real2 N D v) (-2) (-1) None "nrg") [] (fun _ => Fin (average S (samples N M))).
Proof. exact C87_energy_l. Qed.
Print Assumptions C87_energy.
(** samples of size two of the population (0, 0), (1, 1), (2, 2) *)
Example C87_energy_case : length (samples 3 2) = 9%nat /\ exists S : list nat -> R,
    (forall t, In t (samples 3 2) -> returns (es_ensemble Numba (real1 2 (fun _ => 0)) (real2 2 2 (fun k _ => INR (nth k t 0%nat))) (-2) (-1) None "akr") [] (fun _ => Fin (S t))) /\
    returns (es_ensemble Numba (real1 2 (fun _ => 0)) (real2 3 2 (fun i _ => INR i)) (-2) (-1) None "nrg") [] (fun _ => Fin (average S (samples 3 2))).
Proof. split; [reflexivity|]. apply (C87_energy Numba 3 2 2 (fun _ => 0) (fun i _ => INR i)); simpl; auto. Qed.

(** C87.  Energy score: the average of nrg exceeds the score of the population by (mean distance of two values) / (2 M). *)
Theorem C87_energy_bias :
forall b N M D y v,
  (0 < N)%nat -> (1 < M)%nat -> (0 < D)%nat ->
  exists S : list nat -> R,
    (forall t, In t (samples N M) ->
       returns (es_ensemble b (real1 D y) (real2 M D (fun k => v (nth k t 0%nat))) (-2) (-1) None "nrg") [] (fun _ => Fin (S t))) /\
    returns (es_ensemble b (real1 D y) (real2 N D v) (-2) (-1) None "nrg") []
      (fun _ => Fin (average S (samples N M) - sumn N (fun i => sumn N (fun j => eucl D (v i) (v j))) / (INR N * INR N) / (2 * INR M))).
Proof. exact C87_energy_bias_l. Qed.
Print Assumptions C87_energy_bias.
(** the population (0, 0), (3, 4): the mean distance of two values is 5 / 2 *)
Example C87_energy_bias_case : let v := fun i k : nat => match i, k with O, _ => 0 | _, O => 3 | _, _ => 4 end in
  sumn 2 (fun i => sumn 2 (fun j => eucl 2 (v i) (v j))) / (INR 2 * INR 2) = 5 / 2.
Proof.
  cbv zeta. unfold eucl, sumn, Rsum. simpl. rewrite !Rmult_1_r.
  replace ((0 - 0) * (0 - 0) + ((0 - 0) * (0 - 0) + 0)) with 0 by ring. replace ((3 - 3) * (3 - 3) + ((4 - 4) * (4 - 4) + 0)) with 0 by ring.
  replace ((0 - 3) * (0 - 3) + ((0 - 4) * (0 - 4) + 0)) with (5 * 5) by ring. replace ((3 - 0) * (3 - 0) + ((4 - 0) * (4 - 0) + 0)) with (5 * 5) by ring.
  rewrite sqrt_0, sqrt_square by lra. field.
Qed.

(** C87.  Kernel scores: the average of fair, akr and akr_circperm is the score of the population as ensemble. *)
Theorem C87_kernel :
(forall b N M y v e,
  (0 < N)%nat -> (1 < M)%nat -> In e ["fair"; "akr"; "akr_circperm"]%string ->
  exists S : list nat -> R,
    (forall t, In t (samples N M) ->
       returns (gksuv_ensemble b (farr [] (fun _ => y)) (real1 M (fun k => v (nth k t 0%nat))) (-1) None e) [] (fun _ => Fin (S t))) /\
    returns (gksuv_ensemble b (farr [] (fun _ => y)) (real1 N v) (-1) None "nrg") [] (fun _ => Fin (average S (samples N M)))) /\
(forall b N M D y v e,
  (0 < N)%nat -> (1 < M)%nat -> (0 < D)%nat -> In e ["fair"; "akr"; "akr_circperm"]%string ->
  exists S : list nat -> R,
    (forall t, In t (samples N M) ->
       returns (gksmv_ensemble b (real1 D y) (real2 M D (fun k => v (nth k t 0%nat))) (-2) (-1) None e) [] (fun _ => Fin (S t))) /\
    returns (gksmv_ensemble b (real1 D y) (real2 N D v) (-2) (-1) None "nrg") [] (fun _ => Fin (average S (samples N M)))).
Proof. exact C87_kernel_l. Qed.
Print Assumptions C87_kernel.
Example C87_kernel_case : exists S : list nat -> R,
    (forall t, In t (samples 3 2) -> returns (gksuv_ensemble Array (farr [] (fun _ => 0)) (real1 2 (fun k => INR (nth k t 0%nat))) (-1) None "fair") [] (fun _ => Fin (S t))) /\
    returns (gksuv_ensemble Array (farr [] (fun _ => 0)) (real1 3 INR) (-1) None "nrg") [] (fun _ => Fin (average S (samples 3 2))).
Proof. apply (proj1 C87_kernel Array 3%nat 2%nat 0 INR); simpl; auto. Qed.

(** C87.  Univariate kernel score: the average of nrg exceeds the score of the population by (1 - mean kernel value) / (2 M). *)
Theorem C87_kernel_bias :
forall b N M y v,
  (0 < N)%nat -> (1 < M)%nat ->
  exists S : list nat -> R,
    (forall t, In t (samples N M) ->
       returns (gksuv_ensemble b (farr [] (fun _ => y)) (real1 M (fun k => v (nth k t 0%nat))) (-1) None "nrg") [] (fun _ => Fin (S t))) /\
    returns (gksuv_ensemble b (farr [] (fun _ => y)) (real1 N v) (-1) None "nrg") []
      (fun _ => Fin (average S (samples N M) - (1 - sumn N (fun i => sumn N (fun j => exp (- (v i - v j) ^ 2 / 2))) / (INR N * INR N)) / (2 * INR M))).
Proof. exact C87_kernel_bias_l. Qed.
Print Assumptions C87_kernel_bias.
Example C87_kernel_bias_case : exists S : list nat -> R,
    (forall t, In t (samples 2 3) -> returns (gksuv_ensemble Numba (farr [] (fun _ => 0)) (real1 3 (fun k => INR (nth k t 0%nat))) (-1) None "nrg") [] (fun _ => Fin (S t))) /\
    returns (gksuv_ensemble Numba (farr [] (fun _ => 0)) (real1 2 INR) (-1) None "nrg") []
      (fun _ => Fin (average S (samples 2 3) - (1 - sumn 2 (fun i => sumn 2 (fun j => exp (- (INR i - INR j) ^ 2 / 2))) / (INR 2 * INR 2)) / (2 * INR 3))).
Proof. apply C87_kernel_bias; lia. Qed.

(** C87.  Variogram score: the average of fair is the score of the population as ensemble; that of nrg exceeds it by (mean squared distance of two variograms) / (2 M). *)
Theorem C87_variogram :
forall b N M D y v h po,
  (0 < N)%nat -> (1 < M)%nat -> (0 < D)%nat -> 0 < po ->
  exists S T : list nat -> R,
    (forall t, In t (samples N M) ->
       returns (vs_ensemble b (real1 D y) (real2 M D (fun k => v (nth k t 0%nat))) (Some (real2 D D h)) (-2) (-1) None po "fair") [] (fun _ => Fin (S t)) /\
       returns (vs_ensemble b (real1 D y) (real2 M D (fun k => v (nth k t 0%nat))) (Some (real2 D D h)) (-2) (-1) None po "nrg") [] (fun _ => Fin (T t))) /\
    returns (vs_ensemble b (real1 D y) (real2 N D v) (Some (real2 D D h)) (-2) (-1) None po "nrg") [] (fun _ => Fin (average S (samples N M))) /\
    returns (vs_ensemble b (real1 D y) (real2 N D v) (Some (real2 D D h)) (-2) (-1) None po "nrg") []
      (fun _ => Fin (average T (samples N M) - sumn N (fun i => sumn N (fun j => vdist D h po (v i) (v j))) / (INR N * INR N) / (2 * INR M))).
Proof. exact C87_variogram_l. Qed.
Print Assumptions C87_variogram.
(** two values in the plane with variograms 1 and 0: squared distance 2 with unit pair weights *)
Example C87_variogram_case : let v := fun i k : nat => INR i * INR k in 0 < 1 /\ vdist 2 (fun _ _ => 1) 1 (v 1%nat) (v 0%nat) = 2.
Proof.
  cbv zeta. split; [lra|]. unfold vdist, vgram, sumn, Rsum. simpl.
  replace (1 * 0 - 1 * 0) with 0 by ring. replace (1 * 0 - 1 * 1) with (-1) by ring. replace (1 * 1 - 1 * 0) with 1 by ring. replace (1 * 1 - 1 * 1) with 0 by ring.
  replace (0 * 0 - 0 * 0) with 0 by ring. replace (0 * 0 - 0 * 1) with 0 by ring. replace (0 * 1 - 0 * 0) with 0 by ring. replace (0 * 1 - 0 * 1) with 0 by ring.
  rewrite (Rabs_left (-1)), Rabs_R0, Rabs_R1 by lra. unfold vpow. destruct (Req_EM_T 0 0); [|lra]. destruct (Req_EM_T 1 0); [lra|]. destruct (Req_EM_T (- -1) 0); [lra|].
  rewrite !Rpower_1 by lra. ring.
Qed.
