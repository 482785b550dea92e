(** Proofs about missing and infinite arguments (statements in P_missing.v). *)
From Verif Require Export L_missing.
From Coq Require Import Psatz.
Open Scope R_scope.
Ltac nand P := repeat apply conj; nanw P.
Ltac go P H := infw P ltac:(fun i Hi => specialize (H i Hi)).
Lemma C74_crps_nan_two_l :
forall (obs p1 : arr) (s : list nat) (y f1 : list nat -> num),
  params s [(obs, y); (p1, f1)]%list ->
  nan_propagates (crps_exponential obs p1) s [y; f1]%list /\
  nan_propagates (crps_poisson obs p1) s [y; f1]%list.
Proof.
intros obs p1 s y f1 P. nand P.
Qed.
Lemma C74_crps_nan_three_l :
forall (obs p1 p2 : arr) (s : list nat) (y f1 f2 : list nat -> num),
  params s [(obs, y); (p1, f1); (p2, f2)]%list ->
  nan_propagates (crps_normal obs p1 p2) s [y; f1; f2]%list /\
  nan_propagates (crps_laplace obs p1 p2) s [y; f1; f2]%list /\
  nan_propagates (crps_logistic obs p1 p2) s [y; f1; f2]%list /\
  nan_propagates (crps_loglogistic obs p1 p2) s [y; f1; f2]%list /\
  nan_propagates (crps_lognormal obs p1 p2) s [y; f1; f2]%list /\
  nan_propagates (crps_gamma obs p1 (Some p2) None) s [y; f1; f2]%list /\
  nan_propagates (crps_gamma obs p1 None (Some p2)) s [y; f1; f2]%list /\
  nan_propagates (crps_negbinom obs p1 (Some p2) None) s [y; f1; f2]%list /\
  nan_propagates (crps_negbinom obs p1 None (Some p2)) s [y; f1; f2]%list.
Proof.
intros obs p1 p2 s y f1 f2 P. nand P.
Qed.
Lemma C74_crps_nan_four_l :
forall (obs p1 p2 p3 : arr) (s : list nat) (y f1 f2 f3 : list nat -> num),
  params s [(obs, y); (p1, f1); (p2, f2); (p3, f3)]%list ->
  nan_propagates (crps_2pexponential obs p1 p2 p3) s [y; f1; f2; f3]%list /\
  nan_propagates (crps_2pnormal obs p1 p2 p3) s [y; f1; f2; f3]%list /\
  nan_propagates (crps_t obs p1 p2 p3) s [y; f1; f2; f3]%list /\
  nan_propagates (crps_csg0 obs p1 (Some p2) None p3) s [y; f1; f2; f3]%list /\
  nan_propagates (crps_csg0 obs p1 None (Some p2) p3) s [y; f1; f2; f3]%list.
Proof.
intros obs p1 p2 p3 s y f1 f2 f3 P. nand P.
Qed.
Lemma C74_crps_nan_five_l :
forall (obs p1 p2 p3 p4 : arr) (s : list nat) (y f1 f2 f3 f4 : list nat -> num),
  params s [(obs, y); (p1, f1); (p2, f2); (p3, f3); (p4, f4)]%list ->
  nan_propagates (crps_gpd obs p1 p2 p3 p4) s [y; f1; f2; f3; f4]%list /\
  nan_propagates (crps_uniform obs p1 p2 p3 p4) s [y; f1; f2; f3; f4]%list /\
  nan_propagates (crps_tnormal obs p1 p2 p3 p4) s [y; f1; f2; f3; f4]%list /\
  nan_propagates (crps_cnormal obs p1 p2 p3 p4) s [y; f1; f2; f3; f4]%list /\
  nan_propagates (crps_tlogistic obs p1 p2 p3 p4) s [y; f1; f2; f3; f4]%list /\
  nan_propagates (crps_clogistic obs p1 p2 p3 p4) s [y; f1; f2; f3; f4]%list.
Proof.
intros obs p1 p2 p3 p4 s y f1 f2 f3 f4 P. nand P.
Qed.
Lemma C74_crps_nan_six_l :
forall (obs p1 p2 p3 p4 p5 : arr) (s : list nat) (y f1 f2 f3 f4 f5 : list nat -> num),
  params s [(obs, y); (p1, f1); (p2, f2); (p3, f3); (p4, f4); (p5, f5)]%list ->
  nan_propagates (crps_tt obs p1 p2 p3 p4 p5) s [y; f1; f2; f3; f4; f5]%list /\
  nan_propagates (crps_ct obs p1 p2 p3 p4 p5) s [y; f1; f2; f3; f4; f5]%list.
Proof.
intros obs p1 p2 p3 p4 p5 s y f1 f2 f3 f4 f5 P. nand P.
Qed.
Lemma C74_crps_nan_seven_l :
forall (obs p1 p2 p3 p4 p5 p6 : arr) (s : list nat) (y f1 f2 f3 f4 f5 f6 : list nat -> num),
  params s [(obs, y); (p1, f1); (p2, f2); (p3, f3); (p4, f4); (p5, f5); (p6, f6)]%list ->
  nan_propagates (crps_gtcnormal obs p1 p2 p3 p4 p5 p6) s [y; f1; f2; f3; f4; f5; f6]%list /\
  nan_propagates (crps_gtclogistic obs p1 p2 p3 p4 p5 p6) s [y; f1; f2; f3; f4; f5; f6]%list.
Proof.
intros obs p1 p2 p3 p4 p5 p6 s y f1 f2 f3 f4 f5 f6 P. nand P.
Qed.
Lemma C74_crps_nan_eight_l :
forall (obs p1 p2 p3 p4 p5 p6 p7 : arr) (s : list nat) (y f1 f2 f3 f4 f5 f6 f7 : list nat -> num),
  params s [(obs, y); (p1, f1); (p2, f2); (p3, f3); (p4, f4); (p5, f5); (p6, f6); (p7, f7)]%list ->
  nan_propagates (crps_gtct obs p1 p2 p3 p4 p5 p6 p7) s [y; f1; f2; f3; f4; f5; f6; f7]%list.
Proof.
intros obs p1 p2 p3 p4 p5 p6 p7 s y f1 f2 f3 f4 f5 f6 f7 P. nand P.
Qed.
Lemma C74_logs_nan_three_l :
forall (obs p1 p2 : arr) (s : list nat) (y f1 f2 : list nat -> num),
  params s [(obs, y); (p1, f1); (p2, f2)]%list ->
  nan_propagates (logs_normal obs p1 p2 true) s [y; f1; f2]%list /\
  nan_propagates (logs_laplace obs p1 p2) s [y; f1; f2]%list /\
  nan_propagates (logs_logistic obs p1 p2) s [y; f1; f2]%list.
Proof.
intros obs p1 p2 s y f1 f2 P. nand P.
Qed.
Lemma C74_logs_nan_four_l :
forall (obs p1 p2 p3 : arr) (s : list nat) (y f1 f2 f3 : list nat -> num),
  params s [(obs, y); (p1, f1); (p2, f2); (p3, f3)]%list ->
  nan_propagates (logs_2pnormal obs p1 p2 p3) s [y; f1; f2; f3]%list /\
  nan_propagates (logs_2pexponential obs p1 p2 p3) s [y; f1; f2; f3]%list.
Proof.
intros obs p1 p2 p3 s y f1 f2 f3 P. nand P.
Qed.
Lemma C74_logs_not_finite_two_l :
forall (obs p1 : arr) (s : list nat) (y f1 : list nat -> num),
  params s [(obs, y); (p1, f1)]%list ->
  nan_not_finite (logs_exponential obs p1) s [y; f1]%list /\
  nan_not_finite (logs_poisson obs p1) s [y; f1]%list.
Proof.
intros obs p1 s y f1 P. nand P.
Qed.
Lemma C74_logs_not_finite_three_l :
forall (obs p1 p2 : arr) (s : list nat) (y f1 f2 : list nat -> num),
  params s [(obs, y); (p1, f1); (p2, f2)]%list ->
  nan_not_finite (logs_loglaplace obs p1 p2) s [y; f1; f2]%list /\
  nan_not_finite (logs_loglogistic obs p1 p2) s [y; f1; f2]%list /\
  nan_not_finite (logs_lognormal obs p1 p2) s [y; f1; f2]%list /\
  nan_not_finite (logs_gamma obs p1 (Some p2) None) s [y; f1; f2]%list /\
  nan_not_finite (logs_gamma obs p1 None (Some p2)) s [y; f1; f2]%list.
Proof.
intros obs p1 p2 s y f1 f2 P. nand P.
Qed.
Lemma C74_logs_not_finite_four_l :
forall (obs p1 p2 p3 : arr) (s : list nat) (y f1 f2 f3 : list nat -> num),
  params s [(obs, y); (p1, f1); (p2, f2); (p3, f3)]%list ->
  nan_not_finite (logs_gpd obs p1 p2 p3) s [y; f1; f2; f3]%list.
Proof.
intros obs p1 p2 p3 s y f1 f2 f3 P. nand P.
Qed.
Lemma C74_logs_not_finite_five_l :
forall (obs p1 p2 p3 p4 : arr) (s : list nat) (y f1 f2 f3 f4 : list nat -> num),
  params s [(obs, y); (p1, f1); (p2, f2); (p3, f3); (p4, f4)]%list ->
  nan_not_finite (logs_tnormal obs p1 p2 p3 p4) s [y; f1; f2; f3; f4]%list /\
  nan_not_finite (logs_tlogistic obs p1 p2 p3 p4) s [y; f1; f2; f3; f4]%list.
Proof.
intros obs p1 p2 p3 p4 s y f1 f2 f3 f4 P. nand P.
Qed.
Lemma C74_infinite_two_l :
forall (obs p1 : arr) (s : list nat) (y : list nat -> num) (f1 : list nat -> R),
  params s [(obs, y); (p1, fins f1)]%list ->
  (forall i, inb s i -> 0 < f1 i) ->
  infinite_gives_infinity (crps_exponential obs p1) s y /\
  infinite_gives_infinity (logs_exponential obs p1) s y.
Proof.
intros obs p1 s y f1 P H. repeat apply conj; go P H.
Qed.
Lemma C74_infinite_three_l :
forall (obs p1 p2 : arr) (s : list nat) (y : list nat -> num) (f1 f2 : list nat -> R),
  params s [(obs, y); (p1, fins f1); (p2, fins f2)]%list ->
  (forall i, inb s i -> 0 < f2 i) ->
  infinite_gives_infinity (crps_normal obs p1 p2) s y /\
  infinite_gives_infinity (crps_laplace obs p1 p2) s y /\
  infinite_gives_infinity (logs_normal obs p1 p2 true) s y /\
  infinite_gives_infinity (logs_laplace obs p1 p2) s y /\
  infinite_gives_infinity (logs_loglaplace obs p1 p2) s y /\
  infinite_gives_infinity (logs_loglogistic obs p1 p2) s y /\
  infinite_gives_infinity (logs_lognormal obs p1 p2) s y /\
  obs_gives PInf PInf (crps_logistic obs p1 p2) s y /\
  obs_gives PInf PInf (logs_logistic obs p1 p2) s y.
Proof.
intros obs p1 p2 s y f1 f2 P H. repeat apply conj; go P H.
Qed.
Lemma C74_infinite_four_l :
forall (obs p1 p2 p3 : arr) (s : list nat) (y : list nat -> num) (f1 f2 f3 : list nat -> R),
  params s [(obs, y); (p1, fins f1); (p2, fins f2); (p3, fins f3)]%list ->
  (forall i, inb s i -> 0 < f1 i /\ 0 < f2 i) ->
  infinite_gives_infinity (crps_2pexponential obs p1 p2 p3) s y /\
  infinite_gives_infinity (logs_2pexponential obs p1 p2 p3) s y /\
  infinite_gives_infinity (logs_2pnormal obs p1 p2 p3) s y.
Proof.
intros obs p1 p2 p3 s y f1 f2 f3 P H. repeat apply conj; go P H.
Qed.
Lemma C74_infinite_uniform_l :
forall (obs p1 p2 p3 p4 : arr) (s : list nat) (y : list nat -> num) (f1 f2 f3 f4 : list nat -> R),
  params s [(obs, y); (p1, fins f1); (p2, fins f2); (p3, fins f3); (p4, fins f4)]%list ->
  (forall i, inb s i -> f1 i < f2 i /\ 0 <= f3 i /\ 0 <= f4 i /\ f3 i + f4 i < 1) ->
  infinite_gives_infinity (crps_uniform obs p1 p2 p3 p4) s y.
Proof.
intros obs p1 p2 p3 p4 s y f1 f2 f3 f4 P H. repeat apply conj; go P H.
Qed.
Lemma C74_infinite_truncated_l :
forall (obs p1 p2 p3 p4 : arr) (s : list nat) (y : list nat -> num) (f1 f2 f3 f4 : list nat -> R),
  params s [(obs, y); (p1, fins f1); (p2, fins f2); (p3, fins f3); (p4, fins f4)]%list ->
  (forall i, inb s i -> 0 < f2 i /\ f3 i < f4 i) ->
  infinite_gives_infinity (logs_tnormal obs p1 p2 p3 p4) s y /\
  infinite_gives_infinity (logs_tlogistic obs p1 p2 p3 p4) s y.
Proof.
intros obs p1 p2 p3 p4 s y f1 f2 f3 f4 P H. repeat apply conj; go P H.
Qed.
Lemma C74_infinite_below_refuted_l :
forall (obs p1 p2 : arr) (s : list nat) (y : list nat -> num) (f1 f2 : list nat -> R),
  params s [(obs, y); (p1, fins f1); (p2, fins f2)]%list ->
  (forall i, inb s i -> 0 < f2 i) ->
  obs_gives NInf NaN (crps_logistic obs p1 p2) s y /\
  obs_gives NInf NaN (crps_lognormal obs p1 p2) s y /\
  obs_gives NInf NaN (crps_loglogistic obs p1 p2) s y /\
  obs_gives NInf NaN (logs_logistic obs p1 p2) s y.
Proof.
intros obs p1 p2 s y f1 f2 P H. repeat apply conj; go P H.
Qed.
Lemma C74_infinite_poisson_refuted_l :
forall (obs p1 : arr) (s : list nat) (y : list nat -> num) (f1 : list nat -> R),
  params s [(obs, y); (p1, fins f1)]%list ->
  (forall i, inb s i -> 0 < f1 i) ->
  obs_gives PInf NaN (crps_poisson obs p1) s y.
Proof.
intros obs p1 s y f1 P H. repeat apply conj; go P H.
Qed.
Lemma C74_infinite_negbinom_refuted_l :
forall (obs p1 p2 : arr) (s : list nat) (y : list nat -> num) (f1 f2 : list nat -> R),
  params s [(obs, y); (p1, fins f1); (p2, fins f2)]%list ->
  (forall i, inb s i -> 0 < f1 i /\ 0 < f2 i < 1) ->
  obs_gives PInf NaN (crps_negbinom obs p1 (Some p2) None) s y.
Proof.
intros obs p1 p2 s y f1 f2 P H. repeat apply conj; go P H.
Qed.
Lemma C74_infinite_2pnormal_refuted_l :
forall (obs p1 p2 p3 : arr) (s : list nat) (y : list nat -> num) (f1 f2 f3 : list nat -> R),
  params s [(obs, y); (p1, fins f1); (p2, fins f2); (p3, fins f3)]%list ->
  (forall i, inb s i -> 0 < f1 i /\ 0 < f2 i) ->
  obs_gives PInf NaN (crps_2pnormal obs p1 p2 p3) s y.
Proof.
intros obs p1 p2 p3 s y f1 f2 f3 P H. repeat apply conj; go P H.
Qed.
Lemma C74_logs_uniform_nan_refuted_l :
forall (obs min max : arr) (s : list nat) (y : list nat -> num) (a b : list nat -> R),
  params s [(obs, y); (min, fins a); (max, fins b)]%list -> (forall i, inb s i -> a i < b i) ->
  exists f, returns (logs_uniform obs min max) s f /\ forall i, inb s i -> y i = NaN -> f i = Fin (ln (b i - a i)).
Proof.
intros obs mn mx s y a b P H. eexists (fun i => _); split; [ret P; reflexivity|]. intros i Hi E. specialize (H i Hi). cbv beta. rewrite E. unfold fins. nanr. rewrite ?ev_sub.
rewrite div_f by lra. rewrite log_f by (apply Rdiv_lt_0_compat; lra). cbn [nopp]. f_equal. unfold Rdiv. rewrite Rmult_1_l, ln_Rinv by lra. lra.
Qed.
