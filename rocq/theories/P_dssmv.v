(** Property C65: dssmv_ensemble.  In all theorems the batch shape, the positions of the ensemble axis and of the
    variable axis and their python numbers are arbitrary. *)
From Verif Require Import T_dssmv.
From Coq Require Import Psatz Lia.
Open Scope R_scope.

(** C65.  Both implementations return (y - m)' P (y - m) + log d(C) at every grid point: m the mean and C the sample
    covariance matrix of the members, P the inverse of C, d the determinant; and d(C) is positive. *)
Theorem C65_value :
forall b obs fct m v s p q M D y x bias d P,
  mv_args obs fct m v s p q M D y x -> dssmv_ready b obs s M D -> determinant D d ->
  (forall r, inb s r -> is_inverse D (mvcov bias M (memv p q x r)) (P r)) ->
  returns (dssmv_ensemble b obs fct m v bias) s
    (fun r => Fin (mvds_score D (mvmean M (memv p q x r)) (P r) (d (mvcov bias M (memv p q x r))) (obsv q y r))) /\
  forall r, inb s r -> 0 < d (mvcov bias M (memv p q x r)).
Proof. exact C65_value_l. Qed.
Print Assumptions C65_value.
(** members (-1, -1), (1, -1), (0, 2), observation (1, 3): mean 0, covariance matrix diag (1, 3), score 1 + 9 / 3 + log 3 *)
Example C65_value_case :
  let x := (fun i k => match i, k with 0%nat, _ => -1 | 1%nat, 0%nat => 1 | 1%nat, _ => -1 | _, 0%nat => 0 | _, _ => 2 end) in let y := fun k => match k with 0%nat => 1 | _ => 3 end in
  let P := fun i j => match i, j with 0%nat, 0%nat => 1 | 1%nat, 1%nat => / 3 | _, _ => 0 end in
  mv_args (real1 2 y) (real2 3 2 x) (-2) (-1) [] 1 0 3 2 (fun i => y (hd 0%nat i)) (fun i => x (hd 0%nat (tl i)) (hd 0%nat i)) /\
  (forall b, dssmv_ready b (real1 2 y) [] 3 2) /\ is_inverse 2 (mvcov false 3 x) P /\ determinant 2 (Rdet 2) /\
  mvds_score 2 (mvmean 3 x) P (Rdet 2 (mvcov false 3 x)) y = 4 + ln 3.
Proof.
  intros x y P. assert (mvmean 3 x 0 = 0 /\ mvmean 3 x 1 = 0) as [m0 m1] by (unfold mvmean, mean, sumn, Rsum; simpl; split; field).
  assert (mvcov false 3 x 0%nat 0%nat = 1 /\ mvcov false 3 x 0%nat 1%nat = 0 /\ mvcov false 3 x 1%nat 0%nat = 0 /\ mvcov false 3 x 1%nat 1%nat = 3) as (c0 & c1 & c2 & c3).
  { unfold mvcov. rewrite m0, m1. unfold sumn, Rsum. simpl. repeat split; field. }
  split; [apply mv_real2|]. split; [intros b; repeat split; auto; try lia; intros K; destruct K|]. split.
  - intros i j Hi Hj. unfold mmul, sumn, Rsum, idm. destruct i as [|[|i]]; try lia; destruct j as [|[|j]]; try lia; simpl; rewrite ?c0, ?c1, ?c2, ?c3; field.
  - split; [apply Rdet_determinant|]. unfold mvds_score, quad, sumn, Rsum. simpl. unfold skip. simpl. rewrite ?c0, ?c1, ?c2, ?c3, m0, m1. f_equal; [field|f_equal; ring].
Qed.

(** C65.  Where the covariance matrix of one grid point has no inverse the whole call raises LinAlgError. *)
Theorem C65_singular :
forall b obs fct m v s p q M D y x bias r,
  mv_args obs fct m v s p q M D y x -> dssmv_ready b obs s M D -> nonempty s -> inb s r ->
  ~ (exists P, is_inverse D (mvcov bias M (memv p q x r)) P) -> raises (dssmv_ensemble b obs fct m v bias) LinAlgError.
Proof. exact C65_singular_l. Qed.
Print Assumptions C65_singular.
(** three members on a line *)
Example C65_singular_case : ~ (exists P, is_inverse 2 (mvcov true 3 (fun i _ => INR i)) P).
Proof.
  intros [P H]. pose proof (inverse_det 2 _ _ H) as E. rewrite (det_rows 2 _ (fun i => match i with O => 1 | _ => -1 end) 0%nat) in E; [lra|lia|lra|].
  intros j Hj. unfold mvcov, mvmean, mean, sumn, Rsum. destruct j as [|[|j]]; try lia; simpl; field.
Qed.

(** C65.  With at most as many members as variables every call on a non-empty batch raises LinAlgError, in exact
    arithmetic (rounding can hide it). *)
Theorem C65_few_members :
forall b obs fct m v s p q M D y x bias,
  mv_args obs fct m v s p q M D y x -> dssmv_ready b obs s M D -> nonempty s -> (M <= D)%nat ->
  raises (dssmv_ensemble b obs fct m v bias) LinAlgError.
Proof. exact C65_few_members_l. Qed.
Print Assumptions C65_few_members.
Example C65_few_members_case : mv_args (real1 2 (fun _ => 0)) (real2 2 2 (fun i k => INR (i + 2 * k))) (-2) (-1) [] 1 0 2 2 (fun _ => 0) (fun i => INR (hd 0%nat (tl i) + 2 * hd 0%nat i)) /\
  forall b, dssmv_ready b (real1 2 (fun _ => 0)) [] 2 2.
Proof. split; [repeat split; simpl; auto; now left|]. intros b; repeat split; auto; try lia. intros K; destruct K. Qed.

(** C65.  For finite float inputs with at least two variables and members the implementations agree: the same
    array, or the same exception. *)
Theorem C65_agree :
forall obs fct m v s p q M D y x bias,
  mv_args obs fct m v s p q M D y x -> (2 <= M)%nat -> (2 <= D)%nat -> nonempty s -> dt obs = DFloat ->
  (exists u, returns (dssmv_ensemble Array obs fct m v bias) s (fun r => Fin (u r)) /\ returns (dssmv_ensemble Numba obs fct m v bias) s (fun r => Fin (u r))) \/
  raises (dssmv_ensemble Array obs fct m v bias) LinAlgError /\ raises (dssmv_ensemble Numba obs fct m v bias) LinAlgError.
Proof. exact C65_agree_l. Qed.
Print Assumptions C65_agree.

(** C65.  One variable: the compiled kernel returns the univariate score (y - m)^2 / var + log var where the members
    are not all equal, the other implementation always raises LinAlgError. *)
Theorem C65_one_variable :
forall obs fct m v s p q M y x bias,
  mv_args obs fct m v s p q M 1 y x -> (2 <= M)%nat -> nonempty s -> dt obs = DFloat ->
  ((forall r, inb s r -> spread M (fun i => memv p q x r i 0)) ->
    returns (dssmv_ensemble Numba obs fct m v bias) s
      (fun r => Fin (ds_score (mean M (fun i => memv p q x r i 0)) (variance bias M (fun i => memv p q x r i 0)) (obsv q y r 0)))) /\
  raises (dssmv_ensemble Array obs fct m v bias) LinAlgError.
Proof. exact C65_one_variable_l. Qed.
Print Assumptions C65_one_variable.

(** C65.  So the implementations do not agree on one variable: score log 2 against an exception. *)
Theorem C65_one_variable_refuted :
exists obs fct M y x, mv_args obs fct (-2) (-1) [] 1 0 M 1 y x /\ (2 <= M)%nat /\ floats obs fct /\
  returns (dssmv_ensemble Numba obs fct (-2) (-1) false) [] (fun _ => Fin (ln 2)) /\
  raises (dssmv_ensemble Array obs fct (-2) (-1) false) LinAlgError.
Proof. exact C65_one_variable_refuted_l. Qed.
Print Assumptions C65_one_variable_refuted.

(** C65.  Observation and members replaced by A times them plus c, A an invertible matrix: the score grows by
    log d(A)^2.  In particular it is invariant under shifts and under orthogonal maps. *)
Theorem C65_affine :
forall b obs fct obs' fct' m v s p q M D y x y' x' bias d P A Ai c,
  mv_args obs fct m v s p q M D y x -> mv_args obs' fct' m v s p q M D y' x' -> dssmv_ready b obs s M D -> dssmv_ready b obs' s M D -> determinant D d ->
  (forall r, inb s r -> is_inverse D (mvcov bias M (memv p q x r)) (P r)) -> (forall r, inb s r -> is_inverse D (A r) (Ai r)) ->
  (forall r k, inb s r -> (k < D)%nat -> obsv q y' r k = affv D (A r) (c r) (obsv q y r) k) ->
  (forall r i k, inb s r -> (i < M)%nat -> (k < D)%nat -> memv p q x' r i k = affv D (A r) (c r) (memv p q x r i) k) ->
  exists u, returns (dssmv_ensemble b obs fct m v bias) s (fun r => Fin (u r)) /\
            returns (dssmv_ensemble b obs' fct' m v bias) s (fun r => Fin (u r + ln (d (A r))²)).
Proof. exact C65_affine_l. Qed.
Print Assumptions C65_affine.
(** a shear: determinant one *)
Example C65_affine_case :
  let A := fun i j => match i, j with 0%nat, 1%nat => 5 | 1%nat, 0%nat => 0 | _, _ => 1 end in
  is_inverse 2 A (fun i j => match i, j with 0%nat, 1%nat => -5 | 1%nat, 0%nat => 0 | _, _ => 1 end) /\ Rdet 2 A = 1.
Proof.
  intros A. split; [|unfold Rdet, skip, A; simpl; ring]. intros i j Hi Hj. unfold A, mmul, sumn, Rsum, idm. destruct i as [|[|i]]; try lia; destruct j as [|[|j]]; try lia; simpl; ring.
Qed.

(** C65.  The order of the members does not matter. *)
Theorem C65_permutation :
forall b obs fct fct' m v s p q M D y x x' bias P g,
  mv_args obs fct m v s p q M D y x -> mv_args obs fct' m v s p q M D y x' -> dssmv_ready b obs s M D ->
  (forall r, inb s r -> is_inverse D (mvcov bias M (memv p q x r)) (P r)) -> (forall r, inb s r -> reorders M (g r)) ->
  (forall r i k, inb s r -> (i < M)%nat -> (k < D)%nat -> memv p q x' r i k = memv p q x r (g r i) k) ->
  exists u, returns (dssmv_ensemble b obs fct m v bias) s (fun r => Fin (u r)) /\
            returns (dssmv_ensemble b obs fct' m v bias) s (fun r => Fin (u r)).
Proof. exact C65_permutation_l. Qed.
Print Assumptions C65_permutation.

(** C65.  bias=True: the observation is drawn uniformly from the vectors z 0, ..., z (N-1).  The mean score of any
    forecast ensemble x is at least that of the ensemble z. *)
Theorem C65_proper :
forall b M N D x z P Q,
  (2 <= M)%nat -> (2 <= N)%nat -> (0 < D)%nat -> (b = Array -> 2 <= D)%nat ->
  is_inverse D (mvcov true M x) P -> is_inverse D (mvcov true N z) Q -> exists S T : nat -> R,
    (forall j, (j < N)%nat -> returns (dssmv_ensemble b (real1 D (z j)) (real2 M D x) (-2) (-1) true) [] (fun _ => Fin (S j))) /\
    (forall j, (j < N)%nat -> returns (dssmv_ensemble b (real1 D (z j)) (real2 N D z) (-2) (-1) true) [] (fun _ => Fin (T j))) /\
    sumn N T <= sumn N S.
Proof. exact C65_proper_l. Qed.
Print Assumptions C65_proper.

(** C65.  A NaN in a member at grid point r, at least two variables and members, non-empty batch: the compiled kernel
    raises LinAlgError; the other implementation returns NaN at r when there is no other grid point. *)
Theorem C65_nan :
forall obs fct m v p q M D y x bias i k,
  mv_nums obs fct m v [] p q M D y x -> (2 <= M)%nat -> (2 <= D)%nat -> dt obs = DFloat ->
  (i < M)%nat -> (k < D)%nat -> x (insert_at p i (insert_at q k [])) = NaN ->
  returns (dssmv_ensemble Array obs fct m v bias) [] (fun _ => NaN) /\
  raises (dssmv_ensemble Numba obs fct m v bias) LinAlgError.
Proof. exact C65_nan_l. Qed.
Print Assumptions C65_nan.
Example C65_nan_case : mv_nums (real1 2 (fun _ => 0)) (mkArr DFloat [2; 3]%nat (fun _ => NaN)) (-2) (-1) [] 1 0 3 2 (fun _ => Fin 0) (fun _ => NaN).
Proof. repeat split; simpl; auto; now left. Qed.
