(** Properties C67 and C68: crps_binomial, and crps_hypergeometric with an array of numbers of failures. *)
From Verif Require Import T_binom.
From Coq Require Import Psatz Lia.
Open Scope R_scope.

(** C67.  One number of trials, one observation and one probability below 1: the result is the CRPS of the binomial
    distribution up to 2 (n + |obs|) 1e-36 (4 (n + 1) - 2 ln (1 - prob)); in the absence of rounding the deviation is due
    to the 1e-36 in the library's distribution function.  The observation is any real number. *)
Theorem C67_single :
forall (obs n prob : arr) (N : nat) (y p : R), unit1 obs (Fin y) -> unit1 n (nofnat N) -> unit1 prob (Fin p) -> 0 <= p < 1 -> INR N <= 10 ^ 35 ->
  exists v, returns (crps_binomial obs n prob) nil (fun _ => Fin v) /\ near_binom_crps N p y v.
Proof. exact C67_single_l. Qed.
Print Assumptions C67_single.
(** two trials with probability 1/2 and the observation 1 *)
Example C67_single_case : exists v, returns (crps_binomial (farr nil (fun _ => 1)) (farr nil (fun _ => INR 2)) (farr nil (fun _ => 1 / 2))) nil (fun _ => Fin v) /\ Rabs (v - 1 / 8) <= 1 / 10 ^ 34.
Proof.
  assert (unit1 (farr nil (fun _ => 1)) (Fin 1)) as U1 by (left; split; [reflexivity|repeat constructor]). assert (unit1 (farr nil (fun _ => INR 2)) (nofnat 2)) as U2 by (left; split; [reflexivity|repeat constructor]). assert (unit1 (farr nil (fun _ => 1 / 2)) (Fin (1 / 2))) as U3 by (left; split; [reflexivity|repeat constructor]).
  destruct (C67_single_l _ _ _ 2 1 (1 / 2) U1 U2 U3 ltac:(lra) ltac:(simpl; lra)) as (v & E & w & W & B). exists v. split; [exact E|].
  assert (w = 1 / 8) as ->.
  { pose proof (fin_crps (binomial_pmf 2 (1 / 2)) 2 1 (binomial_sum 2 (1 / 2) ltac:(lra)) ltac:(intros; now apply binom_support)) as K. rewrite (is_crps_unique _ _ _ _ W K).
    rewrite !sumn_S, !sumn_0. unfold gt_ind, binomial_pmf. simpl. repeat (destruct (Rlt_dec _ _); try lra). }
  eapply Rle_trans; [exact B|]. assert (- ln (1 - 1 / 2) <= 1) as L. { replace (1 - 1 / 2) with (/ 2) by field. rewrite ln_Rinv by lra. pose proof (exp_ineq1 1 ltac:(lra)) as K. apply ln_increasing in K; [|lra]. rewrite ln_exp in K. replace (1 + 1) with 2 in K by ring. lra. }
  rewrite (Rabs_right 1) by lra. simpl INR. assert (0 < / 10 ^ 36) as P by (apply Rinv_0_lt_compat, pow_lt; lra). replace (1 / 10 ^ 34) with (100 * / 10 ^ 36) by (field). nra.
Qed.

(** C67.  The same for one number of trials and vectors of observations or probabilities (of length at least 2; one of
    the two may be a single number). *)
Theorem C67_vector :
forall (obs n prob : arr) (N m : nat) (y p : list nat -> R), (2 <= m)%nat -> unit1 n (nofnat N) -> params (m :: nil) ((obs, fins y) :: (prob, fins p) :: nil) ->
  (forall i, inb (m :: nil) i -> 0 <= p i < 1) -> INR N <= 10 ^ 35 ->
  exists f, returns (crps_binomial obs n prob) (m :: nil) (fins f) /\ forall i, inb (m :: nil) i -> near_binom_crps N (p i) (y i) (f i).
Proof. exact C67_vector_l. Qed.
Print Assumptions C67_vector.
(** ten trials, observations 0, 1, 2 and the probability 1/3 *)
Example C67_vector_case : unit1 (farr nil (fun _ => INR 10)) (nofnat 10) /\
  params (3%nat :: nil) ((farr (3%nat :: nil) (fun i => INR (hd 0%nat i)), fins (fun i => INR (hd 0%nat i))) :: (farr nil (fun _ => 1 / 3), fins (fun _ => 1 / 3)) :: nil) /\ INR 10 <= 10 ^ 35.
Proof. split; [left; split; [reflexivity|repeat constructor]|]. split; [|simpl; lra]. split; [reflexivity|]. constructor; [|constructor; [|constructor]]; intros i Hi; destruct i as [|k [|? ?]]; simpl in Hi; try tauto; reflexivity. Qed.

(** C67.  The same for a vector of numbers of trials (of length at least 2); observations and probabilities are vectors
    of that length or single numbers. *)
Theorem C67_array :
forall (obs n prob : arr) (m : nat) (N : list nat -> nat) (y p : list nat -> R), (2 <= m)%nat -> sh n = (m :: nil)%list ->
  params (m :: nil) ((obs, fins y) :: (n, fun i => nofnat (N i)) :: (prob, fins p) :: nil) -> (forall i, inb (m :: nil) i -> 0 <= p i < 1 /\ INR (N i) <= 10 ^ 35) ->
  exists f, returns (crps_binomial obs n prob) (m :: nil) (fins f) /\ forall i, inb (m :: nil) i -> near_binom_crps (N i) (p i) (y i) (f i).
Proof. exact C67_array_l. Qed.
Print Assumptions C67_array.
(** 1 and 2 trials, one observation and one probability *)
Example C67_array_case : params (2%nat :: nil) ((farr nil (fun _ => 1), fins (fun _ => 1)) :: (farr (2%nat :: nil) (fun i => INR (S (hd 0%nat i))), fun i => nofnat (S (hd 0%nat i))) :: (farr (1%nat :: nil) (fun _ => 1 / 3), fins (fun _ => 1 / 3)) :: nil).
Proof. split; [reflexivity|]. constructor; [|constructor; [|constructor; [|constructor]]]; intros i Hi; destruct i as [|k [|? ?]]; simpl in Hi; try tauto; reflexivity. Qed.

(** C67.  Probability 1: the distribution function at n is 0 instead of 1, since the incomplete beta function has the
    argument 0.  The result is 3 (n - obs) below n and n - obs above, where the CRPS is |n - obs|. *)
Theorem C67_certain :
forall (obs n prob : arr) (N : nat) (y : R), unit1 obs (Fin y) -> unit1 n (nofnat N) -> unit1 prob (Fin 1) ->
  returns (crps_binomial obs n prob) nil (fun _ => Fin (if Rlt_dec y (INR N) then 3 * (INR N - y) else INR N - y)) /\
  is_crps (count_cdf (binomial_pmf N 1)) y (Rabs (INR N - y)).
Proof. exact C67_certain_l. Qed.
Print Assumptions C67_certain.
Example C67_certain_case : unit1 (farr nil (fun _ => 3)) (Fin 3) /\ unit1 (farr (1%nat :: nil) (fun _ => INR 2)) (nofnat 2) /\ unit1 (farr nil (fun _ => 1)) (Fin 1).
Proof. split; [left; split; [reflexivity|repeat constructor]|]. split; [right; split; [reflexivity|repeat constructor]|left; split; [reflexivity|repeat constructor]]. Qed.

(** C67.  So the score of a certain forecast can be negative: one trial, probability 1, observation 2. *)
Theorem C67_certain_refuted :
exists obs n prob v, unit1 obs (Fin 2) /\ unit1 n (nofnat 1) /\ unit1 prob (Fin 1) /\ returns (crps_binomial obs n prob) nil (fun _ => Fin v) /\ v = -1 /\
  is_crps (count_cdf (binomial_pmf 1 1)) 2 1.
Proof. exact C67_certain_refuted_l. Qed.
Print Assumptions C67_certain_refuted.

(** C67.  Vectors of observations and of numbers of trials of different lengths raise ValueError. *)
Theorem C67_lengths :
forall (obs n prob : arr) (m m' : nat) (N : list nat -> nat) (y p : list nat -> R), (2 <= m)%nat -> (2 <= m')%nat -> m' <> m -> real_arr obs (m' :: nil) y -> sh n = (m :: nil)%list ->
  params (m :: nil) ((n, fun i => nofnat (N i)) :: (prob, fins p) :: nil) -> (forall i, inb (m :: nil) i -> 0 <= p i <= 1) -> raises (crps_binomial obs n prob) ValueError.
Proof. exact C67_lengths_l. Qed.
Print Assumptions C67_lengths.
Example C67_lengths_case : real_arr (farr (2%nat :: nil) (fun _ => 1)) (2%nat :: nil) (fun _ => 1) /\
  params (3%nat :: nil) ((farr (3%nat :: nil) (fun i => INR (hd 0%nat i)), fun i => nofnat (hd 0%nat i)) :: (farr nil (fun _ => 1 / 2), fins (fun _ => 1 / 2)) :: nil).
Proof. split; [split; auto|]. split; [reflexivity|]. constructor; [|constructor; [|constructor]]; intros i Hi; destruct i as [|k [|? ?]]; simpl in Hi; try tauto; reflexivity. Qed.

(** C67.  No numbers of trials at all: ValueError, since there is nothing to stack. *)
Theorem C67_empty :
forall (obs n prob : arr) (y p : R), sh n = (0%nat :: nil)%list -> unit1 obs (Fin y) -> unit1 prob (Fin p) -> raises (crps_binomial obs n prob) ValueError.
Proof. exact C67_empty_l. Qed.
Print Assumptions C67_empty.
Example C67_empty_case : sh (farr (0%nat :: nil) (fun _ => 0)) = (0%nat :: nil)%list.
Proof. reflexivity. Qed.

(** C67.  A matrix of observations: for one number of trials N >= 1 and a matrix of shape (a, b)
    with b other than 1 and N + 1 the call raises ValueError; the documentation allows any array. *)
Theorem C67_matrix :
forall (obs n prob : arr) (N a b : nat) (p : R), unit1 n (nofnat N) -> unit1 prob (Fin p) -> sh obs = (b :: a :: nil)%list -> (2 <= a * b)%nat -> (1 <= N)%nat -> b <> 1%nat -> b <> S N ->
  raises (crps_binomial obs n prob) ValueError.
Proof. exact C67_matrix_l. Qed.
Print Assumptions C67_matrix.
(** two rows of three observations, five trials *)
Example C67_matrix_case : unit1 (farr nil (fun _ => INR 5)) (nofnat 5) /\ sh (farr (3%nat :: 2%nat :: nil) (fun _ => 1)) = (3%nat :: 2%nat :: nil)%list /\ 3%nat <> 6%nat.
Proof. split; [left; split; [reflexivity|repeat constructor]|]. split; [reflexivity|discriminate]. Qed.

(** C67.  A column of numbers of trials, i.e. shape (m, 1) with m at least 2, with observations and probabilities of the same
    shape: the scores come back as a vector of length m, one for each row. *)
Theorem C67_column :
forall (obs n prob : arr) (m : nat) (N : list nat -> nat) (y p : list nat -> R), (2 <= m)%nat -> sh n = (1%nat :: m :: nil)%list -> (forall i, inb (1%nat :: m :: nil) i -> at_ n i = nofnat (N i)) ->
  real_arr obs (1%nat :: m :: nil) y -> real_arr prob (1%nat :: m :: nil) p -> (forall i, inb (1%nat :: m :: nil) i -> 0 <= p i < 1 /\ INR (N i) <= 10 ^ 35) ->
  exists f, returns (crps_binomial obs n prob) (m :: nil) (fins f) /\ forall k, (k < m)%nat -> near_binom_crps (N (0%nat :: k :: nil)) (p (0%nat :: k :: nil)) (y (0%nat :: k :: nil)) (f (k :: nil)).
Proof. exact C67_column_l. Qed.
Print Assumptions C67_column.
(** 1 and 2 trials in a column *)
Example C67_column_case : sh (farr (1%nat :: 2%nat :: nil) (fun i => INR (S (nth 1 i 0%nat)))) = (1%nat :: 2%nat :: nil)%list /\ real_arr (farr (1%nat :: 2%nat :: nil) (fun _ => 1 / 3)) (1%nat :: 2%nat :: nil) (fun _ => 1 / 3).
Proof. repeat split. Qed.

(** C67.  A matrix of numbers of trials with two or more columns, with observations and probabilities of the same shape:
    TypeError, since arange accepts no array of several numbers; the documentation allows any array. *)
Theorem C67_columns :
forall (obs n prob : arr) (a b : nat), (2 <= b)%nat -> (1 <= a)%nat -> sh n = (b :: a :: nil)%list -> sh obs = (b :: a :: nil)%list -> sh prob = (b :: a :: nil)%list ->
  raises (crps_binomial obs n prob) TypeError.
Proof. exact C67_columns_l. Qed.
Print Assumptions C67_columns.
(** two rows of three numbers *)
Example C67_columns_case : sh (farr (3%nat :: 2%nat :: nil) (fun _ => 1)) = (3%nat :: 2%nat :: nil)%list.
Proof. reflexivity. Qed.

(** C67.  A matrix with N + 1 columns is accepted, and the scores of a row are mixed: the result has shape (a, 1). *)
Theorem C67_matrix_refuted :
exists obs n prob, unit1 n (nofnat 1) /\ unit1 prob (Fin (1 / 2)) /\ sh obs = (2%nat :: 2%nat :: nil)%list /\
  exists f, returns (crps_binomial obs n prob) (1%nat :: 2%nat :: nil) f.
Proof. exact C67_matrix_refuted_l. Qed.
Print Assumptions C67_matrix_refuted.

(** C68.  An array of numbers of failures that has the common shape of the arguments: each entry of the result is the
    CRPS of the hypergeometric distribution, provided that no more successes are possible than there are failures
    (C64_hypergeometric_refuted: the sum runs to the number of failures). *)
Theorem C68_elementwise :
forall (obs m n k : arr) (s : list nat) (y : list nat -> R) (a b c : list nat -> nat),
  params s ((obs, fins y) :: (m, fins (fun i => INR (a i))) :: (n, fins (fun i => INR (b i))) :: (k, fins (fun i => INR (c i))) :: nil) -> sh n = s ->
  (forall i, inb s i -> (c i <= a i + b i /\ Nat.min (a i) (c i) <= b i)%nat) ->
  exists f, returns (crps_hypergeometric_loop obs m n k) s (fins f) /\ forall i, inb s i -> is_crps (count_cdf (hypergeometric_pmf (a i) (b i) (c i))) (y i) (f i).
Proof. exact C68_elementwise_l. Qed.
Print Assumptions C68_elementwise.
(** two urns with 3 and 4 failures, 2 successes, 2 draws *)
Example C68_elementwise_case : params (2%nat :: nil) ((farr nil (fun _ => 1), fins (fun _ => 1)) :: (farr nil (fun _ => INR 2), fins (fun _ => INR 2)) ::
    (farr (2%nat :: nil) (fun i => INR (3 + hd 0%nat i)), fins (fun i => INR (3 + hd 0%nat i))) :: (farr (1%nat :: nil) (fun _ => INR 2), fins (fun _ => INR 2)) :: nil) /\
  forall i, inb (2%nat :: nil) i -> (2 <= 2 + (3 + hd 0 i) /\ Nat.min 2 2 <= 3 + hd 0 i)%nat.
Proof. split; [|intros i _; change (Nat.min 2 2) with 2%nat; generalize (hd 0%nat i); intros h; split; lia]. split; [reflexivity|]. constructor; [|constructor; [|constructor; [|constructor; [|constructor]]]]; intros i Hi; destruct i as [|k [|? ?]]; simpl in Hi; try tauto; reflexivity. Qed.

(** C68.  An array of numbers of failures with fewer entries than the common shape raises ValueError, although the
    arguments broadcast against each other. *)
Theorem C68_broadcast :
forall (obs m n k : arr) (s : list nat) (y : list nat -> R) (a b c : list nat -> nat),
  params s ((obs, fins y) :: (m, fins (fun i => INR (a i))) :: (n, fins (fun i => INR (b i))) :: (k, fins (fun i => INR (c i))) :: nil) -> (asize n < fold_right Nat.mul 1 s)%nat ->
  raises (crps_hypergeometric_loop obs m n k) ValueError.
Proof. exact C68_broadcast_l. Qed.
Print Assumptions C68_broadcast.
(** two numbers of failures and a matrix of observations with three rows *)
Example C68_broadcast_case : let obs := farr (2%nat :: 3%nat :: nil) (fun _ => 1) in let n := farr (2%nat :: nil) (fun _ => INR 4) in let m := farr nil (fun _ => INR 2) in
  params (2%nat :: 3%nat :: nil) ((obs, fins (fun _ => 1)) :: (m, fins (fun _ => INR 2)) :: (n, fins (fun _ => INR 4)) :: (m, fins (fun _ => INR 2)) :: nil) /\ (asize n < 2 * (3 * 1))%nat.
Proof. cbv zeta. split; [|cbv; lia]. split; [reflexivity|]. constructor; [|constructor; [|constructor; [|constructor; [|constructor]]]]; intros i Hi; reflexivity. Qed.
