(** Proofs of the properties of crps_binomial and of crps_hypergeometric with arrays (statements in P_binom.v). *)
From Verif Require Export L_binom_api L_hyploop L_crps_real.
From Coq Require Import Psatz Lia.
Open Scope R_scope.
Lemma near n p y : INR n <= 10 ^ 35 -> 0 <= p < 1 -> near_binom_crps n p y (binom_s eps36 n p y).
Proof.
  intros Hn Hp. apply binom_crps; auto; [apply eps36_pos|]. unfold eps36. apply (Rmult_le_reg_r (10 ^ 36)); [apply pow_lt; lra|]. rewrite Rmult_assoc, Rinv_l by (apply pow_nonzero; lra). lra.
Qed.
Lemma C67_single_l :
forall (obs n prob : arr) (N : nat) (y p : R), unit1 obs (Fin y) -> unit1 n (nofnat N) -> unit1 prob (Fin p) -> 0 <= p < 1 -> INR N <= 10 ^ 35 ->
  exists v, returns (crps_binomial obs n prob) nil (fun _ => Fin v) /\ near_binom_crps N p y v.
Proof.
intros obs n prob N y p Uo Un Up Hp HN. exists (binom_s eps36 N p y). split; [|now apply near]. apply unit_val; auto. lra.
Qed.
Lemma C67_vector_l :
forall (obs n prob : arr) (N m : nat) (y p : list nat -> R), (2 <= m)%nat -> unit1 n (nofnat N) -> params (m :: nil) ((obs, fins y) :: (prob, fins p) :: nil) ->
  (forall i, inb (m :: nil) i -> 0 <= p i < 1) -> INR N <= 10 ^ 35 ->
  exists f, returns (crps_binomial obs n prob) (m :: nil) (fins f) /\ forall i, inb (m :: nil) i -> near_binom_crps N (p i) (y i) (f i).
Proof.
intros obs n prob N m y p Hm Un P Hp HN. exists (fun i => binom_s eps36 N (p i) (y i)). split; [|intros i Hi; apply near; auto]. apply vec_val; auto. intros i Hi. specialize (Hp i Hi). lra.
Qed.
Lemma C67_array_l :
forall (obs n prob : arr) (m : nat) (N : list nat -> nat) (y p : list nat -> R), (2 <= m)%nat -> sh n = (m :: nil)%list ->
  params (m :: nil) ((obs, fins y) :: (n, fun i => nofnat (N i)) :: (prob, fins p) :: nil) -> (forall i, inb (m :: nil) i -> 0 <= p i < 1 /\ INR (N i) <= 10 ^ 35) ->
  exists f, returns (crps_binomial obs n prob) (m :: nil) (fins f) /\ forall i, inb (m :: nil) i -> near_binom_crps (N i) (p i) (y i) (f i).
Proof.
intros obs n prob m N y p Hm Sn P H. exists (fun i => binom_s eps36 (N i) (p i) (y i)). split; [|intros i Hi; apply near; now apply H]. apply arr_val; auto. intros i Hi. specialize (H i Hi). lra.
Qed.
Lemma C67_certain_l :
forall (obs n prob : arr) (N : nat) (y : R), unit1 obs (Fin y) -> unit1 n (nofnat N) -> unit1 prob (Fin 1) ->
  returns (crps_binomial obs n prob) nil (fun _ => Fin (if Rlt_dec y (INR N) then 3 * (INR N - y) else INR N - y)) /\
  is_crps (count_cdf (binomial_pmf N 1)) y (Rabs (INR N - y)).
Proof.
intros obs n prob N y Uo Un Up. split; [|apply point_crps]. rewrite <- (binom_one eps36). apply unit_val; auto. lra.
Qed.
Lemma C67_certain_refuted_l :
exists obs n prob v, unit1 obs (Fin 2) /\ unit1 n (nofnat 1) /\ unit1 prob (Fin 1) /\ returns (crps_binomial obs n prob) nil (fun _ => Fin v) /\ v = -1 /\
  is_crps (count_cdf (binomial_pmf 1 1)) 2 1.
Proof.
exists (farr nil (fun _ => 2)), (farr nil (fun _ => INR 1)), (farr nil (fun _ => 1)), (-1).
  assert (unit1 (farr nil (fun _ => 2)) (Fin 2)) as U1 by (left; split; [reflexivity|repeat constructor]). assert (unit1 (farr nil (fun _ => INR 1)) (nofnat 1)) as U2 by (left; split; [reflexivity|repeat constructor]). assert (unit1 (farr nil (fun _ => 1)) (Fin 1)) as U3 by (left; split; [reflexivity|repeat constructor]).
  destruct (C67_certain_l _ _ _ 1 2 U1 U2 U3) as [E C]. repeat (split; [assumption|]). split; [|split; [reflexivity|]].
  - simpl INR in E. destruct (Rlt_dec 2 1); [lra|]. replace (-1) with (1 - 2) by ring. exact E.
  - simpl INR in C. replace 1 with (Rabs (1 - 2)) at 2; [exact C|]. rewrite Rabs_left by lra. ring.
Qed.
Lemma C67_lengths_l :
forall (obs n prob : arr) (m m' : nat) (N : list nat -> nat) (y p : list nat -> R), (2 <= m)%nat -> (2 <= m')%nat -> m' <> m -> real_arr obs (m' :: nil) y -> sh n = (m :: nil)%list ->
  params (m :: nil) ((n, fun i => nofnat (N i)) :: (prob, fins p) :: nil) -> (forall i, inb (m :: nil) i -> 0 <= p i <= 1) -> raises (crps_binomial obs n prob) ValueError.
Proof.
intros obs n prob m m' N y p Hm Hm' D Ro Sn P Hp. eapply (arr_lengths obs n prob N m m' y p); eauto.
Qed.
Lemma C67_empty_l :
forall (obs n prob : arr) (y p : R), sh n = (0%nat :: nil)%list -> unit1 obs (Fin y) -> unit1 prob (Fin p) -> raises (crps_binomial obs n prob) ValueError.
Proof.
exact arr_empty.
Qed.
Lemma C67_matrix_l :
forall (obs n prob : arr) (N a b : nat) (p : R), unit1 n (nofnat N) -> unit1 prob (Fin p) -> sh obs = (b :: a :: nil)%list -> (2 <= a * b)%nat -> (1 <= N)%nat -> b <> 1%nat -> b <> S N ->
  raises (crps_binomial obs n prob) ValueError.
Proof.
intros obs n prob N a b p Un Up So H1 H2 H3 H4. eapply (mat_raises obs n prob N p a b); eauto.
Qed.
Lemma C67_column_l :
forall (obs n prob : arr) (m : nat) (N : list nat -> nat) (y p : list nat -> R), (2 <= m)%nat -> sh n = (1%nat :: m :: nil)%list -> (forall i, inb (1%nat :: m :: nil) i -> at_ n i = nofnat (N i)) ->
  real_arr obs (1%nat :: m :: nil) y -> real_arr prob (1%nat :: m :: nil) p -> (forall i, inb (1%nat :: m :: nil) i -> 0 <= p i < 1 /\ INR (N i) <= 10 ^ 35) ->
  exists f, returns (crps_binomial obs n prob) (m :: nil) (fins f) /\ forall k, (k < m)%nat -> near_binom_crps (N (0%nat :: k :: nil)) (p (0%nat :: k :: nil)) (y (0%nat :: k :: nil)) (f (k :: nil)).
Proof.
intros obs n prob m N y p Hm Sn Vn Ro Rp H. exists (fun i => binom_s eps36 (N (0%nat :: i)) (p (0%nat :: i)) (y (0%nat :: i))). split.
- apply (col_val obs n prob N m y p); auto. intros i Hi. specialize (H i Hi). lra.
- intros k Hk. apply near; apply H; simpl; auto.
Qed.
Lemma C67_columns_l :
forall (obs n prob : arr) (a b : nat), (2 <= b)%nat -> (1 <= a)%nat -> sh n = (b :: a :: nil)%list -> sh obs = (b :: a :: nil)%list -> sh prob = (b :: a :: nil)%list ->
  raises (crps_binomial obs n prob) TypeError.
Proof.
exact mat_n_raises.
Qed.
Lemma C67_matrix_refuted_l :
exists obs n prob, unit1 n (nofnat 1) /\ unit1 prob (Fin (1 / 2)) /\ sh obs = (2%nat :: 2%nat :: nil)%list /\
  exists f, returns (crps_binomial obs n prob) (1%nat :: 2%nat :: nil) f.
Proof.
exists (farr (2%nat :: 2%nat :: nil) (fun _ => 1)), (farr nil (fun _ => INR 1)), (farr nil (fun _ => 1 / 2)).
  assert (unit1 (farr nil (fun _ => INR 1)) (nofnat 1)) as U2 by (left; split; [reflexivity|repeat constructor]). assert (unit1 (farr nil (fun _ => 1 / 2)) (Fin (1 / 2))) as U3 by (left; split; [reflexivity|repeat constructor]).
  split; [exact U2|]. split; [exact U3|]. split; [reflexivity|]. eexists. apply (mat_wrong _ _ _ 1 (1 / 2) 2 (fun _ => 1)); auto; [split; auto|lra].
Qed.
Lemma C68_elementwise_l :
forall (obs m n k : arr) (s : list nat) (y : list nat -> R) (a b c : list nat -> nat),
  params s ((obs, fins y) :: (m, fins (fun i => INR (a i))) :: (n, fins (fun i => INR (b i))) :: (k, fins (fun i => INR (c i))) :: nil) -> sh n = s ->
  (forall i, inb s i -> (c i <= a i + b i /\ Nat.min (a i) (c i) <= b i)%nat) ->
  exists f, returns (crps_hypergeometric_loop obs m n k) s (fins f) /\ forall i, inb s i -> is_crps (count_cdf (hypergeometric_pmf (a i) (b i) (c i))) (y i) (f i).
Proof.
intros obs m n k s y a b c P Sn H.
exists (fun i => 2 * sumn (S (b i)) (fun j => hypergeometric_pmf (a i) (b i) (c i) j * (gt_ind (y i) j - sumn (S j) (hypergeometric_pmf (a i) (b i) (c i)) + hypergeometric_pmf (a i) (b i) (c i) j / 2) * (INR j - y i))). split.
- eapply returns_eq; [eapply loop_val; [exact P|exact Sn|intros i Hi; now apply H]|]. intros i Hi. cbv beta. unfold fins. apply hyper_score_val. now apply H.
- intros i Hi. destruct (H i Hi) as [H1 H2]. apply fin_crps; [now apply hypergeometric_sum|]. intros j Hj. apply hyper_support. lia.
Qed.
Lemma C68_broadcast_l :
forall (obs m n k : arr) (s : list nat) (y : list nat -> R) (a b c : list nat -> nat),
  params s ((obs, fins y) :: (m, fins (fun i => INR (a i))) :: (n, fins (fun i => INR (b i))) :: (k, fins (fun i => INR (c i))) :: nil) -> (asize n < fold_right Nat.mul 1 s)%nat ->
  raises (crps_hypergeometric_loop obs m n k) ValueError.
Proof.
intros obs m n k s y a b c P H. eapply loop_raises; [exact P|exact H].
Qed.
