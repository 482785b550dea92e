(** Positive definite matrices. *)
From Verif Require Export L_det.
From Coq Require Import Psatz Lia.
Open Scope R_scope.

Definition msym (n : nat) (A : mat) : Prop := forall i j, (i < n)%nat -> (j < n)%nat -> A i j = A j i.
Definition posdef (n : nat) (A : mat) : Prop := msym n A /\ forall v, (exists i, (i < n)%nat /\ v i <> 0) -> 0 < quad n A v.
Definition trace (n : nat) (A : mat) : R := sumn n (fun i => A i i).
Definition schur (A : mat) : mat := fun i j => A (S i) (S j) - A (S i) O * A O (S j) / A O O.
Lemma quad_ext n A B v w : mat_eq n A B -> (forall i, (i < n)%nat -> v i = w i) -> quad n A v = quad n B w.
Proof. intros H E. unfold quad. apply sumn_ext. intros i Hi. apply sumn_ext. intros j Hj. now rewrite H, !E. Qed.
Lemma pd_diag n A : posdef (S n) A -> 0 < A O O.
Proof.
  intros [_ H]. specialize (H (idm O) ltac:(exists O; unfold idm; simpl; split; [lia|lra])). unfold quad in H. rewrite sumn_S_l in H. rewrite (sumn_ext n _ (fun _ => 0)), sumn_zero in H.
  - rewrite sumn_S_l, (sumn_ext n _ (fun _ => 0)), sumn_zero in H; [unfold idm in H; simpl in H; lra|]. intros k _. unfold idm at 2. destruct (Nat.eq_dec 0 (S k)); [lia|ring].
  - intros k _. rewrite (sumn_ext (S n) _ (fun _ => 0)); [apply sumn_zero|]. intros j _. unfold idm at 1. destruct (Nat.eq_dec 0 (S k)); [lia|ring].
Qed.
Lemma quad_split n A v : msym (S n) A -> quad (S n) A v = A O O * v O ^ 2 + 2 * v O * sumn n (fun j => A O (S j) * v (S j)) + quad n (fun i j => A (S i) (S j)) (fun i => v (S i)).
Proof.
  intros Hs. unfold quad. rewrite sumn_S_l. rewrite sumn_S_l.
  rewrite (sumn_ext n (fun i => sumn (S n) (fun j => v (S i) * A (S i) j * v j)) (fun i => v O * (A O (S i) * v (S i)) + sumn n (fun j => v (S i) * A (S i) (S j) * v (S j)))).
  - rewrite sumn_plus, sumn_scal. rewrite (sumn_ext n (fun j => v O * A O (S j) * v (S j)) (fun j => v O * (A O (S j) * v (S j)))) by (intros; ring). rewrite sumn_scal. ring.
  - intros i Hi. rewrite sumn_S_l. rewrite (Hs (S i) O) by lia. ring.
Qed.
Lemma quad_rank1 n (b v : nat -> R) c : quad n (fun i j => b i * b j * c) v = c * (sumn n (fun j => b j * v j)) ^ 2.
Proof.
  unfold quad. replace (c * sumn n (fun j => b j * v j) ^ 2) with (c * (sumn n (fun j => b j * v j) * sumn n (fun j => b j * v j))) by (simpl; ring). rewrite sumn_mul, <- sumn_scal. apply sumn_ext. intros i _. rewrite <- sumn_scal. apply sumn_ext. intros; ring.
Qed.
Lemma quad_minus n A B v : quad n (fun i j => A i j - B i j) v = quad n A v - quad n B v.
Proof. unfold quad. rewrite <- sumn_minus. apply sumn_ext. intros i _. rewrite <- sumn_minus. apply sumn_ext. intros; ring. Qed.
Lemma schur_pd n A : posdef (S n) A -> posdef n (schur A).
Proof.
  intros H. pose proof (pd_diag n A H) as Ha. destruct H as [Hs H]. split.
  - intros i j Hi Hj. unfold schur. rewrite (Hs (S i) (S j)), (Hs (S i) O), (Hs O (S j)) by lia. unfold Rdiv. ring.
  - intros v (i & Hi & Hv). set (t := sumn n (fun j => A O (S j) * v j)). set (w := fun k => match k with O => - t / A O O | S k => v k end).
    specialize (H w ltac:(exists (S i); split; [lia|exact Hv])). rewrite (quad_split n A w Hs) in H. change (sumn n (fun j => A O (S j) * w (S j))) with t in H.
    assert (quad n (schur A) v = quad n (fun i j => A (S i) (S j)) v - t ^ 2 / A O O) as ->.
    { replace (t ^ 2 / A O O) with (/ A O O * t ^ 2) by (unfold Rdiv; ring). unfold t. rewrite <- (quad_rank1 n (fun j => A O (S j)) v (/ A O O)), <- quad_minus. apply quad_ext; auto. intros p q Hp Hq. unfold schur. rewrite (Hs (S p) O) by lia. unfold Rdiv. ring. }
    change (fun i => w (S i)) with v in H. change (w O) with (- t / A O O) in H. replace (A O O * (- t / A O O) ^ 2 + 2 * (- t / A O O) * t) with (- (t ^ 2 / A O O)) in H by (field; lra). lra.
Qed.
Lemma det_schur n A : A O O <> 0 -> Rdet (S n) A = A O O * Rdet n (schur A).
Proof.
  intros Ha. set (C := fun m r c => match r with O => A O c | S a => if (a <? m)%nat then A r c - A r O * A O c / A O O else A r c end).
  assert (forall m, (m <= n)%nat -> Rdet (S n) (C m) = Rdet (S n) A) as K.
  { induction m as [|m IH]; intros Hm; [apply Rdet_ext; intros r c _ _; destruct r; auto|]. rewrite <- IH by lia.
    rewrite <- (f_addrow (S n) _ (Rdet_ext _) (Rdet_lin _) (Rdet_alt _) (C m) O (S m) (- A (S m) O / A O O)) by lia. apply Rdet_ext. intros r c _ _. unfold rowset, C.
    destruct (Nat.eq_dec r (S m)) as [->|N].
    - replace (m <? S m)%nat with true by (symmetry; apply Nat.ltb_lt; lia). replace (m <? m)%nat with false by (symmetry; apply Nat.ltb_ge; lia). field. auto.
    - destruct r as [|a]; auto. destruct (Nat.ltb_spec a (S m)), (Nat.ltb_spec a m); auto; lia. }
  rewrite <- (K n) by lia. rewrite Rdet_S, sumn_S_l, (sumn_ext n _ (fun _ => 0)), sumn_zero.
  - rewrite (Rdet_ext n _ (schur A)); [simpl; ring|]. intros a b Ha' Hb. unfold C. replace (skip 0 a) with (S a) by skp. destruct (Nat.ltb_spec a n); [reflexivity|lia].
  - intros k Hk. unfold C at 1. destruct (Nat.ltb_spec k n); [|lia]. replace (A (S k) O - A (S k) O * A O O / A O O) with 0 by (field; auto). ring.
Qed.
Lemma pd_det n : forall A, posdef n A -> 0 < Rdet n A.
Proof.
  induction n as [|n IH]; intros A H; [simpl; lra|]. pose proof (pd_diag n A H). rewrite det_schur by lra. apply Rmult_lt_0_compat; auto. apply IH. now apply schur_pd.
Qed.
Lemma ln_le_1 x : 0 < x -> ln x <= x - 1.
Proof. intros H. pose proof (exp_ineq1_le (ln x)) as K. rewrite exp_ln in K by auto. lra. Qed.
Lemma pd_trace n : forall A, posdef n A -> ln (Rdet n A) <= trace n A - INR n.
Proof.
  induction n as [|n IH]; intros A H; [simpl; unfold trace; rewrite sumn_0, ln_1; lra|]. pose proof (pd_diag n A H) as Ha. pose proof (schur_pd n A H) as HS. rewrite det_schur by lra.
  rewrite ln_mult by (auto; now apply pd_det). specialize (IH _ HS). pose proof (ln_le_1 _ Ha). unfold trace. rewrite sumn_S_l, S_INR.
  assert (trace n (schur A) <= sumn n (fun i => A (S i) (S i))); [|lra]. apply sumn_le. intros k Hk. unfold schur. destruct H as [Hs _]. rewrite (Hs (S k) O) by lia.
  assert (0 <= A O (S k) * A O (S k) / A O O); [|lra]. apply Rmult_le_pos; [apply Rle_0_sqr|left; now apply Rinv_0_lt_compat].
Qed.
Lemma whiten n : forall A, posdef n A -> exists L, mat_eq n (mmul n (mmul n L A) (mtrans L)) idm.
Proof.
  induction n as [|n IH]; intros A H; [exists idm; intros ? ? ?; lia|]. pose proof (pd_diag n A H) as Ha. destruct (IH _ (schur_pd n A H)) as [L' HL]. destruct H as [Hs _].
  pose proof (sqrt_lt_R0 _ Ha) as Pa. set (b := fun j => A O (S j)).
  set (L := fun i j => match i, j with O, O => / sqrt (A O O) | O, S _ => 0 | S i, O => - sumn n (fun k => L' i k * b k) / A O O | S i, S j => L' i j end).
  exists L. assert (forall i, (i < n)%nat -> mmul (S n) L A (S i) O = 0) as E0.
  { intros i Hi. unfold mmul. rewrite sumn_S_l. simpl. rewrite (sumn_ext n (fun k => L' i k * A (S k) O) (fun k => L' i k * b k)) by (intros k Hk; unfold b; rewrite (Hs O (S k)) by lia; auto). field. lra. }
  assert (forall i j, (i < n)%nat -> (j < n)%nat -> mmul (S n) L A (S i) (S j) = mmul n L' (schur A) i j) as E1.
  { intros i j Hi Hj. unfold mmul. rewrite sumn_S_l. simpl. unfold schur. rewrite (sumn_ext n (fun k => L' i k * (A (S k) (S j) - A (S k) O * A O (S j) / A O O)) (fun k => L' i k * A (S k) (S j) - L' i k * b k * (A O (S j) / A O O))).
    - rewrite sumn_minus, sumn_scal_r. field. lra.
    - intros k Hk. unfold b. rewrite (Hs (S k) O) by lia. unfold Rdiv. ring. }
  assert (forall j, mmul (S n) L A O j = A O j / sqrt (A O O)) as E2.
  { intros j. unfold mmul. rewrite sumn_S_l. simpl. rewrite (sumn_ext n _ (fun _ => 0)), sumn_zero by (intros; ring). field. lra. }
  intros i j Hi Hj. unfold mmul at 1. rewrite sumn_S_l. unfold mtrans.
  destruct i as [|i], j as [|j].
  - rewrite (sumn_ext n _ (fun _ => 0)), sumn_zero by (intros; simpl; ring). rewrite E2. simpl. unfold idm. simpl. rewrite <- (sqrt_sqrt (A O O)) at 1 by lra. field. lra.
  - rewrite (sumn_ext n (fun k => mmul (S n) L A O (S k) * L (S j) (S k)) (fun k => L' j k * b k * / sqrt (A O O))) by (intros k Hk; rewrite E2; unfold b; simpl; unfold Rdiv; ring). rewrite sumn_scal_r, E2. simpl. unfold idm. destruct (Nat.eq_dec 0 (S j)); [lia|]. field. lra.
  - rewrite E0 by lia. rewrite (sumn_ext n _ (fun _ => 0)), sumn_zero by (intros; simpl; ring). unfold idm. destruct (Nat.eq_dec (S i) 0); [lia|]. ring.
  - rewrite E0 by lia. rewrite (sumn_ext n _ (fun k => mmul n L' (schur A) i k * mtrans L' k j)) by (intros k Hk; rewrite E1 by lia; reflexivity). fold (mmul n (mmul n L' (schur A)) (mtrans L') i j). rewrite HL by lia. unfold idm. destruct (Nat.eq_dec (S i) (S j)), (Nat.eq_dec i j); try lia; ring.
Qed.
