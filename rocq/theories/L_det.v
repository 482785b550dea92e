(** Determinants. *)
From Verif Require Export S_mat M_mat L_num.
From Coq Require Import Psatz Lia.
Open Scope R_scope.

Lemma Rdet_S n A : Rdet (S n) A = sumn (S n) (fun i => (-1) ^ i * A i O * Rdet n (fun a b => A (skip i a) (S b))).
Proof. reflexivity. Qed.
Ltac skp := unfold skip in *; repeat match goal with |- context [(?a <? ?b)%nat] => destruct (Nat.ltb_spec a b) | H : context [(?a <? ?b)%nat] |- _ => destruct (Nat.ltb_spec a b) end; try lia.
Lemma skip_lt n i a : (i < S n)%nat -> (a < n)%nat -> (skip i a < S n)%nat. Proof. intros. skp. Qed.
Lemma skip_neq i a : skip i a <> i. Proof. skp. Qed.
Lemma skip_inj i a b : skip i a = skip i b -> a = b. Proof. intros. skp. Qed.
Lemma skip_surj n i k : (k < S n)%nat -> k <> i -> exists a, skip i a = k /\ ((i < S n)%nat -> (a < n)%nat).
Proof. intros H N. destruct (Nat.ltb_spec k i); [exists k|exists (k - 1)%nat]; split; skp. Qed.

Definition ext n (f : mat -> R) := forall A B, mat_eq n A B -> f A = f B.
Definition lin n (f : mat -> R) := forall A k u v c, (k < n)%nat -> f (rowset A k (fun j => u j + c * v j)) = f (rowset A k u) + c * f (rowset A k v).
Definition alt n (f : mat -> R) := forall A i k, (i < n)%nat -> (k < n)%nat -> i <> k -> (forall j, (j < n)%nat -> A i j = A k j) -> f A = 0.
Definition adj n (f : mat -> R) := forall A i, (S i < n)%nat -> (forall j, (j < n)%nat -> A i j = A (S i) j) -> f A = 0.

(** * the model's determinant *)
Lemma Rdet_ext n : ext n (Rdet n).
Proof.
  induction n as [|n IH]; intros A B H; [reflexivity|]. rewrite !Rdet_S. apply sumn_ext. intros i Hi. rewrite (H i O) by lia. f_equal. apply IH. intros a b Ha Hb. apply H; [now apply skip_lt|lia].
Qed.
Lemma Rdet_lin n : lin n (Rdet n).
Proof.
  induction n as [|n IH]; intros A k u v c Hk; [lia|]. rewrite !Rdet_S. rewrite <- sumn_scal, <- sumn_plus. apply sumn_ext. intros i Hi. unfold rowset at 1 3 5.
  destruct (Nat.eq_dec i k) as [->|N].
  - assert (forall w, Rdet n (fun a b => rowset A k w (skip k a) (S b)) = Rdet n (fun a b => A (skip k a) (S b))) as E.
    { intros w. apply Rdet_ext. intros a b _ _. unfold rowset. destruct (Nat.eq_dec (skip k a) k) as [E|E]; [now apply skip_neq in E|auto]. }
    rewrite !E. ring.
  - destruct (skip_surj n i k Hk ltac:(auto)) as (a & Ea & La). specialize (La Hi).
    assert (forall w, Rdet n (fun r b => rowset A k w (skip i r) (S b)) = Rdet n (rowset (fun r b => A (skip i r) (S b)) a (fun b => w (S b)))) as E.
    { intros w. apply Rdet_ext. intros r b _ _. unfold rowset. destruct (Nat.eq_dec (skip i r) k) as [E|E]; destruct (Nat.eq_dec r a) as [E'|E']; auto; [rewrite <- Ea in E; now apply skip_inj in E|subst; contradiction]. }
    rewrite !E. rewrite (IH (fun r b => A (skip i r) (S b)) a (fun b => u (S b)) (fun b => v (S b)) c La). ring.
Qed.
Lemma Rdet_adj n : adj n (Rdet n).
Proof.
  induction n as [|n IH]; intros A i Hi H; [lia|]. rewrite Rdet_S.
  set (T := fun k => (-1) ^ k * A k O * Rdet n (fun a b => A (skip k a) (S b))).
  assert (forall k, (k < S n)%nat -> k <> i -> k <> S i -> T k = 0) as Z.
  { intros k Hk N1 N2. unfold T. destruct (skip_surj n k i ltac:(lia) ltac:(auto)) as (a & Ea & La). specialize (La Hk).
    assert (skip k (S a) = S i) as Eb by skp. assert (S a < n)%nat by skp.
    rewrite (IH (fun r b => A (skip k r) (S b)) a); [ring|auto|]. intros j Hj. rewrite Ea, Eb. apply H. lia. }
  assert (T i + T (S i) = 0) as P.
  { unfold T. rewrite (Rdet_ext n (fun a b => A (skip (S i) a) (S b)) (fun a b => A (skip i a) (S b))).
    - rewrite (H O) by lia. simpl. ring.
    - intros a b Ha Hb. destruct (Nat.eq_dec a i) as [->|N]; [|f_equal; skp]. replace (skip (S i) i) with i by skp. replace (skip i i) with (S i) by skp. apply H. lia. }
  replace (S n) with (i + (2 + (S n - i - 2)))%nat by lia. rewrite !sumn_plus_idx.
  rewrite (sumn_ext i T (fun _ => 0)), sumn_zero by (intros; apply Z; lia). rewrite (sumn_ext _ (fun k => T (i + (2 + k))%nat) (fun _ => 0)), sumn_zero by (intros; apply Z; lia).
  rewrite !sumn_S, sumn_0. rewrite Nat.add_0_r. replace (i + 1)%nat with (S i) by lia. lra.
Qed.
Lemma Rdet_id n : Rdet n idm = 1.
Proof.
  induction n as [|n IH]; [reflexivity|]. rewrite Rdet_S, sumn_S_l, (sumn_ext n _ (fun _ => 0)), sumn_zero.
  - rewrite (Rdet_ext n _ idm); [rewrite IH; unfold idm; simpl; ring|]. intros a b _ _. unfold idm. replace (skip 0 a) with (S a) by skp. destruct (Nat.eq_dec (S a) (S b)), (Nat.eq_dec a b); auto; lia.
  - intros k _. unfold idm at 1. destruct (Nat.eq_dec (S k) 0); [lia|ring].
Qed.

(** * alternating multilinear functions of the rows *)
Definition row2 (A : mat) p q u v : mat := rowset (rowset A p u) q v.
Section multi.
Variables (n : nat) (f : mat -> R).
Hypotheses (E : ext n f) (L : lin n f).
Lemma f_row0 A k u : (k < n)%nat -> (forall j, (j < n)%nat -> A k j = u j) -> f (rowset A k u) = f A.
Proof. intros Hk H. apply E. intros i j Hi Hj. unfold rowset. destruct (Nat.eq_dec i k); auto. subst. now rewrite H. Qed.
Lemma f_zero A k : (k < n)%nat -> f (rowset A k (fun _ => 0)) = 0.
Proof.
  intros Hk. pose proof (L A k (fun _ => 0) (fun _ => 0) 1 Hk) as K. cbv beta in K.
  assert (f (rowset A k (fun _ => 0 + 1 * 0)) = f (rowset A k (fun _ => 0))) as K2; [|lra]. apply E. intros i j _ _. unfold rowset. destruct (Nat.eq_dec i k); auto. ring.
Qed.
Lemma f_scal A k u c : (k < n)%nat -> f (rowset A k (fun j => c * u j)) = c * f (rowset A k u).
Proof.
  intros Hk. pose proof (L A k (fun _ => 0) u c Hk) as K. rewrite f_zero in K by auto. rewrite <- (Rplus_0_l (c * _)), <- K. apply E. intros i j _ _. unfold rowset. destruct (Nat.eq_dec i k); auto. ring.
Qed.
Lemma f_sum A k m (c : nat -> R) (u : nat -> nat -> R) : (k < n)%nat -> f (rowset A k (fun j => sumn m (fun l => c l * u l j))) = sumn m (fun l => c l * f (rowset A k (u l))).
Proof.
  intros Hk. induction m as [|m IH].
  - rewrite sumn_0. rewrite <- (f_zero A k Hk). apply E. intros i j _ _. unfold rowset. destruct (Nat.eq_dec i k); auto.
  - rewrite sumn_S, <- IH, <- (L A k _ (u m) (c m) Hk). apply E. intros i j _ _. unfold rowset. destruct (Nat.eq_dec i k); auto. now rewrite sumn_S.
Qed.
Lemma row2_comm A p q u v : p <> q -> f (row2 A p q u v) = f (row2 A q p v u).
Proof. intros N. apply E. intros i j _ _. unfold row2, rowset. destruct (Nat.eq_dec i p), (Nat.eq_dec i q); auto; congruence. Qed.
Lemma row2_swap p q : (p < n)%nat -> (q < n)%nat -> p <> q ->
  (forall A, (forall j, (j < n)%nat -> A p j = A q j) -> f A = 0) -> forall A u v, f (row2 A p q u v) = - f (row2 A p q v u).
Proof.
  intros Hp Hq N Z A u v.
  assert (forall w, f (row2 A p q w w) = 0) as Zw. { intros w. apply Z. intros j _. unfold row2, rowset. destruct (Nat.eq_dec p q); [congruence|]. destruct (Nat.eq_dec p p); [|congruence]. destruct (Nat.eq_dec q q); congruence. }
  pose proof (Zw (fun j => u j + 1 * v j)) as K. unfold row2 in K. rewrite L in K by auto.
  fold (row2 A p q (fun j => u j + 1 * v j) u) in K. fold (row2 A p q (fun j => u j + 1 * v j) v) in K. rewrite !(row2_comm A p q) in K by auto. unfold row2 in K. rewrite !L in K by auto.
  fold (row2 A q p u u) in K. fold (row2 A q p u v) in K. fold (row2 A q p v v) in K. fold (row2 A q p v u) in K. rewrite <- !(row2_comm A p q) in K by auto. rewrite !Zw in K. lra.
Qed.
Lemma adj_alt : adj n f -> alt n f.
Proof.
  intros HA. assert (forall m p A, (p + S m < n)%nat -> (forall j, (j < n)%nat -> A p j = A (p + S m)%nat j) -> f A = 0) as K.
  { induction m as [|m IH]; intros p A Hp H; [apply (HA A p); [lia|intros; rewrite H by auto; f_equal; lia]|].
    set (q := (p + S m)%nat) in *. replace (p + S (S m))%nat with (S q) in * by (unfold q; lia).
    assert (f A = - f (row2 A q (S q) (A (S q)) (A q))) as ->.
    { rewrite (row2_swap q (S q)) by (solve [lia | intros B HB; apply (HA B q); [lia|auto]]). rewrite Ropp_involutive. apply E. intros i j _ _. unfold row2, rowset. destruct (Nat.eq_dec i (S q)), (Nat.eq_dec i q); subst; auto. }
    rewrite (IH p); [ring|fold q; lia|]. intros j Hj. fold q. unfold row2, rowset. destruct (Nat.eq_dec p (S q)); [lia|]. destruct (Nat.eq_dec p q); [lia|]. destruct (Nat.eq_dec q (S q)); [lia|]. destruct (Nat.eq_dec q q); [|lia]. now apply H. }
  intros A i k Hi Hk N H. destruct (Nat.lt_ge_cases i k) as [C|C].
  - apply (K (k - i - 1)%nat i); [lia|]. intros j Hj. rewrite H by auto. f_equal; lia.
  - apply (K (i - k - 1)%nat k); [lia|]. intros j Hj. rewrite <- H by auto. f_equal; lia.
Qed.
Hypothesis Al : alt n f.
Lemma f_swap p q A u v : (p < n)%nat -> (q < n)%nat -> p <> q -> f (row2 A p q u v) = - f (row2 A p q v u).
Proof. intros Hp Hq N. apply row2_swap; auto. intros B HB. now apply (Al B p q). Qed.
Lemma f_addrow A p q c : (p < n)%nat -> (q < n)%nat -> p <> q -> f (rowset A q (fun j => A q j + c * A p j)) = f A.
Proof.
  intros Hp Hq N. rewrite L by auto. rewrite (f_row0 A q (A q)) by auto. rewrite (Al (rowset A q (A p)) p q); auto; [ring|].
  intros j _. unfold rowset. destruct (Nat.eq_dec p q); [congruence|]. destruct (Nat.eq_dec q q); congruence.
Qed.
End multi.
(** * uniqueness *)
Fixpoint detr (n : nat) (A : mat) : R :=
  match n with O => 1 | S n' => sumn n (fun j => (-1) ^ j * A O j * detr n' (fun a b => A (S a) (skip j b))) end.
Definition unsk (j c : nat) : nat := if (c <? j)%nat then c else (c - 1)%nat.
Lemma skip_unsk j c : c <> j -> skip j (unsk j c) = c. Proof. intros. unfold unsk. skp. Qed.
Lemma unsk_lt n j c : (j < S n)%nat -> (c < S n)%nat -> c <> j -> (unsk j c < n)%nat. Proof. intros. unfold unsk. skp. Qed.
Lemma sum_idm n (a : nat -> R) j : (j < n)%nat -> sumn n (fun l => a l * idm l j) = a j.
Proof.
  intros Hj. rewrite (sumn_ext n _ (fun l => if Nat.eq_dec l j then a j else 0)); [now apply sumn_delta|]. intros l _. unfold idm. destruct (Nat.eq_dec l j); subst; ring.
Qed.
Definition emb (j : nat) (w : nat -> R) (c : nat) : R := if Nat.eq_dec c j then 0 else w (unsk j c).
Definition bord (j : nat) (B : mat) : mat := fun r c => match r with O => idm j c | S a => emb j (B a) c end.
Lemma det_unique n : forall f, ext n f -> lin n f -> alt n f -> forall A, f A = f idm * detr n A.
Proof.
  induction n as [|n IH]; intros f E L Al A; [simpl; rewrite (E A idm) by (intros ? ? ?; lia); ring|].
  assert (f A = sumn (S n) (fun j => A O j * f (rowset A O (idm j)))) as ->.
  { rewrite <- (f_sum (S n) f E L A O (S n) (A O) idm) by lia. apply E. intros i j _ Hj. unfold rowset. destruct (Nat.eq_dec i 0); auto. subst. now rewrite sum_idm. }
  change (detr (S n) A) with (sumn (S n) (fun j => (-1) ^ j * A O j * detr n (fun a b => A (S a) (skip j b)))). rewrite <- sumn_scal. apply sumn_ext. intros j Hj.
  set (g := fun B => f (bord j B)).
  assert (f (rowset A O (idm j)) = g (fun a b => A (S a) (skip j b))) as ->.
  { set (C := fun m r c => match r with O => idm j c | S a => if (a <? m)%nat then (if Nat.eq_dec c j then 0 else A r c) else A r c end : R).
    assert (forall m, (m <= n)%nat -> f (C m) = f (C O)) as K.
    { induction m as [|m IHm]; intros Hm; auto. rewrite <- IHm by lia. rewrite <- (f_addrow (S n) f E L Al (C m) O (S m) (- A (S m) j)) by lia. apply E. intros r c Hr Hc. unfold rowset, C.
      destruct (Nat.eq_dec r (S m)) as [->|N].
      - replace (m <? S m)%nat with true by (symmetry; apply Nat.ltb_lt; lia). replace (m <? m)%nat with false by (symmetry; apply Nat.ltb_ge; lia). unfold idm. destruct (Nat.eq_dec c j), (Nat.eq_dec j c); subst; try congruence; ring.
      - destruct r as [|a]; auto. destruct (Nat.ltb_spec a (S m)), (Nat.ltb_spec a m); auto; lia. }
    transitivity (f (C O)).
    - apply E. intros r c _ _. unfold rowset, C. destruct r; auto.
    - rewrite <- (K n) by lia. unfold g. apply E. intros r c Hr Hc. unfold C, bord, emb. destruct r as [|a]; auto. destruct (Nat.ltb_spec a n); [|lia]. destruct (Nat.eq_dec c j); auto. now rewrite skip_unsk. }
  assert (forall B k w, mat_eq (S n) (bord j (rowset B k w)) (rowset (bord j B) (S k) (emb j w))) as HR.
  { intros B k w r c _ _. unfold bord, rowset. destruct r as [|a]; [destruct (Nat.eq_dec 0 (S k)); [lia|auto]|]. destruct (Nat.eq_dec (S a) (S k)); unfold emb; destruct (Nat.eq_dec c j); auto; destruct (Nat.eq_dec a k); auto; lia. }
  rewrite (IH g).
  - assert (g idm = (-1) ^ j * f idm) as ->; [|ring].
    set (N := fun j r => match r with O => idm j | S a => idm (skip j a) end : nat -> R).
    assert (forall j, (j < S n)%nat -> f (N j) = (-1) ^ j * f idm) as K.
    { clear j Hj g HR. induction j as [|j IHj]; intros Hj.
      - rewrite Rmult_1_l. apply E. intros r c _ _. destruct r; auto.
      - simpl. rewrite Rmult_assoc, <- IHj by lia.
        rewrite (E (N (S j)) (row2 (N j) O (S j) (idm (S j)) (idm j))).
        + rewrite (f_swap (S n) f E L Al) by lia. rewrite (E (row2 (N j) O (S j) (idm j) (idm (S j))) (N j)); [ring|].
          intros r c _ _. unfold row2, rowset, N. destruct r as [|a]; auto. destruct (Nat.eq_dec (S a) (S j)) as [Q|Q]; [|destruct (Nat.eq_dec (S a) 0); [lia|auto]]. f_equal. skp.
        + intros r c _ _. unfold row2, rowset, N. destruct r as [|a]; auto. destruct (Nat.eq_dec (S a) (S j)) as [Q|Q]; [f_equal; skp|]. destruct (Nat.eq_dec (S a) 0); [lia|]. f_equal. skp. }
    rewrite <- K by auto. unfold g. apply E. intros r c _ _. unfold bord, N, emb. destruct r as [|a]; auto. unfold idm. destruct (Nat.eq_dec c j) as [->|Q].
    + destruct (Nat.eq_dec (skip j a) j) as [Q|Q]; [now apply skip_neq in Q|auto].
    + destruct (Nat.eq_dec a (unsk j c)) as [->|Q']; [rewrite skip_unsk by auto; destruct (Nat.eq_dec c c); congruence|]. destruct (Nat.eq_dec (skip j a) c) as [Q''|]; auto. exfalso. apply Q'. apply (skip_inj j). now rewrite skip_unsk.
  - intros B B' H. apply E. intros r c Hr Hc. unfold bord, emb. destruct r as [|a]; auto. destruct (Nat.eq_dec c j); auto. apply H; [lia|now apply unsk_lt].
  - intros B k u v c Hk. unfold g. rewrite !(E _ _ (HR B k _)). rewrite <- L by lia. apply E. intros r b _ _. unfold rowset. destruct (Nat.eq_dec r (S k)); auto. unfold emb. destruct (Nat.eq_dec b j); ring.
  - intros B i k Hi Hk Q H. apply (Al _ (S i) (S k)); [lia|lia|lia|]. intros c Hc. simpl. unfold emb. destruct (Nat.eq_dec c j); auto. apply H. now apply unsk_lt.
Qed.
Lemma Rdet_alt n : alt n (Rdet n). Proof. apply adj_alt; [apply Rdet_ext|apply Rdet_lin|apply Rdet_adj]. Qed.
Lemma Rdet_determinant n : determinant n (Rdet n).
Proof. split; [apply Rdet_ext|]. split; [apply Rdet_lin|]. split; [apply Rdet_alt|apply Rdet_id]. Qed.
Lemma Rdet_detr n A : Rdet n A = detr n A.
Proof. rewrite (det_unique n (Rdet n) (Rdet_ext n) (Rdet_lin n) (Rdet_alt n)), Rdet_id. ring. Qed.
Lemma alt_Rdet n f : ext n f -> lin n f -> alt n f -> forall A, f A = f idm * Rdet n A.
Proof. intros. rewrite Rdet_detr. now apply det_unique. Qed.
Lemma determinant_Rdet n d : determinant n d -> forall A, d A = Rdet n A.
Proof. intros (E & L & Al & I) A. rewrite (alt_Rdet n d E L Al A), I. ring. Qed.
Lemma Rdet_trans n : forall A, Rdet n (mtrans A) = Rdet n A.
Proof.
  intros A. rewrite Rdet_detr. revert A. induction n as [|n IH]; intros A; [reflexivity|]. rewrite Rdet_S. simpl detr. apply sumn_ext. intros i Hi. unfold mtrans at 1. f_equal. rewrite <- IH. reflexivity.
Qed.
Lemma Rdet_mul n A B : Rdet n (mmul n A B) = Rdet n A * Rdet n B.
Proof.
  assert (forall C k w, mat_eq n (mmul n (rowset C k w) B) (rowset (mmul n C B) k (fun j => sumn n (fun l => w l * B l j)))) as HR.
  { intros C k w i j Hi Hj. unfold mmul, rowset. destruct (Nat.eq_dec i k); auto. }
  rewrite (alt_Rdet n (fun C => Rdet n (mmul n C B))).
  - rewrite Rmult_comm. f_equal. apply Rdet_ext. intros i j Hi Hj. unfold mmul. rewrite (sumn_ext n _ (fun k => B k j * idm k i)); [now apply (sum_idm n (fun k => B k j))|]. intros k _. unfold idm. destruct (Nat.eq_dec i k), (Nat.eq_dec k i); subst; try congruence; ring.
  - intros C C' H. apply Rdet_ext. intros i j Hi Hj. unfold mmul. apply sumn_ext. intros k Hk. now rewrite H.
  - intros C k u v c Hk. rewrite !(Rdet_ext n _ _ (HR C k _)). rewrite <- (Rdet_lin n) by auto. apply Rdet_ext. intros i j Hi Hj. unfold rowset. destruct (Nat.eq_dec i k); auto. rewrite <- sumn_scal, <- sumn_plus. apply sumn_ext. intros; ring.
  - intros C i k Hi Hk N H. apply (Rdet_alt n _ i k); auto. intros j Hj. unfold mmul. apply sumn_ext. intros l Hl. now rewrite H.
Qed.
(** * the inverse *)
Lemma Rinvm_right n A : Rdet n A <> 0 -> is_inverse n A (Rinvm n A).
Proof.
  intros H i k Hi Hk. unfold mmul, Rinvm.
  rewrite (sumn_ext n _ (fun j => A i j * Rdet n (rowset A k (idm j)) / Rdet n A)).
  - rewrite sumn_div, <- (f_sum n (Rdet n) (Rdet_ext n) (Rdet_lin n) A k n (A i) idm Hk). rewrite (Rdet_ext n _ (rowset A k (A i))).
    + unfold idm. destruct (Nat.eq_dec i k) as [->|N].
      * rewrite (f_row0 n _ (Rdet_ext n)) by auto. field. auto.
      * rewrite (Rdet_alt n _ i k); auto; [field; auto|]. intros j Hj. unfold rowset. destruct (Nat.eq_dec i k); [congruence|]. destruct (Nat.eq_dec k k); congruence.
    + intros r c Hr Hc. unfold rowset. destruct (Nat.eq_dec r k); auto. now apply sum_idm.
  - intros j Hj. unfold Rdiv. rewrite Rmult_assoc. f_equal. f_equal. apply Rdet_ext. intros r c Hr Hc. unfold rowset, idm. destruct (Nat.eqb_spec r k), (Nat.eq_dec r k); try congruence. destruct (Nat.eqb_spec c j), (Nat.eq_dec j c); congruence.
Qed.
Lemma mmul_assoc n A B C : mat_eq n (mmul n (mmul n A B) C) (mmul n A (mmul n B C)).
Proof.
  intros i j Hi Hj. unfold mmul. rewrite (sumn_ext n _ (fun k => sumn n (fun l => A i l * B l k * C k j))) by (intros; now rewrite sumn_scal_r). rewrite sumn_swap. apply sumn_ext. intros l _. rewrite <- sumn_scal. apply sumn_ext. intros; ring.
Qed.
Lemma mmul_ext n A A' B B' : mat_eq n A A' -> mat_eq n B B' -> mat_eq n (mmul n A B) (mmul n A' B').
Proof. intros H H' i j Hi Hj. unfold mmul. apply sumn_ext. intros k Hk. now rewrite H, H'. Qed.
Lemma mat_eq_trans n A B C : mat_eq n A B -> mat_eq n B C -> mat_eq n A C. Proof. intros H H' i j Hi Hj. now rewrite H, H'. Qed.
Lemma mat_eq_sym n A B : mat_eq n A B -> mat_eq n B A. Proof. intros H i j Hi Hj. now rewrite H. Qed.
Lemma mat_eq_refl n A : mat_eq n A A. Proof. intros i j; auto. Qed.
Lemma mmul_1r n A : mat_eq n (mmul n A idm) A.
Proof. intros i j Hi Hj. unfold mmul. now apply (sum_idm n (A i)). Qed.
Lemma mmul_1l n A : mat_eq n (mmul n idm A) A.
Proof. intros i j Hi Hj. unfold mmul. rewrite (sumn_ext n _ (fun k => A k j * idm k i)); [now apply (sum_idm n (fun k => A k j))|]. intros k _. unfold idm. destruct (Nat.eq_dec i k), (Nat.eq_dec k i); subst; try congruence; ring. Qed.
Lemma inverse_det n A P : is_inverse n A P -> Rdet n A * Rdet n P = 1.
Proof. intros H. rewrite <- Rdet_mul, (Rdet_ext n _ idm H). apply Rdet_id. Qed.
Lemma inverse_left n A P : is_inverse n A P -> is_inverse n P A.
Proof.
  intros H. assert (Rdet n P <> 0) as N by (pose proof (inverse_det n A P H); nra). pose proof (Rinvm_right n P N) as Q. set (W := Rinvm n P) in *.
  (* A = A (P W) = W *)
  assert (mat_eq n A W) as E. { eapply mat_eq_trans; [apply mat_eq_sym, mmul_1r|]. eapply mat_eq_trans; [apply mmul_ext; [apply mat_eq_refl|apply mat_eq_sym, Q]|]. eapply mat_eq_trans; [apply mat_eq_sym, mmul_assoc|]. eapply mat_eq_trans; [apply mmul_ext; [exact H|apply mat_eq_refl]|]. apply mmul_1l. }
  eapply mat_eq_trans; [apply mmul_ext; [apply mat_eq_refl|exact E]|exact Q].
Qed.
Lemma inverse_unique n A P Q : is_inverse n A P -> is_inverse n A Q -> mat_eq n P Q.
Proof.
  intros HP HQ. apply inverse_left in HP. eapply mat_eq_trans; [apply mat_eq_sym, mmul_1r|]. eapply mat_eq_trans; [apply mmul_ext; [apply mat_eq_refl|apply mat_eq_sym, HQ]|]. eapply mat_eq_trans; [apply mat_eq_sym, mmul_assoc|].
  eapply mat_eq_trans; [apply mmul_ext; [exact HP|apply mat_eq_refl]|]. apply mmul_1l.
Qed.
