(** Matrices: functions of row and column, used below the dimension n only. *)
From Verif Require Export S_base.
Open Scope R_scope.

Definition mat : Type := nat -> nat -> R.
Definition mat_eq (n : nat) (A B : mat) : Prop := forall i j, (i < n)%nat -> (j < n)%nat -> A i j = B i j.
Definition idm : mat := fun i j => if Nat.eq_dec i j then 1 else 0.
Definition mmul (n : nat) (A B : mat) : mat := fun i j => sumn n (fun k => A i k * B k j).
Definition mtrans (A : mat) : mat := fun i j => A j i.
Definition mapply (n : nat) (A : mat) (v : nat -> R) : nat -> R := fun i => sumn n (fun j => A i j * v j).
(** v' A v *)
Definition quad (n : nat) (A : mat) (v : nat -> R) : R := sumn n (fun i => sumn n (fun j => v i * A i j * v j)).
Definition is_inverse (n : nat) (A P : mat) : Prop := mat_eq n (mmul n A P) idm.
(** A with row k replaced by v *)
Definition rowset (A : mat) (k : nat) (v : nat -> R) : mat := fun i j => if Nat.eq_dec i k then v j else A i j.
(** the determinant of n x n matrices: linear in each row, zero if two rows are equal, one at the identity matrix *)
Definition determinant (n : nat) (d : mat -> R) : Prop :=
  (forall A B, mat_eq n A B -> d A = d B) /\
  (forall A k u v c, (k < n)%nat -> d (rowset A k (fun j => u j + c * v j)) = d (rowset A k u) + c * d (rowset A k v)) /\
  (forall A i k, (i < n)%nat -> (k < n)%nat -> i <> k -> (forall j, (j < n)%nat -> A i j = A k j) -> d A = 0) /\
  d idm = 1.
