(** Specification of numpy's expand_dims with several axes and of functions of vectors. *)
From Verif Require Import Arr.
From Coq Require Import ZArith List.
Import ListNotations.
Open Scope nat_scope.

(** the axis number that [a] stands for in an array with [n] axes *)
Definition axis_no (n : nat) (a : Z) : Z := if (a <? 0)%Z then (Z.of_nat n + a)%Z else a.
(** the axes exist and are different *)
Definition axes_ok (n : nat) (axes : list Z) : Prop :=
  Forall (fun a => 0 <= axis_no n a < Z.of_nat n)%Z axes /\ NoDup (map (axis_no n) axes).
(** axis k (counted from the first) is one of the axes *)
Definition is_axis (n : nat) (axes : list Z) (k : nat) : bool :=
  existsb (fun a => Z.eqb (axis_no n a) (Z.of_nat k)) axes.
(** the entries of [l] at the positions where [b] does not hold *)
Fixpoint without {A} (b : nat -> bool) (l : list A) : list A :=
  match l with
  | [] => []
  | x :: l' => if b 0 then without (fun k => b (S k)) l' else x :: without (fun k => b (S k)) l'
  end.
(** [f] maps every vector to the number [g] of its elements *)
Definition scalar_fun (f : arr -> tensor) (g : list num -> num) : Prop :=
  forall v d, sh v = [d] -> exists b, f v = Ok b /\ sh b = [] /\ at_ b [] = g (map (fun k => at_ v [k]) (seq 0 d)).
(** two computations give arrays with the same type, shape and elements *)
Definition same_array (T T' : tensor) : Prop :=
  exists a b, T = Ok a /\ T' = Ok b /\ dt a = dt b /\ sh a = sh b /\ forall i, inb (sh a) i -> at_ a i = at_ b i.
