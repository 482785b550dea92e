(** Rounded arithmetic, continued: the variogram score, estimator fair, without ensemble weights.
    Simplifications as in M_round14.v; the division by M * (M - 1) = 0 of a single member is not modelled. *)
From Coq Require Import Reals List.
From Verif Require Import M_round.
Import ListNotations.
Open Scope R_scope.

Section Rounded.
Variable rnd : R -> R.
Variable pw : R -> R.
Local Notation rsub := (rsub rnd).
Local Notation rmul := (rmul rnd).
Local Notation rdiv := (rdiv rnd).

(** core/variogram/_score.py 21-24 and 30-41; entry (i, j) of the differences is at the index i * D + j, and that of the members a and b
    at the index a * M + b; [ta m] and [tb q] are the orders of the sums over the entries for a member and for a pair of members *)
Definition vs_fair_arr_r (ta tb : nat -> stree) (t1 t2 : stree) (M D : nat) (obs : nat -> R) (fct w : nat -> nat -> R) : R :=
  let diff u n := pw (Rabs (rsub (u (n mod D)%nat) (u (n / D)%nat))) in
  let sq u v n := let d := rsub (diff u n) (diff v n) in rmul (w (n / D)%nat (n mod D)%nat) (rmul d d) in
  let e_1 := rdiv (tsum rnd t1 (fun m => tsum rnd (ta m) (sq (fct m) obs))) (INR M) in
  let e_2 := rdiv (tsum rnd t2 (fun q => tsum rnd (tb q) (sq (fct (q / M)%nat) (fct (q mod M)%nat)))) (INR (M * (M - 1))) in
  rsub e_1 (rmul (1 / 2) e_2).

(** core/variogram/_gufuncs.py 28-54; the lists are the indices of the loops in their order *)
Definition vs_fair_k_r (M D : nat) (obs : nat -> R) (fct w : nat -> nat -> R) : R :=
  let ij := list_prod (seq 0 D) (seq 0 D) in
  let km := flat_map (fun k => map (pair k) (seq (k + 1) (M - (k + 1)))) (seq 0 M) in
  let rho u i j := pw (Rabs (rsub (u i) (u j))) in
  let e_1 := lsum rnd (map (fun '(k, (i, j)) => let d := rsub (rho (fct k) i j) (rho obs i j) in rmul (w i j) (rmul d d)) (list_prod (seq 0 M) ij)) in
  let e_2 := lsum rnd (map (fun '((k, m), (i, j)) => let d := rsub (rho (fct k) i j) (rho (fct m) i j) in rmul (rmul (w i j) 2) (rmul d d)) (list_prod km ij)) in
  rsub (rdiv e_1 (INR M)) (rdiv (rmul (1 / 2) e_2) (INR (M * (M - 1)))).
End Rounded.
