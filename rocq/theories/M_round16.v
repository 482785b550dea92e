(** Rounded arithmetic, continued: the outcome-weighted variogram score without ensemble weights.
    Simplifications as in M_round14.v; [t0] is the order of the mean of the weights, and the division by a
    mean weight of zero is not modelled. *)
From Coq Require Import Reals List.
From Verif Require Import M_round.
Import ListNotations.
Open Scope R_scope.

Section Rounded.
Variable rnd : R -> R.
Variable pw : R -> R.
Local Notation rsub := (rsub rnd).
Local Notation rmul := (rmul rnd).
Local Notation rdiv := (rdiv rnd).

(** core/variogram/_score.py 50-82; indices as in M_round15.v *)
Definition owvs_arr_r (ta tb : nat -> stree) (t0 t1 t2 : stree) (M D : nat) (obs : nat -> R) (fct w : nat -> nat -> R) (ow : R) (fw : nat -> R) : R :=
  let wbar := rdiv (tsum rnd t0 fw) (INR M) in
  let diff u n := pw (Rabs (rsub (u (n mod D)%nat) (u (n / D)%nat))) in
  let sq u v n := let d := rsub (diff u n) (diff v n) in rmul (w (n / D)%nat (n mod D)%nat) (rmul d d) in
  let e_1 := rdiv (rdiv (tsum rnd t1 (fun m => rmul (rmul (tsum rnd (ta m) (sq (fct m) obs)) (fw m)) ow)) (INR M)) wbar in
  let e_2 := rdiv (rdiv (tsum rnd t2 (fun q => rmul (tsum rnd (tb q) (sq (fct (q / M)%nat) (fct (q mod M)%nat)))
                                                    (rmul (rmul (fw (q mod M)%nat) (fw (q / M)%nat)) ow))) (INR (M * M))) (rmul wbar wbar) in
  rsub e_1 (rmul (1 / 2) e_2).

(** core/variogram/_gufuncs.py 57-79; the lists are the indices of the loops in their order *)
Definition owvs_k_r (t0 : stree) (M D : nat) (obs : nat -> R) (fct w : nat -> nat -> R) (ow : R) (fw : nat -> R) : R :=
  let ij := list_prod (seq 0 D) (seq 0 D) in
  let km := flat_map (fun k => map (pair k) (seq (k + 1) (M - (k + 1)))) (seq 0 M) in
  let rho u i j := pw (Rabs (rsub (u i) (u j))) in
  let e_1 := lsum rnd (map (fun '(k, (i, j)) => let d := rsub (rho (fct k) i j) (rho obs i j) in rmul (rmul (rmul (w i j) (rmul d d)) (fw k)) ow) (list_prod (seq 0 M) ij)) in
  let e_2 := lsum rnd (map (fun '((k, m), (i, j)) => let d := rsub (rho (fct k) i j) (rho (fct m) i j) in rmul (rmul (rmul (rmul (rmul 2 (w i j)) (rmul d d)) (fw k)) (fw m)) ow) (list_prod km ij)) in
  let wbar := rdiv (tsum rnd t0 fw) (INR M) in
  rsub (rdiv e_1 (rmul (INR M) wbar)) (rdiv (rmul (1 / 2) e_2) (rmul (INR (M * M)) (rmul wbar wbar))).
End Rounded.
