(** Rounded arithmetic, continued: the variogram score, estimator nrg, without ensemble weights.
    Simplifications as in M_round.v; [pw] is the power [** p] of non-negative numbers, and the square
    [** 2] is a product. *)
From Coq Require Import Reals List.
From Verif Require Import M_round.
Import ListNotations.
Open Scope R_scope.

Section Rounded.
Variable rnd : R -> R.
Variable pw : R -> R.
Local Notation rsub := (rsub rnd).
Local Notation rmul := (rmul rnd).
Local Notation rdiv := (rdiv rnd).

(** core/variogram/_score.py 21-28; entry (i, j) of the differences is coordinate j minus coordinate i, at the index i * D + j;
    [tm n] is the order of the sum over the members at the index n *)
Definition vs_nrg_arr_r (tm : nat -> stree) (t : stree) (M D : nat) (obs : nat -> R) (fct w : nat -> nat -> R) : R :=
  let diff u n := pw (Rabs (rsub (u (n mod D)%nat) (u (n / D)%nat))) in
  let fct_diff n := rdiv (tsum rnd (tm n) (fun m => diff (fct m) n)) (INR M) in
  tsum rnd t (fun n => let d := rsub (diff obs n) (fct_diff n) in rmul (w (n / D)%nat (n mod D)%nat) (rmul d d)).

(** core/variogram/_gufuncs.py 7-25 *)
Definition vs_nrg_k_r (M D : nat) (obs : nat -> R) (fct w : nat -> nat -> R) : R :=
  lsum rnd (flat_map (fun i => map (fun j =>
      let vfct := rdiv (lsum rnd (map (fun m => pw (Rabs (rsub (fct m i) (fct m j)))) (seq 0 M))) (INR M) in
      let vobs := pw (Rabs (rsub (obs i) (obs j))) in
      let d := rsub vobs vfct in rmul (w i j) (rmul d d)) (seq 0 D)) (seq 0 D)).
End Rounded.
