(** Rounded arithmetic, continued: the outcome-weighted ensemble CRPS without ensemble weights.
    Simplifications as in M_round.v; [rnd] is the rounding, [t0] is the order of the mean of the
    weights, and the division by a mean weight of zero is not modelled.  The constant [M ** 2] is
    exact, as in Python. *)
From Coq Require Import Reals List.
From Verif Require Import M_round.
Import ListNotations.
Open Scope R_scope.

Section Rounded.
Variable rnd : R -> R.
Local Notation rsub := (rsub rnd).
Local Notation rmul := (rmul rnd).
Local Notation rdiv := (rdiv rnd).

(** core/crps/_approx.py 136-153; entry (i, j) of the matrix of differences has the index i * M + j *)
Definition ow_ensemble_arr_r (t0 t1 t2 : stree) (M : nat) (obs : R) (fct : nat -> R) (ow : R) (fw : nat -> R) : R :=
  let wbar := rdiv (tsum rnd t0 fw) (INR M) in
  let e_1 := rdiv (rmul (tsum rnd t1 (fun i => rmul (Rabs (rsub obs (fct i))) (fw i))) ow) (rmul (INR M) wbar) in
  let e_2 := tsum rnd t2 (fun n => rmul (rmul (Rabs (rsub (fct (n / M)%nat) (fct (n mod M)%nat))) (fw (n / M)%nat)) (fw (n mod M)%nat)) in
  let e_2 := rmul e_2 (rdiv ow (rmul (INR (M * M)) (rmul wbar wbar))) in
  rsub e_1 (rmul (1 / 2) e_2).

(** core/crps/_gufuncs.py 195-220 *)
Definition owcrps_nrg_k_r (t0 : stree) (M : nat) (obs : R) (fct : nat -> R) (ow : R) (fw : nat -> R) : R :=
  let e_1 := lsum rnd (map (fun i => rmul (rmul (Rabs (rsub (fct i) obs)) (fw i)) ow) (seq 0 M)) in
  let e_2 := lsum rnd (flat_map (fun i => map (fun j => rmul (rmul (rmul (rmul 2 (Rabs (rsub (fct i) (fct j)))) (fw i)) (fw j)) ow)
                                              (seq (i + 1) (M - (i + 1)))) (seq 0 M)) in
  let wbar := rdiv (tsum rnd t0 fw) (INR M) in
  rsub (rdiv e_1 (rmul (INR M) wbar)) (rdiv (rmul (1 / 2) e_2) (rmul (rmul (INR M) wbar) (rmul (INR M) wbar))).
End Rounded.
