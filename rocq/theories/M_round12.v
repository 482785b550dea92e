(** Rounded arithmetic, continued: the vertically re-scaled ensemble CRPS without ensemble weights.
    Simplifications as in M_round.v; [t0] is the order of the mean of the weights and [ta] that of the
    mean of the weighted absolute values.  The array implementation takes the mean of the weights over
    axis 1, here the axis of the members.  The constant [M ** 2] is exact, as in Python. *)
From Coq Require Import Reals List.
From Verif Require Import M_round.
Import ListNotations.
Open Scope R_scope.

Section Rounded.
Variable rnd : R -> R.
Local Notation radd := (radd rnd).
Local Notation rsub := (rsub rnd).
Local Notation rmul := (rmul rnd).
Local Notation rdiv := (rdiv rnd).

(** core/crps/_approx.py 156-174; entry (i, j) of the matrix of differences has the index i * M + j *)
Definition vr_ensemble_arr_r (t0 ta t1 t2 : stree) (M : nat) (obs : R) (fct : nat -> R) (ow : R) (fw : nat -> R) : R :=
  let e_1 := rdiv (rmul (tsum rnd t1 (fun i => rmul (Rabs (rsub obs (fct i))) (fw i))) ow) (INR M) in
  let e_2 := rdiv (tsum rnd t2 (fun n => rmul (Rabs (rsub (fct (n / M)%nat) (fct (n mod M)%nat))) (rmul (fw (n / M)%nat) (fw (n mod M)%nat)))) (INR (M * M)) in
  let e_3 := rsub (rdiv (tsum rnd ta (fun i => rmul (Rabs (fct i)) (fw i))) (INR M)) (rmul (Rabs obs) ow) in
  let e_3 := rmul e_3 (rsub (rdiv (tsum rnd t0 fw) (INR M)) ow) in
  radd (rsub e_1 (rmul (1 / 2) e_2)) e_3.

(** core/crps/_gufuncs.py 223-250 *)
Definition vrcrps_nrg_k_r (t0 ta : stree) (M : nat) (obs : R) (fct : nat -> R) (ow : R) (fw : nat -> R) : R :=
  let e_1 := lsum rnd (map (fun i => rmul (rmul (Rabs (rsub (fct i) obs)) (fw i)) ow) (seq 0 M)) in
  let e_2 := lsum rnd (flat_map (fun i => map (fun j => rmul (rmul (rmul 2 (Rabs (rsub (fct i) (fct j)))) (fw i)) (fw j))
                                              (seq (i + 1) (M - (i + 1)))) (seq 0 M)) in
  let wbar := rdiv (tsum rnd t0 fw) (INR M) in
  let wabs_x := rdiv (tsum rnd ta (fun i => rmul (Rabs (fct i)) (fw i))) (INR M) in
  let wabs_y := rmul (Rabs obs) ow in
  radd (rsub (rdiv e_1 (INR M)) (rdiv (rmul (1 / 2) e_2) (INR (M * M)))) (rmul (rsub wabs_x wabs_y) (rsub wbar ow)).
End Rounded.
