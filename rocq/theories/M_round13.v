(** Rounded arithmetic, continued: the outcome-weighted and the vertically re-scaled energy score without
    ensemble weights.  Simplifications as in M_round.v and M_round4.v; [t0] is the order of the mean of the
    weights, and the division by a mean weight of zero is not modelled. *)
From Coq Require Import Reals List.
From Verif Require Import M_round M_round4.
Import ListNotations.
Open Scope R_scope.

Section Rounded.
Variable rnd : R -> R.
Local Notation radd := (radd rnd).
Local Notation rsub := (rsub rnd).
Local Notation rmul := (rmul rnd).
Local Notation rdiv := (rdiv rnd).
Local Notation rvsub := (rvsub rnd).
Local Notation norm_arr_r := (norm_arr_r rnd).

(** core/energy/_score.py 92-113; entry (i, j) of the differences is member i minus member j, at the index i * M + j *)
Definition owes_arr_r (tn1 tn2 : nat -> stree) (t0 t1 t2 : stree) (M : nat) (obs : nat -> R) (fct : nat -> nat -> R) (ow : R) (fw : nat -> R) : R :=
  let wbar := rdiv (tsum rnd t0 fw) (INR M) in
  let e_1 := rdiv (rdiv (tsum rnd t1 (fun i => rmul (rmul (norm_arr_r (tn1 i) (rvsub (fct i) obs)) (fw i)) ow)) (INR M)) wbar in
  let spread n := rmul (norm_arr_r (tn2 n) (rvsub (fct (n / M)%nat) (fct (n mod M)%nat))) (rmul (rmul (fw (n / M)%nat) (fw (n mod M)%nat)) ow) in
  let e_2 := rdiv (rdiv (tsum rnd t2 spread) (INR (M * M))) (rmul wbar wbar) in
  rsub e_1 (rmul (1 / 2) e_2).

(** 116-139; [tn3 i] and [ty] are the orders inside the norms of the members and of the observation *)
Definition vres_arr_r (tn1 tn2 tn3 : nat -> stree) (ty t0 ta t1 t2 : stree) (M : nat) (obs : nat -> R) (fct : nat -> nat -> R) (ow : R) (fw : nat -> R) : R :=
  let wbar := rdiv (tsum rnd t0 fw) (INR M) in
  let e_1 := rdiv (tsum rnd t1 (fun i => rmul (norm_arr_r (tn1 i) (rvsub (fct i) obs)) (rmul (fw i) ow))) (INR M) in
  let spread n := rmul (norm_arr_r (tn2 n) (rvsub (fct (n / M)%nat) (fct (n mod M)%nat))) (rmul (fw (n mod M)%nat) (fw (n / M)%nat)) in
  let e_2 := rdiv (tsum rnd t2 spread) (INR (M * M)) in
  let rhobar := rdiv (tsum rnd ta (fun i => rmul (norm_arr_r (tn3 i) (fct i)) (fw i))) (INR M) in
  let e_3 := rmul (rsub rhobar (rmul (norm_arr_r ty obs) ow)) (rsub wbar ow) in
  radd (rsub e_1 (rmul (1 / 2) e_2)) e_3.

(** core/energy/_gufuncs.py; [nrm] is numba's np.linalg.norm, as in M_round4.v *)
Variable nrm : (nat -> R) -> R.
(** 86-105 *)
Definition owes_k_r (t0 : stree) (M : nat) (obs : nat -> R) (fct : nat -> nat -> R) (ow : R) (fw : nat -> R) : R :=
  let e_1 := lsum rnd (map (fun i => rmul (rmul (nrm (rvsub (fct i) obs)) (fw i)) ow) (seq 0 M)) in
  let e_2 := lsum rnd (flat_map (fun i => map (fun j => rmul 2 (rmul (rmul (rmul (nrm (rvsub (fct i) (fct j))) (fw i)) (fw j)) ow))
                                              (seq (i + 1) (M - (i + 1)))) (seq 0 M)) in
  let wbar := rdiv (tsum rnd t0 fw) (INR M) in
  rsub (rdiv e_1 (rmul (INR M) wbar)) (rdiv (rmul (1 / 2) e_2) (rmul (INR (M * M)) (rmul wbar wbar))).
(** 108-131 *)
Definition vres_k_r (t0 : stree) (M : nat) (obs : nat -> R) (fct : nat -> nat -> R) (ow : R) (fw : nat -> R) : R :=
  let e_1 := lsum rnd (map (fun i => rmul (rmul (nrm (rvsub (fct i) obs)) (fw i)) ow) (seq 0 M)) in
  let e_2 := lsum rnd (flat_map (fun i => map (fun j => rmul 2 (rmul (rmul (nrm (rvsub (fct i) (fct j))) (fw i)) (fw j)))
                                              (seq (i + 1) (M - (i + 1)))) (seq 0 M)) in
  let wabs_x := rdiv (lsum rnd (map (fun i => rmul (nrm (fct i)) (fw i)) (seq 0 M))) (INR M) in
  let wbar := rdiv (tsum rnd t0 fw) (INR M) in
  let wabs_y := rmul (nrm obs) ow in
  radd (rsub (rdiv e_1 (INR M)) (rdiv (rmul (1 / 2) e_2) (INR (M * M)))) (rmul (rsub wabs_x wabs_y) (rsub wbar ow)).
End Rounded.
