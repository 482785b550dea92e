(** Rounded arithmetic, continued: the estimators of the energy score.
    Simplifications as in M_round.v; [rnd] is the rounding. *)
From Coq Require Import Reals List.
From Verif Require Import M_round.
Import ListNotations.
Open Scope R_scope.

Section Rounded.
Variable rnd : R -> R.
Local Notation radd := (radd rnd).
Local Notation rsub := (rsub rnd).
Local Notation rmul := (rmul rnd).
Local Notation rdiv := (rdiv rnd).
(** the difference of two vectors *)
Definition rvsub (a b : nat -> R) (k : nat) : R := rsub (a k) (b k).

(** np.linalg.norm along an axis: the root of add.reduce of x * x; [t] is the order of the sum *)
Definition norm_arr_r (t : stree) (v : nat -> R) : R := rnd (sqrt (tsum rnd t (fun k => rmul (v k) (v k)))).

(** core/energy/_score.py 33-46 (nrg) and 49-62 (fair), [c] the divisor; [tn1 i], [tn2 (i * M + j)] are the orders inside
    the norms, [t1] and [t2] those of the two sums; entry (i, j) of the differences is member j minus member i *)
Definition es_energy_arr_r (tn1 tn2 : nat -> stree) (t1 t2 : stree) (M c : nat) (obs : nat -> R) (fct : nat -> nat -> R) : R :=
  let e_1 := rdiv (tsum rnd t1 (fun i => norm_arr_r (tn1 i) (rvsub (fct i) obs))) (INR M) in
  let e_2 := rdiv (tsum rnd t2 (fun n => norm_arr_r (tn2 n) (rvsub (fct (n mod M)%nat) (fct (n / M)%nat)))) (INR c) in
  rsub e_1 (rmul (1 / 2) e_2).
Definition es_nrg_arr_r tn1 tn2 t1 t2 (M : nat) := es_energy_arr_r tn1 tn2 t1 t2 M (M * M).
Definition es_fair_arr_r tn1 tn2 t1 t2 (M : nat) := es_energy_arr_r tn1 tn2 t1 t2 M (M * (M - 1)).

(** 65-76 (akr) and 79-93 (akr_circperm): [s] is the shift, 1 or M // 2 *)
Definition es_lag_arr_r (s : nat) (tn1 tn2 : nat -> stree) (t1 t2 : stree) (M : nat) (obs : nat -> R) (fct : nat -> nat -> R) : R :=
  let e_1 := rdiv (tsum rnd t1 (fun i => norm_arr_r (tn1 i) (rvsub (fct i) obs))) (INR M) in
  let e_2 := rdiv (tsum rnd t2 (fun i => norm_arr_r (tn2 i) (rvsub (fct i) (fct ((i + M - s) mod M)%nat)))) (INR M) in
  rsub e_1 (rmul (1 / 2) e_2).
Definition es_akr_arr_r := es_lag_arr_r 1.
Definition es_akr_circperm_arr_r tn1 tn2 t1 t2 (M : nat) := es_lag_arr_r (M / 2) tn1 tn2 t1 t2 M.

(** core/energy/_gufuncs.py.  numba's np.linalg.norm of a vector calls BLAS, whose algorithm depends on the installation: [nrm] *)
Variable nrm : (nat -> R) -> R.
(** 7-29 (nrg) and 32-54 (fair) *)
Definition es_energy_k_r (M c : nat) (obs : nat -> R) (fct : nat -> nat -> R) : R :=
  let e_1 := lsum rnd (map (fun i => nrm (rvsub (fct i) obs)) (seq 0 M)) in
  let e_2 := lsum rnd (flat_map (fun i => map (fun j => rmul 2 (nrm (rvsub (fct i) (fct j)))) (seq (i + 1) (M - (i + 1)))) (seq 0 M)) in
  rsub (rdiv e_1 (INR M)) (rmul (rdiv (1 / 2) (INR c)) e_2).
Definition es_nrg_k_r (M : nat) := es_energy_k_r M (M * M).
Definition es_fair_k_r (M : nat) := es_energy_k_r M (M * (M - 1)).
(** 57-67 (akr) and 70-83 (akr_circperm), [g] the index of the other member *)
Definition es_lag_k_r (g : nat -> nat) (M : nat) (obs : nat -> R) (fct : nat -> nat -> R) : R :=
  let e_1 := lsum rnd (map (fun i => nrm (rvsub (fct i) obs)) (seq 0 M)) in
  let e_2 := lsum rnd (map (fun i => nrm (rvsub (fct i) (fct (g i)))) (seq 0 M)) in
  rsub (rdiv e_1 (INR M)) (rmul (rdiv (rmul (1 / 2) 1) (INR M)) e_2).
Definition es_akr_k_r (M : nat) := es_lag_k_r (fun i => if (i =? 0)%nat then (M - 1)%nat else (i - 1)%nat) M.
Definition es_akr_circperm_k_r (M : nat) := es_lag_k_r (fun i => ((i + M / 2) mod M)%nat) M.
End Rounded.
