(** Rounded arithmetic, continued: the weighted ensemble CRPS and the weighted energy score.
    Simplifications as in M_round.v; [rnd] is the rounding.  The functions take the weights after
    the renormalisation [weights_r]. *)
From Coq Require Import Reals List.
From Verif Require Import M_round M_round4 M_crps.
Import ListNotations.
Open Scope R_scope.

Section Rounded.
Variable rnd : R -> R.
Local Notation rsub := (rsub rnd).
Local Notation rmul := (rmul rnd).
Local Notation rdiv := (rdiv rnd).
Local Notation rvsub := (rvsub rnd).
(** core/utils.py 106 and 125; [t] is the order of the sum *)
Definition weights_r (t : stree) (w : nat -> R) (i : nat) : R := rdiv (w i) (tsum rnd t w).

(** core/crps/_approx_w.py 52-62; [t1] and [t2] are the orders of the two sums, entry (i, j) of the
    matrix of differences has the index i * M + j *)
Definition crps_nrg_w_arr_r (t1 t2 : stree) (M : nat) (obs : R) (fct w : nat -> R) : R :=
  let e_1 := tsum rnd t1 (fun i => rmul (Rabs (rsub obs (fct i))) (w i)) in
  let e_2 := tsum rnd t2 (fun n => rmul (rmul (Rabs (rsub (fct (n / M)%nat) (fct (n mod M)%nat))) (w (n / M)%nat)) (w (n mod M)%nat)) in
  rsub e_1 (rmul (1 / 2) e_2).
(** 90-99 (akr) and 102-112 (akr_circperm), [s] the shift *)
Definition crps_lag_w_arr_r (s : nat) (t1 t2 : stree) (M : nat) (obs : R) (fct w : nat -> R) : R :=
  let e_1 := tsum rnd t1 (fun i => rmul (Rabs (rsub obs (fct i))) (w i)) in
  let e_2 := tsum rnd t2 (fun i => rmul (Rabs (rsub (fct ((i + s) mod M)%nat) (fct i))) (w ((i + s) mod M)%nat)) in
  rsub e_1 (rmul (1 / 2) e_2).
Definition crps_akr_w_arr_r := crps_lag_w_arr_r 1.
Definition crps_akr_circperm_w_arr_r t1 t2 (M : nat) := crps_lag_w_arr_r ((M - 1) / 2) t1 t2 M.

(** core/crps/_gufuncs_w.py 106-125 *)
Definition crps_nrg_w_k_r (M : nat) (obs : R) (fct w : nat -> R) : R :=
  let e_1 := lsum rnd (map (fun i => rmul (Rabs (rsub (fct i) obs)) (w i)) (seq 0 M)) in
  let e_2 := lsum rnd (flat_map (fun i => map (fun j => rmul (rmul (Rabs (rsub (fct j) (fct i))) (w j)) (w i)) (seq (i + 1) (M - (i + 1)))) (seq 0 M)) in
  rsub e_1 e_2.
(** 10-22 (akr) and 25-37 (akr_circperm), [g] the index of the other member *)
Definition crps_lag_w_k_r (g : nat -> nat) (M : nat) (obs : R) (fct w : nat -> R) : R :=
  let e_1 := lsum rnd (map (fun i => rmul (Rabs (rsub (fct i) obs)) (w i)) (seq 0 M)) in
  let e_2 := lsum rnd (map (fun i => rmul (Rabs (rsub (fct i) (fct (g i)))) (w i)) (seq 0 M)) in
  rsub e_1 (rmul (1 / 2) e_2).
Definition crps_akr_w_k_r (M : nat) := crps_lag_w_k_r (fun i => if (0 <? i)%nat then (i - 1)%nat else (M - 1)%nat) M.
Definition crps_akr_circperm_w_k_r (M : nat) := crps_lag_w_k_r (circperm_idx M) M.

(** core/energy/_score_w.py 33-49; [tn1], [tn2] are the orders inside the norms *)
Definition es_nrg_w_arr_r (tn1 tn2 : nat -> stree) (t1 t2 : stree) (M : nat) (obs : nat -> R) (fct : nat -> nat -> R) (w : nat -> R) : R :=
  let e_1 := tsum rnd t1 (fun i => rmul (norm_arr_r rnd (tn1 i) (rvsub (fct i) obs)) (w i)) in
  let e_2 := tsum rnd t2 (fun n => rmul (rmul (norm_arr_r rnd (tn2 n) (rvsub (fct (n mod M)%nat) (fct (n / M)%nat))) (w (n / M)%nat)) (w (n mod M)%nat)) in
  rsub e_1 (rmul (1 / 2) e_2).
(** 73-85 (akr) and 88-102 (akr_circperm), [s] the shift *)
Definition es_lag_w_arr_r (s : nat) (tn1 tn2 : nat -> stree) (t1 t2 : stree) (M : nat) (obs : nat -> R) (fct : nat -> nat -> R) (w : nat -> R) : R :=
  let e_1 := tsum rnd t1 (fun i => rmul (norm_arr_r rnd (tn1 i) (rvsub (fct i) obs)) (w i)) in
  let e_2 := tsum rnd t2 (fun i => rmul (norm_arr_r rnd (tn2 i) (rvsub (fct i) (fct ((i + M - s) mod M)%nat))) (w i)) in
  rsub e_1 (rmul (1 / 2) e_2).
Definition es_akr_w_arr_r := es_lag_w_arr_r 1.
Definition es_akr_circperm_w_arr_r tn1 tn2 t1 t2 (M : nat) := es_lag_w_arr_r (M / 2) tn1 tn2 t1 t2 M.

(** core/energy/_gufuncs_w.py, [nrm] as in M_round4.v: 7-24 *)
Variable nrm : (nat -> R) -> R.
Definition es_nrg_w_k_r (M : nat) (obs : nat -> R) (fct : nat -> nat -> R) (w : nat -> R) : R :=
  let e_1 := lsum rnd (map (fun i => rmul (nrm (rvsub (fct i) obs)) (w i)) (seq 0 M)) in
  let e_2 := lsum rnd (flat_map (fun i => map (fun j => rmul (rmul (rmul 2 (nrm (rvsub (fct i) (fct j)))) (w i)) (w j)) (seq (i + 1) (M - (i + 1)))) (seq 0 M)) in
  rsub e_1 (rmul (1 / 2) e_2).
(** 49-62 (akr) and 65-79 (akr_circperm), [g] the index of the other member *)
Definition es_lag_w_k_r (g : nat -> nat) (M : nat) (obs : nat -> R) (fct : nat -> nat -> R) (w : nat -> R) : R :=
  let e_1 := lsum rnd (map (fun i => rmul (nrm (rvsub (fct i) obs)) (w i)) (seq 0 M)) in
  let e_2 := lsum rnd (map (fun i => rmul (nrm (rvsub (fct i) (fct (g i)))) (w i)) (seq 0 M)) in
  rsub e_1 (rmul (1 / 2) e_2).
Definition es_akr_w_k_r (M : nat) := es_lag_w_k_r (fun i => if (i =? 0)%nat then (M - 1)%nat else (i - 1)%nat) M.
Definition es_akr_circperm_w_k_r (M : nat) := es_lag_w_k_r (fun i => ((i + M / 2) mod M)%nat) M.
End Rounded.
