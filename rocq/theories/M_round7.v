(** Rounded arithmetic, continued: the fair estimators of the weighted ensemble CRPS and of the weighted
    energy score.  Simplifications as in M_round.v; the weights are taken after the renormalisation.
    The constant by which the spread is divided may be computed as zero, so that values of [num] occur. *)
From Coq Require Import Reals List.
From Verif Require Import Num M_round M_round4 M_round6.
Import ListNotations.
Open Scope R_scope.

Section Rounded.
Variable rnd : R -> R.
Local Notation rsub := (rsub rnd).
Local Notation rmul := (rmul rnd).
Local Notation rdiv := (rdiv rnd).
Local Notation rvsub := (rvsub rnd).
(** an operation on [num] is rounded when its result is finite *)
Definition nrnd (v : num) : num := match v with Fin r => Fin (rnd r) | _ => v end.
Local Notation ndivr a b := (nrnd (ndiv a b)).
Local Notation nmulr a b := (nrnd (nmul a b)).
Local Notation nsubr a b := (nrnd (nsub a b)).

(** 1 - sum(w * w): core/crps/_approx_w.py 48, core/crps/_gufuncs_w.py 59, core/energy/_score_w.py 68,
    core/energy/_gufuncs_w.py 44; [t] is the order of the sum *)
Definition fair_c_r (t : stree) (w : nat -> R) : R := rsub 1 (tsum rnd t (fun i => rmul (w i) (w i))).

(** core/crps/_approx_w.py 39-49; [t1], [t2], [t3] are the orders of the three sums *)
Definition crps_fair_w_arr_r (t1 t2 t3 : stree) (M : nat) (obs : R) (fct w : nat -> R) : num :=
  let e_1 := tsum rnd t1 (fun i => rmul (Rabs (rsub obs (fct i))) (w i)) in
  let e_2 := ndivr (Fin (tsum rnd t2 (fun n => rmul (rmul (Rabs (rsub (fct (n / M)%nat) (fct (n mod M)%nat))) (w (n / M)%nat)) (w (n mod M)%nat)))) (Fin (fair_c_r t3 w)) in
  nsubr (Fin e_1) (nmulr (Fin (1 / 2)) e_2).

(** core/crps/_gufuncs_w.py 41-66; [t3] is the order of np.sum *)
Definition crps_fair_w_k_r (t3 : stree) (M : nat) (obs : R) (fct w : nat -> R) : num :=
  let e_1 := lsum rnd (map (fun i => rmul (Rabs (rsub (fct i) obs)) (w i)) (seq 0 M)) in
  let e_2 := lsum rnd (flat_map (fun i => map (fun j => rmul (rmul (Rabs (rsub (fct j) (fct i))) (w j)) (w i)) (seq (i + 1) (M - (i + 1)))) (seq 0 M)) in
  let fair_c := fair_c_r t3 w in
  if Req_EM_T fair_c 0 then NaN else nsubr (Fin e_1) (ndivr (Fin e_2) (Fin fair_c)).

(** core/energy/_score_w.py 52-70; [tn1], [tn2] are the orders inside the norms *)
Definition es_fair_w_arr_r (tn1 tn2 : nat -> stree) (t1 t2 t3 : stree) (M : nat) (obs : nat -> R) (fct : nat -> nat -> R) (w : nat -> R) : num :=
  let e_1 := tsum rnd t1 (fun i => rmul (norm_arr_r rnd (tn1 i) (rvsub (fct i) obs)) (w i)) in
  let e_2 := tsum rnd t2 (fun n => rmul (rmul (norm_arr_r rnd (tn2 n) (rvsub (fct (n mod M)%nat) (fct (n / M)%nat))) (w (n / M)%nat)) (w (n mod M)%nat)) in
  nsubr (Fin e_1) (ndivr (nmulr (Fin (1 / 2)) (Fin e_2)) (Fin (fair_c_r t3 w))).

(** core/energy/_gufuncs_w.py 27-46, [nrm] as in M_round4.v *)
Variable nrm : (nat -> R) -> R.
Definition es_fair_w_k_r (t3 : stree) (M : nat) (obs : nat -> R) (fct : nat -> nat -> R) (w : nat -> R) : num :=
  let e_1 := lsum rnd (map (fun i => rmul (nrm (rvsub (fct i) obs)) (w i)) (seq 0 M)) in
  let e_2 := lsum rnd (flat_map (fun i => map (fun j => rmul (rmul (rmul 2 (nrm (rvsub (fct i) (fct j)))) (w i)) (w j)) (seq (i + 1) (M - (i + 1)))) (seq 0 M)) in
  nsubr (Fin e_1) (ndivr (nmulr (Fin (1 / 2)) (Fin e_2)) (Fin (fair_c_r t3 w))).
End Rounded.
