(** Rounded arithmetic, continued: the estimator pwm of the weighted ensemble CRPS.  Simplifications
    as in M_round.v and M_round7.v: [rnd] is the rounding, the functions take the weights after the
    renormalisation [weights_r], and the result is a [num] because the constant may be computed as
    zero.  [tc k] is the order of entry k of the cumulative sum of the array implementation. *)
From Coq Require Import Reals List.
From Verif Require Import Num M_round M_round7.
Import ListNotations.
Open Scope R_scope.

Section Rounded.
Variable rnd : R -> R.
Local Notation radd := (radd rnd).
Local Notation rsub := (rsub rnd).
Local Notation rmul := (rmul rnd).
Local Notation nrnd := (nrnd rnd).
Local Notation ndivr a b := (nrnd (ndiv a b)).
Local Notation nmulr a b := (nrnd (nmul a b)).
Local Notation nsubr a b := (nrnd (nsub a b)).

(** core/crps/_approx_w.py 65-74; [t1] to [t4] are the orders of the four sums *)
Definition crps_pwm_w_arr_r (tc : nat -> stree) (t1 t2 t3 t4 : stree) (obs : R) (fct w : nat -> R) : num :=
  let w_sum i := tsum rnd (tc i) w in
  let expected_diff := tsum rnd t1 (fun i => rmul (Rabs (rsub obs (fct i))) (w i)) in
  let b_0 := tsum rnd t2 (fun i => rmul (fct i) (w i)) in
  let b_1 := ndivr (Fin (tsum rnd t3 (fun i => rmul (rmul (fct i) (w i)) (rsub (w_sum i) (w i))))) (Fin (fair_c_r rnd t4 w)) in
  nsubr (Fin (radd expected_diff b_0)) (nmulr (Fin 2) b_1).

(** core/crps/_gufuncs_w.py 128-151; np.cumsum adds from the left, [t4] is the order of np.sum *)
Definition crps_pwm_w_k_r (t4 : stree) (M : nat) (obs : R) (fct w : nat -> R) : num :=
  let w_sum i := lsum rnd (map w (seq 0 (S i))) in
  let expected_diff := lsum rnd (map (fun i => rmul (Rabs (rsub (fct i) obs)) (w i)) (seq 0 M)) in
  let b_0 := lsum rnd (map (fun i => rmul (fct i) (w i)) (seq 0 M)) in
  let b_1 := lsum rnd (map (fun i => rmul (rmul (fct i) (w i)) (rsub (w_sum i) (w i))) (seq 0 M)) in
  nsubr (Fin (radd expected_diff b_0)) (ndivr (nmulr (Fin 2) (Fin b_1)) (Fin (fair_c_r rnd t4 w))).
End Rounded.
