(** Rounded arithmetic, continued: the estimator qd of the weighted ensemble CRPS.
    Simplifications as in M_round.v; [rnd] is the rounding.  The functions take the weights after
    the renormalisation [weights_r] of M_round6.v.  The cumulative sums of the array
    implementations may be taken in any order, [tc k] for entry k. *)
From Coq Require Import Reals List.
From Verif Require Import M_round.
Import ListNotations.
Open Scope R_scope.

Section Rounded.
Variable rnd : R -> R.
Local Notation radd := (radd rnd).
Local Notation rsub := (rsub rnd).
Local Notation rmul := (rmul rnd).
Local Notation rdiv := (rdiv rnd).
(** core/crps/_approx_w.py 77-87 *)
Definition crps_qd_w_arr_r (tc : nat -> stree) (t : stree) (obs : R) (fct w : nat -> R) : R :=
  let w_sum i := tsum rnd (tc i) w in
  let a i := rsub (w_sum i) (rmul (1 / 2) (w i)) in
  let dif i := rsub (fct i) obs in
  let c i := if Rlt_dec 0 (dif i) then rsub 1 (a i) else - a i in
  let s := tsum rnd t (fun i => rmul (rmul (w i) (c i)) (dif i)) in
  rmul 2 s.

(** core/crps/_gufuncs_w.py 154-178; np.cumsum adds from the left *)
Definition crps_qd_w_k_r (M : nat) (obs : R) (fct w : nat -> R) : R :=
  let a i := rsub (lsum rnd (map w (seq 0 (S i)))) (rdiv (w i) 2) in
  let st := fold_left (fun st i =>
    let obs_cdf := if Rlt_dec obs (fct i) then 1 else fst st in
    (obs_cdf, radd (snd st) (rmul (rmul (w i) (rsub obs_cdf (a i))) (rsub (fct i) obs)))) (seq 0 M) (0, 0) in
  rmul 2 (snd st).
End Rounded.
