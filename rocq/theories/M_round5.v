(** Rounded arithmetic, continued: the CRPS from quantiles, the weighted interval score, the ranked probability
    score and the log score.  Simplifications as in M_round.v; [rnd] is the rounding. *)
From Coq Require Import Reals List.
From Verif Require Import Num M_round.
Import ListNotations.
Open Scope R_scope.

Section Rounded.
Variable rnd : R -> R.
Local Notation radd := (radd rnd).
Local Notation rsub := (rsub rnd).
Local Notation rmul := (rmul rnd).
Local Notation rdiv := (rdiv rnd).

(** core/crps/_approx.py 126-133; [t] is the order of the sum in [B.mean] *)
Definition quantile_pinball_arr_r (t : stree) (Q : nat) (obs : R) (fct alpha : nat -> R) : R :=
  let below k := rmul (rmul (rbool (rle (fct k) obs)) (alpha k)) (rsub obs (fct k)) in
  let above k := rmul (rmul (rbool (rlt obs (fct k))) (rsub 1 (alpha k))) (rsub (fct k) obs) in
  rmul 2 (rdiv (tsum rnd t (fun k => radd (below k) (above k))) (INR Q)).

(** core/crps/_gufuncs.py 10-20 *)
Definition quantile_pinball_k_r (Q : nat) (obs : R) (fct alpha : nat -> R) : R :=
  let pb := lsum rnd (map (fun k => radd (rmul (rmul (rbool (rlt (fct k) obs)) (alpha k)) (rsub obs (fct k)))
                                         (rmul (rmul (rbool (rle obs (fct k))) (rsub 1 (alpha k))) (rsub (fct k) obs))) (seq 0 Q)) in
  rmul 2 (rdiv pb (INR Q)).

(** core/interval/_score.py 24-41; [t] is the order of the sum; note [w_median * median] *)
Definition wis_arr_r (t : stree) (K : nat) (obs median : R) (lower upper alpha : nat -> R) (w_median : R) (w_alpha : nat -> R) : R :=
  let wis := tsum rnd t (fun k => rmul (interval_score_r rnd obs (lower k) (upper k) (alpha k)) (w_alpha k)) in
  rdiv (radd wis (rmul w_median median)) (radd (INR K) (1 / 2)).

(** core/interval/_gufunc.py 9-31 *)
Definition wis_k_r (K : nat) (obs median : R) (lower upper alpha : nat -> R) (w_median : R) (w_alpha : nat -> R) : R :=
  let wis := lsum rnd (map (fun k => rmul (w_alpha k) (interval_score_r rnd obs (lower k) (upper k) (alpha k))) (seq 0 K)) in
  rdiv (radd wis (rmul w_median (Rabs (rsub obs median)))) (radd (INR K) (1 / 2)).

(** core/brier.py 18-25; [tf k] and [ty k] are the orders in which the entries k of the two [cumsum]s are added up
    (numpy adds one after the other), [t] that of [B.sum] *)
Definition rps_score_r (t : stree) (tf ty : nat -> stree) (obs fct : nat -> R) : R :=
  tsum rnd t (fun k => let d := rsub (tsum rnd (tf k) fct) (tsum rnd (ty k) obs) in rmul d d).

(** core/brier.py 28-31; the logarithm itself is not rounded *)
Definition log_score_r (obs fct : R) : num := nopp (nlog (Fin (Rabs (rsub (radd fct obs) 1)))).
End Rounded.
