(** Rounded arithmetic, continued: the estimator int of the weighted ensemble CRPS.  Simplifications
    as in M_round.v; [rnd] is the rounding, the functions take the weights after the renormalisation
    [weights_r], and [tc k] is the order of entry k of the cumulative sum of the array implementation. *)
From Coq Require Import Reals List Bool.
From Verif Require Import Num M_round M_round3.
Import ListNotations.
Open Scope R_scope.

Section Rounded.
Variable rnd : R -> R.
Local Notation radd := (radd rnd).
Local Notation rsub := (rsub rnd).
Local Notation rmul := (rmul rnd).

(** core/crps/_approx_w.py 115-130; [t1] and [t2] are the orders of the two sums; [x ** 2] is x times x *)
Definition crps_int_w_arr_r (tc : nat -> stree) (t1 t2 : stree) (M : nat) (obs : R) (fct w : nat -> R) : R :=
  let y_pos := tsum rnd t1 (fun i => rmul (rbool (rle (fct i) obs)) (w i)) in
  let fct_cdf := rsort (map (fun i => tsum rnd (tc i) w) (seq 0 M) ++ [y_pos]) in
  let fct_exp := rsort (map fct (seq 0 M) ++ [obs]) in
  let fct_dif i := rsub (nth (i + 1) fct_exp 0) (nth i fct_exp 0) in
  let obs_cdf i := rmul (rbool (rle obs (nth i fct_exp 0))) 1 in
  let dev i := rsub (nth i fct_cdf 0) (obs_cdf i) in
  tsum rnd t2 (fun i => rmul (fct_dif i) (rmul (dev i) (dev i))).

(** core/crps/_gufuncs_w.py 84-98, one pass of the loop; state: (obs_cdf, forecast_cdf, prev_forecast, integral) *)
Definition crps_int_w_step_r (obs : R) (fct w : nat -> R) (st : bool * R * R * R) (n : nat) : bool * R * R * R :=
  let '(obs_cdf, forecast_cdf, prev_forecast, integral) := st in
  let forecast := fct n in
  let '(obs_cdf', integral') :=
    if negb obs_cdf && rlt obs forecast then
      (true, radd (radd integral (rmul (rsub obs prev_forecast) (rmul forecast_cdf forecast_cdf)))
                  (rmul (rsub forecast obs) (rmul (rsub forecast_cdf 1) (rsub forecast_cdf 1))))
    else
      let dev := rsub forecast_cdf (rbool obs_cdf) in
      (obs_cdf, radd integral (rmul (rmul dev dev) (rsub forecast prev_forecast))) in
  (obs_cdf', radd forecast_cdf (w n), forecast, integral').
(** 69-103; after the loop, [forecast] is the last member *)
Definition crps_int_w_k_r (M : nat) (obs : R) (fct w : nat -> R) : R :=
  let '(obs_cdf, _, forecast, integral) := fold_left (crps_int_w_step_r obs fct w) (seq 0 M) (false, 0, 0, 0) in
  if obs_cdf then integral else radd integral (rsub obs forecast).
End Rounded.
