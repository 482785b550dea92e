(** Rounded arithmetic, continued: the estimator int of the ensemble CRPS.
    Simplifications as in M_round.v; [rnd] is the rounding. *)
From Coq Require Import Reals List Bool.
From Verif Require Import Num Arr M_round.
Import ListNotations.
Open Scope R_scope.

(** [B.sort] of a row of finite numbers *)
Definition rsort (l : list R) : list R := map (fun v => match v with Fin r => r | _ => 0 end) (nsort (map Fin l)).

Section Rounded.
Variable rnd : R -> R.
Local Notation radd := (radd rnd).
Local Notation rsub := (rsub rnd).
Local Notation rmul := (rmul rnd).
Local Notation rdiv := (rdiv rnd).

(** core/crps/_approx.py 108-123; [t1] and [t2] are the orders of B.mean and B.sum; [x ** 2] is x times x *)
Definition crps_int_arr_r (t1 t2 : stree) (M : nat) (obs : R) (fct : nat -> R) : R :=
  let y_pos := rdiv (tsum rnd t1 (fun i => rmul (rbool (rle (fct i) obs)) 1)) (INR M) in
  let fct_cdf := rsort (map (fun i => radd 0 (rdiv (INR (i + 1)) (INR M))) (seq 0 M) ++ [y_pos]) in
  let fct_exp := rsort (map fct (seq 0 M) ++ [obs]) in
  let fct_dif i := rsub (nth (i + 1) fct_exp 0) (nth i fct_exp 0) in
  let obs_cdf i := rmul (rbool (rle obs (nth i fct_exp 0))) 1 in
  let dev i := rsub (nth i fct_cdf 0) (obs_cdf i) in
  tsum rnd t2 (fun i => rmul (fct_dif i) (rmul (dev i) (dev i))).

(** core/crps/_gufuncs.py 37-51, one pass of the loop; state: (obs_cdf, forecast_cdf, prev_forecast, integral) *)
Definition crps_int_step_r (M : nat) (obs : R) (st : bool * R * R * R) (forecast : R) : bool * R * R * R :=
  let '(obs_cdf, forecast_cdf, prev_forecast, integral) := st in
  let '(obs_cdf', integral') :=
    if negb obs_cdf && rlt obs forecast then
      (true, radd (radd integral (rmul (rsub obs prev_forecast) (rmul forecast_cdf forecast_cdf)))
                  (rmul (rsub forecast obs) (rmul (rsub forecast_cdf 1) (rsub forecast_cdf 1))))
    else
      let dev := rsub forecast_cdf (rbool obs_cdf) in
      (obs_cdf, radd integral (rmul (rmul dev dev) (rsub forecast prev_forecast))) in
  (obs_cdf', radd forecast_cdf (rdiv 1 (INR M)), forecast, integral').
(** 24-56; after the loop, [forecast] is the last member *)
Definition crps_int_k_r (M : nat) (obs : R) (fct : nat -> R) : R :=
  let '(obs_cdf, _, forecast, integral) := fold_left (crps_int_step_r M obs) (map fct (seq 0 M)) (false, 0, 0, 0) in
  if obs_cdf then integral else radd integral (rsub obs forecast).
End Rounded.
