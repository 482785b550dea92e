(** Rounded arithmetic.  The other model files compute with exact real numbers; this file repeats
    some scores with a rounding after every operation, in the order in which the code performs
    the operations.  [rnd] is the rounding; [b64] below is that of IEEE 754 binary64 to nearest, ties to even,
    with gradual underflow.  Simplifications: no overflow (the exponent is not bounded above),
    no NaN or infinity, the sign of zero is dropped.  Integer factors such as M**2 are exact
    (the theorems assume that they are less than 2^53); numba does not contract a * b + c. *)
From Coq Require Import Reals List.
From Flocq Require Import Core.
Import ListNotations.
Open Scope R_scope.

Definition b64 (x : R) : R := round radix2 (FLT_exp (-1074) 53) ZnearestE x.

(** [B.sum] adds in an order that depends on the memory layout (numpy adds pairwise, in blocks): any
    binary tree whose leaves are the indices of the summands *)
Inductive stree := Leaf (i : nat) | Node (l r : stree).

Section Rounded.
Variable rnd : R -> R.
Definition radd (a b : R) : R := rnd (a + b).
Definition rsub (a b : R) : R := rnd (a - b).
Definition rmul (a b : R) : R := rnd (a * b).
Definition rdiv (a b : R) : R := rnd (a / b).
Definition rbool (b : bool) : R := if b then 1 else 0.
Definition rlt (a b : R) : bool := if Rlt_dec a b then true else false.
Definition rle (a b : R) : bool := if Rle_dec a b then true else false.

Fixpoint tsum (t : stree) (a : nat -> R) : R :=
  match t with Leaf i => a i | Node l r => radd (tsum l a) (tsum r a) end.
(** [acc += a] in a loop, from 0 *)
Definition lsum (l : list R) : R := fold_left radd l 0.

(** _quantile.py 58 *)
Definition quantile_score_r (obs fct alpha : R) : R :=
  rmul (rsub (rbool (rlt obs fct)) alpha) (rsub fct obs).

(** core/brier.py 11-15; [x ** 2] is x times x *)
Definition brier_score_r (obs fct : R) : R := rmul (rsub fct obs) (rsub fct obs).

(** core/interval/_score.py 9-21 *)
Definition interval_score_r (obs lower upper alpha : R) : R :=
  let width := rsub upper lower in
  let above := rbool (rlt upper obs) in
  let below := rbool (rlt obs lower) in
  let W := radd width (rmul (rmul below (rdiv 2 alpha)) (rsub lower obs)) in
  radd W (rmul (rmul above (rdiv 2 alpha)) (rsub obs upper)).

(** core/crps/_approx.py 37-48 (fair) and 51-59 (nrg), [c] the divisor M * (M - 1) or M**2; [t1] and [t2]
    are the orders of the two sums, entry (i, j) of the matrix of differences has the index i * M + j *)
Definition crps_energy_arr_r (t1 t2 : stree) (M c : nat) (obs : R) (fct : nat -> R) : R :=
  let e_1 := rdiv (tsum t1 (fun i => Rabs (rsub obs (fct i)))) (INR M) in
  let e_2 := rdiv (tsum t2 (fun k => Rabs (rsub (fct (k / M)%nat) (fct (k mod M)%nat)))) (INR c) in
  rsub e_1 (rmul (1 / 2) e_2).
Definition crps_nrg_arr_r (t1 t2 : stree) (M : nat) := crps_energy_arr_r t1 t2 M (M * M).
Definition crps_fair_arr_r (t1 t2 : stree) (M : nat) := crps_energy_arr_r t1 t2 M (M * (M - 1)).

(** core/crps/_gufuncs.py 91-115 (nrg) and 118-142 (fair) *)
Definition crps_energy_k_r (M c : nat) (obs : R) (fct : nat -> R) : R :=
  let e_1 := lsum (map (fun i => Rabs (rsub (fct i) obs)) (seq 0 M)) in
  let e_2 := lsum (flat_map (fun i => map (fun j => rmul 2 (Rabs (rsub (fct j) (fct i)))) (seq (i + 1) (M - (i + 1)))) (seq 0 M)) in
  rsub (rdiv e_1 (INR M)) (rdiv (rmul (1 / 2) e_2) (INR c)).
Definition crps_nrg_k_r (M : nat) := crps_energy_k_r M (M * M).
Definition crps_fair_k_r (M : nat) := crps_energy_k_r M (M * (M - 1)).

(** core/crps/_approx.py 97-106 *)
Definition crps_qd_arr_r (t : stree) (M : nat) (obs : R) (fct : nat -> R) : R :=
  let alpha i := rsub (INR (i + 1)) (1 / 2) in
  let below i := rmul (rmul (rbool (rle (fct i) obs)) (alpha i)) (rsub obs (fct i)) in
  let above i := rmul (rmul (rbool (rlt obs (fct i))) (rsub (INR M) (alpha i))) (rsub (fct i) obs) in
  rmul 2 (rdiv (tsum t (fun i => radd (below i) (above i))) (INR (M * M))).

(** core/crps/_gufuncs.py 62-88 *)
Definition crps_qd_k_r (M : nat) (obs : R) (fct : nat -> R) : R :=
  let '(_, integral) := fold_left (fun '(obs_cdf, integral) i =>
      let obs_cdf := if rlt obs (fct i) then 1 else obs_cdf in
      (obs_cdf, radd integral (rmul (rsub (fct i) obs) (radd (rsub (rmul (INR M) obs_cdf) (INR (i + 1))) (1 / 2)))))
    (seq 0 M) (0, 0) in
  rmul (rdiv 2 (INR (M * M))) integral.
End Rounded.
