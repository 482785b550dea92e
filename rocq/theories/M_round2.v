(** Rounded arithmetic, continued: the estimators pwm, akr and akr_circperm of the ensemble CRPS.
    Simplifications as in M_round.v; [rnd] is the rounding. *)
From Coq Require Import Reals List.
From Verif Require Import M_round M_crps.
Import ListNotations.
Open Scope R_scope.

Section Rounded.
Variable rnd : R -> R.
Local Notation radd := (radd rnd).
Local Notation rsub := (rsub rnd).
Local Notation rmul := (rmul rnd).
Local Notation rdiv := (rdiv rnd).

(** core/crps/_approx.py 62-71; [t1], [t2], [t3] are the orders of the three sums *)
Definition crps_pwm_arr_r (t1 t2 t3 : stree) (M : nat) (obs : R) (fct : nat -> R) : R :=
  let expected_diff := rdiv (tsum rnd t1 (fun i => Rabs (rsub obs (fct i)))) (INR M) in
  let b0 := rdiv (tsum rnd t2 fct) (INR M) in
  let b1 := rdiv (tsum rnd t3 (fun i => rmul (fct i) (INR i))) (INR (M * (M - 1))) in
  rsub (radd expected_diff b0) (rmul 2 b1).

(** core/crps/_gufuncs.py 145-163 *)
Definition crps_pwm_k_r (M : nat) (obs : R) (fct : nat -> R) : R :=
  let '(expected_diff, b0, b1) := fold_left (fun '(expected_diff, b0, b1) i =>
      (radd expected_diff (Rabs (rsub (fct i) obs)), radd b0 (fct i), radd b1 (rmul (fct i) (INR i))))
    (seq 0 M) (0, 0, 0) in
  rsub (radd (rdiv expected_diff (INR M)) (rdiv b0 (INR M))) (rdiv (rmul 2 b1) (INR (M * (M - 1)))).

(** core/crps/_approx.py 74-94, akr and akr_circperm: [s] is the shift, 1 or M // 2; [B.roll] puts
    member i - s (modulo M) at position i *)
Definition crps_lag_arr_r (s : nat) (t1 t2 : stree) (M : nat) (obs : R) (fct : nat -> R) : R :=
  let e_1 := rdiv (tsum rnd t1 (fun i => Rabs (rsub obs (fct i)))) (INR M) in
  let e_2 := rdiv (tsum rnd t2 (fun i => Rabs (rsub (fct i) (fct ((i + M - s) mod M)%nat)))) (INR M) in
  rsub e_1 (rmul (1 / 2) e_2).
Definition crps_akr_arr_r := crps_lag_arr_r 1.
Definition crps_akr_circperm_arr_r (t1 t2 : stree) (M : nat) := crps_lag_arr_r (M / 2) t1 t2 M.

(** core/crps/_gufuncs.py 166-177 (akr) and 180-192 (akr_circperm), [g] the index of the other member *)
Definition crps_lag_k_r (g : nat -> nat) (M : nat) (obs : R) (fct : nat -> R) : R :=
  let '(e_1, e_2) := fold_left (fun '(e_1, e_2) i =>
      (radd e_1 (Rabs (rsub (fct i) obs)), radd e_2 (Rabs (rsub (fct i) (fct (g i))))))
    (seq 0 M) (0, 0) in
  rsub (rdiv e_1 (INR M)) (rmul (rdiv (rmul (1 / 2) 1) (INR M)) e_2).
Definition crps_akr_k_r (M : nat) := crps_lag_k_r (fun i => (if (i =? 0)%nat then M else i) - 1)%nat M.
Definition crps_akr_circperm_k_r (M : nat) := crps_lag_k_r (circperm_idx M) M.
End Rounded.
