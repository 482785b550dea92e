(** Euler's constant, independent of the code. *)
From Coquelicot Require Import Coquelicot.
From Coq Require Import Reals.
Open Scope R_scope.

(** 1 + 1/2 + ... + 1/n *)
Fixpoint harmonic (n : nat) : R := match n with O => 0 | S k => harmonic k + / INR (S k) end.
Definition is_euler (g : R) : Prop := is_lim_seq (fun n => harmonic n - ln (INR n)) g.
