(** Members that are not NaN. *)
From Verif Require Export S_base.
Open Scope R_scope.

(** the entries of a row that are not NaN, in order *)
Definition present (M : nat) (x : nat -> num) : list num :=
  filter (fun a => negb (nisnan a)) (map x (seq 0 M)).
(** the (value, weight) pairs of which neither is NaN *)
Definition present2 (M : nat) (x w : nat -> num) : list (num * num) :=
  filter (fun q => negb (nisnan (fst q)) && negb (nisnan (snd q))) (map (fun k => (x k, w k)) (seq 0 M)).
(** a real number or NaN (no infinities) *)
Definition fin_or_nan (a : num) : Prop := a = NaN \/ exists r, a = Fin r.
