(** All samples of size M drawn with replacement from a population indexed 0..N-1. *)
From Verif Require Export S_base.
Open Scope R_scope.
Fixpoint samples (N M : nat) : list (list nat) :=
  match M with
  | O => [[]]
  | S m => flat_map (fun t => map (fun i => i :: t) (seq 0 N)) (samples N m)
  end.
Definition average {A} (F : A -> R) (l : list A) : R := Rsum (map F l) / INR (length l).
