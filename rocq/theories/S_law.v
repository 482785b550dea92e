(** Two weighted ensembles with the same distribution. *)
From Verif Require Export S_mv.
Open Scope R_scope.
(** weighted mean of f over the members x_0, ..., x_(M-1) *)
Definition wmean {A : Type} (M : nat) (w : nat -> R) (f : A -> R) (x : nat -> A) : R := sumn M (fun i => w i * f (x i)) / sumn M w.
(** univariate: all functions have the same mean *)
Definition same_law1 (M : nat) (w x : nat -> R) (N : nat) (w' x' : nat -> R) : Prop :=
  forall f : R -> R, wmean M w f x = wmean N w' f x'.
(** in R^D: all functions of the first D coordinates *)
Definition same_law (D M : nat) (w : nat -> R) (x : nat -> nat -> R) (N : nat) (w' : nat -> R) (x' : nat -> nat -> R) : Prop :=
  forall f : (nat -> R) -> R, (forall u v, (forall k, (k < D)%nat -> u k = v k) -> f u = f v) -> wmean M w f x = wmean N w' f x'.
