(** Specification of the variogram score, on real numbers only. *)
From Verif Require Export S_mv.
Open Scope R_scope.

(** a^p for a >= 0 and p > 0 *)
Definition vpow (a p : R) : R := if Req_EM_T a 0 then 0 else Rpower a p.
(** the variogram of a vector *)
Definition vgram (p : R) (u : nat -> R) (i j : nat) : R := vpow (Rabs (u i - u j)) p.
(** squared distance of the variograms of two vectors; [h] are the weights of the pairs *)
Definition vdist (D : nat) (h : nat -> nat -> R) (p : R) (u v : nat -> R) : R :=
  sumn D (fun i => sumn D (fun j => h i j * (vgram p u i j - vgram p v i j) ^ 2)).
Definition vnorm (D : nat) (h : nat -> nat -> R) (p : R) (u : nat -> R) : R :=
  sumn D (fun i => sumn D (fun j => h i j * vgram p u i j ^ 2)).
(** the score of Scheuerer and Hamill: weighted squared error of the expected variogram, for an
    ensemble [x] of M members with probabilities [w] *)
Definition vs_score (D : nat) (h : nat -> nat -> R) (p : R) (M : nat) (w : nat -> R)
    (y : nat -> R) (x : nat -> nat -> R) : R :=
  sumn D (fun i => sumn D (fun j =>
    h i j * (vgram p y i j - sumn M (fun m => w m * vgram p (x m) i j)) ^ 2)).

(** distances of the members to the observation and to each other *)
Definition vs_err (D : nat) (h : nat -> nat -> R) (p : R) (y : nat -> R) (x : nat -> nat -> R) (i : nat) : R :=
  vdist D h p (x i) y.
Definition vs_dist (D : nat) (h : nat -> nat -> R) (p : R) (x : nat -> nat -> R) (i j : nat) : R :=
  vdist D h p (x i) (x j).

(** The argument [w]: None, or a D x D matrix for every grid point, or one for all of them.
    [h r i j] is the weight of the pair (i, j) at grid point r. *)
Definition pair_wts (w : option arr) (s : list nat) (D : nat) (h : list nat -> nat -> nat -> R) : Prop :=
  match w with
  | None => forall r i j, h r i j = 1
  | Some w => exists f,
      (real_arr w (D :: D :: s) f /\ forall r i j, h r i j = f (j :: i :: r)) \/
      (real_arr w [D; D] f /\ forall r i j, h r i j = f [j; i])
  end.
