(** Specification of the Gaussian kernel scores, on real numbers only. *)
From Verif Require Export S_mv S_ow.
Open Scope R_scope.

(** the Gaussian kernel on R and on R^D *)
Definition gauss1 (u v : R) : R := exp (- (u - v) ^ 2 / 2).
Definition gaussD (D : nat) (u v : nat -> R) : R := exp (- sumn D (fun k => (u k - v k) ^ 2) / 2).

(** The estimators of the kernel score of a kernel k with k(y,y) = 1, from the values
    [A i] = k(x_i, y) and [B i j] = k(x_i, x_j). *)
Definition gk_exact (M : nat) (A : nat -> R) (B : nat -> nat -> R) : R :=
  / 2 - sumn M A / INR M + sumn M (fun i => sumn M (B i)) / (2 * INR M * INR M).
(** sum over i <> j *)
Definition offdiag (M : nat) (B : nat -> nat -> R) : R :=
  sumn M (fun i => sumn M (fun j => if (i =? j)%nat then 0 else B i j)).
Definition gk_fair (M : nat) (A : nat -> R) (B : nat -> nat -> R) : R :=
  / 2 - sumn M A / INR M + offdiag M B / (2 * INR M * (INR M - 1)).
Definition gk_lag (M : nat) (g : nat -> nat) (A : nat -> R) (B : nat -> nat -> R) : R :=
  / 2 - sumn M A / INR M + sumn M (fun i => B i (g i)) / (2 * INR M).
(** the same for members of probabilities [w i] *)
Definition gk_wexact (M : nat) (w A : nat -> R) (B : nat -> nat -> R) : R :=
  / 2 - sumn M (fun i => w i * A i) + / 2 * sumn M (fun i => sumn M (fun j => w i * w j * B i j)).
Definition gk_wfair (M : nat) (w A : nat -> R) (B : nat -> nat -> R) : R :=
  / 2 - sumn M (fun i => w i * A i)
  + offdiag M (fun i j => w i * w j * B i j) / (2 * (1 - sumn M (fun i => w i * w i))).
Definition gk_wlag (M : nat) (g : nat -> nat) (w A : nat -> R) (B : nat -> nat -> R) : R :=
  / 2 - sumn M (fun i => w i * A i) + / 2 * sumn M (fun i => w i * B i (g i)).
(** vertically re-scaled: [a] is the weight of the observation, [u i] the weight times the
    probability of member i *)
Definition gk_vr (M : nat) (a : R) (u A : nat -> R) (B : nat -> nat -> R) : R :=
  / 2 * (a * a) - a * sumn M (fun i => u i * A i)
  + / 2 * sumn M (fun i => sumn M (fun j => u i * u j * B i j)).

(** kernel values of a univariate and of a multivariate forecast *)
Definition kobs1 (y : R) (x : nat -> R) (i : nat) : R := gauss1 (x i) y.
Definition kmem1 (x : nat -> R) (i j : nat) : R := gauss1 (x i) (x j).
Definition kobsD (D : nat) (y : nat -> R) (x : nat -> nat -> R) (i : nat) : R := gaussD D (x i) y.
Definition kmemD (D : nat) (x : nat -> nat -> R) (i j : nat) : R := gaussD D (x i) (x j).

(** univariate weights: the shape of the forecasts, non-negative, a positive total *)
Definition uv_wts (wt : arr) (s : list nat) (p M : nat) (w : list nat -> R) : Prop :=
  real_arr wt (insert_at p M s) w /\
  (forall r k, inb s r -> (k < M)%nat -> 0 <= member p w r k) /\
  (forall r, inb s r -> 0 < sumn M (member p w r)).
(** [c] moves every number to the nearest point of [a, b]; a and b may be infinite *)
Definition clips (a b : num) (c : R -> R) : Prop :=
  forall t, (below a t /\ above b t -> c t = t) /\
            (~ below a t -> Fin (c t) = a) /\ (~ above b t -> Fin (c t) = b).
