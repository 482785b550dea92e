(** What the CRPS of an ensemble is, stated on real numbers only. *)
From Verif Require Export S_base.
From Coquelicot Require Export Coquelicot.
Open Scope R_scope.

(** [is_crps F y v]: v is the integral over the real line of (F(t) - 1{y <= t})^2 *)
Definition is_crps (F : R -> R) (y v : R) : Prop :=
  is_RInt_gen (fun t => (F t - ind_le y t) ^ 2) (Rbar_locally m_infty) (Rbar_locally p_infty) v.

(** distribution function of the ensemble x 0, ..., x (M-1) *)
Definition ecdf (M : nat) (x : nat -> R) (t : R) : R := sumn M (fun i => ind_le (x i) t) / INR M.
(** the same with mass proportional to w i on member i *)
Definition wcdf (M : nat) (w x : nat -> R) (t : R) : R :=
  sumn M (fun i => w i * ind_le (x i) t) / sumn M w.

(** mean absolute error, and the sum of |x i - x j| over all ordered pairs *)
Definition mae (M : nat) (y : R) (x : nat -> R) : R := sumn M (fun i => Rabs (x i - y)) / INR M.
Definition pairsum (M : nat) (x : nat -> R) : R :=
  sumn M (fun i => sumn M (fun j => Rabs (x i - x j))).
(** fair CRPS (Ferro 2014) *)
Definition fair_crps (M : nat) (y : R) (x : nat -> R) : R :=
  mae M y x - pairsum M x / (2 * INR M * (INR M - 1)).
(** kernel form with weights that sum to one *)
Definition wmae (M : nat) (w : nat -> R) (y : R) (x : nat -> R) : R :=
  sumn M (fun i => w i * Rabs (x i - y)).
Definition wpairsum (M : nat) (w x : nat -> R) : R :=
  sumn M (fun i => sumn M (fun j => w i * w j * Rabs (x i - x j))).
(** normalised weights *)
Definition nw (M : nat) (w : nat -> R) (i : nat) : R := w i / sumn M w.

(** ascending members *)
Definition ascending (M : nat) (x : nat -> R) : Prop :=
  forall i j, (i <= j < M)%nat -> x i <= x j.

(** kernel forms: exact, one-lag (akr, [g] gives the paired member), weighted; the weights
    here sum to one *)
Definition exact_crps (M : nat) (y : R) (x : nat -> R) : R :=
  mae M y x - pairsum M x / (2 * INR M * INR M).
Definition lag_crps (M : nat) (g : nat -> nat) (y : R) (x : nat -> R) : R :=
  mae M y x - / 2 * (sumn M (fun k => Rabs (x k - x (g k))) / INR M).
Definition wexact_crps (M : nat) (w : nat -> R) (y : R) (x : nat -> R) : R :=
  wmae M w y x - / 2 * wpairsum M w x.
Definition wfair_crps (M : nat) (w : nat -> R) (y : R) (x : nat -> R) : R :=
  wmae M w y x - wpairsum M w x / (2 * (1 - sumn M (fun k => w k * w k))).
Definition wpwm_crps (M : nat) (w : nat -> R) (y : R) (x : nat -> R) : R :=
  wmae M w y x + sumn M (fun k => x k * w k)
  - 2 * (sumn M (fun k => x k * w k * (sumn (S k) w - w k)) / (1 - sumn M (fun k => w k * w k))).
Definition wlag_crps (M : nat) (g : nat -> nat) (w : nat -> R) (y : R) (x : nat -> R) : R :=
  wmae M w y x - / 2 * sumn M (fun k => w k * Rabs (x k - x (g k))).
(** the member paired with member k by akr and by akr_circperm *)
Definition lag1 (M k : nat) : nat := ((k + M - 1) mod M)%nat.
Definition lagc (M k : nat) : nat := ((k + M - M / 2) mod M)%nat.
(** weighted pwm, free of any ordering of the members *)
Definition wpwm_free (M : nat) (w : nat -> R) (y : R) (x : nat -> R) : R :=
  wmae M w y x + sumn M (fun k => w k * x k)
  - (sumn M (fun i => sumn M (fun j => w i * w j * Rmax (x i) (x j))) - sumn M (fun k => w k * w k * x k))
    / (1 - sumn M (fun k => w k * w k)).
