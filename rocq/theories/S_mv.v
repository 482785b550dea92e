(** Specification of the multivariate ensemble scores, on real numbers only. *)
From Verif Require Export S_crps.
Open Scope R_scope.

(** Euclidean distance and norm in R^D *)
Definition eucl (D : nat) (u v : nat -> R) : R := sqrt (sumn D (fun k => (u k - v k) ^ 2)).
Definition enorm (D : nat) (u : nat -> R) : R := sqrt (sumn D (fun k => u k ^ 2)).

(** Kernel forms shared by the scores: [e i] is the distance of member i to the observation,
    [d i j] the distance of members i and j. *)
Definition k_exact (M : nat) (e : nat -> R) (d : nat -> nat -> R) : R :=
  sumn M e / INR M - sumn M (fun i => sumn M (d i)) / (2 * INR M * INR M).
Definition k_fair (M : nat) (e : nat -> R) (d : nat -> nat -> R) : R :=
  sumn M e / INR M - sumn M (fun i => sumn M (d i)) / (2 * INR M * (INR M - 1)).
Definition k_lag (M : nat) (g : nat -> nat) (e : nat -> R) (d : nat -> nat -> R) : R :=
  sumn M e / INR M - sumn M (fun i => d i (g i)) / (2 * INR M).
(** the same with weights that sum to one *)
Definition k_wexact (M : nat) (w : nat -> R) (e : nat -> R) (d : nat -> nat -> R) : R :=
  sumn M (fun i => w i * e i) - / 2 * sumn M (fun i => sumn M (fun j => w i * w j * d i j)).
Definition k_wfair (M : nat) (w : nat -> R) (e : nat -> R) (d : nat -> nat -> R) : R :=
  sumn M (fun i => w i * e i)
  - sumn M (fun i => sumn M (fun j => w i * w j * d i j)) / (2 * (1 - sumn M (fun i => w i * w i))).
Definition k_wlag (M : nat) (g : nat -> nat) (w : nat -> R) (e : nat -> R) (d : nat -> nat -> R) : R :=
  sumn M (fun i => w i * e i) - / 2 * sumn M (fun i => w i * d i (g i)).

(** vertically re-scaled form: [a] is the weight of the observation, [u i] the weight times the
    probability of member i, [ny] and [nx i] the distances to the origin *)
Definition k_vr (M : nat) (a : R) (u : nat -> R) (e : nat -> R) (d : nat -> nat -> R)
    (ny : R) (nx : nat -> R) : R :=
  a * sumn M (fun i => u i * e i) - / 2 * sumn M (fun i => sumn M (fun j => u i * u j * d i j))
  + (sumn M (fun i => u i * nx i) - a * ny) * (sumn M u - a).

(** the energy score: these forms with the Euclidean distance in R^D *)
Definition es_err (D : nat) (y : nat -> R) (x : nat -> nat -> R) (i : nat) : R := eucl D (x i) y.
Definition es_dist (D : nat) (x : nat -> nat -> R) (i j : nat) : R := eucl D (x i) (x j).

(** the member paired with member k by the numba version of akr_circperm *)
Definition lagf (M k : nat) : nat := ((k + M / 2) mod M)%nat.

(** Multivariate ensemble arguments.  [s] is the batch shape; [obs] has one more axis, of size
    [D], at position [q] counted from the last; [fct] has a further axis, of size [M], at
    position [p].  [m_axis] and [v_axis] are the two axes of [fct] in python's numbering. *)
Definition vpos (p q : nat) : nat := if (q <? p)%nat then q else S q.
Definition mv_args (obs fct : arr) (m_axis v_axis : Z) (s : list nat) (p q M D : nat)
    (y x : list nat -> R) : Prop :=
  real_arr obs (insert_at q D s) y /\ real_arr fct (insert_at p M (insert_at q D s)) x /\
  (q <= length s)%nat /\ (p <= S (length s))%nat /\
  ens_axis m_axis (S (length s)) p /\ ens_axis v_axis (S (length s)) (vpos p q).
(** the observation and member i at grid point r, as vectors *)
Definition obsv (q : nat) (y : list nat -> R) (r : list nat) (k : nat) : R := y (insert_at q k r).
Definition memv (p q : nat) (x : list nat -> R) (r : list nat) (i k : nat) : R :=
  x (insert_at p i (insert_at q k r)).

(** weights have the shape of [fct] without the variable axis; this is the position of their
    ensemble axis, counted from the last *)
Definition wpos (p q : nat) : nat := if (q <? p)%nat then (p - 1)%nat else p.
(** weights with the ensemble axis at position [pw], non-negative, with a positive total *)
Definition mv_wts (wt : arr) (s : list nat) (pw M : nat) (w : list nat -> R) : Prop :=
  real_arr wt (insert_at pw M s) w /\
  (forall r k, inb s r -> (k < M)%nat -> 0 <= member pw w r k) /\
  (forall r, inb s r -> 0 < sumn M (member pw w r)).
(** a reordering of 0, ..., M-1 *)
Definition reorders (M : nat) (g : nat -> nat) : Prop := Permutation (map g (seq 0 M)) (seq 0 M).
(** [h] multiplies all distances in R^D by [c] *)
Definition similarity (D : nat) (c : R) (h : (nat -> R) -> nat -> R) : Prop :=
  forall u v, eucl D (h u) (h v) = c * eucl D u v.
(** [A] is an orthogonal D x D matrix *)
Definition orthogonal (D : nat) (A : nat -> nat -> R) : Prop :=
  forall i j, (i < D)%nat -> (j < D)%nat ->
    sumn D (fun k => A k i * A k j) = if (i =? j)%nat then 1 else 0.
(** u |-> c A u + b *)
Definition affine_map (D : nat) (c : R) (A : nat -> nat -> R) (b u : nat -> R) (k : nat) : R :=
  c * sumn D (fun j => A k j * u j) + b k.

(** the user's weight function [wf], on vectors of D finite numbers, is the real function [g] *)
Definition vweight (D : nat) (wf : dtype * (list num -> num)) (g : (nat -> R) -> R) : Prop :=
  forall u, snd wf (map (fun k => Fin (u k)) (seq 0 D)) = Fin (g u) /\ 0 <= g u.
(** both inputs are arrays of floats *)
Definition floats (obs fct : arr) : Prop := dt obs = DFloat /\ dt fct = DFloat.
(** concrete inputs: a matrix whose row i is member i *)
Definition real2 (M D : nat) (x : nat -> nat -> R) : arr :=
  farr [D; M] (fun i => x (hd 0%nat (tl i)) (hd 0%nat i)).
