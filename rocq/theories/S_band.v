(** Specification of the bootstrap band of the reliability diagram. *)
From Coq Require Import Reals List Permutation Sorted String.
From Verif Require Import Num S_base S_corp.
Import ListNotations.
Open Scope R_scope.

(** v is the value at t of the piecewise linear curve through the points (a i, z i), i < n, with
    a nondecreasing; NaN outside the range of the points.  At equal a the last z counts. *)
Definition on_curve (n : nat) (a z : nat -> R) (t : R) (v : num) : Prop :=
  (t < a 0%nat \/ a (n - 1)%nat < t) /\ v = NaN \/
  t = a (n - 1)%nat /\ v = Fin (z (n - 1)%nat) \/
  exists j, (S j < n)%nat /\ a j <= t < a (S j) /\ v = Fin (z j + (z (S j) - z j) * ((t - a j) / (a (S j) - a j))).
(** v is the q-quantile of the numbers of [col] other than NaN: linear between the order statistics *)
Definition percentile_of (q : R) (col : list num) (v : num) : Prop :=
  exists l, Permutation (map Fin l ++ repeat NaN (length col - length l)) col /\ StronglySorted Rle l /\
    (l = [] /\ v = NaN \/
     exists k, (k < length l)%nat /\ INR k <= q * INR (length l - 1) < INR k + 1 /\
       v = Fin (nth k l 0 + (q * INR (length l - 1) - INR k) * (nth (Nat.min (S k) (length l - 1)) l 0 - nth k l 0))).
(** n indices below n, repetitions allowed *)
Definition resample (n : nat) (idx : list nat) : Prop := length idx = n /\ List.Forall (fun i => (i < n)%nat) idx.
(** outcomes 0 and 1, one for each probability *)
Definition outcomes (p y : list num) : Prop := length y = length p /\ List.Forall (fun v => v = Fin 0 \/ v = Fin 1) y.
(** the points (a i, z i) of one round: the resampled forecasts in nondecreasing order and the
    isotonic fit of their outcomes y *)
Definition round_fit (n : nat) (f : nat -> R) (idx : list nat) (y a z : nat -> R) : Prop :=
  exists g, reorders n g /\ (forall i, (i < n)%nat -> a i = f (nth (g i) idx 0%nat)) /\ nondec n a /\
    isotonic_fit n (fun i => y (g i)) z.
(** the forecast t lies in the range of the resampled forecasts *)
Definition resample_covers (n : nat) (f : nat -> R) (idx : list nat) (t : R) : Prop :=
  exists i j, (i < n)%nat /\ (j < n)%nat /\ f (nth i idx 0%nat) <= t <= f (nth j idx 0%nat).
(** the probabilities of the outcomes: the forecasts themselves or their recalibrated values *)
Definition probs (bandtype : string) (f c : nat -> R) : nat -> R := if String.eqb bandtype "consistency" then f else c.
(** valid arguments and draws: N forecasts f, their recalibrated values c, M rounds *)
Definition band_args (srt : list num -> list nat) (N : nat) (f c : nat -> R) (M : nat) (bandtype : string)
    (choice : nat -> list nat) (rvs : nat -> list num -> list num) : Prop :=
  argsort_ok srt /\ (1 <= N)%nat /\ (1 <= M)%nat /\ (bandtype = "consistency" \/ bandtype = "confidence")%string /\
  (forall m, (m < M)%nat -> resample N (choice m)) /\ (forall m p, (m < M)%nat -> outcomes p (rvs m p)) /\
  (forall i, (i < N)%nat -> 0 <= probs bandtype f c i <= 1).
