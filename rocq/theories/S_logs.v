(** Kernel density estimates and the scores built from them, independent of the code. *)
From Coq Require Import Permutation Sorted.
From Verif Require Export S_dist S_dss.
From Coquelicot Require Import Coquelicot.
Open Scope R_scope.

(** [broadcasts a s f]: the array a broadcasts to the shape s, where it has the entries f *)
Definition broadcasts (a : arr) (s : list nat) (f : list nat -> num) : Prop :=
  bshape s (sh a) = Some s /\ forall i, inb s i -> at_ a (bidx (sh a) i) = f i.
(** density and distribution function of the equal mixture of normal distributions with means
    x 0, ..., x (M-1) and standard deviation h *)
Definition kde (M : nat) (x : nat -> R) (h t : R) : R := sumn M (fun k => phi ((t - x k) / h) / h) / INR M.
Definition kcdf (M : nat) (x : nat -> R) (h t : R) : R := sumn M (fun k => Phi ((t - x k) / h)) / INR M.
(** probability of the open interval (a, b) *)
Definition kprob (M : nat) (x : nat -> R) (h : R) (a b : Rbar) : R := ext_cdf (kcdf M x h) b - ext_cdf (kcdf M x h) a.
(** minus the logarithm of the density *)
Definition log_score (f : R -> R) (y : R) : R := - ln (f y).
(** conditional likelihood score: the log score of the distribution conditional on (a, b) for
    observations in (a, b), and 0 elsewhere *)
Definition conditional_score (M : nat) (x : nat -> R) (h : R) (a b : Rbar) (y : R) : R :=
  if Rbar_lt_dec a y then if Rbar_lt_dec y b then log_score (fun t => kde M x h t / kprob M x h a b) y else 0 else 0.
(** censored likelihood score: minus the log of the probability of the complement for
    observations outside (a, b) *)
Definition censored_score (M : nat) (x : nat -> R) (h : R) (a b : Rbar) (y : R) : R :=
  let outside := - ln (1 - kprob M x h a b) in
  if Rbar_lt_dec a y then if Rbar_lt_dec y b then log_score (kde M x h) y else outside else outside.
(** quantile of a sorted list, by linear interpolation of the order statistics at (n-1)q *)
Definition qtl (q : R) (l : list R) : R :=
  let h := q * (INR (length l) - 1) in
  let k := Z.to_nat (Int_part h) in
  nth k l 0 + (h - INR k) * (nth (Nat.min (S k) (length l - 1)) l 0 - nth k l 0).
(** Silverman's rule of thumb: 1.06 min(sd, iqr / 1.34) M^(-1/5) *)
Definition silverman_bw (M : nat) (x : nat -> R) (v : R) : Prop :=
  exists l, Permutation l (map x (seq 0 M)) /\ Sorted.StronglySorted Rle l /\
    v = 106 / 100 * Rmin (sqrt (variance false M x)) ((qtl (3 / 4) l - qtl (1 / 4) l) / (134 / 100)) * Rpower (INR M) (- 1 / 5).
(** finite bandwidths, if given, which broadcast to the batch shape *)
Definition finite_bw (bw : option arr) (s : list nat) : Prop :=
  match bw with None => True | Some b => exists h, broadcasts b s (fun r => Fin (h r)) end.
