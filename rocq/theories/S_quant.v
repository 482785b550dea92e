(** Quantile and interval scores, on real numbers. *)
From Verif Require Export S_crps.
Open Scope R_scope.

(** pinball loss of the quantile forecast q at level al *)
Definition pinball (al q y : R) : R := if Rle_dec y q then (1 - al) * (q - y) else al * (y - q).
(** interval score of [l, u] at level 1 - al *)
Definition winkler (al l u y : R) : R :=
  (u - l) + (if Rlt_dec y l then 2 / al * (l - y) else 0) + (if Rlt_dec u y then 2 / al * (y - u) else 0).

(** expectation of f under the distribution with mass g j on the j-th of n outcomes *)
Definition mean_under (n : nat) (g f : nat -> R) : R := sumn n (fun j => g j * f j).
(** such a distribution *)
Definition masses (n : nat) (g : nat -> R) : Prop := (forall j, (j < n)%nat -> 0 <= g j) /\ sumn n g = 1.
(** q is a quantile of level al of the distribution with mass g j on v j:
    P(X < q) <= al <= P(X <= q) *)
Definition is_quantile (n : nat) (g v : nat -> R) (al q : R) : Prop :=
  sumn n (fun j => g j * ind_lt (v j) q) <= al <= sumn n (fun j => g j * ind_le (v j) q).

(** the call returns f with all axes of length one dropped *)
Definition squeezed (s : list nat) : list nat := filter (fun d => negb (d =? 1)%nat) s.
Fixpoint keep (s i : list nat) : list nat :=
  match s, i with
  | d :: s', k :: i' => if (d =? 1)%nat then keep s' i' else k :: keep s' i'
  | _, _ => []
  end.
Definition returns_squeezed (T : tensor) (s : list nat) (f : list nat -> num) : Prop :=
  exists a, T = Ok a /\ sh a = squeezed s /\ forall i, inb s i -> at_ a (keep s i) = f i.
(** an argument that is either a scalar or an array of the common shape *)
Definition scalar_or (sa s : list nat) : Prop := sa = nil \/ sa = s.
Definition entry {A} (sa : list nat) (a : list nat -> A) (r : list nat) : A :=
  match sa with nil => a nil | _ => a r end.
(** weights of the weighted interval score: one half for the median and alpha/2 for the
    intervals unless given (a scalar and an array of length K) *)
Definition wis_weights (K : nat) (a : list nat -> R) (wm wa : option arr) (cm : R) (w : nat -> R) : Prop :=
  match wm with None => cm = / 2 | Some o => real_arr o nil (fun _ => cm) end /\
  match wa with
  | None => forall k, (k < K)%nat -> w k = a (k :: nil) / 2
  | Some o => real_arr o (K :: nil) (fun i => w (hd 0%nat i))
  end.
