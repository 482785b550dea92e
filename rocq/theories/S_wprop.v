(** Propriety in batch form: N cases with observations z 0, ..., z (N - 1), all scored with the
    same ensemble e 0, ..., e (M - 1). *)
From Verif Require Export S_base S_mv.
From Coq Require Import List.
Import ListNotations.
Open Scope R_scope.

(** univariate: [obs] holds the z j; entry k along the ensemble axis of [fct] is e k in every case *)
Definition same_uv (obs fct : arr) (ax : Z) (p N M : nat) (z e : nat -> R) : Prop :=
  ens_args obs fct ax (N :: nil) p M (fun i => z (hd 0%nat i)) (fun i => e (nth p i 0%nat)).
(** multivariate: z j and e k are vectors of D numbers *)
Definition same_mv (obs fct : arr) (m v : Z) (p q N M D : nat) (z e : nat -> nat -> R) : Prop :=
  mv_args obs fct m v (N :: nil) p q M D (fun i => z (hd 0%nat (remove_at q i)) (nth q i 0%nat))
    (fun i => e (nth p i 0%nat) (nth q (remove_at p i) 0%nat)).
(** both calls return N numbers, and the sum of the first is at most the sum of the second *)
Definition not_worse (N : nat) (T T' : tensor) : Prop :=
  exists a b : nat -> R, returns T (N :: nil) (fun r => Fin (a (hd 0%nat r))) /\ returns T' (N :: nil) (fun r => Fin (b (hd 0%nat r))) /\
    sumn N a <= sumn N b.
