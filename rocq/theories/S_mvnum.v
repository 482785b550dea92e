(** Multivariate arguments with arbitrary entries (NaN and infinities included), for the
    properties about rejected inputs. *)
From Verif Require Export S_mv.
Open Scope R_scope.

Definition mv_nums (obs fct : arr) (m_axis v_axis : Z) (s : list nat) (p q M D : nat)
    (y x : list nat -> num) : Prop :=
  (sh obs = insert_at q D s /\ forall i, inb (insert_at q D s) i -> at_ obs i = y i) /\
  (sh fct = insert_at p M (insert_at q D s) /\
   forall i, inb (insert_at p M (insert_at q D s)) i -> at_ fct i = x i) /\
  (q <= length s)%nat /\ (p <= S (length s))%nat /\
  ens_axis m_axis (S (length s)) p /\ ens_axis v_axis (S (length s)) (vpos p q).
(** the observation and member i at grid point r, as lists *)
Definition obsl (q D : nat) (y : list nat -> num) (r : list nat) : list num :=
  map (fun k => y (insert_at q k r)) (seq 0 D).
Definition meml (p q D : nat) (x : list nat -> num) (r : list nat) (i : nat) : list num :=
  map (fun k => x (insert_at p i (insert_at q k r))) (seq 0 D).
