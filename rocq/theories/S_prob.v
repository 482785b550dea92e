(** Scores of probability forecasts, on real numbers. *)
From Verif Require Export S_quant.
Open Scope R_scope.

(** the mean of f over an event of probability q (1: the event happens) *)
Definition bern_mean (q : R) (f : R -> R) : R := q * f 1 + (1 - q) * f 0.
(** a value below / above a bound (NaN is neither) *)
Definition below (v : num) (b : R) : Prop := match v with Fin a => a < b | NInf => True | _ => False end.
Definition above (v : num) (b : R) : Prop := match v with Fin a => b < a | PInf => True | _ => False end.
(** the entries accepted by the Brier and log scores: probabilities up to 1 + 10^-5, outcomes 0 or 1 *)
Definition bad_prob (v : num) : Prop := below v 0 \/ above v (1 + / 100000).
Definition bad_outcome (v : num) : Prop := v <> Fin 0 /\ v <> Fin 1.

(** categories are 1, ..., K; p k is the probability of category k + 1 *)
Definition cum (p : nat -> R) (k : nat) : R := sumn (S k) p.
(** does the outcome c belong to the first k + 1 categories *)
Definition ind_cat (c k : nat) : R := if (c <=? k + 1)%nat then 1 else 0.
(** the array with a single one at category c *)
Definition onehot (c k : nat) : R := if (k + 1 =? c)%nat then 1 else 0.
(** ranked probability score *)
Definition rps (K : nat) (p : nat -> R) (c : nat) : R := sumn K (fun k => (cum p k - ind_cat c k) ^ 2).
(** logarithmic score of the probability p of an event, p inside (0, 1) or on the safe side *)
Definition logsc (p y : R) : R := if Req_EM_T y 1 then - ln p else - ln (1 - p).
(** ranked logarithmic score *)
Definition rls (K : nat) (p : nat -> R) (c : nat) : R := sumn K (fun k => logsc (cum p k) (ind_cat c k)).
(** the mean of a score over categories drawn with probabilities q *)
Definition cat_mean (K : nat) (q : nat -> R) (f : nat -> R) : R := sumn K (fun k => q k * f (k + 1)%nat).
(** every category has positive probability *)
Definition inner_probs (K : nat) (p : nat -> R) : Prop := (forall k, (k < K)%nat -> 0 < p k) /\ sumn K p = 1.

(** forecast probabilities of K categories at position p of the axes (counted from the last),
    k_axis in python's numbering; outcomes as categories, or as one-hot arrays *)
Definition cat_args (obs fct : arr) (ax : Z) (s : list nat) (p K : nat) (c : list nat -> nat)
    (x : list nat -> R) : Prop :=
  ens_args obs fct ax s p K (fun r => INR (c r)) x.
Definition onehot_args (obs fct : arr) (ax : Z) (s : list nat) (p K : nat) (c : list nat -> nat)
    (x : list nat -> R) : Prop :=
  real_arr fct (insert_at p K s) x /\ (p <= length s)%nat /\ ens_axis ax (length s) p /\
  sh obs = insert_at p K s /\
  forall r k, inb s r -> (k < K)%nat -> at_ obs (insert_at p k r) = Fin (onehot (c r) k).
(** all forecasts are probabilities *)
Definition probs (s : list nat) (p K : nat) (x : list nat -> R) : Prop :=
  forall r k, inb s r -> (k < K)%nat -> 0 <= member p x r k <= 1.
