(** Outcome-weighted and vertically re-scaled CRPS: what the scores are. *)
From Verif Require Export S_crps.
Open Scope R_scope.

(** [is_vrcrps M p w a y x v]: v is the integral over the real line of
    (sum_i p_i w_i (1{x_i <= t} - 1{0 <= t}) - a (1{y <= t} - 1{0 <= t}))^2 *)
Definition is_vrcrps (M : nat) (p w : nat -> R) (a y : R) (x : nat -> R) (v : R) : Prop :=
  is_RInt_gen (fun t => (sumn M (fun i => p i * w i * (ind_le (x i) t - ind_le 0 t)) - a * (ind_le y t - ind_le 0 t)) ^ 2)
    (Rbar_locally m_infty) (Rbar_locally p_infty) v.

(** the weight function of a call, seen on the reals: a float-valued function that maps reals to
    reals, or the indicator of [a, b] *)
Definition below (a : num) (t : R) : Prop := match a with Fin r => r <= t | NInf => True | _ => False end.
Definition above (b : num) (t : R) : Prop := match b with Fin r => t <= r | PInf => True | _ => False end.
Definition weighting (a b : num) (wf : option (dtype * (num -> num))) (g : R -> R) : Prop :=
  match wf with
  | Some (d, f) => d = DFloat /\ forall t, f (Fin t) = Fin (g t)
  | None => forall t, (below a t /\ above b t -> g t = 1) /\ (~ (below a t /\ above b t) -> g t = 0)
  end.
