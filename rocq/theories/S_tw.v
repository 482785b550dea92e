(** Threshold-weighted CRPS: the CRPS integral restricted to [a, b]. *)
From Verif Require Export S_crps.
Open Scope R_scope.

(** where an integral starts or ends: at a real, or at an infinity *)
Definition end_of (a : num) : (R -> Prop) -> Prop :=
  match a with
  | Fin r => at_point r
  | PInf => Rbar_locally p_infty
  | _ => Rbar_locally m_infty
  end.
(** v is the integral from a to b of (F(t) - 1{y <= t})^2 *)
Definition is_twcrps (F : R -> R) (y : R) (a b : num) (v : R) : Prop :=
  is_RInt_gen (fun t => (F t - ind_le y t) ^ 2) (end_of a) (end_of b) v.
(** -inf <= a <= b <= inf, a < inf, b > -inf *)
Definition thresholds (a b : num) : Prop :=
  match a, b with
  | NInf, PInf | NInf, Fin _ | Fin _, PInf => True
  | Fin r, Fin t => r <= t
  | _, _ => False
  end.
