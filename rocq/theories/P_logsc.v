(** Property C41, gamma, beta and t families: the log score of a parametric distribution is minus the logarithm of its density
    (infinite where the density is 0), for all broadcasting shapes and all finite
    observations, also outside the support; the density is non-negative, has integral one,
    and its distribution function is the one of the CRPS theorems. *)
From Verif Require Import T_logsc.
From Coq Require Import Psatz.
From Coquelicot Require Import Coquelicot.
Open Scope R_scope.

(** the gamma distribution with given rate *)
Theorem C41_gamma :
forall (obs shape rate : arr) (s : list nat) (y a r : list nat -> R),
  params s [(obs, fins y); (shape, fins a); (rate, fins r)]%list -> (forall i, inb s i -> 0 < a i /\ 0 < r i) ->
  returns (logs_gamma obs shape (Some rate) None) s (fun i => logp (gamma_pdf (a i) (r i) (y i))) /\
  forall i, inb s i -> distribution (gamma_cdf (a i) (r i)) (gamma_pdf (a i) (r i)) 0 p_infty.
Proof. exact C41_gamma_l. Qed.
Print Assumptions C41_gamma.
Example C41_gamma_ex : let f v := fun _ : list nat => v in
  params (2%nat :: nil) [(farr (2%nat :: nil) (f 3), fins (f 3)); (farr nil (f (1 / 2)), fins (f (1 / 2))); (farr (1%nat :: nil) (f 2), fins (f 2))]%list /\ 0 < 1 / 2 /\ 0 < 2.
Proof. cbv zeta. split; [split; [reflexivity|repeat constructor]|repeat split; simpl; lra]. Qed.

(** the gamma distribution with given scale, the inverse of the rate *)
Theorem C41_gamma_scale :
forall (obs shape scale : arr) (s : list nat) (y a c : list nat -> R),
  params s [(obs, fins y); (shape, fins a); (scale, fins c)]%list -> (forall i, inb s i -> 0 < a i /\ 0 < c i) ->
  returns (logs_gamma obs shape None (Some scale)) s (fun i => logp (gamma_pdf (a i) (1 / c i) (y i))) /\
  forall i, inb s i -> distribution (gamma_cdf (a i) (1 / c i)) (gamma_pdf (a i) (1 / c i)) 0 p_infty.
Proof. exact C41_gamma_scale_l. Qed.
Print Assumptions C41_gamma_scale.
Example C41_gamma_scale_ex : let f v := fun _ : list nat => v in
  params (2%nat :: nil) [(farr (2%nat :: nil) (f 3), fins (f 3)); (farr nil (f (1 / 2)), fins (f (1 / 2))); (farr (1%nat :: nil) (f 2), fins (f 2))]%list /\ 0 < 1 / 2 /\ 0 < 2.
Proof. cbv zeta. split; [split; [reflexivity|repeat constructor]|repeat split; simpl; lra]. Qed.

(** the beta distribution on an interval; observations other than the two ends *)
Theorem C41_beta :
forall (obs a b lower upper : arr) (s : list nat) (y p q l u : list nat -> R),
  params s [(obs, fins y); (a, fins p); (b, fins q); (lower, fins l); (upper, fins u)]%list -> (forall i, inb s i -> 0 < p i /\ 0 < q i /\ l i < u i /\ y i <> l i /\ y i <> u i) ->
  returns (logs_beta obs a b lower upper) s (fun i => logp (ls_pdf (beta_pdf (p i) (q i)) (l i) (u i - l i) (y i))) /\
  forall i, inb s i -> distribution (ls_cdf (beta_cdf (p i) (q i)) (l i) (u i - l i)) (ls_pdf (beta_pdf (p i) (q i)) (l i) (u i - l i)) (l i) (u i).
Proof. exact C41_beta_l. Qed.
Print Assumptions C41_beta.
Example C41_beta_ex : let f v := fun _ : list nat => v in
  params (2%nat :: nil) [(farr (2%nat :: nil) (f 3), fins (f 3)); (farr nil (f (1 / 2)), fins (f (1 / 2))); (farr (1%nat :: nil) (f 2), fins (f 2)); (farr nil (f 1), fins (f 1)); (farr nil (f 4), fins (f 4))]%list /\ 0 < 1 / 2 /\ 0 < 2 /\ 1 < 4 /\ 3 <> 1 /\ 3 <> 4.
Proof. cbv zeta. split; [split; [reflexivity|repeat constructor]|repeat split; simpl; lra]. Qed.

(** Student's t distribution *)
Theorem C41_t :
forall (obs df location scale : arr) (s : list nat) (y n m c : list nat -> R),
  params s [(obs, fins y); (df, fins n); (location, fins m); (scale, fins c)]%list -> (forall i, inb s i -> 0 < n i /\ 0 < c i) ->
  returns (logs_t obs df location scale) s (fun i => logp (ls_pdf (t_pdf (n i)) (m i) (c i) (y i))) /\
  forall i, inb s i -> distribution (ls_cdf (t_cdf (n i)) (m i) (c i)) (ls_pdf (t_pdf (n i)) (m i) (c i)) m_infty p_infty.
Proof. exact C41_t_l. Qed.
Print Assumptions C41_t.
Example C41_t_ex : let f v := fun _ : list nat => v in
  params (2%nat :: nil) [(farr (2%nat :: nil) (f 3), fins (f 3)); (farr nil (f 5), fins (f 5)); (farr nil (f 1), fins (f 1)); (farr (1%nat :: nil) (f 2), fins (f 2))]%list /\ 0 < 5 /\ 0 < 2.
Proof. cbv zeta. split; [split; [reflexivity|repeat constructor]|repeat split; simpl; lra]. Qed.

(** the t distribution truncated to an interval, whose ends may be infinite *)
Theorem C41_tt :
forall (obs df location scale lower upper : arr) (s : list nat) (y n m c : list nat -> R) (l u : list nat -> Rbar),
  params s [(obs, fins y); (df, fins n); (location, fins m); (scale, fins c); (lower, fun i => rbn (l i)); (upper, fun i => rbn (u i))]%list ->
  (forall i, inb s i -> 0 < n i /\ 0 < c i /\ Rbar_lt (l i) (u i)) ->
  returns (logs_tt obs df location scale lower upper) s (fun i => logp (trunc_pdf (ls_cdf (t_cdf (n i)) (m i) (c i)) (ls_pdf (t_pdf (n i)) (m i) (c i)) (l i) (u i) (y i))) /\
  forall i, inb s i -> distribution (truncensx (ls_cdf (t_cdf (n i)) (m i) (c i)) (l i) (u i) 0 0) (trunc_pdf (ls_cdf (t_cdf (n i)) (m i) (c i)) (ls_pdf (t_pdf (n i)) (m i) (c i)) (l i) (u i)) (l i) (u i).
Proof. exact C41_tt_l. Qed.
Print Assumptions C41_tt.
Example C41_tt_ex : let f v := fun _ : list nat => v in
  params (2%nat :: nil) [(farr (2%nat :: nil) (f 3), fins (f 3)); (farr nil (f 5), fins (f 5)); (farr nil (f 1), fins (f 1)); (farr (1%nat :: nil) (f 2), fins (f 2));
    (num0 (rbn (Finite 0)), fun _ => rbn (Finite 0)); (num0 (rbn p_infty), fun _ => rbn p_infty)]%list /\ 0 < 5 /\ 0 < 2 /\ Rbar_lt (Finite 0) p_infty.
Proof. cbv zeta. split; [split; [reflexivity|repeat constructor]|split; [lra|split; [lra|exact I]]]. Qed.

(** With shape one the gamma distribution is the exponential distribution, but at observation 0 the
    two log scores differ: infinity and 0. *)
Theorem C41_gamma_exponential_refuted :
(forall t, 0 < t -> gamma_pdf 1 1 t = exponential_pdf 1 t) /\
  returns (logs_gamma (farr nil (fun _ => 0)) (farr nil (fun _ => 1)) (Some (farr nil (fun _ => 1))) None) nil (fun _ => PInf) /\
  returns (logs_exponential (farr nil (fun _ => 0)) (farr nil (fun _ => 1))) nil (fun _ => Fin 0).
Proof. exact C41_gamma_exponential_refuted_l. Qed.
Print Assumptions C41_gamma_exponential_refuted.

(** An observation that is not an integer has probability 0, but the binomial and hypergeometric log
    scores of it are finite (for Poisson and negative binomial distributions they are infinite). *)
Theorem C41_fraction_refuted :
exists y : R, (exists v, returns (logs_binomial (farr nil (fun _ => y)) (farr nil (fun _ => 1)) (farr nil (fun _ => 1 / 2))) nil (fun _ => Fin v)) /\
  (exists v, returns (logs_hypergeometric (farr nil (fun _ => y)) (farr nil (fun _ => 1)) (farr nil (fun _ => 1)) (farr nil (fun _ => 1))) nil (fun _ => Fin v)) /\
  logp (outcome (binomial_pmf 1 (1 / 2)) y) = PInf /\ logp (outcome (hypergeometric_pmf 1 1 1) y) = PInf.
Proof. exact C41_fraction_refuted_l. Qed.
Print Assumptions C41_fraction_refuted.
