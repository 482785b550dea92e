(** Property C42: logs_ensemble and clogs_ensemble.  In all theorems the batch shape, the
    position of the ensemble axis and its python number (negative or not) are arbitrary. *)
From Verif Require Import T_clogs.
From Coq Require Import Psatz.
From Coquelicot Require Import Coquelicot.
Open Scope R_scope.

(** With the default bounds -inf and inf both likelihood scores are the log score, for finite
    observations and members and any finite bandwidths (positive, zero or negative; the score
    may be NaN) or Silverman's bandwidths. *)
Theorem C42_reduction :
forall obs fct ax s p M y x bw cens, ens_args obs fct ax s p M y x -> (0 < M)%nat -> finite_bw bw s ->
  exists f, returns (logs_ensemble obs fct ax bw) s f /\
    returns (clogs_ensemble obs fct (num0 NInf) (num0 PInf) ax bw cens) s f.
Proof. exact C42_reduction_l. Qed.
Print Assumptions C42_reduction.
Example C42_reduction_case : exists obs fct, ens_args obs fct 0 (2%nat :: nil) 1 3 (fun _ => 1) (fun i => match i with r :: k :: _ => INR (r + k) | _ => 0 end) /\
  finite_bw (Some (num0 (Fin 2))) (2%nat :: nil) /\ finite_bw None (2%nat :: nil).
Proof.
exists (farr (2%nat :: nil) (fun _ => 1)), (farr (2%nat :: 3%nat :: nil) (fun i => (match i with r :: k :: _ => INR (r + k) | _ => 0 end))).
split; [repeat split; auto; try (left; reflexivity); try (right; reflexivity)|]. split; [|exact I]. exists (fun _ => 2). split; [reflexivity|]. intros i _. reflexivity.
Qed.

(** logs_ensemble is minus the log density of the kernel density estimate. *)
Theorem C42_log_score :
forall obs fct ax s p M y x b h, ens_args obs fct ax s p M y x -> (0 < M)%nat -> broadcasts b s (fun r => Fin (h r)) ->
  (forall r, inb s r -> 0 < h r) ->
  returns (logs_ensemble obs fct ax (Some b)) s (fun r => Fin (log_score (kde M (member p x r) (h r)) (y r))).
Proof. exact C42_log_score_l. Qed.
Print Assumptions C42_log_score.

(** clogs_ensemble with scalar bounds, finite or infinite, is the censored or the conditional
    likelihood score of the kernel density estimate. *)
Theorem C42_likelihood_scores :
forall obs fct ax s p M y x b h (lo up : Rbar) (cens : bool), ens_args obs fct ax s p M y x -> (0 < M)%nat ->
  broadcasts b s (fun r => Fin (h r)) -> (forall r, inb s r -> 0 < h r) ->
  returns (clogs_ensemble obs fct (num0 (rbn lo)) (num0 (rbn up)) ax (Some b) cens) s
    (fun r => Fin (if cens then censored_score M (member p x r) (h r) lo up (y r)
                   else conditional_score M (member p x r) (h r) lo up (y r))).
Proof. exact C42_likelihood_scores_l. Qed.
Print Assumptions C42_likelihood_scores.
Example C42_likelihood_scores_case : exists obs fct b, ens_args obs fct (-1) (2%nat :: nil) 0 3 (fun i => INR (hd 0%nat i)) (fun i => match i with k :: r :: _ => INR (r + k) | _ => 0 end) /\
  broadcasts b (2%nat :: nil) (fun r => Fin (INR (S (hd 0%nat r)))) /\ (forall r, inb (2%nat :: nil) r -> 0 < INR (S (hd 0%nat r))) /\
  Rbar_lt (Finite (1 / 2)) p_infty.
Proof.
exists (farr (2%nat :: nil) (fun i => (INR (hd 0%nat i)))), (farr (3%nat :: 2%nat :: nil) (fun i => (match i with k :: r :: _ => INR (r + k) | _ => 0 end))),
  (farr (2%nat :: nil) (fun i => (INR (S (hd 0%nat i))))).
split; [repeat split; auto; try (left; reflexivity); try (right; reflexivity)|]. split; [split; [reflexivity|]|split; [intros; apply lt_0_INR; lia|exact I]]. intros i Hi. cbn [sh farr]. rewrite bidx_id by auto. reflexivity.
Qed.

(** The bounded interval has positive probability, so the conditional density is defined, and
    probability less than one unless both bounds are infinite. *)
Theorem C42_conditional_mass :
forall M x h (lo up : Rbar), (0 < M)%nat -> 0 < h -> Rbar_lt lo up ->
  0 < kprob M x h lo up <= 1 /\ (kprob M x h lo up = 1 <-> lo = m_infty /\ up = p_infty).
Proof. exact C42_conditional_mass_l. Qed.
Print Assumptions C42_conditional_mass.

(** Without bandwidths both functions use, for every forecast, Silverman's rule of thumb
    1.06 min(sd, iqr / 1.34) M^(-1/5), for at least two members. *)
Theorem C42_silverman :
forall obs fct ax s p M y x, ens_args obs fct ax s p M y x -> (1 < M)%nat ->
  exists b h, arr_is b (dt b) s (fun r => Fin (h r)) /\ (forall r, inb s r -> silverman_bw M (member p x r) (h r)) /\
    logs_ensemble obs fct ax None = logs_ensemble obs fct ax (Some b) /\
    forall lo up cens, clogs_ensemble obs fct lo up ax None cens = clogs_ensemble obs fct lo up ax (Some b) cens.
Proof. exact C42_silverman_l. Qed.
Print Assumptions C42_silverman.

(** With a single member Silverman's rule gives NaN, and so do the scores. *)
Theorem C42_silverman_one_member :
forall obs fct ax s p y x, ens_args obs fct ax s p 1 y x ->
  returns (logs_ensemble obs fct ax None) s (fun _ => NaN).
Proof. exact C42_silverman_one_member_l. Qed.
Print Assumptions C42_silverman_one_member.

(** The scores need not be numbers: an ensemble of distinct members whose quartiles coincide
    gets bandwidth 0 from Silverman's rule, and the score NaN. *)
Theorem C42_silverman_ties_refuted :
exists obs fct y x, ens_args obs fct (-1) nil 0 5 y x /\ spread 5 (member 0 x nil) /\
  returns (logs_ensemble obs fct (-1) None) nil (fun _ => NaN).
Proof. exact C42_silverman_ties_refuted_l. Qed.
Print Assumptions C42_silverman_ties_refuted.

(** The bounds are documented as array_like but are aligned with the ensemble axis instead of
    the batch: one pair of bounds per observation raises ValueError when their number is
    not the number of members. *)
Theorem C42_array_bounds_refuted :
exists obs fct a b y x, ens_args obs fct (-1) (2%nat :: nil) 0 3 y x /\ arr_is a DFloat (2%nat :: nil) (fun _ => NInf) /\
  arr_is b DFloat (2%nat :: nil) (fun _ => PInf) /\
  forall cens, clogs_ensemble obs fct a b (-1) (Some (num0 (Fin 1))) cens = Err ValueError.
Proof. exact C42_array_bounds_refuted_l. Qed.
Print Assumptions C42_array_bounds_refuted.

(** With as many members as observations the bounds of other observations silently enter the
    score: the score of the first of two observations, both of whose bounds are infinite, is
    not the one obtained with infinite scalar bounds. *)
Theorem C42_array_bounds_mixed_refuted :
exists obs fct a b y x v w, ens_args obs fct (-1) (2%nat :: nil) 0 2 y x /\ arr_is a DFloat (2%nat :: nil) (fun r => if (hd 0%nat r =? 0)%nat then NInf else Fin 0) /\ arr_is b DFloat (2%nat :: nil) (fun _ => PInf) /\
  returns (clogs_ensemble obs fct a b (-1) (Some (num0 (Fin 1))) false) (2%nat :: nil) v /\
  returns (clogs_ensemble obs fct (num0 NInf) (num0 PInf) (-1) (Some (num0 (Fin 1))) false) (2%nat :: nil) w /\
  v (0%nat :: nil) <> w (0%nat :: nil).
Proof. exact C42_array_bounds_mixed_refuted_l. Qed.
Print Assumptions C42_array_bounds_mixed_refuted.
