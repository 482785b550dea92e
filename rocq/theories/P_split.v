(** Property C86: threshold-weighted CRPS on adjacent and nested ranges.  [inside a b a' b'] (S_split.v): a' <= a <= b <= b'. *)
From Coq Require Import Psatz Lia.
From Verif Require Import T_split L_crps_call L_examples.
Open Scope R_scope.

(** C86.  The scores of two adjacent ranges add up to the score of their union, for every estimator. *)
Theorem C86_split :
forall srt be obs fct a b c ax s p M y x e sf pol,
  argsort_ok srt -> ens_args obs fct ax s p M y x -> (0 < M)%nat -> thresholds a b -> thresholds b c ->
  In e ["nrg"; "fair"; "pwm"; "qd"; "int"; "akr"; "akr_circperm"]%string -> (In e ["fair"; "pwm"]%string -> (1 < M)%nat) ->
  In pol ["propagate"; "raise"]%string -> sorted_if sf s p M x ->
  exists u v w, returns (twcrps_ensemble srt be obs fct a b ax None None e sf pol) s (fun r => Fin (u r)) /\
    returns (twcrps_ensemble srt be obs fct b c ax None None e sf pol) s (fun r => Fin (v r)) /\
    returns (twcrps_ensemble srt be obs fct a c ax None None e sf pol) s (fun r => Fin (w r)) /\
    forall r, inb s r -> w r = u r + v r.
Proof. exact C86_split_l. Qed.
Print Assumptions C86_split.
(** the ranges [-1, 2] and [2, inf) *)
Example C86_split_ex : thresholds (Fin (-1)) (Fin 2) /\ thresholds (Fin 2) PInf /\ argsort_ok asort /\ ens_args ex_obs ex_fct 0 (2%nat :: nil) 1 3 ex_y ex_x.
Proof. split; [simpl; lra|]. split; [exact I|]. split; [apply asort_ok|apply ex_args]. Qed.

(** C86.  The same with weights. *)
Theorem C86_split_weighted :
forall srt be obs fct wt a b c ax s p M y x g e sf pol,
  argsort_ok srt -> ens_args obs fct ax s p M y x -> wts_args wt fct s p M g -> (0 < M)%nat -> thresholds a b -> thresholds b c ->
  In e ["nrg"; "fair"; "pwm"; "qd"; "int"; "akr"; "akr_circperm"]%string -> (In e ["fair"; "pwm"]%string -> forall r, inb s r -> two_positive M (member p g r)) ->
  In pol ["propagate"; "raise"]%string -> sorted_if sf s p M x ->
  exists u v w, returns (twcrps_ensemble srt be obs fct a b ax (Some wt) None e sf pol) s (fun r => Fin (u r)) /\
    returns (twcrps_ensemble srt be obs fct b c ax (Some wt) None e sf pol) s (fun r => Fin (v r)) /\
    returns (twcrps_ensemble srt be obs fct a c ax (Some wt) None e sf pol) s (fun r => Fin (w r)) /\
    forall r, inb s r -> w r = u r + v r.
Proof. exact C86_split_weighted_l. Qed.
Print Assumptions C86_split_weighted.
Example C86_split_weighted_ex : thresholds NInf (Fin 2) /\ thresholds (Fin 2) (Fin 3) /\ wts_args ex_wt ex_fct (2%nat :: nil) 1 3 ex_w /\ (forall r, inb (2%nat :: nil) r -> two_positive 3 (member 1 ex_w r)).
Proof. split; [exact I|]. split; [simpl; lra|]. split; [apply ex_wargs|apply ex_two]. Qed.

(** C86.  The scores below and above a threshold add up to the CRPS, with or without weights. *)
Theorem C86_halves :
forall srt be obs fct t ax s p M y x e sf pol,
  argsort_ok srt -> ens_args obs fct ax s p M y x -> (0 < M)%nat -> (be = Numba -> dt obs = DFloat) ->
  In e ["nrg"; "fair"; "pwm"; "qd"; "int"; "akr"; "akr_circperm"]%string -> In pol ["propagate"; "raise"]%string -> sorted_if sf s p M x ->
  ((In e ["fair"; "pwm"]%string -> (1 < M)%nat) ->
   exists u v w, returns (twcrps_ensemble srt be obs fct NInf (Fin t) ax None None e sf pol) s (fun r => Fin (u r)) /\
    returns (twcrps_ensemble srt be obs fct (Fin t) PInf ax None None e sf pol) s (fun r => Fin (v r)) /\
    returns (crps_ensemble srt be obs fct ax None e sf pol) s (fun r => Fin (w r)) /\ forall r, inb s r -> w r = u r + v r) /\
  forall wt g, wts_args wt fct s p M g -> (In e ["fair"; "pwm"]%string -> forall r, inb s r -> two_positive M (member p g r)) ->
   exists u v w, returns (twcrps_ensemble srt be obs fct NInf (Fin t) ax (Some wt) None e sf pol) s (fun r => Fin (u r)) /\
    returns (twcrps_ensemble srt be obs fct (Fin t) PInf ax (Some wt) None e sf pol) s (fun r => Fin (v r)) /\
    returns (crps_ensemble srt be obs fct ax (Some wt) e sf pol) s (fun r => Fin (w r)) /\ forall r, inb s r -> w r = u r + v r.
Proof. exact C86_halves_l. Qed.
Print Assumptions C86_halves.
Example C86_halves_ex : exists u v w, returns (twcrps_ensemble asort Numba ex_obs ex_fct NInf (Fin 1) 0 None None "fair" false "raise") (2%nat :: nil) (fun r => Fin (u r)) /\
  returns (twcrps_ensemble asort Numba ex_obs ex_fct (Fin 1) PInf 0 None None "fair" false "raise") (2%nat :: nil) (fun r => Fin (v r)) /\
  returns (crps_ensemble asort Numba ex_obs ex_fct 0 None "fair" false "raise") (2%nat :: nil) (fun r => Fin (w r)) /\ forall r, inb (2%nat :: nil) r -> w r = u r + v r.
Proof. apply (C86_halves asort Numba ex_obs ex_fct 1 0 (2%nat :: nil) 1 3 ex_y ex_x); simpl; auto; [apply asort_ok|apply ex_args|discriminate]. Qed.

(** C86.  A wider range never gives a smaller score: every estimator without weights, nrg, qd and int with weights. *)
Theorem C86_monotone :
forall srt be obs fct a b a' b' ax s p M y x e sf pol,
  argsort_ok srt -> ens_args obs fct ax s p M y x -> (0 < M)%nat -> inside a b a' b' -> In pol ["propagate"; "raise"]%string -> sorted_if sf s p M x ->
  (In e ["nrg"; "fair"; "pwm"; "qd"; "int"; "akr"; "akr_circperm"]%string -> (In e ["fair"; "pwm"]%string -> (1 < M)%nat) ->
   exists u v, returns (twcrps_ensemble srt be obs fct a b ax None None e sf pol) s (fun r => Fin (u r)) /\
    returns (twcrps_ensemble srt be obs fct a' b' ax None None e sf pol) s (fun r => Fin (v r)) /\ forall r, inb s r -> u r <= v r) /\
  forall wt g, In e ["nrg"; "qd"; "int"]%string -> wts_args wt fct s p M g ->
   exists u v, returns (twcrps_ensemble srt be obs fct a b ax (Some wt) None e sf pol) s (fun r => Fin (u r)) /\
    returns (twcrps_ensemble srt be obs fct a' b' ax (Some wt) None e sf pol) s (fun r => Fin (v r)) /\ forall r, inb s r -> u r <= v r.
Proof. exact C86_monotone_l. Qed.
Print Assumptions C86_monotone.
Example C86_monotone_ex : inside (Fin 0) (Fin 1) (Fin (-1)) (Fin 2) /\ inside (Fin 0) (Fin 1) NInf PInf /\ inside NInf (Fin 1) NInf (Fin 1).
Proof. unfold inside. simpl. repeat split; try lra; auto; right; do 2 eexists; (split; [reflexivity|split; [reflexivity|lra]]). Qed.

(** C86.  With weights, fair can decrease on a wider range: members 0 and 1 of weights 3 and 1, observation 0, ranges [0, 0] and [0, 1]. *)
Theorem C86_monotone_refuted :
exists y x w v, v < 0 /\ (forall k, 0 < w k) /\ inside (Fin 0) (Fin 0) (Fin 0) (Fin 1) /\ forall srt b, argsort_ok srt ->
    returns (twcrps_ensemble srt b (farr [] (fun _ => y)) (real1 2 x) (Fin 0) (Fin 0) (-1) (Some (real1 2 w)) None "fair" false "propagate") [] (fun _ => Fin 0) /\
    returns (twcrps_ensemble srt b (farr [] (fun _ => y)) (real1 2 x) (Fin 0) (Fin 1) (-1) (Some (real1 2 w)) None "fair" false "propagate") [] (fun _ => Fin v).
Proof. exact C86_monotone_refuted_l. Qed.
Print Assumptions C86_monotone_refuted.

(** C86.  On a bounded range the score is between 0 and the length of the range. *)
Theorem C86_bounded :
forall srt be obs fct a b ax s p M y x e sf pol,
  argsort_ok srt -> ens_args obs fct ax s p M y x -> (0 < M)%nat -> a <= b ->
  In e ["nrg"; "fair"; "pwm"; "qd"; "int"; "akr"; "akr_circperm"]%string -> (In e ["fair"; "pwm"]%string -> (1 < M)%nat) ->
  In pol ["propagate"; "raise"]%string -> sorted_if sf s p M x ->
  exists v, returns (twcrps_ensemble srt be obs fct (Fin a) (Fin b) ax None None e sf pol) s (fun r => Fin (v r)) /\ forall r, inb s r -> 0 <= v r <= b - a.
Proof. exact C86_bounded_l. Qed.
Print Assumptions C86_bounded.
Example C86_bounded_ex : exists v, returns (twcrps_ensemble asort Array ex_obs ex_fct (Fin 1) (Fin 3) 0 None None "akr" false "raise") (2%nat :: nil) (fun r => Fin (v r)) /\ forall r, inb (2%nat :: nil) r -> 0 <= v r <= 3 - 1.
Proof. apply (C86_bounded asort Array ex_obs ex_fct 1 3 0 (2%nat :: nil) 1 3 ex_y ex_x); [apply asort_ok|apply ex_args|lia|lra|simpl; tauto|lia|simpl; tauto|discriminate]. Qed.
