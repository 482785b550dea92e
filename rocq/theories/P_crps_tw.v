(** Property C19: [twcrps_ensemble]. *)
From Verif Require Import T_crps_tw L_examples.
Open Scope R_scope.

(** C19.  nrg, qd and int: the CRPS integral restricted to [a, b], a and b possibly infinite;
    any dtype of the inputs. *)
Theorem C19_threshold :
  forall srt be obs fct a b ax s p M y x e pol,
  argsort_ok srt -> ens_args obs fct ax s p M y x -> (0 < M)%nat -> thresholds a b ->
  In e ["nrg"; "qd"; "int"]%string -> In pol ["propagate"; "raise"]%string ->
  exists v, returns (twcrps_ensemble srt be obs fct a b ax None None e false pol) s (fun r => Fin (v r)) /\
    forall r, inb s r -> is_twcrps (ecdf M (member p x r)) (y r) a b (v r).
Proof. exact C19_threshold_l. Qed.
Print Assumptions C19_threshold.
Example C19_case : argsort_ok asort /\ ens_args ex_obs ex_fct 0 [2%nat] 1 3 ex_y ex_x /\ thresholds (Fin (-1)) (Fin 2) /\ thresholds NInf (Fin 0).
Proof. split; [apply asort_ok|]. split; [apply ex_args|]. simpl. lra. Qed.

(** C19.  The same for a weighted ensemble. *)
Theorem C19_threshold_weighted :
  forall srt be obs fct wt a b ax s p M y x w e pol,
  argsort_ok srt -> ens_args obs fct ax s p M y x -> (0 < M)%nat -> thresholds a b -> wts_args wt fct s p M w ->
  In e ["nrg"; "qd"; "int"]%string -> In pol ["propagate"; "raise"]%string ->
  exists v, returns (twcrps_ensemble srt be obs fct a b ax (Some wt) None e false pol) s (fun r => Fin (v r)) /\
    forall r, inb s r -> is_twcrps (wcdf M (member p w r) (member p x r)) (y r) a b (v r).
Proof. exact C19_threshold_weighted_l. Qed.
Print Assumptions C19_threshold_weighted.

(** C19.  With the default infinite thresholds and float inputs (NaN and infinities included)
    twcrps_ensemble returns what crps_ensemble returns, for every estimator, policy propagate;
    with or without weights. *)
Theorem C19_default :
  forall srt be obs fct ax s p M y x e sf,
  argsort_ok srt -> ens_nums obs fct ax s p M y x -> dt obs = DFloat -> dt fct = DFloat ->
  In e ["nrg"; "fair"; "pwm"; "qd"; "int"; "akr"; "akr_circperm"]%string ->
  (exists v, returns (twcrps_ensemble srt be obs fct NInf PInf ax None None e sf "propagate") s v /\
             returns (crps_ensemble srt be obs fct ax None e sf "propagate") s v) /\
  forall wt w, sh wt = insert_at p M s -> (forall i, inb (insert_at p M s) i -> at_ wt i = w i) ->
   (forall r k, inb s r -> (k < M)%nat -> nltb (member p w r k) (Fin 0) = false) ->
   exists v, returns (twcrps_ensemble srt be obs fct NInf PInf ax (Some wt) None e sf "propagate") s v /\
             returns (crps_ensemble srt be obs fct ax (Some wt) e sf "propagate") s v.
Proof. exact C19_default_l. Qed.
Print Assumptions C19_default.
Example C19_default_case : ens_nums ex_obs ex_fct 0 [2%nat] 1 3 (fun r => Fin (ex_y r)) (fun i => Fin (ex_x i)) /\
  dt ex_obs = DFloat /\ dt ex_fct = DFloat.
Proof. split; [apply args_nums, ex_args|split; reflexivity]. Qed.

(** C19.  With a chaining function v that maps reals to reals: the kernel form with v applied to
    the members and to the observation, as documented; a and b are ignored. *)
Theorem C19_chaining :
  forall srt be obs fct a b ax s p M y x g e pol,
  argsort_ok srt -> ens_args obs fct ax s p M y x -> (0 < M)%nat ->
  In e ["nrg"; "qd"; "int"]%string -> In pol ["propagate"; "raise"]%string ->
  returns (twcrps_ensemble srt be obs fct a b ax None (Some (fun v => match v with Fin r => Fin (g r) | v => v end)) e false pol) s
    (fun r => Fin (sumn M (fun i => Rabs (g (member p x r i) - g (y r))) / INR M
                   - sumn M (fun i => sumn M (fun j => Rabs (g (member p x r i) - g (member p x r j)))) / (2 * INR M * INR M))).
Proof. exact C19_chaining_l. Qed.
Print Assumptions C19_chaining.
