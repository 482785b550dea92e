(** Property C79: the NaN policy for multivariate ensembles. *)
From Coq Require Import String.
From Verif Require Import T_nanmv.
From Coq Require Import Reals List Psatz Lia.
Import ListNotations.
Open Scope R_scope.

(** C79.  'omit' marks a member exactly when one of its variables is NaN, replaces all of its variables by 0 and leaves the other members and the observations as they are. *)
Theorem C79_omit :
forall obs fct D s, sh fct = (D :: s)%list ->
  exists fct' mask, apply_nan_policy_ens_mv obs fct "omit" = Ok (obs, fct', Some mask) /\
    sh fct' = sh fct /\ sh mask = s /\ dt mask = DInt /\ dt fct' = DFloat /\
    forall r, inb s r ->
      ((exists d, (d < D)%nat /\ at_ fct (d :: r)%list = NaN) ->
         at_ mask r = Fin 1 /\ forall d, (d < D)%nat -> at_ fct' (d :: r)%list = Fin 0) /\
      ((forall d, (d < D)%nat -> at_ fct (d :: r)%list <> NaN) ->
         at_ mask r = Fin 0 /\ forall d, (d < D)%nat -> at_ fct' (d :: r)%list = at_ fct (d :: r)%list).
Proof. exact C79_omit_l. Qed.
Print Assumptions C79_omit.
Example C79_omit_ex : exists fct' mask, apply_nan_policy_ens_mv ex_obs ex_fct "omit" = Ok (ex_obs, fct', Some mask) /\
  at_ mask [0%nat] = Fin 0 /\ at_ mask [1%nat] = Fin 1 /\ at_ fct' [1%nat; 0%nat] = Fin 2 /\ at_ fct' [1%nat; 1%nat] = Fin 0.
Proof.
  destruct (C79_omit ex_obs ex_fct 2 [2%nat] eq_refl) as (f & m & E & _ & _ & _ & _ & H). exists f, m. split; [exact E|].
  destruct (H [0%nat] ltac:(simpl; lia)) as (_ & A). destruct (H [1%nat] ltac:(simpl; lia)) as (B & _).
  destruct A as (A1 & A2); [intros [|[|d]] Hd; simpl; [discriminate|discriminate|lia]|].
  destruct B as (B1 & B2); [exists 0%nat; split; [lia|reflexivity]|].
  split; [exact A1|]. split; [exact B1|]. split; [rewrite (A2 1%nat ltac:(lia)); reflexivity|apply B2; lia].
Qed.

(** C79.  After 'omit' the forecasts hold no NaN: 'omit' again marks nothing and changes nothing, and 'raise' accepts them when the observations hold no NaN. *)
Theorem C79_clean :
forall obs fct D s fct' mask, sh fct = (D :: s)%list -> apply_nan_policy_ens_mv obs fct "omit" = Ok (obs, fct', Some mask) ->
  (forall i, inb (sh fct) i -> at_ fct' i <> NaN) /\
  (exists fct2 mask2, apply_nan_policy_ens_mv obs fct' "omit" = Ok (obs, fct2, Some mask2) /\ sh fct2 = sh fct /\
     (forall i, inb (sh fct) i -> at_ fct2 i = at_ fct' i) /\ forall r, inb s r -> at_ mask2 r = Fin 0) /\
  ((forall i, inb (sh obs) i -> at_ obs i <> NaN) -> apply_nan_policy_ens_mv obs fct' "raise" = Ok (obs, fct', None)).
Proof. exact C79_clean_l. Qed.
Print Assumptions C79_clean.
Example C79_clean_ex : exists fct' mask, apply_nan_policy_ens_mv ex_obs ex_fct "omit" = Ok (ex_obs, fct', Some mask) /\
  apply_nan_policy_ens_mv ex_obs fct' "raise" = Ok (ex_obs, fct', None).
Proof.
  destruct (C79_omit ex_obs ex_fct 2 [2%nat] eq_refl) as (f & m & E & _). exists f, m. split; [exact E|].
  apply (C79_clean ex_obs ex_fct 2 [2%nat] f m eq_refl E). intros i _. discriminate.
Qed.

(** C79.  'raise' raises ValueError exactly when the forecasts or the observations hold a NaN; otherwise it returns them as they are. *)
Theorem C79_raise :
forall obs fct,
  (((exists i, inb (sh fct) i /\ at_ fct i = NaN) \/ (exists i, inb (sh obs) i /\ at_ obs i = NaN)) <->
     apply_nan_policy_ens_mv obs fct "raise" = Err ValueError) /\
  ((forall i, inb (sh fct) i -> at_ fct i <> NaN) -> (forall i, inb (sh obs) i -> at_ obs i <> NaN) ->
     apply_nan_policy_ens_mv obs fct "raise" = Ok (obs, fct, None)).
Proof. exact C79_raise_l. Qed.
Print Assumptions C79_raise.
Example C79_raise_ex : apply_nan_policy_ens_mv ex_obs ex_fct "raise" = Err ValueError /\ apply_nan_policy_ens_mv ex_obs ex_obs "raise" = Ok (ex_obs, ex_obs, None).
Proof.
  split; [apply C79_raise; left; exists [0%nat; 1%nat]; split; [simpl; lia|reflexivity]|].
  apply C79_raise; intros i _; discriminate.
Qed.

(** C79.  Every other policy string, known or not, is treated as 'propagate': nothing is checked and the arrays are returned as they are.  The univariate helper raises ValueError for an unknown policy. *)
Theorem C79_other :
forall obs fct nan_policy, nan_policy <> "raise"%string -> nan_policy <> "omit"%string ->
  apply_nan_policy_ens_mv obs fct nan_policy = Ok (obs, fct, None) /\
  (nan_policy <> "propagate"%string -> forall estimator m_axis, apply_nan_policy_ens_uv obs fct nan_policy None estimator m_axis = Err ValueError).
Proof. exact C79_other_l. Qed.
Print Assumptions C79_other.
Example C79_other_ex : apply_nan_policy_ens_mv ex_obs ex_fct "drop" = Ok (ex_obs, ex_fct, None) /\ apply_nan_policy_ens_uv ex_obs ex_fct "drop" None None (-1) = Err ValueError.
Proof. split; apply C79_other; discriminate. Qed.

(** C79.  'omit' needs an axis of variables: forecasts without axes raise AxisError. *)
Theorem C79_axis :
forall obs fct, sh fct = nil -> apply_nan_policy_ens_mv obs fct "omit" = Err AxisError.
Proof. exact C79_axis_l. Qed.
Print Assumptions C79_axis.
Example C79_axis_ex : apply_nan_policy_ens_mv ex_obs (mkArr DFloat [] (fun _ => NaN)) "omit" = Err AxisError.
Proof. now apply C79_axis. Qed.
