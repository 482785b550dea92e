(** scoringrules/core/utils.py 281-307: the NaN policy for multivariate ensembles.  No public
    function calls it yet; the module exports it.  [obs] and [fct] are arrays of the backend
    (the function does not convert them); the backend is numpy (jax behaves alike). *)
From Coq Require Import String.
From Verif Require Export Arr.
From Coq Require Import Reals List.
Import ListNotations.
Open Scope R_scope.

(** backend/numpy.py 176-184, [B.any(x, axis=-1)] *)
Definition aany_last : tensor -> tensor :=
  areduce (fun _ => DInt) (fun l => b2n (existsb (fun v => negb (neqb v (Fin 0))) l)).

(** utils.py 281-307.  A policy other than 'raise' and 'omit' falls through to the last
    line, as 'propagate' does. *)
Definition apply_nan_policy_ens_mv (obs fct : arr) (nan_policy : string) : res (arr * arr * option arr) :=
  if (nan_policy =? "raise")%string then
    let* b1 := aany (aisnan (Ok fct)) in
    if b1 then Err ValueError else
    let* b2 := aany (aisnan (Ok obs)) in
    if b2 then Err ValueError else Ok (obs, fct, None)
  else if (nan_policy =? "omit")%string then
    let* nan_mask := aany_last (aisnan (Ok fct)) in
    let* fct := awhere (aexpand 0 (Ok nan_mask)) (sc 0) (Ok fct) in
    Ok (obs, fct, Some nan_mask)
  else Ok (obs, fct, None).
