(** Model of the Dawid-Sebastiani score for multivariate ensembles.  Model file: no proofs.

    [np.linalg.inv] and [np.linalg.det] are exact (M_mat.v): in floating point a singular matrix
    may pass for a regular one and the other way round. *)
From Verif Require Export M_mv M_mat.
Open Scope nat_scope.

(** [np.cov(fct, rowvar=False, bias=bias)], numpy 2.3.5 (uv.lock) and numba: entry (a, b) for the
    members [F]; the factor is [1 / max(M - ddof, 0)] *)
Definition column (F : list (list num)) (a : nat) : list num := map (fun x => ith x a) F.
Definition ncov (bias : bool) (F : list (list num)) (a b : nat) : num :=
  let ma := nmean (column F a) in
  let mb := nmean (column F b) in
  nsum (map (fun x => (ith x a .- ma) .* (ith x b .- mb)) F)
  .* (Fin 1 ./ nofnat (length F - (if bias then 0 else 1))).
Definition fin_of (x : num) : option R := match x with Fin r => Some r | _ => None end.
Definition real_of (x : num) : R := match fin_of x with Some r => r | None => 0%R end.
(** all entries of a D x D matrix are finite *)
Definition all_fin (D : nat) (C : nat -> nat -> num) : bool :=
  forallb (fun a => forallb (fun b => if fin_of (C a b) then true else false) (seq 0 D)) (seq 0 D).

(** the part the two implementations share: [obs_cent], [inv], [det], the two matrix products and
    the sum; [bad] is the outcome for a covariance matrix that is not finite *)
Definition dss_mat (bad : res num) (bias : bool) (obs : list num) (fct : list (list num)) : res num :=
  let D := length obs in
  let cov := ncov bias fct in
  if all_fin D cov then
    let C := fun a b => real_of (cov a b) in
    if Req_EM_T (Rdet D C) 0 then Err LinAlgError else
    let prec := Rinvm D C in
    let log_det := nlog (Fin (Rdet D C)) in
    let obs_cent := fun a => ith obs a .- nmean (column fct a) in
    let bias_precision :=
      nsum (map (fun b => nsum (map (fun a => obs_cent a .* Fin (prec a b)) (seq 0 D)) .* obs_cent b) (seq 0 D)) in
    Ok (bias_precision .+ log_det)
  else bad.

(** * core/dss/_score.py *)
(** 48-64, ds_score_mv_mat.  For one variable [np.cov] returns a 0-dimensional array and
    [np.linalg.inv] raises LinAlgError.  LAPACK propagates NaN and infinities to NaN. *)
Definition ds_score_mv_mat (bias : bool) (obs : list num) (fct : list (list num)) : res num :=
  if length obs =? 1 then Err LinAlgError else dss_mat (Ok NaN) bias obs fct.

(** the scores of all grid points, or the first exception *)
Fixpoint first_err (l : list (res num)) : res unit :=
  match l with [] => Ok tt | Ok _ :: l' => first_err l' | Err e :: _ => Err e end.
Definition val_of (x : res num) : num := match x with Ok v => v | Err _ => NaN end.

(** 24-45, ds_score_mv.  [B.reshape] with one unknown length refuses arrays with an axis of length
    zero among the others, [B.stack] an empty list.  [multivariate_array_check] has made the shapes
    of the two arguments equal up to the ensemble axis. *)
Definition ds_score_mv (obs fct : arr) (bias : bool) : tensor :=
  match sh fct with
  | D :: M :: s =>
      if (D =? 0) || (M =? 0) || existsb (fun k => k =? 0) s then Err ValueError else
      let k := fun r => ds_score_mv_mat bias (gV obs r) (gM fct r) in
      let* _ := first_err (map k (all_idx s)) in
      Ok (mkArr DFloat s (fun r => val_of (k r)))
  | _ => Err ValueError
  end.

(** * core/dss/_gufuncs.py *)
(** 21-31, _dss_mv_gufunc.  numba's [np.cov] refuses a single row (RuntimeError) and returns a
    1 x 1 matrix for one variable; its [np.linalg.inv] refuses matrices that are not finite. *)
Definition dss_mv_k (bias : bool) (obs : list num) (fct : list (list num)) : res num :=
  if length fct =? 1 then Err RuntimeError else dss_mat (Err LinAlgError) bias obs fct.

(** * scoringrules/_dss.py *)
(** 54-99, dssmv_ensemble; the body starts at line 95.  [bias] is one boolean. *)
Definition dssmv_ensemble (backend : impl) (obs fct : arr) (m_axis v_axis : Z) (bias : bool) : tensor :=
  let* (obs, fct) := multivariate_array_check obs fct m_axis v_axis in
  match backend with
  | Numba =>
      let k := dss_mv_k bias in
      let* (_, so) := gcore1 obs in
      let* (_, _, sf) := gcore2 fct in
      let* L := gloop [so; sf] in
      let* _ := first_err (map (fun r => k (gV obs r) (gM fct r)) (all_idx L)) in
      gu_vm out_lazy_mv (fun o f => val_of (k o f)) obs fct
  | Array => ds_score_mv obs fct bias
  end.
