(** Model of _quantile.py, _interval.py, core/interval/*.py, _brier.py, core/brier.py and the
    input checks of core/utils.py that they use.  Model file: no proofs. *)
From Verif Require Export M_crps.
Open Scope nat_scope.

(** _quantile.py 12-58, quantile_score; [B.asarray(obs < fct, dtype=alpha.dtype)] casts a
    boolean array *)
Definition quantile_score (obs fct alpha : arr) : tensor :=
  let* b1 := aany (Ok alpha <? sci 0)%A in
  let* b2 := aany (sci 1 <? Ok alpha)%A in
  if b1 || b2 then Err ValueError else
  ((acast (dt alpha) (Ok obs <? Ok fct) - Ok alpha) * (Ok fct - Ok obs))%A.

(** core/interval/_score.py 9-22, interval_score *)
Definition interval_core (obs lower upper alpha : tensor) : tensor :=
  let width := (upper - lower)%A in
  let above := (obs >? upper)%A in
  let below := (obs <? lower)%A in
  let W := (width + below * (sci 2 / alpha) * (lower - obs))%A in
  ainplace nadd W (above * (sci 2 / alpha) * (obs - upper))%A.

(** _interval.py 90-110, interval_score (the same for every backend) *)
Definition interval_score (obs lower upper alpha : arr) : tensor :=
  if negb (shape_eqb (pyshape lower) (pyshape upper)) then Err ValueError else
  let* obs := (match sh alpha with
               | [K] => let* obs := aexpand 0 (Ok obs) in
                        let* l := py_index (-1) (pyshape lower) in
                        let* u := py_index (-1) (pyshape upper) in
                        if negb (l =? K) || negb (u =? K) then Err ValueError else Ok obs
               | _ => Ok obs
               end) in
  asqueeze (interval_core (Ok obs) (Ok lower) (Ok upper) (Ok alpha)).

(** core/interval/_score.py 25-41, weighted_interval_score; note [w_median * median] *)
Definition wis_arr (obs median lower upper alpha w_median w_alpha : arr) : tensor :=
  let* K := py_index 0 (pyshape w_alpha) in
  let IS := interval_core (aexpand 0 (Ok obs)) (Ok lower) (Ok upper) (Ok alpha) in
  let WIS := asum (IS * Ok w_alpha)%A in
  let WIS := ainplace nadd WIS (Ok w_median * Ok median)%A in
  let WIS := ainplace ndiv WIS (sc (INR K + 1 / 2)) in
  asqueeze WIS.

(** core/interval/_gufunc.py 9-31, _weighted_interval_score_gufunc *)
Definition wis_k (obs median : num) (lower upper alpha : list num) (weight_median : num)
    (weight_alpha : list num) : num :=
  let K := length alpha in
  let wis := fold_left (fun wis '(low, upp, a, w_a) =>
               let ws_a := (upp .- low)
                           .+ b2n (nltb obs low) .* (n2 ./ a) .* (low .- obs)
                           .+ b2n (nltb upp obs) .* (n2 ./ a) .* (obs .- upp) in
               wis .+ w_a .* ws_a)
             (combine (combine (combine lower upper) alpha) weight_alpha) n0 in
  let wis := wis .+ weight_median .* nabs (obs .- median) in
  wis ./ (Fin (INR K + 1 / 2)).
Definition wis_gu (obs median lower upper alpha w_median w_alpha : arr) : tensor :=
  let* (n1, s1) := gcore1 lower in
  let* (n2, s2) := gcore1 upper in
  let* (n3, s3) := gcore1 alpha in
  let* (n4, s4) := gcore1 w_alpha in
  let* _ := check ((n1 =? n2) && (n1 =? n3) && (n1 =? n4)) in
  let* L := gloop [sh obs; sh median; s1; s2; s3; sh w_median; s4] in
  gout_like obs L (fun r => wis_k (gS obs r) (gS median r) (gV lower r) (gV upper r) (gV alpha r)
                                  (gS w_median r) (gV w_alpha r)).

(** _interval.py 113-181, weighted_interval_score *)
Definition weighted_interval_score (backend : impl) (obs median lower upper alpha : arr)
    (w_median w_alpha : option arr) : tensor :=
  let* w_median := (match w_median with None => sc half | Some w => Ok w end) in
  let* w_alpha := (match w_alpha with None => (Ok alpha / sci 2)%A | Some w => Ok w end) in
  match backend with
  | Numba => wis_gu obs median lower upper alpha w_median w_alpha
  | Array => wis_arr obs median lower upper alpha w_median w_alpha
  end.

(** utils.py 14 *)
Definition EPSILON : R := (1 / 100000)%R.

(** utils.py 27-35, binary_array_check.  Python's [nan in {0, 1}] is False. *)
Definition binary_array_check (obs fct : arr) : res (arr * arr) :=
  let* b1 := aany (Ok fct <? sc 0)%A in
  let* b2 := aany (sc (1 + EPSILON) <? Ok fct)%A in
  if b1 || b2 then Err ValueError else
  if negb (forallb (fun i => neqb (at_ obs i) (Fin 0) || neqb (at_ obs i) (Fin 1)) (all_idx (sh obs)))
  then Err ValueError else Ok (obs, fct).

(** utils.py 38-61, categorical_array_check *)
Definition categorical_array_check (obs fct : arr) (k_axis : Z) (onehot : bool) : res (arr * arr) :=
  let* b1 := aany (Ok fct <? sc 0)%A in
  let* b2 := aany (sc (1 + EPSILON) <? Ok fct)%A in
  if b1 || b2 then Err ValueError else
  let* fct := (if (k_axis =? -1)%Z then Ok fct else amove_last k_axis (Ok fct)) in
  let* obs := (if negb (k_axis =? -1)%Z && onehot then amove_last k_axis (Ok obs) else Ok obs) in
  if onehot then
    if negb (shape_eqb (pyshape obs) (pyshape fct)) then Err ValueError else Ok (obs, fct)
  else
    if negb (shape_eqb (pyshape obs) (py_take (-1) (pyshape fct))) then Err ValueError else
    let* K := py_index (-1) (pyshape fct) in
    let* obs := awhere (aeq (aexpand 0 (Ok obs)) (aarange 1 (K + 1))) (sci 1) (sci 0) in
    Ok (obs, fct).

(** core/brier.py 11-15 and _brier.py 10-52, brier_score *)
Definition brier_score (obs fct : arr) : tensor :=
  let* (obs, fct) := binary_array_check obs fct in
  asq (Ok fct - Ok obs)%A.

(** core/brier.py 18-25 and _brier.py 55-123, rps_score *)
Definition rps_score (obs fct : arr) (k_axis : Z) (onehot : bool) : tensor :=
  let* (obs, fct) := categorical_array_check obs fct k_axis onehot in
  asum (asq (acumsum (Ok fct) - acumsum (Ok obs))%A).

(** core/brier.py 28-31 and _brier.py 126-157, log_score *)
Definition log_score (obs fct : arr) : tensor :=
  let* (obs, fct) := binary_array_check obs fct in
  aneg (alog (aabs (Ok fct + Ok obs - sc 1)%A)).

(** core/brier.py 34-44 and _brier.py 160-205, rls_score *)
Definition rls_score (obs fct : arr) (k_axis : Z) (onehot : bool) : tensor :=
  let* (obs, fct) := categorical_array_check obs fct k_axis onehot in
  asum (aneg (alog (aabs (acumsum (Ok fct) + acumsum (Ok obs) - sc 1)%A))).
