(** Model of the Dawid-Sebastiani score for univariate ensembles and of the error-spread score.
    Model file: no proofs. *)
From Verif Require Export M_crps.
Open Scope nat_scope.

(** [x ** 3] *)
Definition ncube (x : num) : num := nmul (nmul x x) x.
Definition acube := amap (fun d => d) ncube.

(** backend/numpy.py 50-60, std with [axis=-1]: [np.std(x, ddof = 0 if bias else 1)].
    numpy divides by [max(M - ddof, 0)]. *)
Definition astd (bias : bool) (fct : arr) : tensor :=
  let m := amean_keep (Ok fct) in
  let v := asum (asq (Ok fct - m)%A) in
  asqrt (v / sci (lastdim fct - (if bias then 0 else 1)))%A.

(** * core/dss/_score.py *)
(** 9-21, ds_score_uv *)
Definition ds_score_uv (obs fct : arr) (bias : bool) : tensor :=
  let ens_mean := amean (Ok fct) in
  let sig := astd bias fct in
  let bias_precision := asq ((Ok obs - ens_mean) / sig)%A in
  let log_sig := (sci 2 * alog sig)%A in
  (bias_precision + log_sig)%A.

(** * core/dss/_gufuncs.py *)
(** 7-18, _dss_uv_gufunc; [np.mean] and [np.sum] of a row *)
Definition dss_uv_k (bias : bool) (obs : num) (fct : list num) : num :=
  let ens_mean := nmean fct in
  let fact := nofnat (length fct) .- Fin 1 in
  let fact := if bias then fact .+ Fin 1 else fact in
  let var := nsum (map (fun x => nsq (x .- ens_mean)) fct) ./ fact in
  let sig := nsqrt var in
  let log_sig := Fin 2 .* nlog sig in
  let bias_precision := nsq ((obs .- ens_mean) ./ sig) in
  bias_precision .+ log_sig.

(** * scoringrules/_dss.py *)
(** 10-51, dssuv_ensemble; the body starts at line 47.  [bias] is one boolean. *)
Definition dssuv_ensemble (backend : impl) (obs fct : arr) (m_axis : Z) (bias : bool) : tensor :=
  let* (obs, fct) := univariate_array_check obs fct m_axis in
  match backend with
  | Numba => gu_sv out_lazy (dss_uv_k bias) obs fct
  | Array => ds_score_uv obs fct bias
  end.

(** * core/error_spread/_score.py *)
(** 9-20; [(M - 1) * (M - 2)] is computed in python integers: 0 for M = 1 *)
Definition ess_arr (obs fct : arr) : tensor :=
  let M := lastdim fct in
  let m := amean (Ok fct) in
  let dev := (Ok fct - aexpand 0 m)%A in
  let s := asqrt (asum (asq dev) / sci (M - 1))%A in
  let g := (asum (acube (dev / aexpand 0 s)) / sci ((M - 1) * (M - 2)))%A in
  let e := (m - Ok obs)%A in
  asqueeze (asq (asq s - asq e - e * s * g)%A).

(** * core/error_spread/_gufunc.py *)
(** 7-36 *)
Definition ess_k (obs : num) (fct : list num) : num :=
  let M := length fct in
  let m := fold_left (fun m x => m .+ x) fct n0 in
  let m := m ./ nofnat M in
  let s := fold_left (fun s x => s .+ nsq (x .- m)) fct n0 in
  let s := s ./ nofnat (M - 1) in
  let s := nsqrt s in
  let g := fold_left (fun g x => g .+ ncube ((x .- m) ./ s)) fct n0 in
  let g := g ./ nofnat ((M - 1) * (M - 2)) in
  let e := fold_left (fun e x => e .+ (x .- obs)) fct n0 in
  let e := e ./ nofnat M in
  nsq (nsq s .- nsq e .- e .* s .* g).

(** * scoringrules/_error_spread.py *)
(** 10-41, error_spread_score; the body starts at line 36 *)
Definition error_spread_score (backend : impl) (obs fct : arr) (m_axis : Z) : tensor :=
  let* (obs, fct) := univariate_array_check obs fct m_axis in
  match backend with
  | Numba => gu_sv out_lazy ess_k obs fct
  | Array => ess_arr obs fct
  end.
