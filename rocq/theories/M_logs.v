(** Model of the logarithmic scores: core/logarithmic.py and _logs.py.  Model file: no proofs. *)
From Verif Require Export M_closed M_crps M_dss.
Open Scope R_scope.

Definition inf : tensor := scn PInf.

(** * core/logarithmic.py *)
(** 26-61, clogs_ensemble *)
Definition clogs_core (obs fct a b bw : tensor) (cens : bool) : tensor :=
  let z := ((aexpand 0 obs - fct) / bw)%A in
  let a_z := ((a - fct) / bw)%A in
  let b_z := ((b - fct) / bw)%A in
  let dens := (_norm_pdf z / bw)%A in
  let dens := amean dens in
  let s1 := aneg (alog dens) in
  let F_a := amean (_norm_cdf a_z) in
  let F_b := amean (_norm_cdf b_z) in
  let cons := (F_b - F_a)%A in
  let w_ind := aand (obs >? a)%A (obs <? b)%A in
  if cens then awhere w_ind s1 (aneg (alog (sci 1 - cons)%A))
  else awhere w_ind (s1 + alog cons)%A (sc 0).
(** 64-82 *)
Definition logs_beta (obs a b lower upper : arr) : tensor :=
  let a := Ok a in let b := Ok b in
  let con := abeta a b in
  let scale := (Ok upper - Ok lower)%A in
  let obs := ((Ok obs - Ok lower) / scale)%A in
  let ind_out := aor (obs <? sc 0)%A (obs >? sc 1)%A in
  let obs := awhere ind_out nan obs in
  let prob := (apow obs (a - sci 1) * apow (sci 1 - obs) (b - sci 1) / con)%A in
  awhere ind_out inf (aneg (alog (prob / scale)%A)).
(** 85-98 *)
Definition logs_binomial (obs n prob : arr) : tensor :=
  let zind := (Ok obs <? sc 0)%A in
  let obs := awhere zind nan (Ok obs) in
  let prob := _binom_pdf obs (Ok n) (Ok prob) in
  awhere zind inf (aneg (alog prob)).
(** 101-111 *)
Definition logs_exponential (obs rate : arr) : tensor :=
  let zind := (Ok obs <? sc 0)%A in
  let obs := awhere zind nan (Ok obs) in
  let prob := _exp_pdf obs (Ok rate) in
  awhere zind inf (aneg (alog prob)).
(** 114-130: the value returned and the caller's [obs] array after the call *)
Definition logs_exponential2_mem (obs location scale : arr) : tensor * arr :=
  match aset nsub obs (Ok location) with
  | Err e => (Err e, obs)
  | Ok obs1 =>
      let rate := (sci 1 / Ok scale)%A in
      let zind := (Ok obs1 <? sc 0)%A in
      let obs := awhere zind nan (Ok obs1) in
      let prob := _exp_pdf obs rate in
      (awhere zind inf (aneg (alog prob)), obs1)
  end.
Definition logs_exponential2 (obs location scale : arr) : tensor :=
  fst (logs_exponential2_mem obs location scale).
(** 133-148 *)
Definition logs_2pexponential (obs scale1 scale2 location : arr) : tensor :=
  let scale1 := Ok scale1 in let scale2 := Ok scale2 in
  let obs := (Ok obs - Ok location)%A in
  let scale := awhere (obs <? sc 0)%A scale1 scale2 in
  let rate := (sci 1 / scale)%A in
  let con := (scale / (scale1 + scale2))%A in
  let prob := (_exp_pdf (aabs obs) rate * con)%A in
  aneg (alog prob).
(** 151-161, gamma *)
Definition logs_gamma_core (obs shape rate : tensor) : tensor := aneg (alog (_gamma_pdf obs shape rate)).
(** 164-179 *)
Definition logs_gev (obs shape location scale : arr) : tensor :=
  let scale := Ok scale in
  let w := ((Ok obs - Ok location) / scale)%A in
  let prob := _gev_pdf w (Ok shape) in
  let prob0 := aeq prob (sc 0) in
  let prob := awhere prob0 nan (prob / scale)%A in
  awhere prob0 inf (aneg (alog prob)).
(** 182-197 *)
Definition logs_gpd (obs shape location scale : arr) : tensor :=
  let scale := Ok scale in
  let w := ((Ok obs - Ok location) / scale)%A in
  let prob := _gpd_pdf w (Ok shape) in
  let prob0 := aeq prob (sc 0) in
  let prob := awhere prob0 nan (prob / scale)%A in
  awhere prob0 inf (aneg (alog prob)).
(** 200-213 *)
Definition logs_hypergeometric (obs m n k : arr) : tensor :=
  let M := (Ok m + Ok n)%A in
  aneg (alog (_hypergeo_pdf (Ok obs) M (Ok m) (Ok k))).
(** 216-227 *)
Definition logs_laplace (obs location scale : arr) : tensor :=
  let mu := Ok location in let sigma := Ok scale in
  let w := ((Ok obs - mu) / sigma)%A in
  aneg (alog (_laplace_pdf w / sigma)%A).
(** 230-244 *)
Definition logs_loglaplace (obs locationlog scalelog : arr) : tensor :=
  let mulog := Ok locationlog in let sigmalog := Ok scalelog in
  let zind := (Ok obs <=? sc 0)%A in
  let obs := awhere zind nan (Ok obs) in
  let w := ((alog obs - mulog) / sigmalog)%A in
  let prob := (_laplace_pdf w / sigmalog)%A in
  awhere zind inf (aneg (alog (prob / obs)%A)).
(** 247-258 *)
Definition logs_logistic (obs mu sigma : arr) : tensor :=
  let mu := Ok mu in let sigma := Ok sigma in
  let w := ((Ok obs - mu) / sigma)%A in
  aneg (alog (_logis_pdf w / sigma)%A).
(** 261-275 *)
Definition logs_loglogistic (obs mulog sigmalog : arr) : tensor :=
  let mulog := Ok mulog in let sigmalog := Ok sigmalog in
  let zind := (Ok obs <=? sc 0)%A in
  let obs := awhere zind nan (Ok obs) in
  let w := ((alog obs - mulog) / sigmalog)%A in
  let prob := (_logis_pdf w / sigmalog)%A in
  awhere zind inf (aneg (alog (prob / obs)%A)).
(** 278-292 *)
Definition logs_lognormal (obs mulog sigmalog : arr) : tensor :=
  let mulog := Ok mulog in let sigmalog := Ok sigmalog in
  let zind := (Ok obs <=? sc 0)%A in
  let obs := awhere zind nan (Ok obs) in
  let w := ((alog obs - mulog) / sigmalog)%A in
  let prob := (_norm_pdf w / sigmalog)%A in
  awhere zind inf (aneg (alog (prob / obs)%A)).
(** 295-309 *)
Definition mixnorm_logs_core (obs m s w : tensor) : tensor :=
  let z := ((aexpand 0 obs - m) / s)%A in
  let prob := (_norm_pdf z / s)%A in
  let prob := asum (w * prob)%A in
  aneg (alog prob).
(** 312-325, negbinom *)
Definition logs_negbinom_core (obs n prob : tensor) : tensor :=
  let zind := aor (obs <? sc 0)%A (ane (afloor obs) obs) in
  let obs := awhere zind nan obs in
  let prob := _negbinom_pdf obs n prob in
  awhere zind inf (aneg (alog prob)).
(** 328-342 *)
Definition logs_normal (obs mu sigma : arr) (negative : bool) : tensor :=
  let mu := Ok mu in let sigma := Ok sigma in
  let constant := sc (if negative then -1 else 1) in
  let w := ((Ok obs - mu) / sigma)%A in
  let prob := (_norm_pdf w / sigma)%A in
  (constant * alog prob)%A.
(** 345-360 *)
Definition logs_2pnormal (obs scale1 scale2 location : arr) : tensor :=
  let scale1 := Ok scale1 in let scale2 := Ok scale2 in
  let obs := (Ok obs - Ok location)%A in
  let scale := awhere (obs <? sc 0)%A scale1 scale2 in
  let obs := (obs / scale)%A in
  let con := (sci 2 * scale / (scale1 + scale2))%A in
  let prob := (_norm_pdf obs * con / scale)%A in
  aneg (alog prob).
(** 363-372 *)
Definition logs_poisson (obs mean : arr) : tensor := aneg (alog (_pois_pdf (Ok obs) (Ok mean))).
(** 375-387 *)
Definition logs_t (obs df location scale : arr) : tensor :=
  let mu := Ok location in let sigma := Ok scale in
  let w := ((Ok obs - mu) / sigma)%A in
  aneg (alog (_t_pdf w (Ok df) / sigma)%A).
(** 390-411 *)
Definition logs_tlogistic (obs location scale lower upper : arr) : tensor :=
  let mu := Ok location in let sigma := Ok scale in
  let w := ((Ok obs - mu) / sigma)%A in
  let u := ((Ok upper - mu) / sigma)%A in
  let l := ((Ok lower - mu) / sigma)%A in
  let F_u := _logis_cdf u in
  let F_l := _logis_cdf l in
  let denom := (F_u - F_l)%A in
  let ind_out := aor (w <? l)%A (w >? u)%A in
  let prob := (_logis_pdf w / sigma)%A in
  awhere ind_out inf (aneg (alog (prob / denom)%A)).
(** 414-435 *)
Definition logs_tnormal (obs location scale lower upper : arr) : tensor :=
  let mu := Ok location in let sigma := Ok scale in
  let w := ((Ok obs - mu) / sigma)%A in
  let u := ((Ok upper - mu) / sigma)%A in
  let l := ((Ok lower - mu) / sigma)%A in
  let F_u := _norm_cdf u in
  let F_l := _norm_cdf l in
  let denom := (F_u - F_l)%A in
  let ind_out := aor (w <? l)%A (w >? u)%A in
  let prob := (_norm_pdf w / sigma)%A in
  awhere ind_out inf (aneg (alog (prob / denom)%A)).
(** 438-462 *)
Definition logs_tt (obs df location scale lower upper : arr) : tensor :=
  let df := Ok df in let mu := Ok location in let sigma := Ok scale in
  let w := ((Ok obs - mu) / sigma)%A in
  let u := ((Ok upper - mu) / sigma)%A in
  let l := ((Ok lower - mu) / sigma)%A in
  let F_u := _t_cdf u df in
  let F_l := _t_cdf l df in
  let denom := (F_u - F_l)%A in
  let ind_out := aor (w <? l)%A (w >? u)%A in
  let prob := (_t_pdf w df / sigma)%A in
  awhere ind_out inf (aneg (alog (prob / denom)%A)).
(** 465-476 *)
Definition logs_uniform (obs min max : arr) : tensor :=
  let ind_out := aor (Ok obs >? Ok max)%A (Ok obs <? Ok min)%A in
  let prob := awhere ind_out (sc 0) (sc 1 / (Ok max - Ok min))%A in
  aneg (alog prob).

(** * _logs.py *)
(** [np.quantile(x, q, axis=-1)] of a row, linear interpolation between order statistics *)
Definition nquantile (q : R) (l : list num) : num :=
  let h := q * INR (length l - 1) in
  let k := Z.to_nat (Int_part h) in
  let x := nsort l in
  if existsb nisnan l then NaN else
  nadd (nth k x NaN) (nmul (Fin (h - INR k)) (nsub (nth (Nat.min (S k) (length l - 1)) x NaN) (nth k x NaN))).
Definition aquantile (q : R) : tensor -> tensor := areduce dfloat1 (nquantile q).
(** lines 57-65 and 129-137: Silverman's rule, then [B.stack([bw] * M, axis=-1)], which repeats
    the bandwidths along a new last axis ([np.stack] of no array raises ValueError).  A given
    [bw] is an array without the ensemble axis. *)
Definition silverman (fct : arr) : tensor :=
  let sigmahat := astd false fct in
  let q75 := aquantile (3 / 4) (Ok fct) in
  let q25 := aquantile (1 / 4) (Ok fct) in
  let iqr := (q75 - q25)%A in
  (sc (106 / 100) * amin sigmahat (iqr / sc (134 / 100)) * scn (npow (nofnat (lastdim fct)) (Fin (- 1 / 5))))%A.
Definition bandwidths (fct : arr) (bw : option arr) : tensor :=
  let* bw := match bw with None => silverman fct | Some bw => Ok bw end in
  if (lastdim fct =? 0)%nat then Err ValueError
  else Ok (mkArr (dt bw) (lastdim fct :: sh bw) (fun i => at_ bw (tl i))).
(** 11-69, logs_ensemble; the body starts at line 53 *)
Definition logs_ensemble (obs fct : arr) (m_axis : Z) (bw : option arr) : tensor :=
  let* (obs, fct) := univariate_array_check obs fct m_axis in
  let bw := bandwidths fct bw in
  let w := (Ok (mkArr DFloat (sh fct) (fun _ => Fin 1)) / sci (lastdim fct))%A in
  mixnorm_logs_core (Ok obs) (Ok fct) bw w.
(** 72-147, clogs_ensemble; the body starts at line 125 *)
Definition clogs_ensemble (obs fct a b : arr) (m_axis : Z) (bw : option arr) (cens : bool) : tensor :=
  let* (obs, fct) := univariate_array_check obs fct m_axis in
  let bw := bandwidths fct bw in
  clogs_core (Ok obs) (Ok fct) (Ok a) (Ok b) bw cens.
(** 331-377, logs_gamma; the body starts at line 369 *)
Definition logs_gamma (obs shape : arr) (rate scale : option arr) : tensor :=
  match rate, scale with
  | None, None | Some _, Some _ => Err ValueError
  | Some rate, None => logs_gamma_core (Ok obs) (Ok shape) (Ok rate)
  | None, Some scale => let* rate := (sc 1 / Ok scale)%A in logs_gamma_core (Ok obs) (Ok shape) (Ok rate)
  end.
(** 662-714, logs_mixnorm; the body starts at line 700 *)
Definition logs_mixnorm (obs m s : arr) (w : option arr) (mc_axis : Z) : tensor :=
  let* w := match w with
            | None => let* M := py_index mc_axis (pyshape m) in
                      (Ok (mkArr DFloat (sh m) (fun _ => Fin 1)) / sci M)%A
            | Some w => Ok w
            end in
  if (mc_axis =? -1)%Z then mixnorm_logs_core (Ok obs) (Ok m) (Ok s) (Ok w)
  else let* m := amove_last mc_axis (Ok m) in
       let* s := amove_last mc_axis (Ok s) in
       let* w := amove_last mc_axis (Ok w) in
       mixnorm_logs_core (Ok obs) (Ok m) (Ok s) (Ok w).
(** 717-763, logs_negbinom; the body starts at line 755 *)
Definition logs_negbinom (obs n : arr) (prob mu : option arr) : tensor :=
  match prob, mu with
  | None, None | Some _, Some _ => Err ValueError
  | Some prob, None => logs_negbinom_core (Ok obs) (Ok n) (Ok prob)
  | None, Some mu => let* prob := (Ok n / (Ok n + Ok mu))%A in logs_negbinom_core (Ok obs) (Ok n) (Ok prob)
  end.
