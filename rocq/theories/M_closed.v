(** Model of the closed-form CRPS of parametric distributions: core/crps/_closed.py and the
    functions of _crps.py that call it.  All backends other than jax and torch share this code.
    Arguments are arrays; a python number is an array without axes.  crps_binomial is in
    M_binom.v.  Model file: no proofs. *)
From Verif Require Export M_stats.
Open Scope R_scope.

(** * core/crps/_closed.py *)
Definition asize (a : arr) : nat := fold_right Nat.mul 1%nat (sh a).
(** 771-774 *)
Definition _is_scalar_value (x : arr) (v : R) : bool :=
  (asize x =? 1)%nat && neqb (at_ x (map (fun _ => 0%nat) (sh x))) (Fin v).

(** 27-59 *)
Definition crps_beta (obs a b lower upper : arr) : tensor :=
  let std := _is_scalar_value lower 0 && _is_scalar_value upper 1 in
  let* bad := if std then Ok false else aany (age (Ok lower) (Ok upper)) in
  if bad then Err ValueError else
  let a := Ok a in let b := Ok b in let lower := Ok lower in let upper := Ok upper in
  let obs := if std then Ok obs else ((Ok obs - lower) / (upper - lower))%A in
  let I_ab := abetainc a b obs in
  let I_a1b := abetainc (a + sci 1)%A b obs in
  let F_ab := amin (amax I_ab (sci 0)) (sci 1) in
  let F_a1b := amin (amax I_a1b (sci 0)) (sci 1) in
  let bet_rat := (sci 2 * abeta (sci 2 * a) (sci 2 * b) / (a * asq (abeta a b)))%A in
  let s := (obs * (sci 2 * F_ab - sci 1) + (a / (a + b)) * (sci 1 - sci 2 * F_a1b - bet_rat))%A in
  if std then s else (s * (upper - lower))%A.

(** 124-131 *)
Definition crps_exponential (obs rate : arr) : tensor :=
  let obs := Ok obs in let rate := Ok rate in
  (aabs obs - (sci 2 * _exp_cdf obs rate / rate) + sci 1 / (sci 2 * rate))%A.

(** an in-place operator on an array received from the caller (also without axes): the result
    keeps its shape and its dtype *)
Definition aset (f : num -> num -> num) (a : arr) (y : tensor) : res arr :=
  let* b := y in
  match bshape (sh a) (sh b) with
  | None => Err ValueError
  | Some s => if negb (dtype_eqb (djoin (dt a) (dt b)) (dt a)) then Err TypeError
              else if list_eq_dec Nat.eq_dec s (sh a)
              then Ok (mkArr (dt a) s (fun i => f (at_ a (bidx (sh a) i)) (at_ b (bidx (sh b) i))))
              else Err ValueError
  end.
(** 134-156: the value returned and the caller's [obs] array after the call *)
Definition crps_exponentialM_mem (obs mass location scale : arr) : tensor * arr :=
  let after := if _is_scalar_value location 0 then Ok obs else aset nsub obs (Ok location) in
  match after with
  | Err e => (Err e, obs)
  | Ok obs =>
      let a := if _is_scalar_value mass 0 then sc 1 else (sci 1 - Ok mass)%A in
      let s := aabs (Ok obs) in
      (if _is_scalar_value scale 1
       then ainplace nsub s (a * (sci 2 * _exp_cdf (Ok obs) (sc 1) - sc (1 / 2) * a))%A
       else ainplace nsub s (Ok scale * a * (sci 2 * _exp_cdf (Ok obs) (sci 1 / Ok scale) - sc (1 / 2) * a))%A,
       obs)
  end.
Definition crps_exponentialM (obs mass location scale : arr) : tensor :=
  fst (crps_exponentialM_mem obs mass location scale).

Definition acubed := amap (fun d => d) (fun x => nmul (nmul x x) x).   (* [x ** 3] *)
(** 159-177 *)
Definition crps_2pexponential (obs scale1 scale2 location : arr) : tensor :=
  let scale1 := Ok scale1 in let scale2 := Ok scale2 in
  let obs := (Ok obs - Ok location)%A in
  let z := aabs obs in
  let c1 := (sci 2 * asq scale1 / (scale1 + scale2))%A in
  let c2 := (sci 2 * asq scale2 / (scale1 + scale2))%A in
  let c3 := ((acubed scale1 + acubed scale2) / (sci 2 * asq (scale1 + scale2)))%A in
  let s_1 := (z + c1 * aexp (aneg z / scale1) - c1 + c3)%A in
  let s_2 := (z + c2 * aexp (aneg z / scale2) - c2 + c3)%A in
  awhere (obs <? sc 0)%A s_1 s_2.

(** 180-196, gamma *)
Definition gamma_core (obs shape rate : tensor) : tensor :=
  let F_ab := _gamma_cdf obs shape rate in
  let F_ab1 := _gamma_cdf obs (shape + sci 1)%A rate in
  (obs * (sci 2 * F_ab - sci 1) - (shape / rate) * (sci 2 * F_ab1 - sci 1)
   - sci 1 / (rate * abeta (sc (1 / 2)) shape))%A.
(** 199-221, csg0 *)
Definition csg0_core (obs shape rate shift : tensor) : tensor :=
  let obs_shifted := (obs + shift)%A in
  let F_ab_shifted := _gamma_cdf obs_shifted shape rate in
  let F_2ab_2d := _gamma_cdf (sci 2 * shift)%A (sci 2 * shape)%A rate in
  let F_ab_d := _gamma_cdf shift shape rate in
  let F_ab1_d := _gamma_cdf shift (shape + sci 1)%A rate in
  let F_ab1_shifted := _gamma_cdf obs_shifted (shape + sci 1)%A rate in
  (obs_shifted * (sci 2 * F_ab_shifted - sci 1)
   - (shape / (rate * sc PI)) * abeta (sc (1 / 2)) (shape + sc (1 / 2)) * (sci 1 - F_2ab_2d)
   + shape / rate * (sci 1 + sci 2 * F_ab_d * F_ab1_d - asq F_ab_d - sci 2 * F_ab1_shifted)
   - shift * asq F_ab_d)%A.

(** 224 *)
Definition EULERMASCHERONI : R := 57721566490153286060651209008240243 / 100000000000000000000000000000000000.
(** [float(out) if out.size == 1 else out] *)
Definition float1 (x : tensor) : tensor :=
  let* a := x in
  if (asize a =? 1)%nat then Ok (mkArr DFloat [] (fun _ => at_ a (map (fun _ => 0%nat) (sh a)))) else Ok a.
(** 242-258, _gev_adjust_fn *)
Definition _gev_adjust_fn (s xi f_xi : tensor) : tensor :=
  let res := (nan * s)%A in
  let p_xi := (xi >? sci 0)%A in
  let n_xi := (xi <? sci 0)%A in
  let n_inv_xi := (sc (-1) / xi)%A in
  let gen_res := (n_inv_xi * f_xi + agammauinc (sci 1 - xi) (aneg (alog f_xi)) / xi)%A in
  let res := awhere (aand p_xi (s <=? n_inv_xi)%A) (sci 0) res in
  let res := awhere (aand p_xi (s >? n_inv_xi)%A) gen_res res in
  let res := awhere (aand n_xi (s <? n_inv_xi)%A) gen_res res in
  awhere (aand n_xi (age s n_inv_xi)) (n_inv_xi + agamma (sci 1 - xi) / xi)%A res.
(** 227-276 *)
Definition crps_gev (obs shape location scale : arr) : tensor :=
  let shape := Ok shape in let scale := Ok scale in
  let obs := ((Ok obs - Ok location) / scale)%A in
  let F_xi := _gev_cdf obs shape in
  let zero_shape := aeq shape (sc 0) in
  let shape := awhere (anot zero_shape) shape nan in
  let G_xi := _gev_adjust_fn obs shape F_xi in
  let out := awhere zero_shape
    (aneg obs - sci 2 * aexpi (alog F_xi) + sc EULERMASCHERONI - alog (sci 2))%A
    (obs * (sci 2 * F_xi - sci 1) - sci 2 * G_xi
     - (sci 1 - (sci 2 - apow (sci 2) shape) * agamma (sci 1 - shape)) / shape)%A in
  float1 (out * scale)%A.

(** 279-301 *)
Definition crps_gpd (obs shape location scale mass : arr) : tensor :=
  let shape := Ok shape in let scale := Ok scale in let mass := Ok mass in
  let shape := awhere (shape <? sc 1)%A shape nan in
  let mass := awhere (aand (age mass (sc 0)) (mass <=? sc 1)%A) mass nan in
  let w := ((Ok obs - Ok location) / scale)%A in
  let F_xi := _gpd_cdf w shape in
  let s := (aabs w
            - sci 2 * (sci 1 - mass) * (sci 1 - apow (sci 1 - F_xi) (sci 1 - shape)) / (sci 1 - shape)
            + asq (sci 1 - mass) / (sci 2 - shape))%A in
  (scale * s)%A.

(** 304-351 *)
Definition gtclogistic (obs location scale lower upper lmass umass : tensor) : tensor :=
  let mu := location in let sigma := scale in
  let w := ((obs - mu) / sigma)%A in
  let u := ((upper - mu) / sigma)%A in
  let l := ((lower - mu) / sigma)%A in
  let z := amin (amax w l) u in
  let F_u := _logis_cdf u in
  let F_l := _logis_cdf l in
  let F_mu := _logis_cdf (aneg u) in
  let F_ml := _logis_cdf (aneg l) in
  let F_mz := _logis_cdf (aneg z) in
  let u_inf := aeq u (scn PInf) in
  let l_inf := aeq l (scn NInf) in
  let F_mu := awhere (aor u_inf l_inf) nan F_mu in
  let F_ml := awhere (aor u_inf l_inf) nan F_ml in
  let u := awhere u_inf nan u in
  let l := awhere l_inf nan l in
  let G_u := awhere u_inf (sc 0) (u * F_u + alog F_mu)%A in
  let G_l := awhere l_inf (sc 0) (l * F_l + alog F_ml)%A in
  let H_u := awhere u_inf (sc 1) (F_u - u * asq F_u + (sci 1 - sci 2 * F_u) * alog F_mu)%A in
  let H_l := awhere l_inf (sc 0) (F_l - l * asq F_l + (sci 1 - sci 2 * F_l) * alog F_ml)%A in
  let c := ((sci 1 - lmass - umass) / (F_u - F_l))%A in
  let s1_u := awhere (aand u_inf (aeq umass (sc 0))) (sc 0) (u * asq umass)%A in
  let s1_l := awhere (aand l_inf (aeq lmass (sc 0))) (sc 0) (l * asq lmass)%A in
  let s1 := (aabs (w - z) + s1_u - s1_l)%A in
  let s2 := (c * z * ((sci 1 - sci 2 * lmass) * F_u + (sci 1 - sci 2 * umass) * F_l)
             / (sci 1 - lmass - umass))%A in
  let s3 := (c * (sci 2 * alog F_mz - sci 2 * G_u * umass - sci 2 * G_l * lmass))%A in
  let s4 := (asq c * (H_u - H_l))%A in
  (sigma * (s1 - s2 - s3 - s4))%A.

(** 354-403 *)
Definition gtcnormal (obs location scale lower upper lmass umass : tensor) : tensor :=
  let mu := location in let sigma := scale in
  let w := ((obs - mu) / sigma)%A in
  let u := ((upper - mu) / sigma)%A in
  let l := ((lower - mu) / sigma)%A in
  let z := amin (amax w l) u in
  let F_u := _norm_cdf u in
  let F_l := _norm_cdf l in
  let F_z := _norm_cdf z in
  let F_u2 := _norm_cdf (u * asqrt (sci 2))%A in
  let F_l2 := _norm_cdf (l * asqrt (sci 2))%A in
  let f_u := _norm_pdf u in
  let f_l := _norm_pdf l in
  let f_z := _norm_pdf z in
  let u_inf := aeq u (scn PInf) in
  let l_inf := aeq l (scn NInf) in
  let u := awhere u_inf nan u in
  let l := awhere l_inf nan l in
  let s1_u := awhere (aand u_inf (aeq umass (sc 0))) (sc 0) (u * asq umass)%A in
  let s1_l := awhere (aand l_inf (aeq lmass (sc 0))) (sc 0) (l * asq lmass)%A in
  let c := ((sci 1 - lmass - umass) / (F_u - F_l))%A in
  let s1 := (aabs (w - z) + s1_u - s1_l)%A in
  let s2 := (c * z * (sci 2 * F_z
             - ((sci 1 - sci 2 * lmass) * F_u + (sci 1 - sci 2 * umass) * F_l) / (sci 1 - lmass - umass)))%A in
  let s3 := (c * (sci 2 * f_z - sci 2 * f_u * umass - sci 2 * f_l * lmass))%A in
  let s4 := (asq c * (F_u2 - F_l2) / asqrt (sc PI))%A in
  (sigma * (s1 + s2 + s3 - s4))%A.

(** 406-471 *)
Definition gtct (obs df location scale lower upper lmass umass : tensor) : tensor :=
  let mu := location in let sigma := scale in
  let w := ((obs - mu) / sigma)%A in
  let u := ((upper - mu) / sigma)%A in
  let l := ((lower - mu) / sigma)%A in
  let z := amin (amax w l) u in
  let F_u := _t_cdf u df in
  let F_l := _t_cdf l df in
  let F_z := _t_cdf z df in
  let f_u := _t_pdf u df in
  let f_l := _t_pdf l df in
  let f_z := _t_pdf z df in
  let u_inf := aeq u (scn PInf) in
  let l_inf := aeq l (scn NInf) in
  let u := awhere u_inf nan u in
  let l := awhere l_inf nan l in
  let s1_u := awhere (aand u_inf (aeq umass (sc 0))) (sc 0) (u * asq umass)%A in
  let s1_l := awhere (aand l_inf (aeq lmass (sc 0))) (sc 0) (l * asq lmass)%A in
  let G_u := awhere u_inf (sc 0) (aneg f_u * (df + asq u) / (df - sci 1))%A in
  let G_l := awhere l_inf (sc 0) (aneg f_l * (df + asq l) / (df - sci 1))%A in
  let G_z := (aneg f_z * (df + asq z) / (df - sci 1))%A in
  let half := sc (1 / 2) in
  let I_u := awhere u_inf (sc 1) (abetainc half (df - half) (asq u / (df + asq u)))%A in
  let I_l := awhere l_inf (sc 1) (abetainc half (df - half) (asq l / (df + asq l)))%A in
  let sgn_u := awhere u_inf (sc 1) (u / aabs u)%A in
  let sgn_l := awhere l_inf (sc (-1)) (l / aabs l)%A in
  let H_u := ((sgn_u * I_u + sci 1) / sci 2)%A in
  let H_l := ((sgn_l * I_l + sci 1) / sci 2)%A in
  let Bbar := ((sci 2 * asqrt df / (df - sci 1)) * abeta half (df - half) / asq (abeta half (df / sci 2)))%A in
  let c := ((sci 1 - lmass - umass) / (F_u - F_l))%A in
  let s1 := (aabs (w - z) + s1_u - s1_l)%A in
  let s2 := (c * z * (sci 2 * F_z
             - ((sci 1 - sci 2 * lmass) * F_u + (sci 1 - sci 2 * umass) * F_l) / (sci 1 - lmass - umass)))%A in
  let s3 := (sci 2 * c * (G_z - G_u * umass - G_l * lmass))%A in
  let s4 := (asq c * Bbar * (H_u - H_l))%A in
  (sigma * (s1 + s2 - s3 - s4))%A.

(** 545-555 *)
Definition crps_laplace (obs location scale : arr) : tensor :=
  let mu := Ok location in let sigma := Ok scale in
  let obs := ((Ok obs - mu) / sigma)%A in
  (sigma * (aabs obs + aexp (aneg (aabs obs)) - sc (3 / 4)))%A.
(** 558-568 *)
Definition crps_logistic (obs mu sigma : arr) : tensor :=
  let mu := Ok mu in let sigma := Ok sigma in
  let w := ((Ok obs - mu) / sigma)%A in
  (sigma * (w - sci 2 * alog (_logis_cdf w) - sci 1))%A.
(** [B.broadcast_arrays]: element-wise operations of the results are those of the arguments,
    except for the error raised when the shapes do not fit *)
Definition broadcast3 (a b c : arr) : res (arr * arr * arr) :=
  match bshape (sh a) (sh b) with
  | None => Err ValueError
  | Some s0 =>
      match bshape s0 (sh c) with
      | None => Err ValueError
      | Some s => let on (x : arr) := mkArr (dt x) s (fun i => at_ x (bidx (sh x) i)) in Ok (on a, on b, on c)
      end
  end.
(** 571-603 *)
Definition crps_loglaplace (obs locationlog scalelog : arr) : tensor :=
  let* (obs, mulog, sigmalog) := broadcast3 obs locationlog scalelog in
  let obs := Ok obs in let mulog := Ok mulog in let sigmalog := Ok sigmalog in
  let logx_norm := ((alog obs - mulog) / sigmalog)%A in
  let cond_0 := (obs <=? sc 0)%A in
  let cond_1 := (obs <? aexp mulog)%A in
  let F_case_0 := acast DInt cond_0 in
  let F_case_1 := acast DInt (aand (anot cond_0) cond_1) in
  let F_case_2 := acast DInt (anot cond_1) in
  let F := (F_case_0 * sc 0 + F_case_1 * (sc (1 / 2) * aexp logx_norm)
            + F_case_2 * (sci 1 - sc (1 / 2) * aexp (aneg logx_norm)))%A in
  let A_case_0 := acast DInt cond_1 in
  let A_case_1 := acast DInt (anot cond_1) in
  let A := (A_case_0 * sci 1 / (sci 1 + sigmalog) * (sci 1 - apow (sci 2 * F) (sci 1 + sigmalog))
            + A_case_1 * sc (-1) / (sci 1 - sigmalog) * (sci 1 - apow (sci 2 * (sci 1 - F)) (sci 1 - sigmalog)))%A in
  (obs * (sci 2 * F - sci 1) + aexp mulog * (A + sigmalog / (sci 4 - asq sigmalog)))%A.
(** 606-619 *)
Definition crps_loglogistic (obs mulog sigmalog : arr) : tensor :=
  let obs := Ok obs in let mulog := Ok mulog in let sigmalog := Ok sigmalog in
  let F_ms := (sci 1 / (sci 1 + aexp (aneg (alog obs - mulog) / sigmalog)))%A in
  let b := abeta (sci 1 + sigmalog)%A (sci 1 - sigmalog)%A in
  let I_B := abetainc (sci 1 + sigmalog)%A (sci 1 - sigmalog)%A F_ms in
  (obs * (sci 2 * F_ms - sci 1) - aexp mulog * b * (sci 2 * I_B + sigmalog - sci 1))%A.
(** 622-637 *)
Definition crps_lognormal (obs mulog sigmalog : arr) : tensor :=
  let obs := Ok obs in let mulog := Ok mulog in let sigmalog := Ok sigmalog in
  let w := ((alog obs - mulog) / sigmalog)%A in
  let ex := (sci 2 * aexp (mulog + asq sigmalog / sci 2))%A in
  (obs * (sc 2 * _norm_cdf w - sci 1) - ex * (_norm_cdf (w - sigmalog) + _norm_cdf (sigmalog / asqrt (sc 2)) - sci 1))%A.
(** 640-666 *)
Definition mixnorm_crps_core (obs m s w : tensor) : tensor :=
  let m_y := (aexpand 0 obs - m)%A in
  let m_X := (aexpand 0 m - aexpand 1 m)%A in
  let s_X := asqrt (asq (aexpand 0 s) + asq (aexpand 1 s))%A in
  let w_X := (aexpand 0 w * aexpand 1 w)%A in
  let A_y := (m_y * (sci 2 * _norm_cdf (m_y / s) - sci 1) + sci 2 * s * _norm_pdf (m_y / s))%A in
  let A_X := (m_X * (sci 2 * _norm_cdf (m_X / s_X) - sci 1) + sci 2 * s_X * _norm_pdf (m_X / s_X))%A in
  let sc_1 := asum (w * A_y)%A in
  let sc_2 := asum2 (w_X * A_X)%A in
  (sc_1 - sc (1 / 2) * sc_2)%A.
(** 669-684, negbinom *)
Definition negbinom_core (obs n prob : tensor) : tensor :=
  let F_np := _negbinom_cdf obs n prob in
  let F_n1p := _negbinom_cdf (obs - sci 1)%A (n + sci 1)%A prob in
  let F2 := ahyp2f1 (n + sci 1)%A (sc (-4) * (sci 1 - prob) / asq prob)%A in
  (obs * (sci 2 * F_np - sci 1) - n * (sci 1 - prob) * (prob * (sci 2 * F_n1p - sci 1) + F2) / asq prob)%A.
(** 687-701 *)
Definition crps_normal (obs mu sigma : arr) : tensor :=
  let mu := Ok mu in let sigma := Ok sigma in
  let w := ((Ok obs - mu) / sigma)%A in
  (sigma * (w * (sc 2 * _norm_cdf w - sc 1) + sc 2 * _norm_pdf w - sc 1 / asqrt (sc PI)))%A.
(** 704-721 *)
Definition crps_poisson (obs mean : arr) : tensor :=
  let obs := Ok obs in let mean := Ok mean in
  let F_m := _pois_cdf obs mean in
  let f_m := _pois_pdf (afloor obs) mean in
  let I0 := abessel0 (sci 2 * mean)%A in
  let I1 := abessel1 (sci 2 * mean)%A in
  ((obs - mean) * (sci 2 * F_m - sci 1) + sci 2 * mean * f_m - mean * aexp (sc (-2) * mean) * (I0 + I1))%A.
(** 724-745 *)
Definition crps_t (obs df location scale : arr) : tensor :=
  let df := Ok df in let mu := Ok location in let sigma := Ok scale in
  let z := ((Ok obs - mu) / sigma)%A in
  let F_z := _t_cdf z df in
  let f_z := _t_pdf z df in
  let G_z := ((df + asq z) / (df - sci 1))%A in
  let s1 := (z * (sci 2 * F_z - sci 1))%A in
  let s2 := (sci 2 * f_z * G_z)%A in
  let half := sc (1 / 2) in
  let s3 := ((sci 2 * asqrt df / (df - sci 1)) * abeta half (df - half) / asq (abeta half (df / sci 2)))%A in
  (sigma * (s1 + s2 - s3))%A.
(** 748-768 *)
Definition crps_uniform (obs min max lmass umass : arr) : tensor :=
  let min := Ok min in let max := Ok max in let lmass := Ok lmass in let umass := Ok umass in
  let w := ((Ok obs - min) / (max - min))%A in
  let F_w := amin (amax w (sci 0)) (sci 1) in
  let s := (aabs (w - F_w) + asq F_w * (sci 1 - lmass - umass) - F_w * (sci 1 - sci 2 * lmass)
            + asq (sci 1 - lmass - umass) / sci 3 + (sci 1 - lmass) * umass)%A in
  ((max - min) * s)%A.

(** 474-542, hypergeometric, for a number of failures [n] without axes (lines 503-515): [x] runs
    over 0..n.  The distribution function (stats.py 226-242) is the sum of the probabilities of
    0..k.  For the loop over array [n] (lines 516-541) see M_binom.v. *)
Definition hyper_p (k M m N : num) : num :=
  let ind := nleb (nmax (Fin 0) (nadd (nsub N M) m)) k && nleb k (nmin m N) in
  ndiv (nmul (nmul (b2n ind) (ncomb m k)) (ncomb (nsub M m) (nsub N k))) (ncomb M N).
Definition hyper_F (k : nat) (M m N : num) : num :=
  nsum (map (fun j => hyper_p (nofnat j) M m N) (seq 0 (S k))).
Definition hyper_score (n : nat) (obs m N : num) : num :=
  let M := nadd m (nofnat n) in
  nmul (Fin 2) (nsum (map (fun x =>
    let f := hyper_p (nofnat x) M m N in
    nmul (nmul f (nadd (nsub (b2n (nltb obs (nofnat x))) (hyper_F x M m N)) (ndiv f (Fin 2))))
         (nsub (nofnat x) obs)) (seq 0 (S n)))).
Definition crps_hypergeometric (obs m : arr) (n : nat) (k : arr) : tensor :=
  let* (obs, m, k) := broadcast3 obs m k in
  Ok (mkArr DFloat (sh obs) (fun i => hyper_score n (at_ obs i) (at_ m i) (at_ k i))).

(** * _crps.py *)
(** 858-925, crps_gamma; the body starts at line 917 *)
Definition crps_gamma (obs shape : arr) (rate scale : option arr) : tensor :=
  match rate, scale with
  | None, None | Some _, Some _ => Err ValueError
  | Some rate, None => gamma_core (Ok obs) (Ok shape) (Ok rate)
  | None, Some scale => let* rate := (sc 1 / Ok scale)%A in gamma_core (Ok obs) (Ok shape) (Ok rate)
  end.
(** 928-1001, crps_csg0; the body starts at line 993 *)
Definition crps_csg0 (obs shape : arr) (rate scale : option arr) (shift : arr) : tensor :=
  match rate, scale with
  | None, None | Some _, Some _ => Err ValueError
  | Some rate, None => csg0_core (Ok obs) (Ok shape) (Ok rate) (Ok shift)
  | None, Some scale => let* rate := (sc 1 / Ok scale)%A in csg0_core (Ok obs) (Ok shape) (Ok rate) (Ok shift)
  end.
(** 1160-1237 *)
Definition crps_gtclogistic (obs location scale lower upper lmass umass : arr) : tensor :=
  gtclogistic (Ok obs) (Ok location) (Ok scale) (Ok lower) (Ok upper) (Ok lmass) (Ok umass).
(** 1240-1280 *)
Definition crps_tlogistic (obs location scale lower upper : arr) : tensor :=
  gtclogistic (Ok obs) (Ok location) (Ok scale) (Ok lower) (Ok upper) (sc 0) (sc 0).
(** 1283-1332 *)
Definition crps_clogistic (obs location scale lower upper : arr) : tensor :=
  let lmass := _logis_cdf ((Ok lower - Ok location) / Ok scale)%A in
  let umass := (sci 1 - _logis_cdf ((Ok upper - Ok location) / Ok scale))%A in
  gtclogistic (Ok obs) (Ok location) (Ok scale) (Ok lower) (Ok upper) lmass umass.
(** 1335-1387 *)
Definition crps_gtcnormal (obs location scale lower upper lmass umass : arr) : tensor :=
  gtcnormal (Ok obs) (Ok location) (Ok scale) (Ok lower) (Ok upper) (Ok lmass) (Ok umass).
(** 1390-1428 *)
Definition crps_tnormal (obs location scale lower upper : arr) : tensor :=
  gtcnormal (Ok obs) (Ok location) (Ok scale) (Ok lower) (Ok upper) (sc 0) (sc 0).
(** 1431-1480 *)
Definition crps_cnormal (obs location scale lower upper : arr) : tensor :=
  let lmass := _norm_cdf ((Ok lower - Ok location) / Ok scale)%A in
  let umass := (sci 1 - _norm_cdf ((Ok upper - Ok location) / Ok scale))%A in
  gtcnormal (Ok obs) (Ok location) (Ok scale) (Ok lower) (Ok upper) lmass umass.
(** 1483-1567 *)
Definition crps_gtct (obs df location scale lower upper lmass umass : arr) : tensor :=
  gtct (Ok obs) (Ok df) (Ok location) (Ok scale) (Ok lower) (Ok upper) (Ok lmass) (Ok umass).
(** 1570-1621 *)
Definition crps_tt (obs df location scale lower upper : arr) : tensor :=
  gtct (Ok obs) (Ok df) (Ok location) (Ok scale) (Ok lower) (Ok upper) (sc 0) (sc 0).
(** 1624-1677 *)
Definition crps_ct (obs df location scale lower upper : arr) : tensor :=
  let lmass := _t_cdf ((Ok lower - Ok location) / Ok scale)%A (Ok df) in
  let umass := (sci 1 - _t_cdf ((Ok upper - Ok location) / Ok scale) (Ok df))%A in
  gtct (Ok obs) (Ok df) (Ok location) (Ok scale) (Ok lower) (Ok upper) lmass umass.
(** 2001-2067, crps_mixnorm; the body starts at line 2053 *)
Definition crps_mixnorm (obs m s : arr) (w : option arr) (m_axis : Z) : tensor :=
  let* w := match w with
            | None => let* M := py_index m_axis (pyshape m) in (azeros (sh m) + sc 1 / sci M)%A
            | Some w => Ok w
            end in
  if (m_axis =? -1)%Z then mixnorm_crps_core (Ok obs) (Ok m) (Ok s) (Ok w)
  else let* m := amove_last m_axis (Ok m) in
       let* s := amove_last m_axis (Ok s) in
       let* w := amove_last m_axis (Ok w) in
       mixnorm_crps_core (Ok obs) (Ok m) (Ok s) (Ok w).
(** 2070-2130, crps_negbinom; the body starts at line 2122 *)
Definition crps_negbinom (obs n : arr) (prob mu : option arr) : tensor :=
  match prob, mu with
  | None, None | Some _, Some _ => Err ValueError
  | Some prob, None => negbinom_core (Ok obs) (Ok n) (Ok prob)
  | None, Some mu => let* prob := (Ok n / (Ok n + Ok mu))%A in negbinom_core (Ok obs) (Ok n) (Ok prob)
  end.
(** 2179-2247, crps_2pnormal; the body starts at line 2229 *)
Definition crps_2pnormal (obs scale1 scale2 location : arr) : tensor :=
  let obs := Ok obs in let scale1 := Ok scale1 in let scale2 := Ok scale2 in let location := Ok location in
  let umass := (scale2 / (scale1 + scale2))%A in
  let z := (amin (sc 0) (obs - location) / scale1)%A in
  let s1 := (scale1 * gtcnormal z (sc 0) (sc 1) (scn NInf) (sc 0) (sc 0) umass)%A in
  let lmass := (scale1 / (scale1 + scale2))%A in
  let z := (amax (sc 0) (obs - location) / scale2)%A in
  let s2 := (scale2 * gtcnormal z (sc 0) (sc 1) (sc 0) (scn PInf) lmass (sc 0))%A in
  (s1 + s2)%A.
