(** Model of core/stats.py: densities and distribution functions, element-wise with broadcasting.
    [**] is [apow] ([asq] for the exponent 2); raising an integer array to a negative integer
    power (ValueError in numpy) is not modelled.  Model file: no proofs. *)
From Verif Require Export M_special.
Open Scope R_scope.

Definition nan : tensor := scn NaN.
Definition ane (x y : tensor) : tensor := anot (aeq x y).

(** 9-12 *)
Definition _norm_pdf (x : tensor) : tensor :=
  ((sc 1 / asqrt (sc 2 * sc PI)) * aexp (aneg (asq x) / sc 2))%A.
(** 15-18 *)
Definition _norm_cdf (x : tensor) : tensor :=
  ((sc 1 + aerf (x / asqrt (sc 2))) / sc 2)%A.
(** 21-24 *)
Definition _laplace_pdf (x : tensor) : tensor := (aexp (aneg (aabs x)) / sc 2)%A.
(** 27-30 *)
Definition _logis_pdf (x : tensor) : tensor := (aexp (aneg x) / asq (sci 1 + aexp (aneg x)))%A.
(** 33-36 *)
Definition _logis_cdf (x : tensor) : tensor := (sci 1 / (sci 1 + aexp (aneg x)))%A.
(** 39-42 *)
Definition _exp_pdf (x rate : tensor) : tensor :=
  awhere (x <? sc 0)%A (sc 0) (rate * aexp (aneg rate * x))%A.
(** 45-48 *)
Definition _exp_cdf (x rate : tensor) : tensor :=
  amax (sci 1 - aexp (aneg rate * x))%A (sc 0).
(** 51-60 *)
Definition _gamma_pdf (x shape rate : tensor) : tensor :=
  let prob := (apow rate shape * apow x (shape - sci 1) * aexp (aneg rate * x) / agamma shape)%A in
  awhere (x <=? sc 0)%A (sc 0) prob.
(** 63-72 *)
Definition _gamma_cdf (x shape rate : tensor) : tensor :=
  let zero := sc 0 in
  amax (agammainc shape (rate * amax x zero)%A) zero.
(** 75-84 *)
Definition _pois_pdf (x mean : tensor) : tensor :=
  let x_plus := aabs x in
  let d := awhere (afloor x_plus <? x_plus)%A (sc 0)
             (apow mean x_plus * aexp (aneg mean) / afactorial x_plus)%A in
  awhere (mean <? sc 0)%A nan (awhere (x <? sc 0)%A (sc 0) d).
(** 87-92 *)
Definition _pois_cdf (x mean : tensor) : tensor :=
  let x_plus := aabs x in
  let p := (agammauinc (afloor (x_plus + sci 1)) mean / agamma (afloor (x_plus + sci 1)))%A in
  awhere (x <? sc 0)%A (sc 0) p.
(** 95-101 *)
Definition _t_pdf (x df : tensor) : tensor :=
  let x_inf := aeq (aabs x) (scn PInf) in
  let x := awhere x_inf nan x in
  let s := (apow (sci 1 + asq x / df) (aneg (df + sci 1) / sci 2) /
            (asqrt df * abeta (sc (1 / 2)) (df / sci 2)))%A in
  awhere x_inf (sc 0) s.
(** 104-110 *)
Definition _t_cdf (x df : tensor) : tensor :=
  let t := (df / (asq x + df))%A in
  let ibeta := abetainc (df / sc 2)%A (sc (1 / 2)) t in
  awhere (age x (sci 0)) (sci 1 - sc (1 / 2) * ibeta)%A (sc (1 / 2) * ibeta)%A.
(** 113-129 *)
Definition _gev_pdf (s xi : tensor) : tensor :=
  let xi_0 := aeq xi (sc 0) in
  let supp := aand (ane xi (sc 0)) (s * xi >? sc (-1))%A in
  let supp := aor supp xi_0 in
  let xi := awhere xi_0 nan xi in
  let s := awhere supp s nan in
  let power := (aneg (xi + sci 1) / xi)%A in
  let pdf0 := (aexp (aneg s) * aexp (aneg (aexp (aneg s))))%A in
  let pdf := (apow (sci 1 + s * xi) power * aexp (aneg (apow (sci 1 + s * xi) (sc (-1) / xi))))%A in
  let pdf := awhere xi_0 pdf0 pdf in
  awhere supp pdf (sc 0).
(** 132-147 *)
Definition _gev_cdf (s xi : tensor) : tensor :=
  let zero_shape := aeq xi (sci 0) in
  let xi := awhere zero_shape nan xi in
  let general_case := aand (anot zero_shape) (xi * s >? sc (-1))%A in
  let cdf := (nan * s)%A in
  let cdf := awhere zero_shape (aexp (aneg (aexp (aneg s)))) cdf in
  let cdf := awhere general_case
               (aexp (aneg (apow (sci 1 + xi * awhere general_case s nan) (sc (-1) / xi))))%A cdf in
  let cdf := awhere (aand (xi >? sci 0)%A (s <=? sc (-1) / xi)%A) (sci 0) cdf in
  awhere (aand (xi <? sci 0)%A (age s (sci 1 / aabs xi)%A)) (sci 1) cdf.
(** 150-166 *)
Definition _gpd_pdf (x shape : tensor) : tensor :=
  let pos_supp := aand (age shape (sc 0)) (age x (sc 0)) in
  let shape_0 := aeq shape (sci 0) in
  let shape := awhere shape_0 nan shape in
  let neg_supp := aand (aand (shape <? sc 0)%A (age x (sc 0))) (x <=? sc (-1) / shape)%A in
  let supp := aor pos_supp neg_supp in
  let x := awhere supp x nan in
  let power := (aneg (shape + sci 1) / shape)%A in
  let pdf := aexp (aneg x) in
  let pdf := awhere shape_0 pdf (apow (sci 1 + shape * x)%A power) in
  awhere supp pdf (sc 0).
(** 169-191 *)
Definition _gpd_cdf (x shape : tensor) : tensor :=
  let shape_0 := aeq shape (sci 0) in
  let shape := awhere shape_0 nan shape in
  let shape_p := (shape >? sci 0)%A in
  let shape_n := anot (aor shape_0 shape_p) in
  let x_pos := age x (sci 0) in
  let x_gt_invxi := (x >? sc (-1) / shape)%A in
  let x := awhere x_pos x nan in
  let shape := awhere (aand shape_n x_gt_invxi) nan shape in
  let cdf := sc 0 in
  let cdf := awhere (aand shape_0 x_pos) (sci 1 - aexp (aneg x))%A cdf in
  let cdf := awhere (aor (aand shape_n x_pos) (aand shape_p x_pos))
               (sci 1 - apow (sci 1 + shape * x) (sc (-1) / shape))%A cdf in
  awhere (aand shape_n x_gt_invxi) (sc 1) cdf.
(** 194-199 *)
Definition _binom_pdf (k n prob : tensor) : tensor :=
  (acomb n k * apow prob k * apow (sci 1 - prob) (n - k))%A.
(** 210-223; [ind] is a boolean array multiplied with floats *)
Definition _hypergeo_pdf (k M n N : tensor) : tensor :=
  let ind := aand (age k (amax (sci 0) (N - M + n)%A)) (k <=? amin n N)%A in
  (ind * acomb n k * acomb (M - n) (N - k) / acomb M N)%A.
(** 245-256 *)
Definition _negbinom_pdf (x n prob : tensor) : tensor :=
  let x_plus := aabs x in
  let d := awhere (afloor x_plus <? x_plus)%A (sc 0)
             (acomb (n + x - sci 1) x * apow prob n * apow (sci 1 - prob) x)%A in
  awhere (x <? sc 0)%A (sc 0) d.
(** 259-264 *)
Definition _negbinom_cdf (x n prob : tensor) : tensor :=
  awhere (x <? sc 0)%A (sc 0) (abetainc n (afloor (x + sci 1)%A) prob).
