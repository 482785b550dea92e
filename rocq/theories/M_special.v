(** Special functions used by the parametric scores (backend/numpy.py 1-16: scipy.special),
    given by their defining integrals and series.  They are exact on the stated domain; outside
    of it the model returns NaN where scipy may return a value (gamma of negative non-integers,
    expi of positive numbers, hyp2f1 outside of c > b > 0, z < 1).  Model file: no proofs. *)
From Verif Require Export Arr.
From Coquelicot Require Import Coquelicot.
Open Scope R_scope.

Definition Rerf (x : R) : R := 2 / sqrt PI * RInt (fun t => exp (- (t * t))) 0 x.
Definition nerf (x : num) : num :=
  match x with Fin r => Fin (Rerf r) | PInf => Fin 1 | NInf => Fin (-1) | NaN => NaN end.

Definition gamma_f (a t : R) : R := Rpower t (a - 1) * exp (- t).
Definition Rgamma (a : R) : R := RInt_gen (gamma_f a) (at_right 0) (Rbar_locally p_infty).
Definition ngamma (x : num) : num :=
  match x with
  | Fin a => if Rlt_dec 0 a then Fin (Rgamma a) else if Req_EM_T a 0 then PInf else NaN
  | PInf => PInf
  | _ => NaN
  end.
(** scipy's [gammainc] and [gammaincc]: regularised lower and upper incomplete gamma function *)
Definition Rgammainc (a x : R) : R :=
  if Req_EM_T x 0 then 0 else RInt_gen (gamma_f a) (at_right 0) (at_point x) / Rgamma a.
Definition ngammainc (a x : num) : num :=
  match a, x with
  | Fin a, Fin x => if Rlt_dec 0 a then if Rle_dec 0 x then Fin (Rgammainc a x) else NaN else NaN
  | Fin a, PInf => if Rlt_dec 0 a then Fin 1 else NaN
  | _, _ => NaN
  end.
Definition ngammaincc (a x : num) : num := nsub (Fin 1) (ngammainc a x).

Definition beta_f (a b t : R) : R := Rpower t (a - 1) * Rpower (1 - t) (b - 1).
Definition Rbeta (a b : R) : R := RInt_gen (beta_f a b) (at_right 0) (at_left 1).
Definition nbeta (a b : num) : num :=
  match a, b with
  | Fin a, Fin b => if Rlt_dec 0 a then if Rlt_dec 0 b then Fin (Rbeta a b) else NaN else NaN
  | _, _ => NaN
  end.
(** regularised incomplete beta function *)
Definition Rbetainc (a b x : R) : R :=
  if Rle_dec x 0 then 0 else if Rle_dec 1 x then 1 else
  RInt_gen (beta_f a b) (at_right 0) (at_point x) / Rbeta a b.
Definition nbetainc (a b x : num) : num :=
  match a, b, x with
  | Fin a, Fin b, Fin x =>
      if Rlt_dec 0 a then if Rlt_dec 0 b then
        if Rle_dec 0 x then if Rle_dec x 1 then Fin (Rbetainc a b x) else NaN else NaN
      else NaN else NaN
  | _, _, _ => NaN
  end.

(** exponential integral of non-positive arguments *)
Definition nexpi (x : num) : num :=
  match x with
  | Fin r => if Rlt_dec r 0
             then Fin (- RInt_gen (fun t => exp (- t) / t) (at_point (- r)) (Rbar_locally p_infty))
             else if Req_EM_T r 0 then NInf else NaN
  | NInf => Fin 0
  | PInf => PInf
  | NaN => NaN
  end.

(** [x!]: 0 for negative numbers, Gamma (x + 1) for the others *)
Definition Rfactorial (x : R) : R :=
  if is_intR x then INR (fact (Z.to_nat (Int_part x))) else Rgamma (x + 1).
Definition nfactorial (x : num) : num :=
  match x with
  | Fin r => if Rlt_dec r 0 then Fin 0 else Fin (Rfactorial r)
  | PInf => PInf
  | NInf => Fin 0
  | NaN => NaN
  end.
(** n (n - 1) ... (n - k + 1) / k! *)
Fixpoint Rchoose (n : R) (k : nat) : R :=
  match k with O => 1 | S k' => Rchoose n k' * (n - INR k') / INR (S k') end.
Definition Rcomb (n k : R) : R :=
  if is_intR k then Rchoose n (Z.to_nat (Int_part k))
  else Rgamma (n + 1) / (Rgamma (k + 1) * Rgamma (n - k + 1)).
(** scipy.special.comb: 0 unless 0 <= k <= n (hence also for NaN) *)
Definition ncomb (n k : num) : num :=
  match n, k with
  | Fin n, Fin k => if Rle_dec 0 k then if Rle_dec k n then Fin (Rcomb n k) else Fin 0 else Fin 0
  | PInf, Fin k => if Rle_dec 0 k then PInf else Fin 0
  | _, _ => Fin 0
  end.

(** modified Bessel functions of the first kind *)
Definition Rbessel0 (x : R) : R := Series (fun k => (x / 2) ^ (2 * k) / (INR (fact k) * INR (fact k))).
Definition Rbessel1 (x : R) : R := Series (fun k => (x / 2) ^ (2 * k + 1) / (INR (fact k) * INR (fact (S k)))).
Definition nreal1 (f : R -> R) (x : num) : num := match x with Fin r => Fin (f r) | _ => NaN end.

(** Gauss' hypergeometric function by Euler's integral *)
Definition Rhyp2f1 (a b c z : R) : R :=
  RInt_gen (fun t => beta_f b (c - b) t * Rpower (1 - z * t) (- a)) (at_right 0) (at_left 1) / Rbeta b (c - b).
Definition nhyp2f1 (a b c z : num) : num :=
  match a, b, c, z with
  | Fin a, Fin b, Fin c, Fin z =>
      if Rlt_dec 0 b then if Rlt_dec b c then if Rlt_dec z 1 then Fin (Rhyp2f1 a b c z) else NaN else NaN else NaN
  | _, _, _, _ => NaN
  end.

(** * the same on arrays *)
Definition aerf := amap dfloat1 nerf.
Definition agamma := amap dfloat1 ngamma.
Definition agammainc := abin dfloat2 ngammainc.
Definition agammaincc := abin dfloat2 ngammaincc.
(** backend/numpy.py 260-261, gammauinc *)
Definition agammauinc (x y : tensor) : tensor := amul (agammaincc x y) (agamma x).
Definition abeta := abin dfloat2 nbeta.
Definition abetainc (a b x : tensor) : tensor :=
  let* a := a in
  let* b := b in
  let* x := x in
  match bshape (sh a) (sh b) with
  | None => Err ValueError
  | Some s0 =>
      match bshape s0 (sh x) with
      | None => Err ValueError
      | Some s => Ok (mkArr DFloat s (fun i =>
          nbetainc (at_ a (bidx (sh a) i)) (at_ b (bidx (sh b) i)) (at_ x (bidx (sh x) i))))
      end
  end.
Definition aexpi := amap dfloat1 nexpi.
Definition afactorial := amap dfloat1 nfactorial.
Definition acomb := abin dfloat2 ncomb.
Definition abessel0 := amap dfloat1 (nreal1 Rbessel0).
Definition abessel1 := amap dfloat1 (nreal1 Rbessel1).
(** hyp2f1 (a, 1/2, 2, z), the only use *)
Definition ahyp2f1 := abin dfloat2 (fun a z => nhyp2f1 a (Fin (1 / 2)) (Fin 2) z).
