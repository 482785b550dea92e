(** The jax and torch backends where they compute a special function by other formulas than
    backend/numpy.py: [factorial], [comb] (jax.py 262-263, 269-272; torch.py 280-281, 288-289),
    [gamma] and [beta] (torch.py 254-255, 268-269), and the discrete log scores that use them.
    Assumed of the libraries (they are not in /repo): [lgamma] is ln |Gamma|, infinite at 0, -1,
    -2, ...; jax.scipy.special.factorial is 0 for negative numbers and exp (lgamma (n + 1)) for
    the others; [//] on floats is the floor of the quotient, with a zero divisor NaN in jax
    (fmod) and the plain quotient in torch.  Exact arithmetic: the rounding of exp (lgamma (n + 1)),
    which is usually not an integer in floats, is not modelled.  Model file: no proofs. *)
From Verif Require Export M_logs.
Open Scope R_scope.

Inductive lib := Jax | Torch.

(** x (x + 1) ... (x + n - 1) *)
Fixpoint rise (x : R) (n : nat) : R := match n with O => 1 | S k => rise x k * (x + INR k) end.
(** [lgamma]; below 0 by the recurrence of Gamma *)
Definition nlgamma (x : num) : num :=
  match x with
  | Fin a => if Rlt_dec 0 a then Fin (ln (Rgamma a)) else
             if is_intR a then PInf else
             let n := Z.to_nat (- Int_part a) in
             Fin (ln (Rgamma (a + INR n) / Rabs (rise a n)))
  | PInf | NInf => PInf
  | NaN => NaN
  end.
(** jax.py 263 and torch.py 281 *)
Definition lfactorial (l : lib) (n : num) : num :=
  match l, n with
  | Jax, Fin a => if Rlt_dec a 0 then Fin 0 else nexp (nlgamma (nadd n (Fin 1)))
  | Jax, NInf => Fin 0
  | _, _ => nexp (nlgamma (nadd n (Fin 1)))
  end.
(** [x // y] on floats *)
Definition nfloordiv (l : lib) (x y : num) : num :=
  match x, y with
  | Fin a, Fin b => if Req_EM_T b 0 then match l with Jax => NaN | Torch => ndiv x y end
                    else Fin (IZR (Int_part (a / b)))
  | Fin a, PInf => if Rlt_dec a 0 then Fin (-1) else Fin 0
  | Fin a, NInf => if Rlt_dec 0 a then Fin (-1) else Fin 0
  | _, _ => NaN
  end.
(** jax.py 270-272 and torch.py 289 *)
Definition lcomb (l : lib) (n k : num) : num :=
  nfloordiv l (lfactorial l n) (nmul (lfactorial l k) (lfactorial l (nsub n k))).
(** torch.py 269 *)
Definition tgamma (x : num) : num := nexp (nlgamma x).
(** torch.py 255 *)
Definition tbeta (x y : num) : num := nexp (nsub (nadd (nlgamma x) (nlgamma y)) (nlgamma (nadd x y))).

(** * on arrays *)
Definition alfactorial (l : lib) := amap dfloat1 (lfactorial l).
Definition alcomb (l : lib) := abin dfloat2 (lcomb l).
(** torch.py 278, with torch's gammaincc as scipy's *)
Definition tgammauinc (x y : tensor) : tensor := amul (agammaincc x y) (amap dfloat1 tgamma x).

(** core/stats.py 75-84 *)
Definition _pois_pdf_on (l : lib) (x mean : tensor) : tensor :=
  let x_plus := aabs x in
  let d := awhere (afloor x_plus <? x_plus)%A (sc 0)
             (apow mean x_plus * aexp (aneg mean) / alfactorial l x_plus)%A in
  awhere (mean <? sc 0)%A nan (awhere (x <? sc 0)%A (sc 0) d).
(** core/stats.py 194-199 *)
Definition _binom_pdf_on (l : lib) (k n prob : tensor) : tensor :=
  (alcomb l n k * apow prob k * apow (sci 1 - prob) (n - k))%A.
(** core/stats.py 210-223 *)
Definition _hypergeo_pdf_on (l : lib) (k M n N : tensor) : tensor :=
  let ind := aand (age k (amax (sci 0) (N - M + n)%A)) (k <=? amin n N)%A in
  (ind * alcomb l n k * alcomb l (M - n) (N - k) / alcomb l M N)%A.
(** core/stats.py 245-256 *)
Definition _negbinom_pdf_on (l : lib) (x n prob : tensor) : tensor :=
  let x_plus := aabs x in
  let d := awhere (afloor x_plus <? x_plus)%A (sc 0)
             (alcomb l (n + x - sci 1) x * apow prob n * apow (sci 1 - prob) x)%A in
  awhere (x <? sc 0)%A (sc 0) d.

(** core/logarithmic.py 363-372 *)
Definition logs_poisson_on (l : lib) (obs mean : arr) : tensor := aneg (alog (_pois_pdf_on l (Ok obs) (Ok mean))).
(** core/logarithmic.py 85-98 *)
Definition logs_binomial_on (l : lib) (obs n prob : arr) : tensor :=
  let zind := (Ok obs <? sc 0)%A in
  let obs := awhere zind nan (Ok obs) in
  let prob := _binom_pdf_on l obs (Ok n) (Ok prob) in
  awhere zind inf (aneg (alog prob)).
(** core/logarithmic.py 200-213 *)
Definition logs_hypergeometric_on (l : lib) (obs m n k : arr) : tensor :=
  let M := (Ok m + Ok n)%A in
  aneg (alog (_hypergeo_pdf_on l (Ok obs) M (Ok m) (Ok k))).
(** core/logarithmic.py 312-325 with _logs.py 755-763, given the success probability *)
Definition logs_negbinom_on (l : lib) (obs n prob : arr) : tensor :=
  let zind := aor (Ok obs <? sc 0)%A (ane (afloor (Ok obs)) (Ok obs)) in
  let obs := awhere zind nan (Ok obs) in
  let prob := _negbinom_pdf_on l obs (Ok n) (Ok prob) in
  awhere zind inf (aneg (alog prob)).
