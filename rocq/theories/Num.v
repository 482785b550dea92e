(** Values computed by the library: finite reals, infinities and NaN.

    The operations follow IEEE-754 / numpy on NaN and infinities and are exact
    on finite values.  Not modelled: rounding, overflow, the sign of zero (a
    zero divisor counts as [+0]).  Model file: no proofs. *)
From Coq Require Export Reals List ZArith Bool Arith.
Export ListNotations.
Open Scope R_scope.

Inductive num : Type :=
| Fin (r : R)
| PInf
| NInf
| NaN.

(** decisions on reals as booleans *)
Definition rltb (a b : R) : bool := if Rlt_dec a b then true else false.
Definition rleb (a b : R) : bool := if Rle_dec a b then true else false.
Definition reqb (a b : R) : bool := if Req_EM_T a b then true else false.

Definition nisnan (x : num) : bool := match x with NaN => true | _ => false end.

Definition nopp (x : num) : num :=
  match x with Fin r => Fin (- r) | PInf => NInf | NInf => PInf | NaN => NaN end.

Definition nadd (x y : num) : num :=
  match x, y with
  | NaN, _ | _, NaN => NaN
  | PInf, NInf | NInf, PInf => NaN
  | PInf, _ | _, PInf => PInf
  | NInf, _ | _, NInf => NInf
  | Fin a, Fin b => Fin (a + b)
  end.

Definition nsub (x y : num) : num := nadd x (nopp y).

(** infinity of the sign of [r]; NaN when [r = 0] *)
Definition infsgn (r : R) : num :=
  if Rlt_dec 0 r then PInf else if Rlt_dec r 0 then NInf else NaN.

Definition nmul (x y : num) : num :=
  match x, y with
  | NaN, _ | _, NaN => NaN
  | Fin a, Fin b => Fin (a * b)
  | PInf, Fin b => infsgn b
  | NInf, Fin b => nopp (infsgn b)
  | Fin a, PInf => infsgn a
  | Fin a, NInf => nopp (infsgn a)
  | PInf, PInf | NInf, NInf => PInf
  | PInf, NInf | NInf, PInf => NInf
  end.

(** division; [a/0 = ±inf] by the sign of [a], [0/0 = NaN] *)
Definition ndiv (x y : num) : num :=
  match x, y with
  | NaN, _ | _, NaN => NaN
  | Fin a, Fin b => if Req_EM_T b 0 then infsgn a else Fin (a / b)
  | PInf, Fin b => if Rlt_dec b 0 then NInf else PInf
  | NInf, Fin b => if Rlt_dec b 0 then PInf else NInf
  | Fin _, _ => Fin 0
  | _, _ => NaN
  end.

Definition nabs (x : num) : num :=
  match x with Fin r => Fin (Rabs r) | PInf | NInf => PInf | NaN => NaN end.

(** comparisons: false as soon as one side is NaN *)
Definition nltb (x y : num) : bool :=
  match x, y with
  | NaN, _ | _, NaN => false
  | Fin a, Fin b => rltb a b
  | NInf, NInf => false
  | NInf, _ => true
  | _, NInf => false
  | Fin _, PInf => true
  | PInf, _ => false
  end.

Definition nleb (x y : num) : bool :=
  match x, y with
  | NaN, _ | _, NaN => false
  | Fin a, Fin b => rleb a b
  | NInf, _ => true
  | _, NInf => false
  | _, PInf => true
  | PInf, _ => false
  end.

Definition neqb (x y : num) : bool :=
  match x, y with
  | Fin a, Fin b => reqb a b
  | PInf, PInf | NInf, NInf => true
  | _, _ => false
  end.

(** [np.maximum] / [np.minimum]: NaN if either operand is NaN *)
Definition nmax (x y : num) : num :=
  if nisnan x || nisnan y then NaN else if nleb x y then y else x.
Definition nmin (x y : num) : num :=
  if nisnan x || nisnan y then NaN else if nleb x y then x else y.

(** bool used as a number *)
Definition b2n (b : bool) : num := if b then Fin 1 else Fin 0.
Definition nofnat (n : nat) : num := Fin (INR n).

(** [x ** 2] *)
Definition nsq (x : num) : num := nmul x x.

Definition nexp (x : num) : num :=
  match x with Fin r => Fin (exp r) | PInf => PInf | NInf => Fin 0 | NaN => NaN end.

Definition nlog (x : num) : num :=
  match x with
  | Fin r => if Rlt_dec 0 r then Fin (ln r) else if Rlt_dec r 0 then NaN else NInf
  | PInf => PInf
  | NInf | NaN => NaN
  end.

Definition nsqrt (x : num) : num :=
  match x with
  | Fin r => if Rlt_dec r 0 then NaN else Fin (sqrt r)
  | PInf => PInf
  | NInf | NaN => NaN
  end.

Definition is_intR (b : R) : bool := reqb (IZR (Int_part b)) b.

(** [x ** y] for float exponents (C [pow]); the result for an infinite base with a
    finite negative or odd exponent follows [pow] up to the sign of zero *)
Definition npow (x y : num) : num :=
  match x, y with
  | _, Fin b =>
      if Req_EM_T b 0 then Fin 1 else
      match x with
      | NaN => NaN
      | Fin a =>
          if Rlt_dec 0 a then Fin (Rpower a b)
          else if Rlt_dec a 0 then (if is_intR b then Fin (powerRZ a (Int_part b)) else NaN)
          else if Rlt_dec 0 b then Fin 0 else PInf
      | PInf => if Rlt_dec 0 b then PInf else Fin 0
      | NInf =>
          if Rlt_dec 0 b
          then (if is_intR b && Z.odd (Int_part b) then NInf else PInf)
          else Fin 0
      end
  | Fin a, _ =>
      if Req_EM_T a 1 then Fin 1 else
      match y with
      | PInf => if Rlt_dec (Rabs a) 1 then Fin 0
                else if Rlt_dec 1 (Rabs a) then PInf else Fin 1
      | NInf => if Rlt_dec (Rabs a) 1 then PInf
                else if Rlt_dec 1 (Rabs a) then Fin 0 else Fin 1
      | _ => NaN
      end
  | NaN, _ => NaN
  | _, PInf => PInf
  | _, NInf => Fin 0
  | _, NaN => NaN
  end.

Definition nfloor (x : num) : num :=
  match x with Fin r => Fin (IZR (Int_part r)) | _ => x end.

(** [np.sum] over one axis.  numpy sums pairwise; with exact addition the order
    is irrelevant. *)
Definition nsum (l : list num) : num := fold_right nadd (Fin 0) l.

(** running sums, [np.cumsum] *)
Fixpoint ncumsum_from (acc : num) (l : list num) : list num :=
  match l with
  | [] => []
  | x :: l' => let a := nadd acc x in a :: ncumsum_from a l'
  end.
Definition ncumsum (l : list num) : list num := ncumsum_from (Fin 0) l.

(** order used by [np.sort] / [np.argsort]: NaN last *)
Definition nle_sort (x y : num) : bool := nisnan y || nleb x y.

Fixpoint ninsert (x : num) (l : list num) : list num :=
  match l with
  | [] => [x]
  | y :: l' => if nle_sort x y then x :: l else y :: ninsert x l'
  end.

(** [np.sort] of a row: equal keys are equal values (the sign of zero is not
    modelled), so the sorted row does not depend on the algorithm *)
Fixpoint nsort (l : list num) : list num :=
  match l with [] => [] | x :: l' => ninsert x (nsort l') end.

(** element types of the arguments: integer or float; the library only depends on them where it
    casts.  The boolean arrays returned by comparisons are integer arrays of 0 and 1 in the model;
    the library only multiplies, averages, negates and selects with them.  Boolean arguments are
    not modelled (numpy refuses to subtract two boolean arrays). *)
Inductive dtype : Type := DInt | DFloat.

Definition dtype_eqb (a b : dtype) : bool :=
  match a, b with DInt, DInt | DFloat, DFloat => true | _, _ => false end.

(** type promotion *)
Definition djoin (a b : dtype) : dtype :=
  match a, b with
  | DFloat, _ | _, DFloat => DFloat
  | DInt, DInt => DInt
  end.

(** conversion of a real towards zero *)
Definition rtrunc (r : R) : Z := if Rle_dec 0 r then Int_part r else (- Int_part (- r))%Z.

(** cast of a value: float to int truncates towards zero (NaN and infinities give
    INT64_MIN, as on x86-64) *)
Definition ncast (d : dtype) (x : num) : num :=
  match d with
  | DFloat => x
  | DInt => match x with
            | Fin r => Fin (IZR (rtrunc r))
            | _ => Fin (IZR (- 2 ^ 63))
            end
  end.
