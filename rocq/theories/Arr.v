(** n-dimensional arrays with numpy broadcasting.

    Shapes and multi-indices are lists stored LAST AXIS FIRST: for an array of
    numpy shape (A, B, M) the model shape is [M; B; A] and the entry
    x[a, b, k] is [at_ x [k; b; a]].  With this convention [axis=-1] is the head
    of the list and broadcasting aligns the heads.

    Operations act on [tensor := res arr]; an exception raised by numpy or by the
    library is the value [Err e].  Model file: no proofs. *)
From Verif Require Export Num.
Open Scope nat_scope.

Inductive err : Type :=
| ValueError | AxisError | IndexError | TypeError | NotImplementedError
| BackendNotAvailable
| LinAlgError | RuntimeError | StopIteration | UnboundLocalError
| NumbaError.   (* numba.core.errors.TypingError: the kernel cannot be compiled *)

Inductive res (A : Type) : Type :=
| Ok (a : A)
| Err (e : err).
Arguments Ok {A} a.
Arguments Err {A} e.

Definition bind {A B : Type} (x : res A) (f : A -> res B) : res B :=
  match x with Ok a => f a | Err e => Err e end.
Notation "'let*' x ':=' e 'in' k" := (bind e (fun x => k))
  (at level 200, x pattern, e at level 100, k at level 200).

Record arr : Type := mkArr { dt : dtype; sh : list nat; at_ : list nat -> num }.
Definition tensor : Type := res arr.

(** ** list helpers: position counted from the last axis *)
Fixpoint insert_at {A} (p : nat) (x : A) (l : list A) : list A :=
  match p, l with
  | O, _ => x :: l
  | S p', [] => [x]
  | S p', y :: l' => y :: insert_at p' x l'
  end.
Fixpoint remove_at {A} (p : nat) (l : list A) : list A :=
  match p, l with
  | _, [] => []
  | O, _ :: l' => l'
  | S p', y :: l' => y :: remove_at p' l'
  end.

(** [inb s i]: [i] is a valid multi-index for shape [s] *)
Fixpoint inb (s i : list nat) : Prop :=
  match s, i with
  | [], [] => True
  | d :: s', k :: i' => k < d /\ inb s' i'
  | _, _ => False
  end.

(** all multi-indices of a shape *)
Fixpoint all_idx (s : list nat) : list (list nat) :=
  match s with
  | [] => [[]]
  | d :: s' => flat_map (fun i => map (fun k => k :: i) (seq 0 d)) (all_idx s')
  end.

(** ** broadcasting (numpy rules) *)
Definition bdim (a b : nat) : option nat :=
  if a =? b then Some a else if a =? 1 then Some b else if b =? 1 then Some a else None.
Fixpoint bshape (s1 s2 : list nat) : option (list nat) :=
  match s1, s2 with
  | [], s => Some s
  | s, [] => Some s
  | a :: s1', b :: s2' =>
      match bdim a b, bshape s1' s2' with
      | Some c, Some s => Some (c :: s)
      | _, _ => None
      end
  end.
(** index of the operand of shape [s] used for output index [i] *)
Fixpoint bidx (s i : list nat) : list nat :=
  match s, i with
  | d :: s', k :: i' => (if d =? 1 then 0 else k) :: bidx s' i'
  | _, _ => []
  end.

(** ** element-wise operations *)
Definition amap (d : dtype -> dtype) (f : num -> num) (x : tensor) : tensor :=
  let* a := x in Ok (mkArr (d (dt a)) (sh a) (fun i => f (at_ a i))).
Definition abin (d : dtype -> dtype -> dtype) (f : num -> num -> num) (x y : tensor) : tensor :=
  let* a := x in
  let* b := y in
  match bshape (sh a) (sh b) with
  | Some s => Ok (mkArr (d (dt a) (dt b)) s
                    (fun i => f (at_ a (bidx (sh a) i)) (at_ b (bidx (sh b) i))))
  | None => Err ValueError   (* "operands could not be broadcast together" *)
  end.
(** an in-place operator such as [x *= y]: the result must have the shape of [x], and its
    dtype must be that of [x] (numpy refuses to cast float to int: UFuncTypeError).  The
    library only applies them to results of numpy operations; when such a result has no axis
    it is an immutable numpy scalar and the operator is the ordinary one. *)
Definition ainplace (f : num -> num -> num) (x y : tensor) : tensor :=
  let* a := x in
  let* b := y in
  match sh a, bshape (sh a) (sh b) with
  | _, None => Err ValueError
  | [], Some s => Ok (mkArr (djoin (dt a) (dt b)) s
                        (fun i => f (at_ a (bidx (sh a) i)) (at_ b (bidx (sh b) i))))
  | _, Some s => if negb (dtype_eqb (djoin (dt a) (dt b)) (dt a)) then Err TypeError
              else if list_eq_dec Nat.eq_dec s (sh a)
              then Ok (mkArr (dt a) s
                         (fun i => f (at_ a (bidx (sh a) i)) (at_ b (bidx (sh b) i))))
              else Err ValueError
  end.

Definition dfloat1 (_ : dtype) : dtype := DFloat.
Definition dfloat2 (_ _ : dtype) : dtype := DFloat.
Definition dbool2 (_ _ : dtype) : dtype := DInt.

Definition aadd := abin djoin nadd.
Definition asub := abin djoin nsub.
Definition amul := abin djoin nmul.
Definition adiv := abin dfloat2 ndiv.
Definition apow := abin djoin npow.
Definition amax := abin djoin nmax.
Definition amin := abin djoin nmin.
Definition alt := abin dbool2 (fun x y => b2n (nltb x y)).
Definition ale := abin dbool2 (fun x y => b2n (nleb x y)).
Definition aeq := abin dbool2 (fun x y => b2n (neqb x y)).
Definition agt (x y : tensor) := alt y x.
Definition age (x y : tensor) := ale y x.
Definition aand := abin dbool2 nmul.      (* [&] on boolean arrays *)
Definition aor := abin dbool2 nmax.       (* [|] on boolean arrays *)
Definition anot := amap (fun _ => DInt) (nsub (Fin 1)).   (* [~] on boolean arrays *)
Definition aabs := amap (fun d => d) nabs.
Definition aneg := amap (fun d => d) nopp.
Definition asq := amap (fun d => d) nsq.
Definition aexp := amap dfloat1 nexp.
Definition alog := amap dfloat1 nlog.
Definition asqrt := amap dfloat1 nsqrt.
Definition afloor := amap dfloat1 nfloor.
Definition aisnan := amap (fun _ => DInt) (fun x => b2n (nisnan x)).

(** Python scalars *)
Definition scn (x : num) : tensor := Ok (mkArr DFloat [] (fun _ => x)).
Definition sc (r : R) : tensor := scn (Fin r).
Definition sci (n : nat) : tensor := Ok (mkArr DInt [] (fun _ => nofnat n)).

Declare Scope arr_scope.
Delimit Scope arr_scope with A.
Infix "+" := aadd : arr_scope.
Infix "-" := asub : arr_scope.
Infix "*" := amul : arr_scope.
Infix "/" := adiv : arr_scope.
Infix "<=?" := ale : arr_scope.
Infix "<?" := alt : arr_scope.
Infix ">?" := agt : arr_scope.

(** [np.where(c, x, y)] *)
Definition awhere (c x y : tensor) : tensor :=
  let* b := c in
  let* t := x in
  let* e := y in
  match bshape (sh t) (sh e) with
  | None => Err ValueError
  | Some s0 =>
      match bshape (sh b) s0 with
      | None => Err ValueError
      | Some s => Ok (mkArr (djoin (dt t) (dt e)) s
                        (fun i => if neqb (at_ b (bidx (sh b) i)) (Fin 0)
                                  then at_ e (bidx (sh e) i)
                                  else at_ t (bidx (sh t) i)))
      end
  end.

(** ** reductions over the last axis *)
Definition row (a : arr) (m : nat) (r : list nat) : list num :=
  map (fun k => at_ a (k :: r)) (seq 0 m).

Definition areduce (d : dtype -> dtype) (f : list num -> num) (x : tensor) : tensor :=
  let* a := x in
  match sh a with
  | m :: s => Ok (mkArr (d (dt a)) s (fun r => f (row a m r)))
  | [] => Err AxisError
  end.
(** same with [keepdims=True] *)
Definition areduce_keep (d : dtype -> dtype) (f : list num -> num) (x : tensor) : tensor :=
  let* a := x in
  match sh a with
  | m :: s => Ok (mkArr (d (dt a)) (1 :: s) (fun r => f (row a m (tl r))))
  | [] => Err AxisError
  end.

Definition nmean (l : list num) : num := ndiv (nsum l) (nofnat (length l)).
Definition asum := areduce (fun d => d) nsum.
Definition asum2 (x : tensor) : tensor := asum (asum x).     (* axis=(-1,-2) *)
Definition amean := areduce dfloat1 nmean.
Definition asum_keep := areduce_keep (fun d => d) nsum.
Definition amean_keep := areduce_keep dfloat1 nmean.

(** [np.any] over all entries *)
Definition aany (x : tensor) : res bool :=
  let* a := x in
  Ok (existsb (fun i => negb (neqb (at_ a i) (Fin 0))) (all_idx (sh a))).

(** ** operations along the last axis, row by row *)
(** [f] maps a row of length m to a row of length m *)
Definition arowmap (f : list num -> list num) (x : tensor) : tensor :=
  let* a := x in
  match sh a with
  | m :: s => Ok (mkArr (dt a) (m :: s)
                   (fun i => nth (hd 0 i) (f (row a m (tl i))) NaN))
  | [] => Err AxisError
  end.
Definition asort := arowmap nsort.
Definition acumsum := arowmap ncumsum.

(** integer index arrays, the result of argsort *)
Record iarr : Type := mkIarr { ish : list nat; iat : list nat -> nat }.
(** [np.argsort(x, axis=-1)]; [srt] is the sorting algorithm applied to each row *)
Definition aargsort (srt : list num -> list nat) (x : tensor) : res iarr :=
  let* a := x in
  match sh a with
  | m :: s => Ok (mkIarr (m :: s) (fun i => nth (hd 0 i) (srt (row a m (tl i))) 0))
  | [] => Err AxisError
  end.
(** [np.take_along_axis(x, ind, axis=-1)] for index and data arrays of equal shape
    (the only use in the library; broadcasting of other dimensions not modelled) *)
Definition agather (x : tensor) (ind : res iarr) : tensor :=
  let* a := x in
  let* b := ind in
  if list_eq_dec Nat.eq_dec (sh a) (ish b)
  then Ok (mkArr (dt a) (sh a) (fun i => at_ a (iat b i :: tl i)))
  else Err IndexError.

(** [np.roll(x, shift, axis=-1)] *)
Definition aroll (shift : nat) (x : tensor) : tensor :=
  let* a := x in
  match sh a with
  | m :: s => Ok (mkArr (dt a) (m :: s)
                   (fun i => at_ a ((hd 0 i + m - shift mod m) mod m :: tl i)))
  | [] => Err AxisError
  end.

(** [x[..., ind]] for a list of non-negative positions *)
Definition atake (ind : list nat) (x : tensor) : tensor :=
  let* a := x in
  match sh a with
  | m :: s => if forallb (fun k => k <? m) ind
              then Ok (mkArr (dt a) (length ind :: s)
                         (fun i => at_ a (nth (hd 0 i) ind 0 :: tl i)))
              else Err IndexError
  | [] => Err IndexError
  end.

(** [x[..., lo:hi]] with [0 <= lo] and [hi] clipped to the axis length *)
Definition aslice (lo hi : nat) (x : tensor) : tensor :=
  let* a := x in
  match sh a with
  | m :: s => Ok (mkArr (dt a) ((min hi m - lo) :: s)
                    (fun i => at_ a ((lo + hd 0 i) :: tl i)))
  | [] => Err IndexError
  end.

(** [np.concatenate((x, y), axis=-1)] *)
Definition aconcat (x y : tensor) : tensor :=
  let* a := x in
  let* b := y in
  match sh a, sh b with
  | m1 :: s1, m2 :: s2 =>
      if list_eq_dec Nat.eq_dec s1 s2
      then Ok (mkArr (djoin (dt a) (dt b)) ((m1 + m2) :: s1)
                 (fun i => if hd 0 i <? m1 then at_ a i else at_ b ((hd 0 i - m1) :: tl i)))
      else Err ValueError
  | _, _ => Err ValueError
  end.

(** [np.arange(lo, hi)] *)
Definition aarange (lo hi : nat) : tensor :=
  Ok (mkArr DInt [hi - lo] (fun i => nofnat (lo + hd 0 i))).
Definition azeros (s : list nat) : tensor := Ok (mkArr DFloat s (fun _ => Fin 0)).

(** ** axis manipulation *)
(** [np.expand_dims(x, -(p+1))]; [x[..., None]] is p = 0, [x[..., None, :]] is p = 1 *)
Definition aexpand (p : nat) (x : tensor) : tensor :=
  let* a := x in
  if p <=? length (sh a)
  then Ok (mkArr (dt a) (insert_at p 1 (sh a)) (fun i => at_ a (remove_at p i)))
  else Err AxisError.

(** numpy's axis normalisation: python axis number -> non-negative axis number *)
Definition norm_axis (ax : Z) (n : nat) : res nat :=
  if ((- Z.of_nat n <=? ax) && (ax <? Z.of_nat n))%Z%bool
  then Ok (Z.to_nat (if (ax <? 0)%Z then (Z.of_nat n + ax)%Z else ax))
  else Err AxisError.
(** position from the last axis *)
Definition rev_axis (ax : Z) (n : nat) : res nat :=
  let* k := norm_axis ax n in Ok (n - 1 - k).

(** [np.moveaxis(x, ax, -1)] *)
Definition amove_last (ax : Z) (x : tensor) : tensor :=
  let* a := x in
  let* p := rev_axis ax (length (sh a)) in
  Ok (mkArr (dt a) (nth p (sh a) 0 :: remove_at p (sh a))
        (fun i => at_ a (insert_at p (hd 0 i) (tl i)))).

(** sum over an arbitrary axis: [np.sum(x, axis=ax)] *)
Definition asum_axis (ax : Z) (x : tensor) : tensor := asum (amove_last ax x).
Definition amean_axis (ax : Z) (x : tensor) : tensor := amean (amove_last ax x).

(** numpy shape in python order, and python tuple slicing *)
Definition pyshape (a : arr) : list nat := rev (sh a).
Definition py_pos (z : Z) (n : nat) : nat :=   (* slice bound, clipped *)
  Z.to_nat (Z.min (Z.of_nat n) (Z.max 0 (if (z <? 0)%Z then Z.of_nat n + z else z))).
Definition py_take {A} (z : Z) (l : list A) : list A := firstn (py_pos z (length l)) l.
Definition py_drop {A} (z : Z) (l : list A) : list A := skipn (py_pos z (length l)) l.
Definition py_index {A} (z : Z) (l : list A) : res A :=
  let n := Z.of_nat (length l) in
  let k := (if (z <? 0)%Z then n + z else z)%Z in
  if ((0 <=? k) && (k <? n))%Z%bool
  then match nth_error l (Z.to_nat k) with Some x => Ok x | None => Err IndexError end
  else Err IndexError.

(** [np.squeeze(x)]: drop all axes of length one *)
Fixpoint squeeze_shape (s : list nat) : list nat :=
  match s with [] => [] | d :: s' => if d =? 1 then squeeze_shape s' else d :: squeeze_shape s' end.
Fixpoint unsqueeze_idx (s i : list nat) : list nat :=
  match s with
  | [] => []
  | d :: s' => if d =? 1 then 0 :: unsqueeze_idx s' i
               else match i with
                    | k :: i' => k :: unsqueeze_idx s' i'
                    | [] => 0 :: unsqueeze_idx s' []
                    end
  end.
Definition asqueeze (x : tensor) : tensor :=
  let* a := x in
  Ok (mkArr (dt a) (squeeze_shape (sh a)) (fun i => at_ a (unsqueeze_idx (sh a) i))).

(** [np.asarray(x, dtype=d)] *)
Definition acast (d : dtype) (x : tensor) : tensor :=
  let* a := x in Ok (mkArr d (sh a) (fun i => ncast d (at_ a i))).

(** ** generalized ufuncs (numba [guvectorize])

    A kernel sees scalars for core signature "()", rows for "(n)" and lists of rows
    for "(m,d)"; the remaining dimensions broadcast. *)
Definition gloop (l : list (list nat)) : res (list nat) :=
  fold_right (fun s acc => let* t := acc in
                 match bshape s t with Some u => Ok u | None => Err ValueError end)
             (Ok []) l.
(** the value of argument [a] seen by the kernel at loop index [r] *)
Definition gS (a : arr) (r : list nat) : num := at_ a (bidx (sh a) r).
Definition gV (a : arr) (r : list nat) : list num :=
  map (fun k => at_ a (k :: bidx (tl (sh a)) r)) (seq 0 (hd 0 (sh a))).
Definition gM (a : arr) (r : list nat) : list (list num) :=
  map (fun j => map (fun k => at_ a (k :: j :: bidx (tl (tl (sh a))) r)) (seq 0 (hd 0 (sh a))))
      (seq 0 (hd 0 (tl (sh a)))).
(** core dimension and loop shape of a "(n)" argument *)
Definition gcore1 (a : arr) : res (nat * list nat) :=
  match sh a with n :: s => Ok (n, s) | [] => Err ValueError end.
Definition gcore2 (a : arr) : res (nat * nat * list nat) :=
  match sh a with d :: m :: s => Ok (d, m, s) | _ => Err ValueError end.
Definition check (b : bool) : res unit := if b then Ok tt else Err ValueError.

(** the output of a compiled gufunc that allocates its own (float) output *)
Definition gout (L : list nat) (f : list nat -> num) : tensor := Ok (mkArr DFloat L f).
(** core/utils.py 310-326, lazy_gufunc_wrapper_uv: the output is allocated with
    [np.empty_like(args[0])], i.e. with the shape and the dtype of the observations, so
    every stored value is cast to that dtype; a loop shape that differs from it is a
    numpy error. *)
Definition gout_like (obs : arr) (L : list nat) (f : list nat -> num) : tensor :=
  if list_eq_dec Nat.eq_dec L (sh obs)
  then Ok (mkArr (dt obs) L (fun r => ncast (dt obs) (f r)))
  else Err ValueError.
(** core/utils.py 329-346, lazy_gufunc_wrapper_mv: same with [args[0][..., 0]] *)
Definition gout_like_mv (obs : arr) (L : list nat) (f : list nat -> num) : tensor :=
  match sh obs with
  | 0 :: _ => Err IndexError
  | _ :: s => if list_eq_dec Nat.eq_dec L s
              then Ok (mkArr (dt obs) L (fun r => ncast (dt obs) (f r)))
              else Err ValueError
  | [] => Err IndexError
  end.
