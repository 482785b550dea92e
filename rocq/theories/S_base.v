(** Vocabulary shared by the specifications: sums of reals, indicator functions, and the
    statement that an array (or the result of a call) has a given shape and given entries. *)
From Verif Require Export Arr.
From Coq Require Export Permutation.
Open Scope R_scope.

Definition Rsum (l : list R) : R := fold_right Rplus 0 l.
(** [sumn n f] is f 0 + ... + f (n-1) *)
Definition sumn (n : nat) (f : nat -> R) : R := Rsum (map f (seq 0 n)).

(** indicator of [a <= b] and of [a < b] *)
Definition ind_le (a b : R) : R := if Rle_dec a b then 1 else 0.
Definition ind_lt (a b : R) : R := if Rlt_dec a b then 1 else 0.

(** [arr_is a d s f]: the array has dtype d, shape s (last axis first) and entries f *)
Definition arr_is (a : arr) (d : dtype) (s : list nat) (f : list nat -> num) : Prop :=
  dt a = d /\ sh a = s /\ forall i, inb s i -> at_ a i = f i.

(** the call succeeds and returns such an array *)
Definition ten_is (T : tensor) (d : dtype) (s : list nat) (f : list nat -> num) : Prop :=
  exists a, T = Ok a /\ arr_is a d s f.
(** same, dtype left open *)
Definition returns (T : tensor) (s : list nat) (f : list nat -> num) : Prop :=
  exists d, ten_is T d s f.
(** the call raises [e] *)
Definition raises {A} (T : res A) (e : err) : Prop := T = Err e.

(** an array of finite numbers with values [f] *)
Definition real_arr (a : arr) (s : list nat) (f : list nat -> R) : Prop :=
  sh a = s /\ forall i, inb s i -> at_ a i = Fin (f i).

(** an argsort: returns a permutation of the positions that sorts the row, NaN last.
    Ties may come in any order (numpy's default algorithm is not stable). *)
Definition argsort_ok (srt : list num -> list nat) : Prop :=
  forall l, Permutation (srt l) (seq 0 (length l)) /\
            forall i j, (i < j < length l)%nat ->
              nle_sort (nth (nth i (srt l) 0%nat) l NaN) (nth (nth j (srt l) 0%nat) l NaN) = true.

(** Ensemble arguments.  [obs] has shape [s]; [fct] has one more axis, of size [M], at
    position [p] counted from the last axis; [ax] is that axis in python's numbering
    (negative or not).  Entries are finite reals. *)
Definition ens_axis (ax : Z) (rank p : nat) : Prop :=
  ax = (- Z.of_nat p - 1)%Z \/ ax = (Z.of_nat rank - Z.of_nat p)%Z.
Definition ens_args (obs fct : arr) (ax : Z) (s : list nat) (p M : nat) (y x : list nat -> R) : Prop :=
  real_arr obs s y /\ real_arr fct (insert_at p M s) x /\ (p <= length s)%nat /\ ens_axis ax (length s) p.
(** the same without assuming that the entries are finite *)
Definition ens_nums (obs fct : arr) (ax : Z) (s : list nat) (p M : nat) (y x : list nat -> num) : Prop :=
  (sh obs = s /\ forall r, inb s r -> at_ obs r = y r) /\
  (sh fct = insert_at p M s /\ forall i, inb (insert_at p M s) i -> at_ fct i = x i) /\
  (p <= length s)%nat /\ ens_axis ax (length s) p.
(** the members at grid point r *)
Definition member {A} (p : nat) (x : list nat -> A) (r : list nat) (k : nat) : A := x (insert_at p k r).

(** float array of finite entries; arrays of one entry and of one axis *)
Definition farr (s : list nat) (f : list nat -> R) : arr := mkArr DFloat s (fun i => Fin (f i)).
Definition num0 (a : num) : arr := mkArr DFloat [] (fun _ => a).
Definition num1 (n : nat) (f : nat -> num) : arr := mkArr DFloat [n] (fun i => f (hd 0%nat i)).
Definition real1 (n : nat) (f : nat -> R) : arr := num1 n (fun k => Fin (f k)).

(** ensemble weights: same shape as the forecasts, non-negative, a positive total at every grid
    point; the forecasts have a float dtype (the library casts the weights to it) *)
Definition wts_args (wt fct : arr) (s : list nat) (p M : nat) (w : list nat -> R) : Prop :=
  real_arr wt (insert_at p M s) w /\ dt fct = DFloat /\
  (forall r k, inb s r -> (k < M)%nat -> 0 <= member p w r k) /\
  (forall r, inb s r -> 0 < sumn M (member p w r)).
(** at least two members of positive weight *)
Definition two_positive (M : nat) (w : nat -> R) : Prop :=
  exists i j, (i < M)%nat /\ (j < M)%nat /\ i <> j /\ 0 < w i /\ 0 < w j.
(** caller's promise behind sorted_ensemble=True *)
Definition sorted_if (sf : bool) (s : list nat) (p M : nat) (x : list nat -> R) : Prop :=
  sf = true -> forall r, inb s r -> forall i j, (i <= j < M)%nat -> member p x r i <= member p x r j.
