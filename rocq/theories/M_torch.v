(** The array methods that the torch and jax backends implement themselves: [expand_dims] with
    a tuple of axes (backend/torch.py 117-125) and [apply_along_axis] (backend/torch.py 234-243,
    backend/jax.py 220-227).  The other array methods are one-line calls of the library.
    Assumed of the libraries: [reshape] is row-major and raises RuntimeError if the sizes differ;
    [vmap] applies the function to each row and stacks the results, or raises for functions whose
    control flow depends on the values ([tr] is whether vmap can trace the function); [unbind]
    and [stack] are the usual ones.  Arrays with an axis of length 0 are outside the scope of the
    statements: [vmap] is not specified for them.  Model file: no proofs. *)
From Verif Require Export M_mv M_binom.

(** [x.reshape(s)] *)
Definition treshape (x : arr) (s : list nat) : tensor :=
  if asize x =? fold_right Nat.mul 1 s
  then Ok (mkArr (dt x) s (fun i => nth (flat s i) (ravel x) NaN)) else Err RuntimeError.

(** ** torch.py 117-125, expand_dims for a tuple or list of axes *)
(** 122 *)
Definition expand_axes (out_ndim : nat) (axis : list Z) : list Z :=
  map (fun a => if (a <? 0)%Z then (a + Z.of_nat out_ndim)%Z else a) axis.
(** 123-124, for ax, ax + 1, ..., ax + n - 1; [it] is what is left of the iterator *)
Fixpoint expand_shape (axis : list Z) (ax n : nat) (it : list nat) : res (list nat) :=
  match n with
  | O => Ok []
  | S n' =>
      if existsb (Z.eqb (Z.of_nat ax)) axis
      then let* l := expand_shape axis (S ax) n' it in Ok (1 :: l)
      else match it with
           | [] => Err StopIteration
           | d :: it' => let* l := expand_shape axis (S ax) n' it' in Ok (d :: l)
           end
  end.
Definition texpand_dims (x : arr) (axis : list Z) : tensor :=
  let out_ndim := length axis + length (sh x) in
  let* shape := expand_shape (expand_axes out_ndim axis) 0 out_ndim (pyshape x) in
  treshape x (rev shape).

(** ** apply_along_axis *)
(** [l.pop(axis)]: the element and what is left *)
Definition py_pop (axis : Z) (l : list nat) : res (nat * list nat) :=
  match norm_axis axis (length l) with
  | Ok k => Ok (nth k l 0, remove_at k l)
  | Err _ => Err IndexError
  end.
(** the rows of [x.reshape(-1, d)] *)
Definition rows_of (x : arr) (d : nat) : res (list arr) :=
  if d =? 0 then Err RuntimeError else
  Ok (map (fun q => mkArr (dt x) [d] (fun i => nth (q * d + hd 0 i) (ravel x) NaN)) (seq 0 (asize x / d))).
(** [torch.stack(l, dim=axis)] *)
Definition tstack (l : list arr) (axis : Z) : tensor :=
  match l with
  | [] => Err RuntimeError
  | a :: _ =>
      if forallb (fun b => shape_eqb (sh b) (sh a)) l then
        let* p := rev_axis axis (S (length (sh a))) in
        Ok (mkArr (dt a) (insert_at p (length l) (sh a))
              (fun r => at_ (nth (nth p r 0) l a) (remove_at p r)))
      else Err RuntimeError
  end.
(** [torch.unbind(x, dim=axis)] *)
Definition tunbind (x : arr) (axis : Z) : res (list arr) :=
  let* p := rev_axis axis (length (sh x)) in
  Ok (map (fun k => mkArr (dt x) (remove_at p (sh x)) (fun r => at_ x (insert_at p k r))) (seq 0 (nth p (sh x) 0))).
(** [vmap(f)(rows)] *)
Definition vmap (tr : bool) (f : arr -> tensor) (rows : list arr) : tensor :=
  if tr then let* l := collect (map f rows) in tstack l 0 else Err RuntimeError.
(** the [try] branch of both backends: torch.py 238-239, jax.py 224-225 *)
Definition apply_vmap (tr : bool) (f : arr -> tensor) (x : arr) (axis : Z) : tensor :=
  let* (d, x_shape) := py_pop axis (pyshape x) in
  let* rows := rows_of x d in
  let* r := vmap tr f rows in
  treshape r (rev x_shape).
(** torch.py 234-243 *)
Definition torch_apply_along_axis (tr : bool) (f : arr -> tensor) (x : arr) (axis : Z) : tensor :=
  match apply_vmap tr f x axis with
  | Ok r => Ok r
  | Err _ => let* xs := tunbind x axis in let* l := collect (map f xs) in tstack l axis
  end.
(** jax.py 220-227; [fallback] is the result of the library's jnp.apply_along_axis *)
Definition jax_apply_along_axis (fallback : tensor) (tr : bool) (f : arr -> tensor) (x : arr) (axis : Z) : tensor :=
  match apply_vmap tr f x axis with Ok r => Ok r | Err _ => fallback end.
