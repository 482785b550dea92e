(** Property C77: the array methods that the torch and jax backends implement themselves,
    expand_dims with a tuple of axes and apply_along_axis. *)
From Verif Require Import T_torch.
From Coq Require Import Psatz Lia.
Import ListNotations.
Open Scope nat_scope.

(** C77.  torch: for any tuple of distinct axes in range (negative ones counted from the end of the result) expand_dims succeeds; the result has length one along the new axes, its other axes are those of x, and an element is the element of x at the index without the new axes, as in numpy. *)
Theorem C77_expand_dims :
forall (x : arr) (axes : list Z), let n := length axes + length (sh x) in axes_ok n axes ->
  exists r, texpand_dims x axes = Ok r /\ dt r = dt x /\ length (pyshape r) = n /\
    (forall k, k < n -> is_axis n axes k = true -> nth k (pyshape r) 0 = 1) /\
    without (is_axis n axes) (pyshape r) = pyshape x /\
    forall i, inb (sh r) i -> at_ r i = at_ x (rev (without (is_axis n axes) (rev i))).
Proof. exact C77_expand_dims_l. Qed.
Print Assumptions C77_expand_dims.
(** axes 0 and -1 of the expanded version of a vector: shape (1, m, 1) *)
Example C77_expand_dims_case : axes_ok 3 [0; -1]%Z /\ is_axis 3 [0; -1]%Z 0 = true /\ is_axis 3 [0; -1]%Z 1 = false /\ is_axis 3 [0; -1]%Z 2 = true.
Proof. repeat split; try reflexivity. - repeat constructor; discriminate. - constructor; [intros [H|[]]; discriminate|constructor; [intros []|constructor]]. Qed.

(** C77.  torch: with repeated or missing axes the iterator over the shape of x runs out and expand_dims raises StopIteration (numpy: AxisError or ValueError). *)
Theorem C77_expand_dims_stop :
forall (x : arr) (axes : list Z), ~ axes_ok (length axes + length (sh x)) axes -> raises (texpand_dims x axes) StopIteration.
Proof. exact C77_expand_dims_stop_l. Qed.
Print Assumptions C77_expand_dims_stop.
(** the same axis twice *)
Example C77_expand_dims_stop_case : ~ axes_ok 3 [2; -1]%Z.
Proof. intros [_ N]. inversion N as [|a l H _]. apply H. left. reflexivity. Qed.

(** C77.  torch: the tuples of axes used by the scores, (-2, -1) and (-1, -2), (-3, -4) and range(-k, 0), give what the model of the scores uses on every backend. *)
Theorem C77_expand_dims_code :
forall (x : arr),
  same_array (texpand_dims x [-2; -1]%Z) (expand12 x) /\
  same_array (texpand_dims x [-1; -2]%Z) (expand12 x) /\
  (2 <= length (sh x) -> same_array (texpand_dims x [-3; -4]%Z) (expand34 x)) /\
  forall k, same_array (texpand_dims x (map (fun j => Z.of_nat j - Z.of_nat k)%Z (seq 0 k))) (Nat.iter k (aexpand 0) (Ok x)).
Proof. exact C77_expand_dims_code_l. Qed.
Print Assumptions C77_expand_dims_code.
(** a matrix has two axes *)
Example C77_expand_dims_code_case : 2 <= length (sh mat22).
Proof. simpl. lia. Qed.

(** C77.  torch and jax: along the last axis, given as -1 or by its number, apply_along_axis applies a traceable function to the vectors of x, as in numpy, whatever the fallback is. *)
Theorem C77_apply_last :
forall (x : arr) (d : nat) (s : list nat) (axis : Z) (f : arr -> tensor) (g : list num -> num) (fallback : tensor),
  sh x = (d :: s)%list -> ~ In 0 (sh x) -> axis = (-1)%Z \/ axis = Z.of_nat (length s) -> scalar_fun f g ->
  returns (torch_apply_along_axis true f x axis) s (fun r => g (map (fun k => at_ x (k :: r)) (seq 0 d))) /\
  returns (jax_apply_along_axis fallback true f x axis) s (fun r => g (map (fun k => at_ x (k :: r)) (seq 0 d))).
Proof. exact C77_apply_last_l. Qed.
Print Assumptions C77_apply_last.
(** the first elements of the rows of a matrix *)
Example C77_apply_last_case : sh mat22 = [2; 2] /\ ~ In 0 (sh mat22) /\ scalar_fun head_f first_g.
Proof. repeat split; [simpl; lia|exact head_scalar]. Qed.

(** C77.  torch and jax: for arrays without empty axes the weights that apply_along_axis(w_func, x, -1) computes (utils.py 174-175) are those of the numpy model of the weighted scores. *)
Theorem C77_apply_numpy :
forall (x : arr) (t : dtype) (f : arr -> tensor) (g : list num -> num) (fallback : tensor),
  sh x <> nil -> ~ In 0 (sh x) -> scalar_fun f g ->
  exists s v, returns (aapply_last (t, g) (Ok x)) s v /\ returns (torch_apply_along_axis true f x (-1)) s v /\ returns (jax_apply_along_axis fallback true f x (-1)) s v.
Proof. exact C77_apply_numpy_l. Qed.
Print Assumptions C77_apply_numpy.
(** a matrix *)
Example C77_apply_numpy_case : sh mat22 <> nil /\ ~ In 0 (sh mat22) /\ scalar_fun head_f first_g.
Proof. repeat split; [discriminate|simpl; lia|exact head_scalar]. Qed.

(** C77.  torch and jax: along the first axis of a square matrix apply_along_axis applies the function to the rows, as if the axis were the last one (nothing moves the axis before the reshape). *)
Theorem C77_apply_square :
forall (x : arr) (n : nat) (f : arr -> tensor) (g : list num -> num) (fallback : tensor),
  sh x = (n :: n :: nil)%list -> 0 < n -> scalar_fun f g ->
  exists v, returns (torch_apply_along_axis true f x 0) (n :: nil)%list v /\ returns (jax_apply_along_axis fallback true f x 0) (n :: nil)%list v /\
    forall r, r < n -> v (r :: nil)%list = g (map (fun k => at_ x (k :: r :: nil)%list) (seq 0 n)).
Proof. exact C77_apply_square_l. Qed.
Print Assumptions C77_apply_square.
(** a 2 x 2 matrix *)
Example C77_apply_square_case : sh mat22 = [2; 2] /\ 0 < 2 /\ scalar_fun head_f first_g.
Proof. repeat split; [lia|exact head_scalar]. Qed.

(** C77.  torch and jax: apply_along_axis is not numpy's along the other axes: along axis 0 of ((0, 1), (2, 3)) the first elements are 0 and 1, but it returns 0 and 2. *)
Theorem C77_apply_axis_refuted :
exists (x : arr) (n : nat) (f : arr -> tensor) (g : list num -> num) (r : nat), sh x = (n :: n :: nil)%list /\ r < n /\ scalar_fun f g /\
  forall fallback, exists v, returns (torch_apply_along_axis true f x 0) (n :: nil)%list v /\ returns (jax_apply_along_axis fallback true f x 0) (n :: nil)%list v /\
    v (r :: nil)%list <> g (map (fun k => at_ x (r :: k :: nil)%list) (seq 0 n)).
Proof. exact C77_apply_axis_refuted_l. Qed.
Print Assumptions C77_apply_axis_refuted.

(** C77.  torch: for a function that vmap cannot trace the fallback applies it to the slices x[..., j]: along the last axis of an m x d matrix it returns d values, those of the columns, in place of the m values of the rows; for square matrices the wrong result has the right shape. *)
Theorem C77_apply_fallback_refuted :
(forall (x : arr) (m d : nat) (f : arr -> tensor) (g : list num -> num), sh x = (d :: m :: nil)%list -> 0 < d -> scalar_fun f g ->
  exists v, returns (torch_apply_along_axis false f x (-1)) (d :: nil)%list v /\
    forall j, j < d -> v (j :: nil)%list = g (map (fun k => at_ x (j :: k :: nil)%list) (seq 0 m))) /\
exists (x : arr) (n : nat) (f : arr -> tensor) (g : list num -> num) (r : nat), sh x = (n :: n :: nil)%list /\ r < n /\ scalar_fun f g /\
  exists v, returns (torch_apply_along_axis false f x (-1)) (n :: nil)%list v /\
    v (r :: nil)%list <> g (map (fun k => at_ x (k :: r :: nil)%list) (seq 0 n)).
Proof. exact C77_apply_fallback_refuted_l. Qed.
Print Assumptions C77_apply_fallback_refuted.

(** C77.  jax: for a function that vmap cannot trace the result is that of jnp.apply_along_axis.  torch: along the first axis of an m x d matrix the fallback returns m values, those of the rows, in place of the d values of the columns. *)
Theorem C77_apply_fallback :
(forall (x : arr) (f : arr -> tensor) (axis : Z) (fallback : tensor), jax_apply_along_axis fallback false f x axis = fallback) /\
forall (x : arr) (m d : nat) (f : arr -> tensor) (g : list num -> num), sh x = (d :: m :: nil)%list -> 0 < m -> scalar_fun f g ->
  exists v, returns (torch_apply_along_axis false f x 0) (m :: nil)%list v /\
    forall j, j < m -> v (j :: nil)%list = g (map (fun k => at_ x (k :: j :: nil)%list) (seq 0 d)).
Proof. exact C77_apply_fallback_l. Qed.
Print Assumptions C77_apply_fallback.
(** a matrix *)
Example C77_apply_fallback_case : sh mat22 = [2; 2] /\ 0 < 2 /\ scalar_fun head_f first_g.
Proof. repeat split; [lia|exact head_scalar]. Qed.
