(** Model of the multivariate parts of scoringrules/core/utils.py, and of the numpy operations
    that only the multivariate scores use.  Model file: no proofs. *)
From Verif Require Export M_crps.
Open Scope nat_scope.

(** [np.linalg.norm(x, axis=-1)], Euclidean *)
Definition nnorm (l : list num) : num := nsqrt (nsum (map nsq l)).
Definition anorm := areduce dfloat1 nnorm.

(** [np.roll(x, shift, axis=-2)] *)
Definition aroll2 (shift : nat) (x : tensor) : tensor :=
  let* a := x in
  match sh a with
  | d :: m :: s => Ok (mkArr (dt a) (d :: m :: s)
      (fun i => at_ a (hd 0 i :: (hd 0 (tl i) + m - shift mod m) mod m :: tl (tl i))))
  | _ => Err AxisError
  end.

(** [np.mean(x, axis=(-2, -1))] *)
Definition amean2 (x : tensor) : tensor :=
  let* a := x in
  match sh a with
  | d :: m :: _ => (asum2 (Ok a) / sci (d * m))%A
  | _ => Err AxisError
  end.

(** [np.moveaxis(x, (m, v), (-2, -1))]: a repeated axis is a ValueError; the other axes keep
    their order *)
Definition amove_last2 (m v : Z) (x : tensor) : tensor :=
  let* a := x in
  let n := length (sh a) in
  let* m := norm_axis m n in
  let* v := norm_axis v n in
  if m =? v then Err ValueError else
  amove_last (Z.of_nat (if m <? v then v - 1 else v)) (amove_last (Z.of_nat m) (Ok a)).

(** utils.py 74-79, _multivariate_shape_permute *)
Definition multivariate_shape_permute (obs fct : arr) (m_axis v_axis : Z) : res (arr * arr) :=
  let v_axis_obs := if (m_axis <? v_axis)%Z then (v_axis - 1)%Z else v_axis in
  let* fct := amove_last2 m_axis v_axis (Ok fct) in
  let* obs := amove_last v_axis_obs (Ok obs) in
  Ok (obs, fct).

(** utils.py 82-89, multivariate_array_check *)
Definition multivariate_array_check (obs fct : arr) (m_axis v_axis : Z) : res (arr * arr) :=
  let m_axis := shift_axis m_axis fct in
  let v_axis := shift_axis v_axis fct in
  let* _ := shape_compatibility_check obs fct m_axis in
  multivariate_shape_permute obs fct m_axis v_axis.

(** utils.py 110-126, multivariate_weight_check (for weights that are not None);
    [fct] is the permuted forecast array, its shape without the last axis is [tl (sh fct)] *)
Definition multivariate_weight_check (ens_w fct : arr) (m_axis : Z) : res arr :=
  let m_axis := shift_axis m_axis fct in
  let* ens_w := amove_last m_axis (Ok ens_w) in
  if negb (shape_eqb (sh ens_w) (tl (sh fct))) then Err ValueError else
  let* neg := aany (Ok ens_w <? sci 0)%A in
  if neg then Err ValueError else
  (Ok ens_w / asum_keep (Ok ens_w))%A.

(** [np.apply_along_axis(f, -1, x)] for a function from vectors to numbers, given with the
    dtype of the array it produces; numpy refuses to iterate over no vectors at all *)
Definition aapply_last (w : dtype * (list num -> num)) (x : tensor) : tensor :=
  let* a := x in
  match sh a with
  | d :: s => if existsb (fun k => k =? 0) s then Err ValueError
              else Ok (mkArr (fst w) s (fun r => snd w (row a d r)))
  | [] => Err AxisError
  end.

(** utils.py 170-182, mv_weighted_score_weights *)
Definition mv_weighted_score_weights (obs fct : arr) (w_func : dtype * (list num -> num))
    : res (arr * arr) :=
  let* obs_w := aapply_last w_func (Ok obs) in
  let* fct_w := aapply_last w_func (Ok fct) in
  let* n1 := aany (Ok obs_w <? sci 0)%A in
  let* n2 := aany (Ok fct_w <? sci 0)%A in
  if n1 || n2 then Err ValueError else Ok (obs_w, fct_w).

(** utils.py 184-187, mv_weighted_score_chain: the user function gets the whole arrays *)
Definition mv_weighted_score_chain (obs fct : arr) (v_func : arr -> tensor) : res (arr * arr) :=
  let* obs := v_func obs in
  let* fct := v_func fct in
  Ok (obs, fct).

(** * gufunc signatures on vectors *)
(** "(d),(m,d)->()" *)
Definition gu_vm (out : arr -> list nat -> (list nat -> num) -> tensor)
    (k : list num -> list (list num) -> num) (obs fct : arr) : tensor :=
  let* (d, so) := gcore1 obs in
  let* (d', m, sf) := gcore2 fct in
  let* _ := check (d =? d') in
  let* L := gloop [so; sf] in
  out obs L (fun r => k (gV obs r) (gM fct r)).
(** "(d),(m,d),(m)->()" *)
Definition gu_vmv (out : arr -> list nat -> (list nat -> num) -> tensor)
    (k : list num -> list (list num) -> list num -> num) (obs fct w : arr) : tensor :=
  let* (d, so) := gcore1 obs in
  let* (d', m, sf) := gcore2 fct in
  let* (m', sw) := gcore1 w in
  let* _ := check ((d =? d') && (m =? m')) in
  let* L := gloop [so; sf; sw] in
  out obs L (fun r => k (gV obs r) (gM fct r) (gV w r)).
(** "(d),(m,d),(),(m)->()" *)
Definition gu_vmsv (out : arr -> list nat -> (list nat -> num) -> tensor)
    (k : list num -> list (list num) -> num -> list num -> num) (obs fct ow fw : arr) : tensor :=
  let* (d, so) := gcore1 obs in
  let* (d', m, sf) := gcore2 fct in
  let* (m', sw) := gcore1 fw in
  let* _ := check ((d =? d') && (m =? m')) in
  let* L := gloop [so; sf; sh ow; sw] in
  out obs L (fun r => k (gV obs r) (gM fct r) (gS ow r) (gV fw r)).

(** core/utils.py 329-346 around a kernel compiled on first call *)
Definition out_lazy_mv := gout_like_mv.
(** the same around a kernel compiled with explicit float signatures: numpy refuses to cast
    its float result into an output of another dtype (UFuncTypeError, a TypeError) *)
Definition out_float_mv (obs : arr) (L : list nat) (f : list nat -> num) : tensor :=
  if dtype_eqb (dt obs) DFloat then gout_like_mv obs L f else Err TypeError.
(** numba compiles [np.linalg.norm] for float (and complex) vectors only.  (A process that has
    already compiled the kernel for floats may convert integer arrays instead; the model is
    the first call.) *)
Definition needs_float (d : dtype) (t : tensor) : tensor :=
  if dtype_eqb d DFloat then t else Err NumbaError.

Definition vsub (a b : list num) : list num := map (fun '(x, y) => x .- y) (combine a b).
Definition ithv (l : list (list num)) (i : nat) : list num := nth i l [].
