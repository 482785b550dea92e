(** Model of scoringrules/core/utils.py (univariate input checks, NaN policy,
    weights).  Model file: no proofs. *)
From Coq Require Export String.
From Verif Require Export Arr.
Open Scope nat_scope.

Infix "=s?" := String.eqb (at level 70, no associativity).
Definition str_in (s : string) (l : list string) : bool := existsb (String.eqb s) l.
Definition shape_eqb (s t : list nat) : bool :=
  if list_eq_dec Nat.eq_dec s t then true else false.

(** Which implementation a call uses: [Numba] for [backend == "numba"], [Array] for every
    other value of the argument (numpy semantics is given to all of them). *)
Inductive impl : Type := Array | Numba.
Definition is_numba (b : impl) : bool := match b with Numba => true | Array => false end.

(** utils.py 17-24, _shape_compatibility_check.  Shapes are compared in python order;
    [m_axis] has already been shifted by the caller. *)
Definition shape_compatibility_check (obs fct : arr) (m_axis : Z) : res unit :=
  let f_shape := pyshape fct in
  let o_shape := pyshape obs in
  let* m := py_index m_axis f_shape in
  let o_shape_broadcast := py_take m_axis o_shape ++ [m] ++ py_drop m_axis o_shape in
  if shape_eqb o_shape_broadcast f_shape then Ok tt else Err ValueError.

Definition shift_axis (ax : Z) (a : arr) : Z :=
  if (0 <=? ax)%Z then ax else (Z.of_nat (length (sh a)) + ax)%Z.

(** utils.py 63-71, univariate_array_check *)
Definition univariate_array_check (obs fct : arr) (m_axis : Z) : res (arr * arr) :=
  let m_axis := shift_axis m_axis fct in
  let* _ := shape_compatibility_check obs fct m_axis in
  let* fct := (if (m_axis =? -1)%Z then Ok fct else amove_last m_axis (Ok fct)) in
  Ok (obs, fct).

(** utils.py 92-107, univariate_weight_check (for weights that are not None) *)
Definition univariate_weight_check (ens_w fct : arr) (m_axis : Z) : res arr :=
  let m_axis := shift_axis m_axis fct in
  let* ens_w := amove_last m_axis (Ok ens_w) in
  if negb (shape_eqb (sh ens_w) (sh fct)) then Err ValueError else
  let* neg := aany (Ok ens_w <? sci 0)%A in
  if neg then Err ValueError else
  (Ok ens_w / asum_keep (Ok ens_w))%A.

Definition opt_weight_check (ens_w : option arr) (fct : arr) (m_axis : Z) : res (option arr) :=
  match ens_w with
  | None => Ok None
  | Some w => let* w' := univariate_weight_check w fct m_axis in Ok (Some w')
  end.

(** utils.py 137-152, uv_weighted_score_weights.  A user supplied [w_func] is modelled as
    an element-wise function together with the dtype of the arrays it returns. *)
Definition uv_weights1 (a b : num) (w_func : option (dtype * (num -> num))) (x : tensor) : tensor :=
  match w_func with
  | None => (aand (scn a <=? x) (x <=? scn b) * sc 1)%A
  | Some (d, f) => amap (fun _ => d) f x
  end.
Definition uv_weighted_score_weights (obs fct : arr) (a b : num)
    (w_func : option (dtype * (num -> num))) : res (arr * arr) :=
  let* obs_w := uv_weights1 a b w_func (Ok obs) in
  let* fct_w := uv_weights1 a b w_func (Ok fct) in
  let* n1 := aany (Ok obs_w <? sci 0)%A in
  let* n2 := aany (Ok fct_w <? sci 0)%A in
  if n1 || n2 then Err ValueError else Ok (obs_w, fct_w).

(** utils.py 155-167, uv_weighted_score_chain.  A user supplied [v_func] is modelled as an
    element-wise function returning floats. *)
Definition uv_chain1 (a b : num) (v_func : option (num -> num)) (x : tensor) : tensor :=
  match v_func with
  | None => amin (amax x (scn a)) (scn b)
  | Some f => amap dfloat1 f x
  end.
Definition uv_weighted_score_chain (obs fct : arr) (a b : num) (v_func : option (num -> num))
    : res (arr * arr) :=
  let* obs := uv_chain1 a b v_func (Ok obs) in
  let* fct := uv_chain1 a b v_func (Ok fct) in
  Ok (obs, fct).

(** utils.py 190-203, univariate_sort_ens.  [srt] is the argsort algorithm (not stable in
    numpy); it is a parameter of the model. *)
Definition univariate_sort_ens (srt : list num -> list nat) (fct : arr) (ens_w : option arr)
    (m_axis : Z) (estimator : string) (sorted_ensemble : bool) : res (arr * option arr) :=
  let sort_ensemble := negb sorted_ensemble && str_in estimator ["qd"; "pwm"; "int"]%string in
  let ind := aargsort srt (Ok fct) in
  let* fct := (if sort_ensemble then agather (Ok fct) ind else Ok fct) in
  match ens_w with
  | None => Ok (fct, None)
  | Some w =>
      let* w := univariate_weight_check w fct m_axis in
      let* w := (if sort_ensemble then agather (Ok w) ind else Ok w) in
      Ok (fct, Some w)
  end.

(** utils.py 213-278, apply_nan_policy_ens_uv.  [estimator] is None for the callers that do
    not pass it. *)
Definition apply_nan_policy_ens_uv (obs fct : arr) (nan_policy : string) (ens_w : option arr)
    (estimator : option string) (m_axis : Z) : res (arr * arr * option arr) :=
  let* ens_w := (match ens_w with
                 | None => Ok None
                 | Some w => let* w := amove_last m_axis (acast (dt fct) (Ok w)) in Ok (Some w)
                 end) in
  if nan_policy =s? "propagate" then Ok (obs, fct, ens_w) else
  let* nan_mask := (match ens_w with
                    | None => aisnan (Ok fct)
                    | Some w => aor (aisnan (Ok fct)) (aisnan (Ok w))
                    end) in
  if nan_policy =s? "raise" then
    let* b1 := aany (Ok nan_mask) in
    let* b2 := aany (aisnan (Ok obs)) in
    if b1 || b2 then Err ValueError else Ok (obs, fct, ens_w)
  else if nan_policy =s? "omit" then
    if (match estimator with
        | Some e => str_in e ["int"; "akr"; "akr_circperm"]%string
        | None => false
        end)
    then Err NotImplementedError
    else
      let* fct := awhere (aisnan (Ok fct)) (sc 0) (Ok fct) in
      let* w := (match ens_w with
                 | None => acast (dt fct) (anot (Ok nan_mask))
                 | Some w => awhere (Ok nan_mask) (sc 0) (Ok w)
                 end) in
      Ok (obs, fct, Some w)
  else Err ValueError.

(** utils.py 281-307, apply_nan_policy_ens_mv: not called by the public API; see M_nanmv.v.
    The multivariate checks are in M_mv.v. *)

(** utils.py 129-134, estimator_check *)
Definition estimator_check (estimator : string) (known : list string) : res unit :=
  if str_in estimator known then Ok tt else Err ValueError.
