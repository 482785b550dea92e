(** Model of scoringrules/core/energy and scoringrules/_energy.py.  Model file: no proofs. *)
From Verif Require Export M_mv.
Open Scope nat_scope.

(** [fct.shape[-2]] *)
Definition dim2 (a : arr) : nat := hd 0 (tl (sh a)).

(** * core/energy/_score.py *)

(** [B.norm(fct - B.expand_dims(obs, -2), -1)] *)
Definition err_norm (obs fct : arr) : tensor := anorm (Ok fct - aexpand 1 (Ok obs))%A.
(** [B.norm(B.expand_dims(fct, -3) - B.expand_dims(fct, -2), -1)] *)
Definition spread_norm (fct : arr) : tensor := anorm (aexpand 2 (Ok fct) - aexpand 1 (Ok fct))%A.
(** the same with the operands exchanged, lines 110-112 and 133-135 *)
Definition spread_norm' (fct : arr) : tensor := anorm (aexpand 1 (Ok fct) - aexpand 2 (Ok fct))%A.

(** 33-44 *)
Definition es_nrg_arr (obs fct : arr) : tensor :=
  let M := dim2 fct in
  let E_1 := (asum (err_norm obs fct) / sci M)%A in
  let E_2 := (asum2 (spread_norm fct) / sci (M * M))%A in
  (E_1 - sc half * E_2)%A.

(** 47-58 *)
Definition es_fair_arr (obs fct : arr) : tensor :=
  let M := dim2 fct in
  let E_1 := (asum (err_norm obs fct) / sci M)%A in
  let E_2 := (asum2 (spread_norm fct) / sci (M * (M - 1)))%A in
  (E_1 - sc half * E_2)%A.

(** 61-72 *)
Definition es_akr_arr (obs fct : arr) : tensor :=
  let M := dim2 fct in
  let E_1 := (asum (err_norm obs fct) / sci M)%A in
  let E_2 := (asum (anorm (Ok fct - aroll2 1 (Ok fct))) / sci M)%A in
  (E_1 - sc half * E_2)%A.

(** 75-89 *)
Definition es_akr_circperm_arr (obs fct : arr) : tensor :=
  let M := dim2 fct in
  let E_1 := (asum (err_norm obs fct) / sci M)%A in
  let shift := M / 2 in
  let E_2 := (asum (anorm (Ok fct - aroll2 shift (Ok fct))) / sci M)%A in
  (E_1 - sc half * E_2)%A.

(** 9-30 *)
Definition es_ensemble_arr (obs fct : arr) (estimator : string) : tensor :=
  if estimator =s? "nrg" then es_nrg_arr obs fct
  else if estimator =s? "fair" then es_fair_arr obs fct
  else if estimator =s? "akr" then es_akr_arr obs fct
  else if estimator =s? "akr_circperm" then es_akr_circperm_arr obs fct
  else Err ValueError.

(** 92-113 *)
Definition owes_arr (obs fct ow fw : arr) : tensor :=
  let wbar := amean (Ok fw) in
  let E_1 := (amean (err_norm obs fct * Ok fw * aexpand 0 (Ok ow)) / wbar)%A in
  let fw_prod := (aexpand 0 (Ok fw) * aexpand 1 (Ok fw))%A in
  let spread := ainplace nmul (spread_norm' fct) (fw_prod * aexpand 0 (aexpand 0 (Ok ow)))%A in
  let E_2 := (amean2 spread / asq wbar)%A in
  (E_1 - sc half * E_2)%A.

(** 116-139 *)
Definition vres_arr (obs fct ow fw : arr) : tensor :=
  let wbar := amean (Ok fw) in
  let err := ainplace nmul (err_norm obs fct) (Ok fw * aexpand 0 (Ok ow))%A in
  let E_1 := amean err in
  let fw_prod := (aexpand 1 (Ok fw) * aexpand 0 (Ok fw))%A in
  let E_2 := amean2 (spread_norm' fct * fw_prod)%A in
  let rhobar := amean (anorm (Ok fct) * Ok fw)%A in
  let E_3 := ((rhobar - anorm (Ok obs) * Ok ow) * (wbar - Ok ow))%A in
  (E_1 - sc half * E_2 + E_3)%A.

(** * core/energy/_score_w.py *)

(** 33-49 *)
Definition es_nrg_w_arr (obs fct ens_w : arr) : tensor :=
  let E_1 := asum (err_norm obs fct * Ok ens_w)%A in
  let E_2 := asum2 (spread_norm fct * aexpand 0 (Ok ens_w) * aexpand 1 (Ok ens_w))%A in
  (E_1 - sc half * E_2)%A.

(** 52-70 *)
Definition es_fair_w_arr (obs fct ens_w : arr) : tensor :=
  let E_1 := asum (err_norm obs fct * Ok ens_w)%A in
  let E_2 := asum2 (spread_norm fct * aexpand 0 (Ok ens_w) * aexpand 1 (Ok ens_w))%A in
  let fair_c := (sci 1 - asum (Ok ens_w * Ok ens_w))%A in
  (E_1 - sc half * E_2 / fair_c)%A.

(** 73-85 *)
Definition es_akr_w_arr (obs fct ens_w : arr) : tensor :=
  let E_1 := asum (err_norm obs fct * Ok ens_w)%A in
  let E_2 := asum (anorm (Ok fct - aroll2 1 (Ok fct)) * Ok ens_w)%A in
  (E_1 - sc half * E_2)%A.

(** 88-102 *)
Definition es_akr_circperm_w_arr (obs fct ens_w : arr) : tensor :=
  let M := dim2 fct in
  let E_1 := asum (err_norm obs fct * Ok ens_w)%A in
  let shift := M / 2 in
  let E_2 := asum (anorm (Ok fct - aroll2 shift (Ok fct)) * Ok ens_w)%A in
  (E_1 - sc half * E_2)%A.

(** 9-30 *)
Definition es_ensemble_w_arr (obs fct ens_w : arr) (estimator : string) : tensor :=
  if estimator =s? "nrg" then es_nrg_w_arr obs fct ens_w
  else if estimator =s? "fair" then es_fair_w_arr obs fct ens_w
  else if estimator =s? "akr" then es_akr_w_arr obs fct ens_w
  else if estimator =s? "akr_circperm" then es_akr_circperm_w_arr obs fct ens_w
  else Err ValueError.

(** 105-129 *)
Definition owes_w_arr (obs fct ow fw ens_w : arr) : tensor :=
  let wbar := asum (Ok fw * Ok ens_w)%A in
  let E_1 := (asum (err_norm obs fct * Ok fw * aexpand 0 (Ok ow) * Ok ens_w) / wbar)%A in
  let fw_prod := (aexpand 0 (Ok fw) * aexpand 1 (Ok fw))%A in
  let spread := ainplace nmul (spread_norm' fct) (fw_prod * aexpand 0 (aexpand 0 (Ok ow)))%A in
  let E_2 := (asum2 (spread * aexpand 0 (Ok ens_w) * aexpand 1 (Ok ens_w)) / asq wbar)%A in
  (E_1 - sc half * E_2)%A.

(** 132-159 *)
Definition vres_w_arr (obs fct ow fw ens_w : arr) : tensor :=
  let wbar := asum (Ok fw * Ok ens_w)%A in
  let err := ainplace nmul (err_norm obs fct) (Ok fw * aexpand 0 (Ok ow))%A in
  let E_1 := asum (err * Ok ens_w)%A in
  let fw_prod := (aexpand 1 (Ok fw) * aexpand 0 (Ok fw))%A in
  let E_2 := asum2 (spread_norm' fct * fw_prod * aexpand 0 (Ok ens_w) * aexpand 1 (Ok ens_w))%A in
  let rhobar := asum (anorm (Ok fct) * Ok fw * Ok ens_w)%A in
  let E_3 := ((rhobar - anorm (Ok obs) * Ok ow) * (wbar - Ok ow))%A in
  (E_1 - sc half * E_2 + E_3)%A.

(** * core/energy/_gufuncs.py *)

(** the double loop of 22-27 and 47-52 *)
Definition es_e1e2 (obs : list num) (fct : list (list num)) : num * num :=
  let M := length fct in
  fold_left (fun '(e_1, e_2) i =>
      (e_1 .+ nnorm (vsub (ithv fct i) obs),
       fold_left (fun e_2 j => e_2 .+ n2 .* nnorm (vsub (ithv fct i) (ithv fct j)))
                 (seq (i + 1) (M - (i + 1))) e_2))
    (seq 0 M) (n0, n0).

(** 7-29 *)
Definition es_nrg_k (obs : list num) (fct : list (list num)) : num :=
  let M := length fct in
  let '(e_1, e_2) := es_e1e2 obs fct in
  e_1 ./ nofnat M .- nhalf ./ nofnat (M * M) .* e_2.

(** 32-54 *)
Definition es_fair_k (obs : list num) (fct : list (list num)) : num :=
  let M := length fct in
  let '(e_1, e_2) := es_e1e2 obs fct in
  e_1 ./ nofnat M .- nhalf ./ nofnat (M * (M - 1)) .* e_2.

(** 57-67; [fct[i - 1]] is the last member for i = 0 *)
Definition es_akr_k (obs : list num) (fct : list (list num)) : num :=
  let M := length fct in
  let '(e_1, e_2) :=
    fold_left (fun '(e_1, e_2) i =>
        (e_1 .+ nnorm (vsub (ithv fct i) obs),
         e_2 .+ nnorm (vsub (ithv fct i) (ithv fct (if i =? 0 then M - 1 else i - 1)))))
      (seq 0 M) (n0, n0) in
  e_1 ./ nofnat M .- nhalf .* n1 ./ nofnat M .* e_2.

(** 70-83 *)
Definition es_akr_circperm_k (obs : list num) (fct : list (list num)) : num :=
  let M := length fct in
  let '(e_1, e_2) :=
    fold_left (fun '(e_1, e_2) i =>
        let sigma_i := (i + M / 2) mod M in
        (e_1 .+ nnorm (vsub (ithv fct i) obs),
         e_2 .+ nnorm (vsub (ithv fct i) (ithv fct sigma_i))))
      (seq 0 M) (n0, n0) in
  e_1 ./ nofnat M .- nhalf .* n1 ./ nofnat M .* e_2.

(** 86-105 *)
Definition owes_k (obs : list num) (fct : list (list num)) (ow : num) (fw : list num) : num :=
  let M := length fct in
  let '(e_1, e_2) :=
    fold_left (fun '(e_1, e_2) i =>
        (e_1 .+ nnorm (vsub (ithv fct i) obs) .* ith fw i .* ow,
         fold_left (fun e_2 j => e_2 .+ n2 .* (nnorm (vsub (ithv fct i) (ithv fct j))
                                               .* ith fw i .* ith fw j .* ow))
                   (seq (i + 1) (M - (i + 1))) e_2))
      (seq 0 M) (n0, n0) in
  let wbar := nmean fw in
  e_1 ./ (nofnat M .* wbar) .- nhalf .* e_2 ./ (nofnat (M * M) .* nsq wbar).

(** 108-131 *)
Definition vres_k (obs : list num) (fct : list (list num)) (ow : num) (fw : list num) : num :=
  let M := length fct in
  let '(e_1, e_2, wabs_x) :=
    fold_left (fun '(e_1, e_2, wabs_x) i =>
        (e_1 .+ nnorm (vsub (ithv fct i) obs) .* ith fw i .* ow,
         fold_left (fun e_2 j => e_2 .+ n2 .* (nnorm (vsub (ithv fct i) (ithv fct j))
                                               .* ith fw i .* ith fw j))
                   (seq (i + 1) (M - (i + 1))) e_2,
         wabs_x .+ nnorm (ithv fct i) .* ith fw i))
      (seq 0 M) (n0, n0, n0) in
  let wabs_x := wabs_x ./ nofnat M in
  let wbar := nmean fw in
  let wabs_y := nnorm obs .* ow in
  e_1 ./ nofnat M .- nhalf .* e_2 ./ nofnat (M * M) .+ (wabs_x .- wabs_y) .* (wbar .- ow).

(** * core/energy/_gufuncs_w.py *)

(** the double loop of 17-22 and 37-42 *)
Definition es_e1e2_w (obs : list num) (fct : list (list num)) (w : list num) : num * num :=
  let M := length fct in
  fold_left (fun '(e_1, e_2) i =>
      (e_1 .+ nnorm (vsub (ithv fct i) obs) .* ith w i,
       fold_left (fun e_2 j => e_2 .+ n2 .* nnorm (vsub (ithv fct i) (ithv fct j)) .* ith w i .* ith w j)
                 (seq (i + 1) (M - (i + 1))) e_2))
    (seq 0 M) (n0, n0).

(** 7-24 *)
Definition es_nrg_w_k (obs : list num) (fct : list (list num)) (w : list num) : num :=
  let '(e_1, e_2) := es_e1e2_w obs fct w in
  e_1 .- nhalf .* e_2.

(** 27-46 *)
Definition es_fair_w_k (obs : list num) (fct : list (list num)) (w : list num) : num :=
  let '(e_1, e_2) := es_e1e2_w obs fct w in
  let fair_c := n1 .- nsum (map nsq w) in
  e_1 .- nhalf .* e_2 ./ fair_c.

(** 49-62 *)
Definition es_akr_w_k (obs : list num) (fct : list (list num)) (w : list num) : num :=
  let M := length fct in
  let '(e_1, e_2) :=
    fold_left (fun '(e_1, e_2) i =>
        (e_1 .+ nnorm (vsub (ithv fct i) obs) .* ith w i,
         e_2 .+ nnorm (vsub (ithv fct i) (ithv fct (if i =? 0 then M - 1 else i - 1))) .* ith w i))
      (seq 0 M) (n0, n0) in
  e_1 .- nhalf .* e_2.

(** 65-79 *)
Definition es_akr_circperm_w_k (obs : list num) (fct : list (list num)) (w : list num) : num :=
  let M := length fct in
  let '(e_1, e_2) :=
    fold_left (fun '(e_1, e_2) i =>
        let sigma_i := (i + M / 2) mod M in
        (e_1 .+ nnorm (vsub (ithv fct i) obs) .* ith w i,
         e_2 .+ nnorm (vsub (ithv fct i) (ithv fct sigma_i)) .* ith w i))
      (seq 0 M) (n0, n0) in
  e_1 .- nhalf .* e_2.

(** 82-142: [_owenergy_score_gufunc_w] and [_vrenergy_score_gufunc_w] start with
    [ow = ow[0]].  They are compiled on the first call, with a scalar for the core signature
    "()" (their unweighted counterparts use [ow] as a scalar); indexing a scalar does not
    compile.  The call raises numba's TypingError whatever the arguments. *)
Definition ow_vr_es_w_gufunc : tensor := Err NumbaError.

(** _gufuncs.py 134-141 *)
Definition es_gufuncs (estimator : string) (obs fct : arr) : tensor :=
  let fl := needs_float (dt fct) in
  if estimator =s? "akr_circperm" then fl (gu_vm out_lazy_mv es_akr_circperm_k obs fct)
  else if estimator =s? "akr" then fl (gu_vm out_lazy_mv es_akr_k obs fct)
  else if estimator =s? "fair" then gu_vm out_float_mv es_fair_k obs fct
  else if estimator =s? "nrg" then gu_vm out_float_mv es_nrg_k obs fct
  else if (estimator =s? "ownrg") || (estimator =s? "vrnrg") then Err TypeError
  else Err ValueError.

(** _gufuncs_w.py 145-152 *)
Definition es_gufuncs_w (estimator : string) (obs fct ens_w : arr) : tensor :=
  let fl := needs_float (dt fct) in
  if estimator =s? "akr_circperm" then fl (gu_vmv out_lazy_mv es_akr_circperm_w_k obs fct ens_w)
  else if estimator =s? "akr" then fl (gu_vmv out_lazy_mv es_akr_w_k obs fct ens_w)
  else if estimator =s? "fair" then fl (gu_vmv out_lazy_mv es_fair_w_k obs fct ens_w)
  else if estimator =s? "nrg" then fl (gu_vmv out_lazy_mv es_nrg_w_k obs fct ens_w)
  else if (estimator =s? "ownrg") || (estimator =s? "vrnrg") then Err TypeError
  else Err ValueError.

(** * scoringrules/_energy.py *)

(** 16-86, es_ensemble; the body starts at line 73 *)
Definition es_ensemble (backend : impl) (obs fct : arr) (m_axis v_axis : Z) (ens_w : option arr)
    (estimator : string) : tensor :=
  let* (obs, fct) := multivariate_array_check obs fct m_axis v_axis in
  match ens_w with
  | None =>
      match backend with
      | Numba => es_gufuncs estimator obs fct
      | Array => es_ensemble_arr obs fct estimator
      end
  | Some w =>
      let* w := multivariate_weight_check w fct m_axis in
      match backend with
      | Numba => es_gufuncs_w estimator obs fct w
      | Array => es_ensemble_w_arr obs fct w estimator
      end
  end.

(** 89-149, twes_ensemble *)
Definition twes_ensemble (backend : impl) (obs fct : arr) (v_func : arr -> tensor)
    (m_axis v_axis : Z) (ens_w : option arr) (estimator : string) : tensor :=
  let* (obs, fct) := mv_weighted_score_chain obs fct v_func in
  es_ensemble backend obs fct m_axis v_axis ens_w estimator.

(** 152-215, owes_ensemble *)
Definition owes_ensemble (backend : impl) (obs fct : arr) (w_func : dtype * (list num -> num))
    (m_axis v_axis : Z) (ens_w : option arr) : tensor :=
  let* (obs, fct) := multivariate_array_check obs fct m_axis v_axis in
  let* (obs_w, fct_w) := mv_weighted_score_weights obs fct w_func in
  match ens_w with
  | None =>
      match backend with
      | Numba => needs_float (dt fct)
                   (gu_vmsv out_lazy_mv owes_k obs fct obs_w fct_w)
      | Array => owes_arr obs fct obs_w fct_w
      end
  | Some w =>
      let* w := multivariate_weight_check w fct m_axis in
      match backend with
      | Numba => ow_vr_es_w_gufunc
      | Array => owes_w_arr obs fct obs_w fct_w w
      end
  end.

(** 218-282, vres_ensemble *)
Definition vres_ensemble (backend : impl) (obs fct : arr) (w_func : dtype * (list num -> num))
    (m_axis v_axis : Z) (ens_w : option arr) : tensor :=
  let* (obs, fct) := multivariate_array_check obs fct m_axis v_axis in
  let* (obs_w, fct_w) := mv_weighted_score_weights obs fct w_func in
  match ens_w with
  | None =>
      match backend with
      | Numba => needs_float (if dtype_eqb (dt obs) DFloat then dt fct else dt obs)
                   (gu_vmsv out_lazy_mv vres_k obs fct obs_w fct_w)
      | Array => vres_arr obs fct obs_w fct_w
      end
  | Some w =>
      let* w := multivariate_weight_check w fct m_axis in
      match backend with
      | Numba => ow_vr_es_w_gufunc
      | Array => vres_w_arr obs fct obs_w fct_w w
      end
  end.
