(** Model of scoringrules/core/kernels and scoringrules/_kernels.py.  Model file: no proofs.

    The univariate and the multivariate estimators are the same text up to the kernel they call
    and the axes they expand; each estimator is written once here, on the kernel values, and
    used twice.  The order of the two factors in products [kernel * weight] differs between the
    copies in _approx_w.py; multiplication of the model commutes. *)
From Verif Require Export M_energy.
Open Scope nat_scope.

(** * core/kernels/_approx.py and _approx_w.py *)

(** 9-14 (both files), gauss_kern_uv *)
Definition gk_uv (x1 x2 : tensor) : tensor := aexp (sc (- half) * asq (x1 - x2))%A.
(** 17-22 (both files), gauss_kern_mv *)
Definition gk_mv (x1 x2 : tensor) : tensor := aexp (sc (- half) * asq (anorm (x1 - x2)))%A.

(** [gauss_kern_uv(obs[..., None], fct)] *)
Definition kobs_uv (obs fct : arr) : tensor := gk_uv (aexpand 0 (Ok obs)) (Ok fct).
(** [gauss_kern_uv(fct[..., None], fct[..., None, :])] *)
Definition kfct_uv (fct : arr) : tensor := gk_uv (aexpand 0 (Ok fct)) (aexpand 1 (Ok fct)).
(** [gauss_kern_uv(fct, B.roll(fct, shift=n, axis=-1))] *)
Definition klag_uv (n : nat) (fct : arr) : tensor := gk_uv (Ok fct) (aroll n (Ok fct)).
Definition kself_uv (x : arr) : tensor := gk_uv (Ok x) (Ok x).
(** [gauss_kern_mv(B.expand_dims(obs, -2), fct)] *)
Definition kobs_mv (obs fct : arr) : tensor := gk_mv (aexpand 1 (Ok obs)) (Ok fct).
(** [gauss_kern_mv(B.expand_dims(fct, -3), B.expand_dims(fct, -2))] *)
Definition kfct_mv (fct : arr) : tensor := gk_mv (aexpand 2 (Ok fct)) (aexpand 1 (Ok fct)).
(** [gauss_kern_mv(fct, B.roll(fct, shift=n, axis=-2))] *)
Definition klag_mv (n : nat) (fct : arr) : tensor := gk_mv (Ok fct) (aroll2 n (Ok fct)).
Definition kself_mv (x : arr) : tensor := gk_mv (Ok x) (Ok x).

(** _approx.py 48-63 (uv), 146-161 (mv) *)
Definition ks_nrg_arr (M : nat) (kobs kfct kself : tensor) : tensor :=
  let e_1 := asum kobs in
  let e_2 := asum2 kfct in
  let e_3 := kself in
  aneg (e_1 / sci M - sc half * e_2 / sci (M * M) - sc half * e_3)%A.
(** 66-82 (uv), 164-180 (mv) *)
Definition ks_fair_arr (M : nat) (kobs kfct kdiag kself : tensor) : tensor :=
  let e_1 := asum kobs in
  let e_2 := ainplace nsub (asum2 kfct) (asum kdiag) in
  let e_3 := kself in
  aneg (e_1 / sci M - sc half * e_2 / sci (M * (M - 1)) - sc half * e_3)%A.
(** 85-99, 102-117 (uv), 183-197, 200-215 (mv) *)
Definition ks_lag_arr (M : nat) (kobs klag kself : tensor) : tensor :=
  let e_1 := asum kobs in
  let e_2 := asum klag in
  let e_3 := kself in
  aneg (e_1 / sci M - sc half * e_2 / sci M - sc half * e_3)%A.

(** 25-45 *)
Definition ks_ensemble_uv_arr (obs fct : arr) (estimator : string) : tensor :=
  let M := lastdim fct in
  if estimator =s? "nrg" then ks_nrg_arr M (kobs_uv obs fct) (kfct_uv fct) (kself_uv obs)
  else if estimator =s? "fair" then
    ks_fair_arr M (kobs_uv obs fct) (kfct_uv fct) (kself_uv fct) (kself_uv obs)
  else if estimator =s? "akr" then ks_lag_arr M (kobs_uv obs fct) (klag_uv 1 fct) (kself_uv obs)
  else if estimator =s? "akr_circperm" then
    ks_lag_arr M (kobs_uv obs fct) (klag_uv (M / 2) fct) (kself_uv obs)
  else Err ValueError.
(** 120-143 *)
Definition ks_ensemble_mv_arr (obs fct : arr) (estimator : string) : tensor :=
  let M := dim2 fct in
  if estimator =s? "nrg" then ks_nrg_arr M (kobs_mv obs fct) (kfct_mv fct) (kself_mv obs)
  else if estimator =s? "fair" then
    ks_fair_arr M (kobs_mv obs fct) (kfct_mv fct) (kself_mv fct) (kself_mv obs)
  else if estimator =s? "akr" then ks_lag_arr M (kobs_mv obs fct) (klag_mv 1 fct) (kself_mv obs)
  else if estimator =s? "akr_circperm" then
    ks_lag_arr M (kobs_mv obs fct) (klag_mv (M / 2) fct) (kself_mv obs)
  else Err ValueError.

(** 218-244 *)
Definition owks_uv_arr (obs fct ow fw : arr) : tensor :=
  let M := lastdim fct in
  let wbar := amean (Ok fw) in
  let e_1 := (asum (kobs_uv obs fct * Ok fw) * Ok ow / (sci M * wbar))%A in
  let e_2 := asum2 (kfct_uv fct * aexpand 0 (Ok fw) * aexpand 1 (Ok fw))%A in
  let e_2 := ainplace nmul e_2 (Ok ow / (sci (M * M) * asq wbar))%A in
  let e_3 := (kself_uv obs * Ok ow)%A in
  aneg (e_1 - sc half * e_2 - sc half * e_3)%A.
(** 247-276 *)
Definition owks_mv_arr (obs fct ow fw : arr) : tensor :=
  let M := dim2 fct in
  let wbar := (asum (Ok fw) / sci M)%A in
  let E_1 := (asum (kobs_mv obs fct * Ok fw * aexpand 0 (Ok ow)) / (sci M * wbar))%A in
  let fw_prod := (aexpand 0 (Ok fw) * aexpand 1 (Ok fw))%A in
  let spread := ainplace nmul (kfct_mv fct) (fw_prod * aexpand 0 (aexpand 0 (Ok ow)))%A in
  let E_2 := (asum2 spread / (sci (M * M) * asq wbar))%A in
  let E_3 := (kself_mv obs * Ok ow)%A in
  aneg (E_1 - sc half * E_2 - sc half * E_3)%A.
(** 279-308 *)
Definition vrks_uv_arr (obs fct ow fw : arr) : tensor :=
  let M := lastdim fct in
  let e_1 := (asum (kobs_uv obs fct * Ok fw) * Ok ow / sci M)%A in
  let e_2 := (asum2 (kfct_uv fct * (aexpand 0 (Ok fw) * aexpand 1 (Ok fw))) / sci (M * M))%A in
  let e_3 := (kself_uv obs * Ok ow * Ok ow)%A in
  aneg (e_1 - sc half * e_2 - sc half * e_3)%A.
(** 311-339 *)
Definition vrks_mv_arr (obs fct ow fw : arr) : tensor :=
  let M := dim2 fct in
  let E_1 := (asum (kobs_mv obs fct * Ok fw * aexpand 0 (Ok ow)) / sci M)%A in
  let fw_prod := (aexpand 0 (Ok fw) * aexpand 1 (Ok fw))%A in
  let spread := ainplace nmul (kfct_mv fct) fw_prod in
  let E_2 := (asum2 spread / sci (M * M))%A in
  let E_3 := (kself_mv obs * Ok ow * Ok ow)%A in
  aneg (E_1 - sc half * E_2 - sc half * E_3)%A.

(** _approx_w.py 49-68 (uv), 156-177 (mv) *)
Definition ks_nrg_w_arr (kobs kfct kself : tensor) (ens_w : arr) : tensor :=
  let e_1 := asum (kobs * Ok ens_w)%A in
  let e_2 := asum2 (kfct * aexpand 0 (Ok ens_w) * aexpand 1 (Ok ens_w))%A in
  let e_3 := kself in
  aneg (e_1 - sc half * e_2 - sc half * e_3)%A.
(** 71-92 (uv), 180-203 (mv) *)
Definition ks_fair_w_arr (kobs kfct kself : tensor) (ens_w : arr) : tensor :=
  let e_1 := asum (kobs * Ok ens_w)%A in
  let e_2 := asum2 (kfct * aexpand 0 (Ok ens_w) * aexpand 1 (Ok ens_w))%A in
  let e_3 := kself in
  let fair_c := (sci 1 - asum (Ok ens_w * Ok ens_w))%A in
  aneg (e_1 - sc half * e_2 / fair_c - sc half * e_3)%A.
(** 95-110, 113-129 (uv), 206-222, 225-243 (mv) *)
Definition ks_lag_w_arr (kobs klag kself : tensor) (ens_w : arr) : tensor :=
  let e_1 := asum (kobs * Ok ens_w)%A in
  let e_2 := asum (klag * Ok ens_w)%A in
  let e_3 := kself in
  aneg (e_1 - sc half * e_2 - sc half * e_3)%A.

(** 25-46; the last name tested is "akr_circperm_w" *)
Definition ks_ensemble_uv_w_arr (obs fct ens_w : arr) (estimator : string) : tensor :=
  let M := lastdim fct in
  if estimator =s? "nrg" then ks_nrg_w_arr (kobs_uv obs fct) (kfct_uv fct) (kself_uv obs) ens_w
  else if estimator =s? "fair" then ks_fair_w_arr (kobs_uv obs fct) (kfct_uv fct) (kself_uv obs) ens_w
  else if estimator =s? "akr" then ks_lag_w_arr (kobs_uv obs fct) (klag_uv 1 fct) (kself_uv obs) ens_w
  else if estimator =s? "akr_circperm_w" then
    ks_lag_w_arr (kobs_uv obs fct) (klag_uv (M / 2) fct) (kself_uv obs) ens_w
  else Err ValueError.
(** 132-153 *)
Definition ks_ensemble_mv_w_arr (obs fct ens_w : arr) (estimator : string) : tensor :=
  let M := dim2 fct in
  if estimator =s? "nrg" then ks_nrg_w_arr (kobs_mv obs fct) (kfct_mv fct) (kself_mv obs) ens_w
  else if estimator =s? "fair" then ks_fair_w_arr (kobs_mv obs fct) (kfct_mv fct) (kself_mv obs) ens_w
  else if estimator =s? "akr" then ks_lag_w_arr (kobs_mv obs fct) (klag_mv 1 fct) (kself_mv obs) ens_w
  else if estimator =s? "akr_circperm" then
    ks_lag_w_arr (kobs_mv obs fct) (klag_mv (M / 2) fct) (kself_mv obs) ens_w
  else Err ValueError.

(** 246-274 *)
Definition owks_uv_w_arr (obs fct ow fw ens_w : arr) : tensor :=
  let wbar := asum (Ok ens_w * Ok fw)%A in
  let e_1 := (asum (Ok ens_w * kobs_uv obs fct * Ok fw) * Ok ow / wbar)%A in
  let e_2 := asum2 (aexpand 0 (Ok ens_w) * aexpand 1 (Ok ens_w) * kfct_uv fct
                    * aexpand 0 (Ok fw) * aexpand 1 (Ok fw))%A in
  let e_2 := ainplace nmul e_2 (Ok ow / asq wbar)%A in
  let e_3 := (kself_uv obs * Ok ow)%A in
  aneg (e_1 - sc half * e_2 - sc half * e_3)%A.
(** 277-308 *)
Definition owks_mv_w_arr (obs fct ow fw ens_w : arr) : tensor :=
  let wbar := asum (Ok fw * Ok ens_w)%A in
  let E_1 := (asum (kobs_mv obs fct * Ok fw * aexpand 0 (Ok ow) * Ok ens_w) / wbar)%A in
  let fw_prod := (aexpand 0 (Ok fw) * aexpand 1 (Ok fw))%A in
  let spread := ainplace nmul (kfct_mv fct) (fw_prod * aexpand 0 (aexpand 0 (Ok ow)))%A in
  let E_2 := (asum2 (spread * aexpand 0 (Ok ens_w) * aexpand 1 (Ok ens_w)) / asq wbar)%A in
  let E_3 := (kself_mv obs * Ok ow)%A in
  aneg (E_1 - sc half * E_2 - sc half * E_3)%A.
(** 311-338 *)
Definition vrks_uv_w_arr (obs fct ow fw ens_w : arr) : tensor :=
  let e_1 := (asum (Ok ens_w * kobs_uv obs fct * Ok fw) * Ok ow)%A in
  let e_2 := asum2 (aexpand 0 (Ok ens_w) * aexpand 1 (Ok ens_w) * kfct_uv fct
                    * aexpand 0 (Ok fw) * aexpand 1 (Ok fw))%A in
  let e_3 := (kself_uv obs * Ok ow * Ok ow)%A in
  aneg (e_1 - sc half * e_2 - sc half * e_3)%A.
(** 341-371 *)
Definition vrks_mv_w_arr (obs fct ow fw ens_w : arr) : tensor :=
  let E_1 := asum (kobs_mv obs fct * Ok fw * aexpand 0 (Ok ow) * Ok ens_w)%A in
  let fw_prod := (aexpand 0 (Ok fw) * aexpand 1 (Ok fw))%A in
  let spread := ainplace nmul (kfct_mv fct) fw_prod in
  let E_2 := asum2 (spread * aexpand 0 (Ok ens_w) * aexpand 1 (Ok ens_w))%A in
  let E_3 := (kself_mv obs * Ok ow * Ok ow)%A in
  aneg (E_1 - sc half * E_2 - sc half * E_3)%A.

(** * core/kernels/_gufuncs.py and _gufuncs_w.py *)

(** 9-13 (both files) *)
Definition gkn_uv (x1 x2 : num) : num := nexp (Fin (- half) .* nsq (x1 .- x2)).
(** 16-20 (both files) *)
Definition gkn_mv (x1 x2 : list num) : num := nexp (Fin (- half) .* nsq (nnorm (vsub x1 x2))).

(** The loops, on the kernel values: [ky i] for member i and the observation, [kx i j] for
    members i and j, [kyy] for the observation with itself.  _gufuncs.py 23-41, 162-175 *)
Definition ks_nrg_k (M : nat) (ky : nat -> num) (kx : nat -> nat -> num) (kyy : num) : num :=
  let '(e_1, e_2) :=
    fold_left (fun '(e_1, e_2) i =>
        (e_1 .+ ky i, fold_left (fun e_2 j => e_2 .+ kx i j) (seq 0 M) e_2))
      (seq 0 M) (n0, n0) in
  nopp (e_1 ./ nofnat M .- nhalf .* (e_2 ./ nofnat (M * M)) .- nhalf .* kyy).
(** 44-62, 178-191 *)
Definition ks_fair_k (M : nat) (ky : nat -> num) (kx : nat -> nat -> num) (kyy : num) : num :=
  let '(e_1, e_2) :=
    fold_left (fun '(e_1, e_2) i =>
        (e_1 .+ ky i, fold_left (fun e_2 j => e_2 .+ kx i j) (seq (i + 1) (M - (i + 1))) e_2))
      (seq 0 M) (n0, n0) in
  nopp (e_1 ./ nofnat M .- e_2 ./ nofnat (M * (M - 1)) .- nhalf .* kyy).
(** 65-81, 194-206; [fct[i - 1]] is the last member for i = 0 *)
Definition ks_akr_k (M : nat) (ky : nat -> num) (kx : nat -> nat -> num) (kyy : num) : num :=
  let '(e_1, e_2) :=
    fold_left (fun '(e_1, e_2) i => (e_1 .+ ky i, e_2 .+ kx i (if i =? 0 then M - 1 else i - 1)))
      (seq 0 M) (n0, n0) in
  nopp (e_1 ./ nofnat M .- nhalf .* e_2 ./ nofnat M .- nhalf .* kyy).
(** 84-103, 209-224 *)
Definition ks_akr_circperm_k (M : nat) (ky : nat -> num) (kx : nat -> nat -> num) (kyy : num) : num :=
  let '(e_1, e_2) :=
    fold_left (fun '(e_1, e_2) i =>
        let sigma_i := circperm_idx M i in (e_1 .+ ky i, e_2 .+ kx i sigma_i))
      (seq 0 M) (n0, n0) in
  nopp (e_1 ./ nofnat M .- nhalf .* e_2 ./ nofnat M .- nhalf .* kyy).
(** 106-132, 227-248 *)
Definition owks_k (M : nat) (ky : nat -> num) (kx : nat -> nat -> num) (kyy : num)
    (ow : num) (fw : list num) : num :=
  let '(e_1, e_2) :=
    fold_left (fun '(e_1, e_2) i =>
        (e_1 .+ ky i .* ith fw i .* ow,
         fold_left (fun e_2 j => e_2 .+ kx i j .* ith fw i .* ith fw j .* ow) (seq 0 M) e_2))
      (seq 0 M) (n0, n0) in
  let e_3 := kyy .* ow in
  let wbar := nmean fw in
  nopp (e_1 ./ (nofnat M .* wbar) .- nhalf .* e_2 ./ (nofnat (M * M) .* nsq wbar) .- nhalf .* e_3).
(** 135-159, 251-270 *)
Definition vrks_k (M : nat) (ky : nat -> num) (kx : nat -> nat -> num) (kyy : num)
    (ow : num) (fw : list num) : num :=
  let '(e_1, e_2) :=
    fold_left (fun '(e_1, e_2) i =>
        (e_1 .+ ky i .* ith fw i .* ow,
         fold_left (fun e_2 j => e_2 .+ kx i j .* ith fw i .* ith fw j) (seq 0 M) e_2))
      (seq 0 M) (n0, n0) in
  let e_3 := kyy .* ow .* ow in
  nopp (e_1 ./ nofnat M .- nhalf .* (e_2 ./ nofnat (M * M)) .- nhalf .* e_3).

(** _gufuncs_w.py 23-43, 168-183 *)
Definition ks_nrg_w_k (M : nat) (ky : nat -> num) (kx : nat -> nat -> num) (kyy : num)
    (w : list num) : num :=
  let '(e_1, e_2) :=
    fold_left (fun '(e_1, e_2) i =>
        (e_1 .+ ky i .* ith w i,
         fold_left (fun e_2 j => e_2 .+ kx i j .* ith w i .* ith w j) (seq 0 M) e_2))
      (seq 0 M) (n0, n0) in
  nopp (e_1 .- nhalf .* e_2 .- nhalf .* kyy).
(** 46-66, 186-201 *)
Definition ks_fair_w_k (M : nat) (ky : nat -> num) (kx : nat -> nat -> num) (kyy : num)
    (w : list num) : num :=
  let '(e_1, e_2) :=
    fold_left (fun '(e_1, e_2) i =>
        (e_1 .+ ky i .* ith w i,
         fold_left (fun e_2 j => e_2 .+ kx i j .* ith w i .* ith w j)
                   (seq (i + 1) (M - (i + 1))) e_2))
      (seq 0 M) (n0, n0) in
  nopp (e_1 .- e_2 ./ (n1 .- nsum (map nsq w)) .- nhalf .* kyy).
(** 69-87, 204-218 *)
Definition ks_akr_w_k (M : nat) (ky : nat -> num) (kx : nat -> nat -> num) (kyy : num)
    (w : list num) : num :=
  let '(e_1, e_2) :=
    fold_left (fun '(e_1, e_2) i =>
        (e_1 .+ ky i .* ith w i, e_2 .+ kx i (if i =? 0 then M - 1 else i - 1) .* ith w i))
      (seq 0 M) (n0, n0) in
  nopp (e_1 .- nhalf .* e_2 .- nhalf .* kyy).
(** 90-109, 221-236 *)
Definition ks_akr_circperm_w_k (M : nat) (ky : nat -> num) (kx : nat -> nat -> num) (kyy : num)
    (w : list num) : num :=
  let '(e_1, e_2) :=
    fold_left (fun '(e_1, e_2) i =>
        let sigma_i := circperm_idx M i in
        (e_1 .+ ky i .* ith w i, e_2 .+ kx i sigma_i .* ith w i))
      (seq 0 M) (n0, n0) in
  nopp (e_1 .- nhalf .* e_2 .- nhalf .* kyy).
(** 112-138 (uv) *)
Definition owks_w_k (M : nat) (ky : nat -> num) (kx : nat -> nat -> num) (kyy : num)
    (ow : num) (fw w : list num) : num :=
  let '(e_1, e_2) :=
    fold_left (fun '(e_1, e_2) i =>
        (e_1 .+ ky i .* ith fw i .* ow .* ith w i,
         fold_left (fun e_2 j => e_2 .+ kx i j .* ith fw i .* ith fw j .* ow .* ith w i .* ith w j)
                   (seq 0 M) e_2))
      (seq 0 M) (n0, n0) in
  let e_3 := kyy .* ow in
  let wbar := nsum (map (fun '(f, v) => f .* v) (combine fw w)) in
  nopp (e_1 ./ wbar .- nhalf .* e_2 ./ nsq wbar .- nhalf .* e_3).
(** 141-165 (uv) *)
Definition vrks_w_k (M : nat) (ky : nat -> num) (kx : nat -> nat -> num) (kyy : num)
    (ow : num) (fw w : list num) : num :=
  let '(e_1, e_2) :=
    fold_left (fun '(e_1, e_2) i =>
        (e_1 .+ ky i .* ith fw i .* ow .* ith w i,
         fold_left (fun e_2 j => e_2 .+ kx i j .* ith fw i .* ith fw j .* ith w i .* ith w j)
                   (seq 0 M) e_2))
      (seq 0 M) (n0, n0) in
  let e_3 := kyy .* ow .* ow in
  nopp (e_1 .- nhalf .* e_2 .- nhalf .* e_3).

(** the univariate kernels start with a test for a NaN observation *)
Definition on_uv {A} (k : nat -> (nat -> num) -> (nat -> nat -> num) -> num -> A) (nan : A)
    (obs : num) (fct : list num) : A :=
  if nisnan obs then nan else
  k (length fct) (fun i => gkn_uv (ith fct i) obs) (fun i j => gkn_uv (ith fct i) (ith fct j))
    (gkn_uv obs obs).
Definition on_mv {A} (k : nat -> (nat -> num) -> (nat -> nat -> num) -> num -> A)
    (obs : list num) (fct : list (list num)) : A :=
  k (length fct) (fun i => gkn_mv (ithv fct i) obs) (fun i j => gkn_mv (ithv fct i) (ithv fct j))
    (gkn_mv obs obs).

(** _gufuncs.py 59: the univariate fair kernel calls [_gauss_kern_uv(fct[j], fct[i])] *)
Definition ks_fair_swap_k (M : nat) (ky : nat -> num) (kx : nat -> nat -> num) (kyy : num) : num :=
  ks_fair_k M ky (fun i j => kx j i) kyy.

(** [_gauss_kern_mv] is compiled for float vectors only *)
Definition mv_floats (obs fct : arr) (t : tensor) : tensor :=
  needs_float (dt obs) (needs_float (dt fct) t).

(** _gufuncs.py 273-280; "ow" and "vr" take two more arguments *)
Definition ks_gufuncs_uv (estimator : string) (obs fct : arr) : tensor :=
  if estimator =s? "akr" then gu_sv out_lazy (on_uv ks_akr_k NaN) obs fct
  else if estimator =s? "akr_circperm" then gu_sv out_lazy (on_uv ks_akr_circperm_k NaN) obs fct
  else if estimator =s? "fair" then gu_sv out_lazy (on_uv ks_fair_swap_k NaN) obs fct
  else if estimator =s? "nrg" then gu_sv out_lazy (on_uv ks_nrg_k NaN) obs fct
  else if (estimator =s? "ow") || (estimator =s? "vr") then Err TypeError
  else Err ValueError.
(** 282-289 *)
Definition ks_gufuncs_mv (estimator : string) (obs fct : arr) : tensor :=
  let fl := mv_floats obs fct in
  if estimator =s? "akr" then fl (gu_vm out_lazy_mv (on_mv ks_akr_k) obs fct)
  else if estimator =s? "akr_circperm" then fl (gu_vm out_lazy_mv (on_mv ks_akr_circperm_k) obs fct)
  else if estimator =s? "fair" then fl (gu_vm out_lazy_mv (on_mv ks_fair_k) obs fct)
  else if estimator =s? "nrg" then fl (gu_vm out_lazy_mv (on_mv ks_nrg_k) obs fct)
  else if (estimator =s? "ow") || (estimator =s? "vr") then Err TypeError
  else Err ValueError.
(** _gufuncs_w.py 290-297 *)
Definition ks_gufuncs_uv_w (estimator : string) (obs fct ens_w : arr) : tensor :=
  let k f obs fct w := on_uv (fun M ky kx kyy => f M ky kx kyy w) NaN obs fct in
  if estimator =s? "fair" then gu_svv out_lazy (k ks_fair_w_k) obs fct ens_w
  else if estimator =s? "nrg" then gu_svv out_lazy (k ks_nrg_w_k) obs fct ens_w
  else if estimator =s? "akr" then gu_svv out_lazy (k ks_akr_w_k) obs fct ens_w
  else if estimator =s? "akr_circperm" then gu_svv out_lazy (k ks_akr_circperm_w_k) obs fct ens_w
  else if (estimator =s? "ow") || (estimator =s? "vr") then Err TypeError
  else Err ValueError.
(** 299-306 *)
Definition ks_gufuncs_mv_w (estimator : string) (obs fct ens_w : arr) : tensor :=
  let fl := mv_floats obs fct in
  let k f obs fct w := on_mv (fun M ky kx kyy => f M ky kx kyy w) obs fct in
  if estimator =s? "fair" then fl (gu_vmv out_lazy_mv (k ks_fair_w_k) obs fct ens_w)
  else if estimator =s? "nrg" then fl (gu_vmv out_lazy_mv (k ks_nrg_w_k) obs fct ens_w)
  else if estimator =s? "akr" then fl (gu_vmv out_lazy_mv (k ks_akr_w_k) obs fct ens_w)
  else if estimator =s? "akr_circperm" then fl (gu_vmv out_lazy_mv (k ks_akr_circperm_w_k) obs fct ens_w)
  else if (estimator =s? "ow") || (estimator =s? "vr") then Err TypeError
  else Err ValueError.

(** 239-264: starts with [ow = ow[0]] where [ow] is a scalar: does not compile *)
Definition owks_mv_w_gufunc : tensor := Err NumbaError.
(** 267-287: not decorated, so it runs once, as python code, on the whole arrays.
    [ow[0]] raises IndexError when [ow] has no axis.  Otherwise [fct[0]] has at least two axes
    and [_gauss_kern_mv], compiled for vectors, has no matching signature: TypeError. *)
Definition vrks_mv_w_function (ow : arr) : tensor :=
  match sh ow with [] => Err IndexError | _ => Err TypeError end.

(** * scoringrules/_kernels.py *)

(** 20-87, gksuv_ensemble; the body starts at line 72 *)
Definition gksuv_ensemble (backend : impl) (obs fct : arr) (m_axis : Z) (ens_w : option arr)
    (estimator : string) : tensor :=
  let* (obs, fct) := univariate_array_check obs fct m_axis in
  match ens_w with
  | None =>
      match backend with
      | Numba => ks_gufuncs_uv estimator obs fct
      | Array => ks_ensemble_uv_arr obs fct estimator
      end
  | Some w =>
      let* w := univariate_weight_check w fct m_axis in
      match backend with
      | Numba => ks_gufuncs_uv_w estimator obs fct w
      | Array => ks_ensemble_uv_w_arr obs fct w estimator
      end
  end.

(** 90-167, twgksuv_ensemble *)
Definition twgksuv_ensemble (backend : impl) (obs fct : arr) (a b : num) (m_axis : Z)
    (ens_w : option arr) (v_func : option (num -> num)) (estimator : string) : tensor :=
  let* (obs, fct) := uv_weighted_score_chain obs fct a b v_func in
  gksuv_ensemble backend obs fct m_axis ens_w estimator.

(** 170-251, owgksuv_ensemble *)
Definition owgksuv_ensemble (backend : impl) (obs fct : arr) (a b : num) (m_axis : Z)
    (ens_w : option arr) (w_func : option (dtype * (num -> num))) : tensor :=
  let* (obs, fct) := univariate_array_check obs fct m_axis in
  let* (obs_w, fct_w) := uv_weighted_score_weights obs fct a b w_func in
  match ens_w with
  | None =>
      match backend with
      | Numba => gu_svsv out_lazy (fun y x ow fw =>
                   on_uv (fun M ky kx kyy => owks_k M ky kx kyy ow fw) NaN y x) obs fct obs_w fct_w
      | Array => owks_uv_arr obs fct obs_w fct_w
      end
  | Some w =>
      let* w := univariate_weight_check w fct m_axis in
      match backend with
      | Numba => gu_svsvv out_lazy (fun y x ow fw w =>
                   on_uv (fun M ky kx kyy => owks_w_k M ky kx kyy ow fw w) NaN y x) obs fct obs_w fct_w w
      | Array => owks_uv_w_arr obs fct obs_w fct_w w
      end
  end.

(** 254-334, vrgksuv_ensemble *)
Definition vrgksuv_ensemble (backend : impl) (obs fct : arr) (a b : num) (m_axis : Z)
    (ens_w : option arr) (w_func : option (dtype * (num -> num))) : tensor :=
  let* (obs, fct) := univariate_array_check obs fct m_axis in
  let* (obs_w, fct_w) := uv_weighted_score_weights obs fct a b w_func in
  match ens_w with
  | None =>
      match backend with
      | Numba => gu_svsv out_lazy (fun y x ow fw =>
                   on_uv (fun M ky kx kyy => vrks_k M ky kx kyy ow fw) NaN y x) obs fct obs_w fct_w
      | Array => vrks_uv_arr obs fct obs_w fct_w
      end
  | Some w =>
      let* w := univariate_weight_check w fct m_axis in
      match backend with
      | Numba => gu_svsvv out_lazy (fun y x ow fw w =>
                   on_uv (fun M ky kx kyy => vrks_w_k M ky kx kyy ow fw w) NaN y x) obs fct obs_w fct_w w
      | Array => vrks_uv_w_arr obs fct obs_w fct_w w
      end
  end.

(** 337-406, gksmv_ensemble *)
Definition gksmv_ensemble (backend : impl) (obs fct : arr) (m_axis v_axis : Z) (ens_w : option arr)
    (estimator : string) : tensor :=
  let* (obs, fct) := multivariate_array_check obs fct m_axis v_axis in
  match ens_w with
  | None =>
      match backend with
      | Numba => ks_gufuncs_mv estimator obs fct
      | Array => ks_ensemble_mv_arr obs fct estimator
      end
  | Some w =>
      let* w := multivariate_weight_check w fct m_axis in
      match backend with
      | Numba => ks_gufuncs_mv_w estimator obs fct w
      | Array => ks_ensemble_mv_w_arr obs fct w estimator
      end
  end.

(** 409-472, twgksmv_ensemble *)
Definition twgksmv_ensemble (backend : impl) (obs fct : arr) (v_func : arr -> tensor)
    (m_axis v_axis : Z) (ens_w : option arr) (estimator : string) : tensor :=
  let* (obs, fct) := mv_weighted_score_chain obs fct v_func in
  gksmv_ensemble backend obs fct m_axis v_axis ens_w estimator.

(** 475-553, owgksmv_ensemble *)
Definition owgksmv_ensemble (backend : impl) (obs fct : arr) (w_func : dtype * (list num -> num))
    (m_axis v_axis : Z) (ens_w : option arr) : tensor :=
  let* (obs, fct) := multivariate_array_check obs fct m_axis v_axis in
  let* (obs_w, fct_w) := mv_weighted_score_weights obs fct w_func in
  match ens_w with
  | None =>
      match backend with
      | Numba => mv_floats obs fct (gu_vmsv out_lazy_mv (fun y x ow fw =>
                   on_mv (fun M ky kx kyy => owks_k M ky kx kyy ow fw) y x) obs fct obs_w fct_w)
      | Array => owks_mv_arr obs fct obs_w fct_w
      end
  | Some w =>
      let* w := multivariate_weight_check w fct m_axis in
      match backend with
      | Numba => owks_mv_w_gufunc
      | Array => owks_mv_w_arr obs fct obs_w fct_w w
      end
  end.

(** 556-629, vrgksmv_ensemble *)
Definition vrgksmv_ensemble (backend : impl) (obs fct : arr) (w_func : dtype * (list num -> num))
    (m_axis v_axis : Z) (ens_w : option arr) : tensor :=
  let* (obs, fct) := multivariate_array_check obs fct m_axis v_axis in
  let* (obs_w, fct_w) := mv_weighted_score_weights obs fct w_func in
  match ens_w with
  | None =>
      match backend with
      | Numba => mv_floats obs fct (gu_vmsv out_lazy_mv (fun y x ow fw =>
                   on_mv (fun M ky kx kyy => vrks_k M ky kx kyy ow fw) y x) obs fct obs_w fct_w)
      | Array => vrks_mv_arr obs fct obs_w fct_w
      end
  | Some w =>
      let* w := multivariate_weight_check w fct m_axis in
      match backend with
      | Numba => vrks_mv_w_function obs_w
      | Array => vrks_mv_w_arr obs fct obs_w fct_w w
      end
  end.
