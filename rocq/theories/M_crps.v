(** Model of scoringrules/core/crps/_approx.py, _approx_w.py, _gufuncs.py, _gufuncs_w.py
    and of the ensemble functions of scoringrules/_crps.py.  Model file: no proofs. *)
From Verif Require Export M_utils.
Open Scope nat_scope.

(** [fct.shape[-1]] *)
Definition lastdim (a : arr) : nat := hd 0 (sh a).
Definition half : R := (1 / 2)%R.

(** * _approx.py *)

(** 37-48 *)
Definition crps_fair_arr (obs fct : arr) : tensor :=
  let M := lastdim fct in
  let e_1 := (asum (aabs (aexpand 0 (Ok obs) - Ok fct)) / sci M)%A in
  let e_2 := (asum2 (aabs (aexpand 0 (Ok fct) - aexpand 1 (Ok fct))) / sci (M * (M - 1)))%A in
  (e_1 - sc half * e_2)%A.

(** 51-59 *)
Definition crps_nrg_arr (obs fct : arr) : tensor :=
  let M := lastdim fct in
  let e_1 := (asum (aabs (aexpand 0 (Ok obs) - Ok fct)) / sci M)%A in
  let e_2 := (asum2 (aabs (aexpand 0 (Ok fct) - aexpand 1 (Ok fct))) / sci (M * M))%A in
  (e_1 - sc half * e_2)%A.

(** 62-71 *)
Definition crps_pwm_arr (obs fct : arr) : tensor :=
  let M := lastdim fct in
  let expected_diff := (asum (aabs (aexpand 0 (Ok obs) - Ok fct)) / sci M)%A in
  let b_0 := (asum (Ok fct) / sci M)%A in
  let b_1 := (asum (Ok fct * aarange 0 M) / sc (INR M * (INR M - 1)))%A in
  (expected_diff + b_0 - sc 2 * b_1)%A.

(** 74-82 *)
Definition crps_akr_arr (obs fct : arr) : tensor :=
  let M := lastdim fct in
  let e_1 := (asum (aabs (aexpand 0 (Ok obs) - Ok fct)) / sci M)%A in
  let e_2 := (asum (aabs (Ok fct - aroll 1 (Ok fct))) / sci M)%A in
  (e_1 - sc half * e_2)%A.

(** 85-94 *)
Definition crps_akr_circperm_arr (obs fct : arr) : tensor :=
  let M := lastdim fct in
  let e_1 := (asum (aabs (aexpand 0 (Ok obs) - Ok fct)) / sci M)%A in
  let shift := M / 2 in
  let e_2 := (asum (aabs (Ok fct - aroll shift (Ok fct))) / sci M)%A in
  (e_1 - sc half * e_2)%A.

(** 97-105 *)
Definition crps_qd_arr (obs fct : arr) : tensor :=
  let M := lastdim fct in
  let alpha := (aarange 1 (M + 1) - sc half)%A in
  let below := ((Ok fct <=? aexpand 0 (Ok obs)) * alpha * (aexpand 0 (Ok obs) - Ok fct))%A in
  let above := ((Ok fct >? aexpand 0 (Ok obs)) * (sci M - alpha) * (Ok fct - aexpand 0 (Ok obs)))%A in
  let out := (asum (below + above) / sci (M * M))%A in
  (sci 2 * out)%A.

(** 108-123 *)
Definition crps_int_arr (obs fct : arr) : tensor :=
  let M := lastdim fct in
  let y_pos := amean_keep ((Ok fct <=? aexpand 0 (Ok obs)) * sc 1)%A in
  let fct_cdf := (azeros (sh fct) + aarange 1 (M + 1) / sci M)%A in
  let fct_cdf := aconcat fct_cdf y_pos in
  let fct_cdf := asort fct_cdf in
  let fct_exp := aconcat (Ok fct) (aexpand 0 (Ok obs)) in
  let fct_exp := asort fct_exp in
  let fct_dif := (aslice 1 (M + 1) fct_exp - aslice 0 M fct_exp)%A in
  let obs_cdf := ((aexpand 0 (Ok obs) <=? fct_exp) * sc 1)%A in
  let out := (fct_dif * asq (aslice 0 M fct_cdf - aslice 0 M obs_cdf))%A in
  asum out.

(** 126-133 *)
Definition quantile_pinball_arr (obs fct alpha : arr) : tensor :=
  let below := ((Ok fct <=? aexpand 0 (Ok obs)) * Ok alpha * (aexpand 0 (Ok obs) - Ok fct))%A in
  let above := ((Ok fct >? aexpand 0 (Ok obs)) * (sci 1 - Ok alpha) * (Ok fct - aexpand 0 (Ok obs)))%A in
  (sci 2 * amean (below + above))%A.

(** 136-153 *)
Definition ow_ensemble_arr (obs fct ow fw : arr) : tensor :=
  let M := lastdim fct in
  let wbar := amean (Ok fw) in
  let e_1 := (asum (aabs (aexpand 0 (Ok obs) - Ok fct) * Ok fw) * Ok ow / (sci M * wbar))%A in
  let e_2 := asum2 (aabs (aexpand 0 (Ok fct) - aexpand 1 (Ok fct))
                    * aexpand 0 (Ok fw) * aexpand 1 (Ok fw))%A in
  let e_2 := ainplace nmul e_2 (Ok ow / (sci (M * M) * asq wbar))%A in
  (e_1 - sc half * e_2)%A.

(** 156-174; note [axis=1] (python numbering) in the last mean *)
Definition vr_ensemble_arr (obs fct ow fw : arr) : tensor :=
  let M := lastdim fct in
  let e_1 := (asum (aabs (aexpand 0 (Ok obs) - Ok fct) * Ok fw) * Ok ow / sci M)%A in
  let e_2 := (asum2 (aabs (aexpand 0 (Ok fct) - aexpand 1 (Ok fct))
                     * (aexpand 0 (Ok fw) * aexpand 1 (Ok fw))) / sci (M * M))%A in
  let e_3 := (amean (aabs (Ok fct) * Ok fw) - aabs (Ok obs) * Ok ow)%A in
  let e_3 := ainplace nmul e_3 (amean_axis 1 (Ok fw) - Ok ow)%A in
  (e_1 - sc half * e_2 + e_3)%A.

(** 9-34 *)
Definition crps_ensemble_arr (obs fct : arr) (estimator : string) : tensor :=
  if estimator =s? "nrg" then crps_nrg_arr obs fct
  else if estimator =s? "pwm" then crps_pwm_arr obs fct
  else if estimator =s? "fair" then crps_fair_arr obs fct
  else if estimator =s? "qd" then crps_qd_arr obs fct
  else if estimator =s? "akr" then crps_akr_arr obs fct
  else if estimator =s? "akr_circperm" then crps_akr_circperm_arr obs fct
  else if estimator =s? "int" then crps_int_arr obs fct
  else Err ValueError.

(** * _approx_w.py *)

(** 39-49 *)
Definition crps_fair_w_arr (obs fct w : arr) : tensor :=
  let e_1 := asum (aabs (aexpand 0 (Ok obs) - Ok fct) * Ok w)%A in
  let e_2 := (asum2 (aabs (aexpand 0 (Ok fct) - aexpand 1 (Ok fct))
                     * aexpand 0 (Ok w) * aexpand 1 (Ok w))
              / (sci 1 - asum (Ok w * Ok w)))%A in
  (e_1 - sc half * e_2)%A.

(** 52-62 *)
Definition crps_nrg_w_arr (obs fct w : arr) : tensor :=
  let e_1 := asum (aabs (aexpand 0 (Ok obs) - Ok fct) * Ok w)%A in
  let e_2 := asum2 (aabs (aexpand 0 (Ok fct) - aexpand 1 (Ok fct))
                     * aexpand 0 (Ok w) * aexpand 1 (Ok w))%A in
  (e_1 - sc half * e_2)%A.

(** 65-74 *)
Definition crps_pwm_w_arr (obs fct w : arr) : tensor :=
  let w_sum := acumsum (Ok w) in
  let expected_diff := asum (aabs (aexpand 0 (Ok obs) - Ok fct) * Ok w)%A in
  let b_0 := asum (Ok fct * Ok w)%A in
  let b_1 := (asum (Ok fct * Ok w * (w_sum - Ok w)) / (sci 1 - asum (Ok w * Ok w)))%A in
  (expected_diff + b_0 - sc 2 * b_1)%A.

(** 77-87 *)
Definition crps_qd_w_arr (obs fct w : arr) : tensor :=
  let w_sum := acumsum (Ok w) in
  let a := (w_sum - sc half * Ok w)%A in
  let dif := (Ok fct - aexpand 0 (Ok obs))%A in
  let c := awhere (dif >? sci 0)%A (sci 1 - a)%A (aneg a) in
  let s := asum (Ok w * c * dif)%A in
  (sci 2 * s)%A.

(** 90-99 *)
Definition crps_akr_w_arr (obs fct w : arr) : tensor :=
  let M := lastdim fct in
  let e_1 := asum (aabs (aexpand 0 (Ok obs) - Ok fct) * Ok w)%A in
  let ind := map (fun i => (i + 1) mod M) (seq 0 M) in
  let e_2 := asum (aabs (atake ind (Ok fct) - Ok fct) * atake ind (Ok w))%A in
  (e_1 - sc half * e_2)%A.

(** 102-112; [int((M - 1) / 2)] is the integer quotient for M >= 1 *)
Definition crps_akr_circperm_w_arr (obs fct w : arr) : tensor :=
  let M := lastdim fct in
  let e_1 := asum (aabs (aexpand 0 (Ok obs) - Ok fct) * Ok w)%A in
  let shift := (M - 1) / 2 in
  let ind := map (fun i => (i + shift) mod M) (seq 0 M) in
  let e_2 := asum (aabs (atake ind (Ok fct) - Ok fct) * atake ind (Ok w))%A in
  (e_1 - sc half * e_2)%A.

(** 115-130 *)
Definition crps_int_w_arr (obs fct w : arr) : tensor :=
  let M := lastdim fct in
  let y_pos := asum_keep ((Ok fct <=? aexpand 0 (Ok obs)) * Ok w)%A in
  let fct_cdf := acumsum (Ok w) in
  let fct_cdf := aconcat fct_cdf y_pos in
  let fct_cdf := asort fct_cdf in
  let fct_exp := aconcat (Ok fct) (aexpand 0 (Ok obs)) in
  let fct_exp := asort fct_exp in
  let fct_dif := (aslice 1 (M + 1) fct_exp - aslice 0 M fct_exp)%A in
  let obs_cdf := ((aexpand 0 (Ok obs) <=? fct_exp) * sc 1)%A in
  let out := (fct_dif * asq (aslice 0 M fct_cdf - aslice 0 M obs_cdf))%A in
  asum out.

(** 133-154 *)
Definition ow_ensemble_w_arr (obs fct ow fw ens_w : arr) : tensor :=
  let wbar := asum (Ok ens_w * Ok fw)%A in
  let e_1 := (asum (Ok ens_w * aabs (aexpand 0 (Ok obs) - Ok fct) * Ok fw) * Ok ow / wbar)%A in
  let e_2 := asum2 (aexpand 0 (Ok ens_w) * aexpand 1 (Ok ens_w)
                    * aabs (aexpand 0 (Ok fct) - aexpand 1 (Ok fct))
                    * aexpand 0 (Ok fw) * aexpand 1 (Ok fw))%A in
  let e_2 := ainplace nmul e_2 (Ok ow / asq wbar)%A in
  (e_1 - sc half * e_2)%A.

(** 157-178 *)
Definition vr_ensemble_w_arr (obs fct ow fw ens_w : arr) : tensor :=
  let e_1 := (asum (Ok ens_w * aabs (aexpand 0 (Ok obs) - Ok fct) * Ok fw) * Ok ow)%A in
  let e_2 := asum2 (aexpand 0 (Ok ens_w) * aexpand 1 (Ok ens_w)
                    * aabs (aexpand 0 (Ok fct) - aexpand 1 (Ok fct))
                    * aexpand 0 (Ok fw) * aexpand 1 (Ok fw))%A in
  let e_3 := (asum (Ok ens_w * aabs (Ok fct) * Ok fw) - aabs (Ok obs) * Ok ow)%A in
  let e_3 := ainplace nmul e_3 (asum (Ok ens_w * Ok fw) - Ok ow)%A in
  (e_1 - sc half * e_2 + e_3)%A.

(** 9-36 *)
Definition crps_ensemble_w_arr (obs fct ens_w : arr) (estimator : string) : tensor :=
  if estimator =s? "nrg" then crps_nrg_w_arr obs fct ens_w
  else if estimator =s? "pwm" then crps_pwm_w_arr obs fct ens_w
  else if estimator =s? "fair" then crps_fair_w_arr obs fct ens_w
  else if estimator =s? "qd" then crps_qd_w_arr obs fct ens_w
  else if estimator =s? "akr" then crps_akr_w_arr obs fct ens_w
  else if estimator =s? "akr_circperm" then crps_akr_circperm_w_arr obs fct ens_w
  else if estimator =s? "int" then crps_int_w_arr obs fct ens_w
  else Err ValueError.

(** * _gufuncs.py: kernels on one observation and one row *)

Definition ith (l : list num) (i : nat) : num := nth i l NaN.
Notation "x .+ y" := (nadd x y) (at level 50, left associativity).
Notation "x .- y" := (nsub x y) (at level 50, left associativity).
Notation "x .* y" := (nmul x y) (at level 40, left associativity).
Notation "x ./ y" := (ndiv x y) (at level 40, left associativity).
Definition n0 : num := Fin 0.
Definition n1 : num := Fin 1.
Definition n2 : num := Fin 2.
Definition nhalf : num := Fin half.

(** 10-20 *)
Definition quantile_pinball_k (obs : num) (fct alpha : list num) : num :=
  let pb := fold_left (fun pb '(fc, level) =>
              pb .+ (b2n (nltb fc obs) .* level .* (obs .- fc)
                     .+ b2n (nleb obs fc) .* (n1 .- level) .* (fc .- obs)))
            (combine fct alpha) n0 in
  n2 .* (pb ./ nofnat (length fct)).

(** 23-56; loop state: (obs_cdf, forecast_cdf, prev_forecast, integral); None after the
    early [return] of NaN *)
Definition crps_int_step (c : num) (obs : num) (st : option (bool * num * num * num)) (forecast : num)
    : option (bool * num * num * num) :=
  match st with
  | None => None
  | Some (obs_cdf, forecast_cdf, prev_forecast, integral) =>
      if nisnan forecast then None else
      let '(obs_cdf', integral') :=
        if negb obs_cdf && nltb obs forecast then
          (true, integral .+ (obs .- prev_forecast) .* nsq forecast_cdf
                          .+ (forecast .- obs) .* nsq (forecast_cdf .- n1))
        else
          (obs_cdf, integral .+ nsq (forecast_cdf .- b2n obs_cdf) .* (forecast .- prev_forecast)) in
      Some (obs_cdf', forecast_cdf .+ c, forecast, integral')
  end.
Definition crps_int_k (obs : num) (fct : list num) : num :=
  let M := length fct in
  if nisnan obs then NaN else
  match fold_left (crps_int_step (n1 ./ nofnat M) obs) fct (Some (false, n0, n0, n0)) with
  | None => NaN
  | Some (obs_cdf, _, forecast, integral) =>
      if obs_cdf then integral else integral .+ (obs .- forecast)
  end.

(** 59-88; loop state: (obs_cdf, integral) *)
Definition crps_qd_step (M : nat) (obs : num) (st : option (num * num)) (p : nat * num)
    : option (num * num) :=
  match st with
  | None => None
  | Some (obs_cdf, integral) =>
      let '(i, forecast) := p in
      if nisnan forecast then None else
      let obs_cdf := if nltb obs forecast then n1 else obs_cdf in
      Some (obs_cdf,
            integral .+ (forecast .- obs) .* (nofnat M .* obs_cdf .- nofnat (i + 1) .+ nhalf))
  end.
Definition crps_qd_k (obs : num) (fct : list num) : num :=
  let M := length fct in
  if nisnan obs then NaN else
  match fold_left (crps_qd_step M obs) (combine (seq 0 M) fct) (Some (n0, n0)) with
  | None => NaN
  | Some (_, integral) => (n2 ./ nofnat (M * M)) .* integral
  end.

(** the double loop shared by the nrg and fair kernels, 107-113 and 134-140 *)
Definition crps_e1e2 (obs : num) (fct : list num) : num * num :=
  let M := length fct in
  fold_left (fun '(e_1, e_2) i =>
      (e_1 .+ nabs (ith fct i .- obs),
       fold_left (fun e_2 j => e_2 .+ n2 .* nabs (ith fct j .- ith fct i))
                 (seq (i + 1) (M - (i + 1))) e_2))
    (seq 0 M) (n0, n0).

(** 91-115 *)
Definition crps_nrg_k (obs : num) (fct : list num) : num :=
  let M := length fct in
  if nisnan obs then NaN else
  let '(e_1, e_2) := crps_e1e2 obs fct in
  e_1 ./ nofnat M .- nhalf .* e_2 ./ nofnat (M * M).

(** 118-142 *)
Definition crps_fair_k (obs : num) (fct : list num) : num :=
  let M := length fct in
  if nisnan obs then NaN else
  let '(e_1, e_2) := crps_e1e2 obs fct in
  e_1 ./ nofnat M .- nhalf .* e_2 ./ nofnat (M * (M - 1)).

(** 145-163 *)
Definition crps_pwm_k (obs : num) (fct : list num) : num :=
  let M := length fct in
  if nisnan obs then NaN else
  let '(expected_diff, b_0, b_1) :=
    fold_left (fun '(ed, b_0, b_1) '(i, forecast) =>
        (ed .+ nabs (forecast .- obs), b_0 .+ forecast, b_1 .+ forecast .* nofnat i))
      (combine (seq 0 M) fct) (n0, n0, n0) in
  expected_diff ./ nofnat M .+ b_0 ./ nofnat M .- n2 .* b_1 ./ nofnat (M * (M - 1)).

(** 166-177 *)
Definition crps_akr_k (obs : num) (fct : list num) : num :=
  let M := length fct in
  let '(e_1, e_2) :=
    fold_left (fun '(e_1, e_2) '(i, forecast) =>
        let i := if i =? 0 then M else i in
        (e_1 .+ nabs (forecast .- obs), e_2 .+ nabs (forecast .- ith fct (i - 1))))
      (combine (seq 0 M) fct) (n0, n0) in
  e_1 ./ nofnat M .- nhalf .* n1 ./ nofnat M .* e_2.

(** [int((i + 1 + ((M - 1) / 2)) % M)]: the argument is a multiple of one half, so the
    float computation is exact; both operands are doubled here *)
Definition circperm_idx (M i : nat) : nat := ((2 * (i + 1) + (M - 1)) mod (2 * M)) / 2.

(** 180-192 *)
Definition crps_akr_circperm_k (obs : num) (fct : list num) : num :=
  let M := length fct in
  let '(e_1, e_2) :=
    fold_left (fun '(e_1, e_2) '(i, forecast) =>
        let sigma_i := circperm_idx M i in
        (e_1 .+ nabs (forecast .- obs), e_2 .+ nabs (forecast .- ith fct sigma_i)))
      (combine (seq 0 M) fct) (n0, n0) in
  e_1 ./ nofnat M .- nhalf .* n1 ./ nofnat M .* e_2.

(** 195-220 *)
Definition owcrps_nrg_k (obs : num) (fct : list num) (ow : num) (fw : list num) : num :=
  let M := length fct in
  if nisnan obs then NaN else
  let '(e_1, e_2) :=
    fold_left (fun '(e_1, e_2) i =>
        (e_1 .+ nabs (ith fct i .- obs) .* ith fw i .* ow,
         fold_left (fun e_2 j => e_2 .+ n2 .* nabs (ith fct i .- ith fct j)
                                        .* ith fw i .* ith fw j .* ow)
                   (seq (i + 1) (M - (i + 1))) e_2))
      (seq 0 M) (n0, n0) in
  let wbar := nmean fw in
  e_1 ./ (nofnat M .* wbar) .- nhalf .* e_2 ./ nsq (nofnat M .* wbar).

(** 223-250 *)
Definition vrcrps_nrg_k (obs : num) (fct : list num) (ow : num) (fw : list num) : num :=
  let M := length fct in
  if nisnan obs then NaN else
  let '(e_1, e_2) :=
    fold_left (fun '(e_1, e_2) i =>
        (e_1 .+ nabs (ith fct i .- obs) .* ith fw i .* ow,
         fold_left (fun e_2 j => e_2 .+ n2 .* nabs (ith fct i .- ith fct j)
                                        .* ith fw i .* ith fw j)
                   (seq (i + 1) (M - (i + 1))) e_2))
      (seq 0 M) (n0, n0) in
  let wbar := nmean fw in
  let wabs_x := nmean (map (fun '(x, f) => nabs x .* f) (combine fct fw)) in
  let wabs_y := nabs obs .* ow in
  e_1 ./ nofnat M .- nhalf .* e_2 ./ nofnat (M * M) .+ (wabs_x .- wabs_y) .* (wbar .- ow).

(** * _gufuncs_w.py *)

(** 10-22 *)
Definition crps_akr_w_k (obs : num) (fct w : list num) : num :=
  let M := length fct in
  let '(e_1, e_2) :=
    fold_left (fun '(e_1, e_2) '(i, forecast) =>
        let pair_idx := if 0 <? i then i - 1 else M - 1 in
        (e_1 .+ nabs (forecast .- obs) .* ith w i,
         e_2 .+ nabs (forecast .- ith fct pair_idx) .* ith w i))
      (combine (seq 0 M) fct) (n0, n0) in
  e_1 .- nhalf .* e_2.

(** 25-37 *)
Definition crps_akr_circperm_w_k (obs : num) (fct w : list num) : num :=
  let M := length fct in
  let '(e_1, e_2) :=
    fold_left (fun '(e_1, e_2) '(i, forecast) =>
        let sigma_i := circperm_idx M i in
        (e_1 .+ nabs (forecast .- obs) .* ith w i,
         e_2 .+ nabs (forecast .- ith fct sigma_i) .* ith w i))
      (combine (seq 0 M) fct) (n0, n0) in
  e_1 .- nhalf .* e_2.

(** the double loop shared by 51-57 and 117-123 *)
Definition crps_e1e2_w (obs : num) (fct w : list num) : num * num :=
  let M := length fct in
  fold_left (fun '(e_1, e_2) i =>
      (e_1 .+ nabs (ith fct i .- obs) .* ith w i,
       fold_left (fun e_2 j => e_2 .+ nabs (ith fct j .- ith fct i) .* ith w j .* ith w i)
                 (seq (i + 1) (M - (i + 1))) e_2))
    (seq 0 M) (n0, n0).

(** 40-66 *)
Definition crps_fair_w_k (obs : num) (fct w : list num) : num :=
  if nisnan obs then NaN else
  let '(e_1, e_2) := crps_e1e2_w obs fct w in
  let fair_c := n1 .- nsum (map nsq w) in
  if neqb fair_c n0 then NaN else
  e_1 .- e_2 ./ fair_c.

(** 69-103; the loop is that of [crps_int_step] with [w[n]] for [1/M] *)
Definition crps_int_w_k (obs : num) (fct w : list num) : num :=
  if nisnan obs then NaN else
  match fold_left (fun st '(n, forecast) => crps_int_step (ith w n) obs st forecast)
                  (combine (seq 0 (length fct)) fct) (Some (false, n0, n0, n0)) with
  | None => NaN
  | Some (obs_cdf, _, forecast, integral) =>
      if obs_cdf then integral else integral .+ (obs .- forecast)
  end.

(** 106-125 *)
Definition crps_nrg_w_k (obs : num) (fct w : list num) : num :=
  if nisnan obs then NaN else
  let '(e_1, e_2) := crps_e1e2_w obs fct w in
  e_1 .- e_2.

(** 128-151 *)
Definition crps_pwm_w_k (obs : num) (fct w : list num) : num :=
  if nisnan obs then NaN else
  let w_sum := ncumsum w in
  let '(expected_diff, b_0, b_1) :=
    fold_left (fun '(ed, b_0, b_1) '(i, forecast) =>
        (ed .+ nabs (forecast .- obs) .* ith w i,
         b_0 .+ forecast .* ith w i,
         b_1 .+ forecast .* ith w i .* (ith w_sum i .- ith w i)))
      (combine (seq 0 (length fct)) fct) (n0, n0, n0) in
  let fair_c := n1 .- nsum (map nsq w) in
  expected_diff .+ b_0 .- n2 .* b_1 ./ fair_c.

(** 154-178 *)
Definition crps_qd_w_step (obs : num) (w a : list num) (st : option (num * num)) (p : nat * num)
    : option (num * num) :=
  match st with
  | None => None
  | Some (obs_cdf, integral) =>
      let '(i, forecast) := p in
      if nisnan forecast then None else
      let obs_cdf := if nltb obs forecast then n1 else obs_cdf in
      Some (obs_cdf, integral .+ ith w i .* (obs_cdf .- ith a i) .* (forecast .- obs))
  end.
Definition crps_qd_w_k (obs : num) (fct w : list num) : num :=
  if nisnan obs then NaN else
  let a := map (fun '(c, x) => c .- x ./ n2) (combine (ncumsum w) w) in
  match fold_left (crps_qd_w_step obs w a) (combine (seq 0 (length fct)) fct) (Some (n0, n0)) with
  | None => NaN
  | Some (_, integral) => n2 .* integral
  end.

(** 181-207 *)
Definition owcrps_nrg_w_k (obs : num) (fct : list num) (ow : num) (fw ens_w : list num) : num :=
  let M := length fct in
  if nisnan obs then NaN else
  let '(e_1, e_2) :=
    fold_left (fun '(e_1, e_2) i =>
        (e_1 .+ ith ens_w i .* nabs (ith fct i .- obs) .* ith fw i .* ow,
         fold_left (fun e_2 j => e_2 .+ n2 .* ith ens_w i .* ith ens_w j
                                        .* nabs (ith fct i .- ith fct j)
                                        .* ith fw i .* ith fw j .* ow)
                   (seq (i + 1) (M - (i + 1))) e_2))
      (seq 0 M) (n0, n0) in
  let wbar := nsum (map (fun '(e, f) => e .* f) (combine ens_w fw)) in
  e_1 ./ wbar .- nhalf .* e_2 ./ nsq wbar.

(** 210-238 *)
Definition vrcrps_nrg_w_k (obs : num) (fct : list num) (ow : num) (fw ens_w : list num) : num :=
  let M := length fct in
  if nisnan obs then NaN else
  let '(e_1, e_2) :=
    fold_left (fun '(e_1, e_2) i =>
        (e_1 .+ ith ens_w i .* nabs (ith fct i .- obs) .* ith fw i .* ow,
         fold_left (fun e_2 j => e_2 .+ n2 .* ith ens_w i .* ith ens_w j
                                        .* nabs (ith fct i .- ith fct j)
                                        .* ith fw i .* ith fw j)
                   (seq (i + 1) (M - (i + 1))) e_2))
      (seq 0 M) (n0, n0) in
  let wbar := nsum (map (fun '(e, f) => e .* f) (combine ens_w fw)) in
  let wabs_x := nsum (map (fun '(e, (x, f)) => e .* nabs x .* f) (combine ens_w (combine fct fw))) in
  let wabs_y := nabs obs .* ow in
  e_1 .- nhalf .* e_2 .+ (wabs_x .- wabs_y) .* (wbar .- ow).

(** * gufunc signatures *)
(** "(),(n)->()" *)
Definition gu_sv (out : arr -> list nat -> (list nat -> num) -> tensor)
    (k : num -> list num -> num) (obs fct : arr) : tensor :=
  let* (_, sf) := gcore1 fct in
  let* L := gloop [sh obs; sf] in
  out obs L (fun r => k (gS obs r) (gV fct r)).
(** "(),(n),(n)->()" *)
Definition gu_svv (out : arr -> list nat -> (list nat -> num) -> tensor)
    (k : num -> list num -> list num -> num) (obs fct w : arr) : tensor :=
  let* (n, sf) := gcore1 fct in
  let* (n', sw) := gcore1 w in
  let* _ := check (n =? n') in
  let* L := gloop [sh obs; sf; sw] in
  out obs L (fun r => k (gS obs r) (gV fct r) (gV w r)).
(** "(),(n),(),(n)->()" *)
Definition gu_svsv (out : arr -> list nat -> (list nat -> num) -> tensor)
    (k : num -> list num -> num -> list num -> num) (obs fct ow fw : arr) : tensor :=
  let* (n, sf) := gcore1 fct in
  let* (n', sw) := gcore1 fw in
  let* _ := check (n =? n') in
  let* L := gloop [sh obs; sf; sh ow; sw] in
  out obs L (fun r => k (gS obs r) (gV fct r) (gS ow r) (gV fw r)).
(** "(),(n),(),(n),(n)->()" *)
Definition gu_svsvv (out : arr -> list nat -> (list nat -> num) -> tensor)
    (k : num -> list num -> num -> list num -> list num -> num) (obs fct ow fw w : arr) : tensor :=
  let* (n, sf) := gcore1 fct in
  let* (n', sw) := gcore1 fw in
  let* (n'', sw') := gcore1 w in
  let* _ := check ((n =? n') && (n =? n'')) in
  let* L := gloop [sh obs; sf; sh ow; sw; sw'] in
  out obs L (fun r => k (gS obs r) (gV fct r) (gS ow r) (gV fw r) (gV w r)).

Definition out_own (_ : arr) := gout.      (* compiled with explicit float signatures *)
Definition out_lazy := gout_like.          (* lazy_gufunc_wrapper_uv *)

(** _gufuncs.py 253-269 *)
Definition crps_gufuncs (estimator : string) (obs fct : arr) : tensor :=
  if estimator =s? "akr_circperm" then gu_sv out_lazy crps_akr_circperm_k obs fct
  else if estimator =s? "akr" then gu_sv out_lazy crps_akr_k obs fct
  else if estimator =s? "fair" then gu_sv out_own crps_fair_k obs fct
  else if estimator =s? "int" then gu_sv out_lazy crps_int_k obs fct
  else if estimator =s? "nrg" then gu_sv out_own crps_nrg_k obs fct
  else if estimator =s? "pwm" then gu_sv out_lazy crps_pwm_k obs fct
  else if estimator =s? "qd" then gu_sv out_own crps_qd_k obs fct
  else if (estimator =s? "ownrg") || (estimator =s? "vrnrg") then
    Err TypeError  (* in the table, but these kernels take four arguments: calling one
                      with two (and the output) is a TypeError *)
  else Err ValueError.

(** _gufuncs_w.py 241-257 *)
Definition crps_gufuncs_w (estimator : string) (obs fct ens_w : arr) : tensor :=
  if estimator =s? "akr_circperm" then gu_svv out_lazy crps_akr_circperm_w_k obs fct ens_w
  else if estimator =s? "akr" then gu_svv out_lazy crps_akr_w_k obs fct ens_w
  else if estimator =s? "fair" then gu_svv out_lazy crps_fair_w_k obs fct ens_w
  else if estimator =s? "int" then gu_svv out_lazy crps_int_w_k obs fct ens_w
  else if estimator =s? "nrg" then gu_svv out_lazy crps_nrg_w_k obs fct ens_w
  else if estimator =s? "pwm" then gu_svv out_lazy crps_pwm_w_k obs fct ens_w
  else if estimator =s? "qd" then gu_svv out_lazy crps_qd_w_k obs fct ens_w
  else if (estimator =s? "ownrg") || (estimator =s? "vrnrg") then Err TypeError
  else Err ValueError.

(** * scoringrules/_crps.py *)

(** 18-155, crps_ensemble; the body starts at line 122 *)
Definition crps_ensemble (srt : list num -> list nat) (backend : impl) (obs fct : arr) (m_axis : Z)
    (ens_w : option arr) (estimator : string) (sorted_ensemble : bool) (nan_policy : string)
    : tensor :=
  let* (obs, fct) := univariate_array_check obs fct m_axis in
  let* (obs, fct, ens_w) :=
    apply_nan_policy_ens_uv obs fct nan_policy ens_w (Some estimator) m_axis in
  let* (fct, ens_w) := univariate_sort_ens srt fct ens_w (-1) estimator sorted_ensemble in
  let* ens_w := opt_weight_check ens_w fct (-1) in
  match backend, ens_w with
  | Numba, None => crps_gufuncs estimator obs fct
  | Numba, Some w => crps_gufuncs_w estimator obs fct w
  | Array, None => crps_ensemble_arr obs fct estimator
  | Array, Some w => crps_ensemble_w_arr obs fct w estimator
  end.

(** 158-266, twcrps_ensemble *)
Definition twcrps_ensemble (srt : list num -> list nat) (backend : impl) (obs fct : arr) (a b : num)
    (m_axis : Z) (ens_w : option arr) (v_func : option (num -> num)) (estimator : string)
    (sorted_ensemble : bool) (nan_policy : string) : tensor :=
  let* (obs, fct) := uv_weighted_score_chain obs fct a b v_func in
  crps_ensemble srt backend obs fct m_axis ens_w estimator sorted_ensemble nan_policy.

(** 269-388, owcrps_ensemble; 391-508, vrcrps_ensemble: identical up to the kernels.
    [apply_nan_policy_ens_uv] is called without [m_axis] (default -1), then
    [univariate_weight_check] with the caller's [m_axis]. *)
Definition wcrps_prepare (obs fct : arr) (a b : num) (m_axis : Z) (ens_w : option arr)
    (w_func : option (dtype * (num -> num))) (nan_policy : string)
    : res (arr * arr * arr * arr * option arr) :=
  let* (obs, fct) := univariate_array_check obs fct m_axis in
  let* (obs_w, fct_w) := uv_weighted_score_weights obs fct a b w_func in
  let* (obs, fct, ens_w) := apply_nan_policy_ens_uv obs fct nan_policy ens_w None (-1) in
  let* (obs_w, fct_w, ens_w) := apply_nan_policy_ens_uv obs_w fct_w nan_policy ens_w None (-1) in
  let* ens_w := opt_weight_check ens_w fct m_axis in
  Ok (obs, fct, obs_w, fct_w, ens_w).

Definition owcrps_ensemble (backend : impl) (obs fct : arr) (a b : num) (m_axis : Z)
    (ens_w : option arr) (w_func : option (dtype * (num -> num))) (nan_policy : string) : tensor :=
  let* (obs, fct, obs_w, fct_w, ens_w) := wcrps_prepare obs fct a b m_axis ens_w w_func nan_policy in
  match backend, ens_w with
  | Numba, None => gu_svsv out_lazy owcrps_nrg_k obs fct obs_w fct_w
  | Numba, Some w => gu_svsvv out_lazy owcrps_nrg_w_k obs fct obs_w fct_w w
  | Array, None => ow_ensemble_arr obs fct obs_w fct_w
  | Array, Some w => ow_ensemble_w_arr obs fct obs_w fct_w w
  end.

Definition vrcrps_ensemble (backend : impl) (obs fct : arr) (a b : num) (m_axis : Z)
    (ens_w : option arr) (w_func : option (dtype * (num -> num))) (nan_policy : string) : tensor :=
  let* (obs, fct, obs_w, fct_w, ens_w) := wcrps_prepare obs fct a b m_axis ens_w w_func nan_policy in
  match backend, ens_w with
  | Numba, None => gu_svsv out_lazy vrcrps_nrg_k obs fct obs_w fct_w
  | Numba, Some w => gu_svsvv out_lazy vrcrps_nrg_w_k obs fct obs_w fct_w w
  | Array, None => vr_ensemble_arr obs fct obs_w fct_w
  | Array, Some w => vr_ensemble_w_arr obs fct obs_w fct_w w
  end.

(** 511-577, crps_quantile.  [numba] tells whether the name of the selected (or active)
    backend is "numba". *)
Definition crps_quantile (backend : impl) (obs fct alpha : arr) (m_axis : Z) : tensor :=
  let* (obs, fct) := univariate_array_check obs fct m_axis in
  let* b1 := aany (Ok alpha <=? sci 0)%A in
  let* b2 := aany (sci 1 <=? Ok alpha)%A in
  if b1 || b2 then Err ValueError else
  let* na := py_index (-1) (pyshape alpha) in
  if negb (lastdim fct =? na) then Err ValueError else
  match backend with
  | Numba => gu_svv out_lazy quantile_pinball_k obs fct alpha
  | Array => quantile_pinball_arr obs fct alpha
  end.
