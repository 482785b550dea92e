(** Model of scoringrules/core/variogram and scoringrules/_variogram.py.  Model file: no proofs.
    The order [p] is a python float. *)
From Verif Require Export M_energy.
Open Scope nat_scope.

(** * core/variogram/_score.py *)

(** [B.abs(B.expand_dims(x, -2) - B.expand_dims(x, -1)) ** p], for [fct] and for [obs]:
    21-24, 63-66, 98-101; _score_w.py 21-24, 71-75, 110-113 *)
Definition vdiff (x : arr) (p : R) : tensor :=
  apow (aabs (aexpand 1 (Ok x) - aexpand 0 (Ok x))%A) (sc p).
(** [B.expand_dims(w, (-3, -4))] *)
Definition expand34 (w : arr) : tensor := aexpand 2 (aexpand 2 (Ok w)).
(** [B.expand_dims(ow, (-2, -1))] *)
Definition expand12 (w : arr) : tensor := aexpand 0 (aexpand 0 (Ok w)).

(** [B.sum(B.expand_dims(w, -3) * (fct_diff - B.expand_dims(obs_diff, -3)) ** 2, axis=(-2, -1))],
    one number for each member: 31-32, 68-69, 103-104; _score_w.py 33-34, 78-79, 115-116 *)
Definition v_err (obs fct w : arr) (p : R) : tensor :=
  asum2 (aexpand 2 (Ok w) * asq (vdiff fct p - aexpand 2 (vdiff obs p)))%A.
(** [B.sum(B.expand_dims(w, (-3, -4)) * (B.expand_dims(fct_diff, -3) - B.expand_dims(fct_diff, -4)) ** 2,
    axis=(-2, -1))], one number for each pair of members: 35-38, 72-78, 107-110; _score_w.py 37-40, 82-89,
    119-122 *)
Definition v_spread (fct w : arr) (p : R) : tensor :=
  asum2 (expand34 w * asq (aexpand 2 (vdiff fct p) - aexpand 3 (vdiff fct p)))%A.

(** 9-47, vs_ensemble *)
Definition vs_arr (obs fct w : arr) (p : R) (estimator : string) : tensor :=
  let M := dim2 fct in
  if estimator =s? "nrg" then
    let fct_diff := (asum_axis (-3) (vdiff fct p) / sci M)%A in
    asum2 (Ok w * asq (vdiff obs p - fct_diff))%A
  else if estimator =s? "fair" then
    let E_1 := (asum (v_err obs fct w p) / sci M)%A in
    let E_2 := (asum2 (v_spread fct w p) / sci (M * (M - 1)))%A in
    (E_1 - sc half * E_2)%A
  else Err ValueError.

(** 50-82, owvs_ensemble *)
Definition owvs_arr (obs fct w ow fw : arr) (p : R) : tensor :=
  let wbar := amean (Ok fw) in
  let E_1 := (amean (v_err obs fct w p * Ok fw * aexpand 0 (Ok ow)) / wbar)%A in
  let fw_prod := (aexpand 1 (Ok fw) * aexpand 0 (Ok fw))%A in
  let E_2 := ainplace nmul (v_spread fct w p) (fw_prod * expand12 ow)%A in
  let E_2 := (amean2 E_2 / asq wbar)%A in
  (E_1 - sc half * E_2)%A.

(** 85-120, vrvs_ensemble *)
Definition vrvs_arr (obs fct w ow fw : arr) (p : R) : tensor :=
  let wbar := amean (Ok fw) in
  let E_1 := amean (v_err obs fct w p * Ok fw * aexpand 0 (Ok ow))%A in
  let fw_prod := (aexpand 1 (Ok fw) * aexpand 0 (Ok fw))%A in
  let E_2 := amean2 (v_spread fct w p * fw_prod)%A in
  let E_3 := asum2 (aexpand 2 (Ok w) * asq (vdiff fct p))%A in
  let E_3 := amean (E_3 * Ok fw)%A in
  let E_3 := ainplace nsub E_3 (asum2 (Ok w * asq (vdiff obs p)) * Ok ow)%A in
  let E_3 := ainplace nmul E_3 (wbar - Ok ow)%A in
  (E_1 - sc half * E_2 + E_3)%A.

(** * core/variogram/_score_w.py *)

(** 9-54, vs_ensemble_w *)
Definition vs_w_arr (obs fct w ens_w : arr) (p : R) (estimator : string) : tensor :=
  if estimator =s? "nrg" then
    let fct_diff := asum_axis (-3) (vdiff fct p * expand12 ens_w)%A in
    asum2 (Ok w * asq (vdiff obs p - fct_diff))%A
  else if estimator =s? "fair" then
    let E_1 := asum (v_err obs fct w p * Ok ens_w)%A in
    let E_2 := asum2 (v_spread fct w p * aexpand 1 (Ok ens_w) * aexpand 0 (Ok ens_w))%A in
    let fair_c := (sci 1 - asum (Ok ens_w * Ok ens_w))%A in
    (E_1 - sc half * E_2 / fair_c)%A
  else Err ValueError.

(** 57-93, owvs_ensemble_w *)
Definition owvs_w_arr (obs fct w ow fw ens_w : arr) (p : R) : tensor :=
  let wbar := asum (Ok fw * Ok ens_w)%A in
  let E_1 := (asum (v_err obs fct w p * Ok fw * aexpand 0 (Ok ow) * Ok ens_w) / wbar)%A in
  let fw_prod := (aexpand 1 (Ok fw) * aexpand 0 (Ok fw))%A in
  let ew_prod := (aexpand 1 (Ok ens_w) * aexpand 0 (Ok ens_w))%A in
  let E_2 := ainplace nmul (v_spread fct w p) (fw_prod * expand12 ow * ew_prod)%A in
  let E_2 := (asum2 E_2 / asq wbar)%A in
  (E_1 - sc half * E_2)%A.

(** 96-133, vrvs_ensemble_w *)
Definition vrvs_w_arr (obs fct w ow fw ens_w : arr) (p : R) : tensor :=
  let wbar := asum (Ok fw * Ok ens_w)%A in
  let E_1 := asum (v_err obs fct w p * Ok fw * aexpand 0 (Ok ow) * Ok ens_w)%A in
  let fw_prod := (aexpand 1 (Ok fw) * aexpand 0 (Ok fw))%A in
  let ew_prod := (aexpand 1 (Ok ens_w) * aexpand 0 (Ok ens_w))%A in
  let E_2 := asum2 (v_spread fct w p * fw_prod * ew_prod)%A in
  let E_3 := asum2 (aexpand 2 (Ok w) * asq (vdiff fct p))%A in
  let E_3 := asum (E_3 * Ok fw * Ok ens_w)%A in
  let E_3 := ainplace nsub E_3 (asum2 (Ok w * asq (vdiff obs p)) * Ok ow)%A in
  let E_3 := ainplace nmul E_3 (wbar - Ok ow)%A in
  (E_1 - sc half * E_2 + E_3)%A.

(** * core/variogram/_gufuncs.py *)

(** [abs(x[i] - x[j]) ** p] *)
Definition rho (x : list num) (p : R) (i j : nat) : num := npow (nabs (ith x i .- ith x j)) (Fin p).
(** [w[i, j]] *)
Definition ith2 (w : list (list num)) (i j : nat) : num := ith (ithv w i) j.
(** [for i in range(D): for j in range(D): a += f(i, j)] *)
Definition loop2 (D : nat) (f : nat -> nat -> num) (a : num) : num :=
  fold_left (fun a i => fold_left (fun a j => a .+ f i j) (seq 0 D) a) (seq 0 D) a.

(** 7-25; the kernel accumulates in [out[0]], so every partial sum is cast ([c]) to the dtype
    of the output *)
Definition vs_nrg_k (c : num -> num) (obs : list num) (fct w : list (list num)) (p : R) : num :=
  let M := length fct in
  let D := length obs in
  fold_left (fun out i => fold_left (fun out j =>
      let vfct := fold_left (fun vfct m => vfct .+ rho (ithv fct m) p i j) (seq 0 M) n0 in
      let vfct := vfct ./ nofnat M in
      let vobs := rho obs p i j in
      c (out .+ ith2 w i j .* nsq (vobs .- vfct))) (seq 0 D) out) (seq 0 D) (c n0).

(** 28-54 *)
Definition vs_fair_k (obs : list num) (fct w : list (list num)) (p : R) : num :=
  let M := length fct in
  let D := length obs in
  let '(e_1, e_2) :=
    fold_left (fun '(e_1, e_2) k =>
        (loop2 D (fun i j => ith2 w i j .* nsq (rho (ithv fct k) p i j .- rho obs p i j)) e_1,
         fold_left (fun e_2 m =>
             loop2 D (fun i j => ith2 w i j .* n2 .* nsq (rho (ithv fct k) p i j .- rho (ithv fct m) p i j)) e_2)
           (seq (k + 1) (M - (k + 1))) e_2))
      (seq 0 M) (n0, n0) in
  e_1 ./ nofnat M .- nhalf .* e_2 ./ nofnat (M * (M - 1)).

(** 57-79 *)
Definition owvs_k (obs : list num) (fct w : list (list num)) (ow : num) (fw : list num) (p : R) : num :=
  let M := length fct in
  let D := length obs in
  let '(e_1, e_2) :=
    fold_left (fun '(e_1, e_2) k =>
        (loop2 D (fun i j => ith2 w i j .* nsq (rho (ithv fct k) p i j .- rho obs p i j) .* ith fw k .* ow) e_1,
         fold_left (fun e_2 m =>
             loop2 D (fun i j => n2 .* ith2 w i j .* nsq (rho (ithv fct k) p i j .- rho (ithv fct m) p i j)
                                 .* ith fw k .* ith fw m .* ow) e_2)
           (seq (k + 1) (M - (k + 1))) e_2))
      (seq 0 M) (n0, n0) in
  let wbar := nmean fw in
  e_1 ./ (nofnat M .* wbar) .- nhalf .* e_2 ./ (nofnat (M * M) .* nsq wbar).

(** 82-112 *)
Definition vrvs_k (obs : list num) (fct w : list (list num)) (ow : num) (fw : list num) (p : R) : num :=
  let M := length fct in
  let D := length obs in
  let '(e_1, e_2, e_3_x) :=
    fold_left (fun '(e_1, e_2, e_3_x) k =>
        (loop2 D (fun i j => ith2 w i j .* nsq (rho (ithv fct k) p i j .- rho obs p i j) .* ith fw k .* ow) e_1,
         fold_left (fun e_2 m =>
             loop2 D (fun i j => n2 .* ith2 w i j .* nsq (rho (ithv fct k) p i j .- rho (ithv fct m) p i j)
                                 .* ith fw k .* ith fw m) e_2)
           (seq (k + 1) (M - (k + 1))) e_2,
         loop2 D (fun i j => ith2 w i j .* nsq (rho (ithv fct k) p i j) .* ith fw k) e_3_x))
      (seq 0 M) (n0, n0, n0) in
  let e_3_x := e_3_x .* (n1 ./ nofnat M) in
  let wbar := nmean fw in
  let e_3_y := loop2 D (fun i j => ith2 w i j .* nsq (rho obs p i j) .* ow) n0 in
  e_1 ./ nofnat M .- nhalf .* e_2 ./ nofnat (M * M) .+ (e_3_x .- e_3_y) .* (wbar .- ow).

(** * core/variogram/_gufuncs_w.py *)

(** 7-18 *)
Definition vs_nrg_w_k (c : num -> num) (obs : list num) (fct w : list (list num)) (ens_w : list num)
    (p : R) : num :=
  let M := length fct in
  let D := length obs in
  fold_left (fun out i => fold_left (fun out j =>
      let vfct := fold_left (fun vfct m => vfct .+ ith ens_w m .* rho (ithv fct m) p i j) (seq 0 M) n0 in
      let vobs := rho obs p i j in
      c (out .+ ith2 w i j .* nsq (vobs .- vfct))) (seq 0 D) out) (seq 0 D) (c n0).

(** 21-43 *)
Definition vs_fair_w_k (obs : list num) (fct w : list (list num)) (ens_w : list num) (p : R) : num :=
  let M := length fct in
  let D := length obs in
  let '(e_1, e_2) :=
    fold_left (fun '(e_1, e_2) k =>
        (loop2 D (fun i j => ith2 w i j .* nsq (rho (ithv fct k) p i j .- rho obs p i j) .* ith ens_w k) e_1,
         fold_left (fun e_2 m =>
             loop2 D (fun i j => ith2 w i j .* (n2 .* nsq (rho (ithv fct k) p i j .- rho (ithv fct m) p i j)
                                                .* ith ens_w k .* ith ens_w m)) e_2)
           (seq (k + 1) (M - (k + 1))) e_2))
      (seq 0 M) (n0, n0) in
  let fair_c := n1 .- nsum (map nsq ens_w) in
  e_1 .- nhalf .* e_2 ./ fair_c.

(** 46-76 *)
Definition owvs_w_k (obs : list num) (fct w : list (list num)) (ow : num) (fw ens_w : list num) (p : R) : num :=
  let M := length fct in
  let D := length obs in
  let '(e_1, e_2) :=
    fold_left (fun '(e_1, e_2) k =>
        (loop2 D (fun i j => ith2 w i j .* nsq (rho (ithv fct k) p i j .- rho obs p i j)
                             .* ith fw k .* ow .* ith ens_w k) e_1,
         fold_left (fun e_2 m =>
             loop2 D (fun i j => ith2 w i j .* (n2 .* nsq (rho (ithv fct k) p i j .- rho (ithv fct m) p i j)
                                                .* ith fw k .* ith fw m .* ow .* ith ens_w k .* ith ens_w m)) e_2)
           (seq (k + 1) (M - (k + 1))) e_2))
      (seq 0 M) (n0, n0) in
  let wbar := nsum (map (fun '(a, b) => a .* b) (combine fw ens_w)) in
  e_1 ./ wbar .- nhalf .* e_2 ./ nsq wbar.

(** 79-110 *)
Definition vrvs_w_k (obs : list num) (fct w : list (list num)) (ow : num) (fw ens_w : list num) (p : R) : num :=
  let M := length fct in
  let D := length obs in
  let '(e_1, e_2, e_3_x) :=
    fold_left (fun '(e_1, e_2, e_3_x) k =>
        (loop2 D (fun i j => ith2 w i j .* nsq (rho (ithv fct k) p i j .- rho obs p i j)
                             .* ith fw k .* ow .* ith ens_w k) e_1,
         fold_left (fun e_2 m =>
             loop2 D (fun i j => ith2 w i j .* (n2 .* nsq (rho (ithv fct k) p i j .- rho (ithv fct m) p i j)
                                                .* ith fw k .* ith fw m .* ith ens_w k .* ith ens_w m)) e_2)
           (seq (k + 1) (M - (k + 1))) e_2,
         loop2 D (fun i j => ith2 w i j .* nsq (rho (ithv fct k) p i j) .* ith fw k .* ith ens_w k) e_3_x))
      (seq 0 M) (n0, n0, n0) in
  let wbar := nsum (map (fun '(a, b) => a .* b) (combine fw ens_w)) in
  let e_3_y := loop2 D (fun i j => ith2 w i j .* nsq (rho obs p i j) .* ow) n0 in
  e_1 .- nhalf .* e_2 .+ (e_3_x .- e_3_y) .* (wbar .- ow).

(** * gufunc signatures; the order p is a scalar *)
(** core dimensions and loop shapes of the arguments "(d),(m,d),(d,d)" *)
Definition gu_core (obs fct w : arr) : res (nat * list (list nat)) :=
  let* (d, so) := gcore1 obs in
  let* (d', m, sf) := gcore2 fct in
  let* (d1, d2, sw) := gcore2 w in
  let* _ := check ((d =? d') && (d =? d1) && (d =? d2)) in
  Ok (m, [so; sf; sw]).
(** "(d),(m,d),(d,d),()->()" *)
Definition gu_v (k : list num -> list (list num) -> list (list num) -> num) (obs fct w : arr) : tensor :=
  let* (m, l) := gu_core obs fct w in
  let* L := gloop l in
  gout_like_mv obs L (fun r => k (gV obs r) (gM fct r) (gM w r)).
(** "(d),(m,d),(d,d),(m),()->()" *)
Definition gu_vw (k : list num -> list (list num) -> list (list num) -> list num -> num)
    (obs fct w e : arr) : tensor :=
  let* (m, l) := gu_core obs fct w in
  let* (m', se) := gcore1 e in
  let* _ := check (m =? m') in
  let* L := gloop (l ++ [se]) in
  gout_like_mv obs L (fun r => k (gV obs r) (gM fct r) (gM w r) (gV e r)).
(** "(d),(m,d),(d,d),(),(m),()->()" *)
Definition gu_vo (k : list num -> list (list num) -> list (list num) -> num -> list num -> num)
    (obs fct w ow fw : arr) : tensor :=
  let* (m, l) := gu_core obs fct w in
  let* (m', sf) := gcore1 fw in
  let* _ := check (m =? m') in
  let* L := gloop (l ++ [sh ow; sf]) in
  gout_like_mv obs L (fun r => k (gV obs r) (gM fct r) (gM w r) (gS ow r) (gV fw r)).
(** "(d),(m,d),(d,d),(),(m),(m),()->()" *)
Definition gu_vow (k : list num -> list (list num) -> list (list num) -> num -> list num -> list num -> num)
    (obs fct w ow fw e : arr) : tensor :=
  let* (m, l) := gu_core obs fct w in
  let* (m', sf) := gcore1 fw in
  let* (m'', se) := gcore1 e in
  let* _ := check ((m =? m') && (m =? m'')) in
  let* L := gloop (l ++ [sh ow; sf; se]) in
  gout_like_mv obs L (fun r => k (gV obs r) (gM fct r) (gM w r) (gS ow r) (gV fw r) (gV e r)).

(** _gufuncs.py 115-120; the outcome-weighted kernels take two arguments more *)
Definition vs_gufuncs (estimator : string) (obs fct w : arr) (p : R) : tensor :=
  if estimator =s? "fair" then gu_v (fun y x w => vs_fair_k y x w p) obs fct w
  else if estimator =s? "nrg" then gu_v (fun y x w => vs_nrg_k (ncast (dt obs)) y x w p) obs fct w
  else if (estimator =s? "ownrg") || (estimator =s? "vrnrg") then Err TypeError
  else Err ValueError.
(** _gufuncs_w.py 113-118 *)
Definition vs_gufuncs_w (estimator : string) (obs fct w ens_w : arr) (p : R) : tensor :=
  if estimator =s? "fair" then gu_vw (fun y x w e => vs_fair_w_k y x w e p) obs fct w ens_w
  else if estimator =s? "nrg" then
    gu_vw (fun y x w e => vs_nrg_w_k (ncast (dt obs)) y x w e p) obs fct w ens_w
  else if (estimator =s? "ownrg") || (estimator =s? "vrnrg") then Err TypeError
  else Err ValueError.

(** * scoringrules/_variogram.py *)

(** [B.ones(obs.shape + (D,))] for w = None: 88-92, 268-270, 362-364 *)
Definition vs_weights (obs fct : arr) (w : option arr) : arr :=
  match w with
  | None => mkArr DFloat (hd 0 (sh fct) :: sh obs) (fun _ => Fin 1)
  | Some w => w
  end.

(** 17-108, vs_ensemble; the body starts at line 85 *)
Definition vs_ensemble (backend : impl) (obs fct : arr) (w : option arr) (m_axis v_axis : Z)
    (ens_w : option arr) (p : R) (estimator : string) : tensor :=
  let* (obs, fct) := multivariate_array_check obs fct m_axis v_axis in
  let w := vs_weights obs fct w in
  match ens_w with
  | None =>
      match backend with
      | Numba => vs_gufuncs estimator obs fct w p
      | Array => vs_arr obs fct w p estimator
      end
  | Some e =>
      let* e := multivariate_weight_check e fct m_axis in
      match backend with
      | Numba => vs_gufuncs_w estimator obs fct w e p
      | Array => vs_w_arr obs fct w e p estimator
      end
  end.

(** 111-194, twvs_ensemble *)
Definition twvs_ensemble (backend : impl) (obs fct : arr) (v_func : arr -> tensor) (w : option arr)
    (m_axis v_axis : Z) (ens_w : option arr) (p : R) (estimator : string) : tensor :=
  let* (obs, fct) := mv_weighted_score_chain obs fct v_func in
  vs_ensemble backend obs fct w m_axis v_axis ens_w p estimator.

(** 197-286, owvs_ensemble *)
Definition owvs_ensemble (backend : impl) (obs fct : arr) (w_func : dtype * (list num -> num))
    (w : option arr) (m_axis v_axis : Z) (ens_w : option arr) (p : R) : tensor :=
  let* (obs, fct) := multivariate_array_check obs fct m_axis v_axis in
  let* (obs_w, fct_w) := mv_weighted_score_weights obs fct w_func in
  let w := vs_weights obs fct w in
  match ens_w with
  | None =>
      match backend with
      | Numba => gu_vo (fun y x w a b => owvs_k y x w a b p) obs fct w obs_w fct_w
      | Array => owvs_arr obs fct w obs_w fct_w p
      end
  | Some e =>
      let* e := multivariate_weight_check e fct m_axis in
      match backend with
      | Numba => gu_vow (fun y x w a b e => owvs_w_k y x w a b e p) obs fct w obs_w fct_w e
      | Array => owvs_w_arr obs fct w obs_w fct_w e p
      end
  end.

(** 289-380, vrvs_ensemble *)
Definition vrvs_ensemble (backend : impl) (obs fct : arr) (w_func : dtype * (list num -> num))
    (w : option arr) (m_axis v_axis : Z) (ens_w : option arr) (p : R) : tensor :=
  let* (obs, fct) := multivariate_array_check obs fct m_axis v_axis in
  let* (obs_w, fct_w) := mv_weighted_score_weights obs fct w_func in
  let w := vs_weights obs fct w in
  match ens_w with
  | None =>
      match backend with
      | Numba => gu_vo (fun y x w a b => vrvs_k y x w a b p) obs fct w obs_w fct_w
      | Array => vrvs_arr obs fct w obs_w fct_w p
      end
  | Some e =>
      let* e := multivariate_weight_check e fct m_axis in
      match backend with
      | Numba => gu_vow (fun y x w a b e => vrvs_w_k y x w a b e p) obs fct w obs_w fct_w e
      | Array => vrvs_w_arr obs fct w obs_w fct_w e p
      end
  end.
