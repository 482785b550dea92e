(** Properties C43 and C44: the arguments of the parametric scores, and what happens to the caller's
    arrays.  Shapes are arbitrary; [params s [(a, f); ...]] says that the arrays broadcast to shape s
    with entries f. *)
From Verif Require Import T_pvalid.
Open Scope R_scope.

(** crps_gamma raises ValueError exactly when not exactly one of rate and scale is given *)
Theorem C43_crps_gamma :
forall (obs shape : arr) (rate scale : option arr),
  (forall p, rate = Some p \/ scale = Some p -> broadcast [obs; shape; p]%list) ->
  (crps_gamma obs shape rate scale = Err ValueError <-> ~ one_of rate scale).
Proof. exact C43_crps_gamma_l. Qed.
Print Assumptions C43_crps_gamma.
Example C43_crps_gamma_ex : broadcast [farr [2%nat] (fun _ => 1); farr [] (fun _ => 2); farr [1; 3]%nat (fun _ => 2)]%list.
Proof. eexists. reflexivity. Qed.

(** the same for crps_csg0 *)
Theorem C43_crps_csg0 :
forall (obs shape shift : arr) (rate scale : option arr),
  (forall p, rate = Some p \/ scale = Some p -> broadcast [obs; shape; shift; p]%list) ->
  (crps_csg0 obs shape rate scale shift = Err ValueError <-> ~ one_of rate scale).
Proof. exact C43_crps_csg0_l. Qed.
Print Assumptions C43_crps_csg0.
Example C43_crps_csg0_ex : broadcast [farr [2%nat] (fun _ => 1); farr [] (fun _ => 2); farr [2%nat] (fun _ => 1); farr [1; 3]%nat (fun _ => 2)]%list.
Proof. eexists. reflexivity. Qed.

(** the same for logs_gamma *)
Theorem C43_logs_gamma :
forall (obs shape : arr) (rate scale : option arr),
  (forall p, rate = Some p \/ scale = Some p -> broadcast [obs; shape; p]%list) ->
  (logs_gamma obs shape rate scale = Err ValueError <-> ~ one_of rate scale).
Proof. exact C43_logs_gamma_l. Qed.
Print Assumptions C43_logs_gamma.
Example C43_logs_gamma_ex : broadcast [farr [2%nat] (fun _ => 1); farr [] (fun _ => 2); farr [1; 3]%nat (fun _ => 2)]%list.
Proof. eexists. reflexivity. Qed.

(** the same for prob and mu in crps_negbinom *)
Theorem C43_crps_negbinom :
forall (obs n : arr) (prob mu : option arr),
  (forall p, prob = Some p \/ mu = Some p -> broadcast [obs; n; p]%list) ->
  (crps_negbinom obs n prob mu = Err ValueError <-> ~ one_of prob mu).
Proof. exact C43_crps_negbinom_l. Qed.
Print Assumptions C43_crps_negbinom.
Example C43_crps_negbinom_ex : broadcast [farr [2%nat] (fun _ => 1); farr [] (fun _ => 2); farr [1; 3]%nat (fun _ => 1 / 2)]%list.
Proof. eexists. reflexivity. Qed.

(** the same for logs_negbinom *)
Theorem C43_logs_negbinom :
forall (obs n : arr) (prob mu : option arr),
  (forall p, prob = Some p \/ mu = Some p -> broadcast [obs; n; p]%list) ->
  (logs_negbinom obs n prob mu = Err ValueError <-> ~ one_of prob mu).
Proof. exact C43_logs_negbinom_l. Qed.
Print Assumptions C43_logs_negbinom.
Example C43_logs_negbinom_ex : broadcast [farr [2%nat] (fun _ => 1); farr [] (fun _ => 2); farr [1; 3]%nat (fun _ => 1 / 2)]%list.
Proof. eexists. reflexivity. Qed.

(** a rate and the inverse scale give the same scores, in crps_gamma, crps_csg0 and logs_gamma.
    The entries of obs, shape and shift may be anything (also NaN or infinite). *)
Theorem C43_gamma_scale :
forall (obs shape shift rate scale : arr) (s : list nat) (y a d : list nat -> num) (r c : list nat -> R),
  params s [(obs, y); (shape, a); (rate, fins r)]%list -> params s [(obs, y); (shape, a); (scale, fins c)]%list ->
  params s [(obs, y); (shape, a); (shift, d); (rate, fins r)]%list -> params s [(obs, y); (shape, a); (shift, d); (scale, fins c)]%list ->
  (forall i, inb s i -> c i <> 0 /\ r i = 1 / c i) ->
  (exists f, returns (crps_gamma obs shape (Some rate) None) s f /\ returns (crps_gamma obs shape None (Some scale)) s f) /\
  (exists f, returns (logs_gamma obs shape (Some rate) None) s f /\ returns (logs_gamma obs shape None (Some scale)) s f) /\
  (exists f, returns (crps_csg0 obs shape (Some rate) None shift) s f /\ returns (crps_csg0 obs shape None (Some scale) shift) s f).
Proof. exact C43_gamma_scale_l. Qed.
Print Assumptions C43_gamma_scale.
Example C43_gamma_scale_ex : let s := [2%nat]%list in let f v := fun _ : list nat => v in
  params s [(farr s (f 3), fins (f 3)); (farr [] (f 2), fins (f 2)); (farr [] (f 4), fins (f 4))]%list /\ 1 / 4 <> 0 /\ 4 = 1 / (1 / 4).
Proof. cbv zeta. split; [|split; lra]. split; [reflexivity|]. repeat constructor. Qed.

(** a success probability and the mean n (1 - p) / p give the same scores *)
Theorem C43_negbinom_mean :
forall (obs n prob mu : arr) (s : list nat) (y : list nat -> num) (k p m : list nat -> R),
  params s [(obs, y); (n, fins k); (prob, fins p)]%list -> params s [(obs, y); (n, fins k); (mu, fins m)]%list ->
  (forall i, inb s i -> 0 < k i /\ 0 < p i /\ m i = k i * (1 - p i) / p i) ->
  (exists f, returns (crps_negbinom obs n (Some prob) None) s f /\ returns (crps_negbinom obs n None (Some mu)) s f) /\
  (exists f, returns (logs_negbinom obs n (Some prob) None) s f /\ returns (logs_negbinom obs n None (Some mu)) s f).
Proof. exact C43_negbinom_mean_l. Qed.
Print Assumptions C43_negbinom_mean.
Example C43_negbinom_mean_ex : let s := [2%nat]%list in let f v := fun _ : list nat => v in
  params s [(farr s (f 3), fins (f 3)); (farr [] (f 2), fins (f 2)); (farr [] (f (1 / 4)), fins (f (1 / 4)))]%list /\ 6 = 2 * (1 - 1 / 4) / (1 / 4).
Proof. cbv zeta. split; [|lra]. split; [reflexivity|]. repeat constructor. Qed.

(** crps_beta raises ValueError exactly when some lower bound is not below its upper bound *)
Theorem C43_crps_beta :
forall (obs a b lower upper : arr) (s : list nat) (l u : list nat -> num),
  broadcast [obs; a; b; lower; upper]%list -> params s [(lower, l); (upper, u)]%list ->
  (crps_beta obs a b lower upper = Err ValueError <-> exists i, inb s i /\ nleb (u i) (l i) = true).
Proof. exact C43_crps_beta_l. Qed.
Print Assumptions C43_crps_beta.
Example C43_crps_beta_ex : crps_beta (farr [] (fun _ => 1)) (farr [] (fun _ => 1)) (farr [] (fun _ => 1)) (real1 2 (fun _ => 3)) (real1 2 (fun k => INR k + 5 / 2)) = Err ValueError /\
  params [2%nat]%list [(real1 2 (fun _ => 3), fun _ => Fin 3); (real1 2 (fun k => INR k + 5 / 2), fun i => Fin (INR (hd 0%nat i) + 5 / 2))]%list.
Proof.
  assert (params [2%nat]%list [(real1 2 (fun _ => 3), fun _ => Fin 3); (real1 2 (fun k => INR k + 5 / 2), fun i => Fin (INR (hd 0%nat i) + 5 / 2))]%list) as P.
  { split; [reflexivity|]. repeat constructor; intros [|k [|]] Hi; try (now destruct Hi); reflexivity. }
  split; [|exact P]. eapply (C43_crps_beta_l _ _ _ _ _ _ _ _); [eexists; reflexivity|exact P|]. exists (0%nat :: nil)%list. split; [simpl; auto|].
  simpl. unfold rleb. destruct (Rle_dec _ _); [reflexivity|lra].
Qed.

(** crps_gpd returns NaN where the shape is not below one or the point mass is not in [0, 1] *)
Theorem C43_gpd_nan :
forall (obs shape location scale mass : arr) (s : list nat) (y l c : list nat -> num) (xi m : list nat -> R),
  params s [(obs, y); (shape, fins xi); (location, l); (scale, c); (mass, fins m)]%list ->
  exists f, returns (crps_gpd obs shape location scale mass) s f /\
    forall i, inb s i -> 1 <= xi i \/ m i < 0 \/ 1 < m i -> f i = NaN.
Proof. exact C43_gpd_nan_l. Qed.
Print Assumptions C43_gpd_nan.
Example C43_gpd_nan_ex : let f v := fun _ : list nat => v in
  params [2%nat]%list [(farr [2%nat] (f 3), fins (f 3)); (farr [] (f 2), fins (f 2)); (farr [] (f 0), fins (f 0)); (farr [] (f 1), fins (f 1)); (farr [1%nat] (f (1 / 2)), fins (f (1 / 2)))]%list /\ 1 <= 2.
Proof. cbv zeta. split; [|lra]. split; [reflexivity|]. repeat constructor. Qed.

(** the location-scale families do not check that the scale is positive: crps_laplace with scale -1
    returns a negative score instead of an error or NaN *)
Theorem C43_negative_scale_refuted :
exists obs location scale : arr, at_ scale []%list = Fin (-1) /\
  exists v, returns (crps_laplace obs location scale) []%list (fun _ => Fin v) /\ v < 0.
Proof. exact C43_negative_scale_refuted_l. Qed.
Print Assumptions C43_negative_scale_refuted.

(** crps_exponentialM with one observation and several locations raises ValueError, although the
    arguments broadcast and crps_2pexponential accepts such arguments *)
Theorem C43_exponentialM_scalar_obs_refuted :
exists obs mass location scale : arr, broadcast [obs; mass; location; scale]%list /\
  crps_exponentialM obs mass location scale = Err ValueError /\ exists a, crps_2pexponential obs scale scale location = Ok a.
Proof. exact C43_exponentialM_scalar_obs_refuted_l. Qed.
Print Assumptions C43_exponentialM_scalar_obs_refuted.

(** crps_exponentialM with an array of integer observations and a location such as 0.5 raises
    TypeError; the same observations as floats are scored *)
Theorem C43_exponentialM_integer_refuted :
exists obs obsf mass location scale : arr, dt obs = DInt /\ dt obsf = DFloat /\ sh obs = sh obsf /\
  (forall i, at_ obs i = at_ obsf i) /\ crps_exponentialM obs mass location scale = Err TypeError /\
  exists a, crps_exponentialM obsf mass location scale = Ok a.
Proof. exact C43_exponentialM_integer_refuted_l. Qed.
Print Assumptions C43_exponentialM_integer_refuted.

(** after crps_exponentialM the caller's float array of observations holds the observations minus
    the locations, so it is unchanged exactly where the location is zero *)
Theorem C44_exponentialM_after :
forall (obs mass location scale : arr) (s : list nat) (y l : list nat -> R) (m c : list nat -> num),
  dt obs = DFloat -> sh obs = s ->
  params s [(obs, fins y); (mass, m); (location, fins l); (scale, c)]%list ->
  real_arr (snd (crps_exponentialM_mem obs mass location scale)) s (fun i => y i - l i).
Proof. exact C44_exponentialM_after_l. Qed.
Print Assumptions C44_exponentialM_after.
Example C44_exponentialM_after_ex : let f v := fun _ : list nat => v in
  params [2%nat]%list [(farr [2%nat] (f 3), fins (f 3)); (farr [] (f 0), fins (f 0)); (farr [] (f 1), fins (f 1)); (farr [1%nat] (f 2), fins (f 2))]%list.
Proof. cbv zeta. split; [reflexivity|]. repeat constructor. Qed.

(** crps_exponentialM changes the caller's observations, and a second call with the same array
    returns another score *)
Theorem C44_exponentialM_refuted :
exists obs mass location scale : arr, let obs' := snd (crps_exponentialM_mem obs mass location scale) in
  at_ obs (0%nat :: nil)%list <> at_ obs' (0%nat :: nil)%list /\
  exists v v', returns (crps_exponentialM obs mass location scale) (1%nat :: nil)%list (fun _ => Fin v) /\
    returns (crps_exponentialM obs' mass location scale) (1%nat :: nil)%list (fun _ => Fin v') /\ v <> v'.
Proof. exact C44_exponentialM_refuted_l. Qed.
Print Assumptions C44_exponentialM_refuted.

(** logs_exponential2 always does the same to its float observations *)
Theorem C44_logs_exponential2_after :
forall (obs location scale : arr) (s : list nat) (y l : list nat -> R) (c : list nat -> num),
  dt obs = DFloat -> sh obs = s -> params s [(obs, fins y); (location, fins l); (scale, c)]%list ->
  real_arr (snd (logs_exponential2_mem obs location scale)) s (fun i => y i - l i).
Proof. exact C44_logs_exponential2_after_l. Qed.
Print Assumptions C44_logs_exponential2_after.
Example C44_logs_exponential2_after_ex : let f v := fun _ : list nat => v in
  params [2%nat]%list [(farr [2%nat] (f 3), fins (f 3)); (farr [] (f 1), fins (f 1)); (farr [1%nat] (f 2), fins (f 2))]%list.
Proof. cbv zeta. split; [reflexivity|]. repeat constructor. Qed.

(** logs_exponential2 changes the caller's observations *)
Theorem C44_logs_exponential2_refuted :
exists obs location scale : arr,
  at_ obs (0%nat :: nil)%list <> at_ (snd (logs_exponential2_mem obs location scale)) (0%nat :: nil)%list /\
  exists a, logs_exponential2 obs location scale = Ok a.
Proof. exact C44_logs_exponential2_refuted_l. Qed.
Print Assumptions C44_logs_exponential2_refuted.
