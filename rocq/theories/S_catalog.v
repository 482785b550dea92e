(** Catalogue of the closed-form CRPS calls: [closed_crps T s F y] says that T is a call of one of the functions crps_*
    with admissible parameters, s the common shape of its arguments, F i the distribution function of the forecast and
    y i the observation at index i. *)
From Verif Require Export M_closed S_param S_crps S_dist S_dens S_cont S_csg S_disc S_count.
Open Scope R_scope.

Inductive closed_crps : tensor -> list nat -> (list nat -> R -> R) -> (list nat -> R) -> Prop :=
| cc_exponential : forall (obs rate : arr) (s : list nat) (y l : list nat -> R),
    params s [(obs, fins y); (rate, fins l)]%list -> (forall i, inb s i -> 0 < l i) ->
    closed_crps (crps_exponential obs rate) s (fun i => exponential_cdf (l i)) y
| cc_exponentialM : forall (obs mass location scale : arr) (s : list nat) (y p m c : list nat -> R),
    params s [(obs, fins y); (mass, fins p); (location, fins m); (scale, fins c)]%list -> dt obs = DFloat -> sh obs = s -> (forall i, inb s i -> 0 < c i) ->
    closed_crps (crps_exponentialM obs mass location scale) s (fun i => exponentialM_cdf (p i) (m i) (c i)) y
| cc_2pexponential : forall (obs scale1 scale2 location : arr) (s : list nat) (y p q m : list nat -> R),
    params s [(obs, fins y); (scale1, fins p); (scale2, fins q); (location, fins m)]%list -> (forall i, inb s i -> 0 < p i /\ 0 < q i) ->
    closed_crps (crps_2pexponential obs scale1 scale2 location) s (fun i => exponential2p_cdf (p i) (q i) (m i)) y
| cc_laplace : forall (obs location scale : arr) (s : list nat) (y m c : list nat -> R),
    params s [(obs, fins y); (location, fins m); (scale, fins c)]%list -> (forall i, inb s i -> 0 < c i) ->
    closed_crps (crps_laplace obs location scale) s (fun i => laplace_cdf (m i) (c i)) y
| cc_logistic : forall (obs mu sigma : arr) (s : list nat) (y m c : list nat -> R),
    params s [(obs, fins y); (mu, fins m); (sigma, fins c)]%list -> (forall i, inb s i -> 0 < c i) ->
    closed_crps (crps_logistic obs mu sigma) s (fun i => logistic_cdf (m i) (c i)) y
| cc_uniform : forall (obs min max lmass umass : arr) (s : list nat) (y a b p q : list nat -> R),
    params s [(obs, fins y); (min, fins a); (max, fins b); (lmass, fins p); (umass, fins q)]%list -> (forall i, inb s i -> a i < b i) ->
    closed_crps (crps_uniform obs min max lmass umass) s (fun i => uniform_cdf (a i) (b i) (p i) (q i)) y
| cc_gpd : forall (obs shape location scale mass : arr) (s : list nat) (y k m c p : list nat -> R),
    params s [(obs, fins y); (shape, fins k); (location, fins m); (scale, fins c); (mass, fins p)]%list -> (forall i, inb s i -> k i < 1 /\ 0 < c i /\ 0 <= p i <= 1) ->
    closed_crps (crps_gpd obs shape location scale mass) s (fun i => gpd_cdf (k i) (m i) (c i) (p i)) y
| cc_normal : forall (obs mu sigma : arr) (s : list nat) (y m c : list nat -> R),
    params s [(obs, fins y); (mu, fins m); (sigma, fins c)]%list -> (forall i, inb s i -> 0 < c i) ->
    closed_crps (crps_normal obs mu sigma) s (fun i => normal_cdf (m i) (c i)) y
| cc_gtcnormal : forall (obs location scale lower upper lmass umass : arr) (s : list nat) (y m c p q : list nat -> R) (l u : list nat -> Rbar),
    params s [(obs, fins y); (location, fins m); (scale, fins c); (lower, fun i => rbn (l i)); (upper, fun i => rbn (u i)); (lmass, fins p); (umass, fins q)]%list -> (forall i, inb s i -> 0 < c i /\ tc_ok (l i) (u i) (p i) (q i)) ->
    closed_crps (crps_gtcnormal obs location scale lower upper lmass umass) s (fun i => truncensx (normal_cdf (m i) (c i)) (l i) (u i) (p i) (q i)) y
| cc_tnormal : forall (obs location scale lower upper : arr) (s : list nat) (y m c : list nat -> R) (l u : list nat -> Rbar),
    params s [(obs, fins y); (location, fins m); (scale, fins c); (lower, fun i => rbn (l i)); (upper, fun i => rbn (u i))]%list -> (forall i, inb s i -> 0 < c i /\ Rbar_lt (l i) (u i)) ->
    closed_crps (crps_tnormal obs location scale lower upper) s (fun i => truncensx (normal_cdf (m i) (c i)) (l i) (u i) 0 0) y
| cc_cnormal : forall (obs location scale lower upper : arr) (s : list nat) (y m c : list nat -> R) (l u : list nat -> Rbar),
    params s [(obs, fins y); (location, fins m); (scale, fins c); (lower, fun i => rbn (l i)); (upper, fun i => rbn (u i))]%list -> (forall i, inb s i -> 0 < c i /\ Rbar_lt (l i) (u i)) ->
    closed_crps (crps_cnormal obs location scale lower upper) s (fun i => censored (normal_cdf (m i) (c i)) (l i) (u i)) y
| cc_gtclogistic : forall (obs location scale lower upper lmass umass : arr) (s : list nat) (y m c p q : list nat -> R) (l u : list nat -> Rbar),
    params s [(obs, fins y); (location, fins m); (scale, fins c); (lower, fun i => rbn (l i)); (upper, fun i => rbn (u i)); (lmass, fins p); (umass, fins q)]%list -> (forall i, inb s i -> 0 < c i /\ tc_ok (l i) (u i) (p i) (q i) /\ (l i = m_infty <-> u i = p_infty)) ->
    closed_crps (crps_gtclogistic obs location scale lower upper lmass umass) s (fun i => truncensx (logistic_cdf (m i) (c i)) (l i) (u i) (p i) (q i)) y
| cc_tlogistic : forall (obs location scale lower upper : arr) (s : list nat) (y m c : list nat -> R) (l u : list nat -> Rbar),
    params s [(obs, fins y); (location, fins m); (scale, fins c); (lower, fun i => rbn (l i)); (upper, fun i => rbn (u i))]%list -> (forall i, inb s i -> 0 < c i /\ Rbar_lt (l i) (u i) /\ (l i = m_infty <-> u i = p_infty)) ->
    closed_crps (crps_tlogistic obs location scale lower upper) s (fun i => truncensx (logistic_cdf (m i) (c i)) (l i) (u i) 0 0) y
| cc_clogistic : forall (obs location scale lower upper : arr) (s : list nat) (y m c : list nat -> R) (l u : list nat -> Rbar),
    params s [(obs, fins y); (location, fins m); (scale, fins c); (lower, fun i => rbn (l i)); (upper, fun i => rbn (u i))]%list -> (forall i, inb s i -> 0 < c i /\ Rbar_lt (l i) (u i) /\ (l i = m_infty <-> u i = p_infty)) ->
    closed_crps (crps_clogistic obs location scale lower upper) s (fun i => censored (logistic_cdf (m i) (c i)) (l i) (u i)) y
| cc_2pnormal : forall (obs scale1 scale2 location : arr) (s : list nat) (y p q m : list nat -> R),
    params s [(obs, fins y); (scale1, fins p); (scale2, fins q); (location, fins m)]%list -> (forall i, inb s i -> 0 < p i /\ 0 < q i) ->
    closed_crps (crps_2pnormal obs scale1 scale2 location) s (fun i => normal2p_cdf (p i) (q i) (m i)) y
| cc_t : forall (obs df location scale : arr) (s : list nat) (y n m c : list nat -> R),
    params s [(obs, fins y); (df, fins n); (location, fins m); (scale, fins c)]%list -> (forall i, inb s i -> 1 < n i /\ 0 < c i) ->
    closed_crps (crps_t obs df location scale) s (fun i => ls_cdf (t_cdf (n i)) (m i) (c i)) y
| cc_gtct : forall (obs df location scale lower upper lmass umass : arr) (s : list nat) (y n m c p q : list nat -> R) (l u : list nat -> Rbar),
    params s [(obs, fins y); (df, fins n); (location, fins m); (scale, fins c); (lower, fun i => rbn (l i)); (upper, fun i => rbn (u i)); (lmass, fins p); (umass, fins q)]%list -> (forall i, inb s i -> 1 < n i /\ 0 < c i /\ tc_ok (l i) (u i) (p i) (q i) /\ l i <> Finite (m i) /\ u i <> Finite (m i)) ->
    closed_crps (crps_gtct obs df location scale lower upper lmass umass) s (fun i => truncensx (ls_cdf (t_cdf (n i)) (m i) (c i)) (l i) (u i) (p i) (q i)) y
| cc_tt : forall (obs df location scale lower upper : arr) (s : list nat) (y n m c : list nat -> R) (l u : list nat -> Rbar),
    params s [(obs, fins y); (df, fins n); (location, fins m); (scale, fins c); (lower, fun i => rbn (l i)); (upper, fun i => rbn (u i))]%list -> (forall i, inb s i -> 1 < n i /\ 0 < c i /\ Rbar_lt (l i) (u i) /\ l i <> Finite (m i) /\ u i <> Finite (m i)) ->
    closed_crps (crps_tt obs df location scale lower upper) s (fun i => truncensx (ls_cdf (t_cdf (n i)) (m i) (c i)) (l i) (u i) 0 0) y
| cc_ct : forall (obs df location scale lower upper : arr) (s : list nat) (y n m c : list nat -> R) (l u : list nat -> Rbar),
    params s [(obs, fins y); (df, fins n); (location, fins m); (scale, fins c); (lower, fun i => rbn (l i)); (upper, fun i => rbn (u i))]%list -> (forall i, inb s i -> 1 < n i /\ 0 < c i /\ Rbar_lt (l i) (u i) /\ l i <> Finite (m i) /\ u i <> Finite (m i)) ->
    closed_crps (crps_ct obs df location scale lower upper) s (fun i => censored (ls_cdf (t_cdf (n i)) (m i) (c i)) (l i) (u i)) y
| cc_beta : forall (obs a b lower upper : arr) (s t : list nat) (y p q l u l' u' : list nat -> R),
    params s [(obs, fins y); (a, fins p); (b, fins q)]%list -> params s [(obs, fins y); (a, fins p); (b, fins q); (lower, fins l); (upper, fins u)]%list -> params t [(lower, fins l'); (upper, fins u')]%list -> (forall i, inb t i -> l' i < u' i) -> (forall i, inb s i -> 0 < p i /\ 0 < q i /\ l i < u i /\ l i <= y i <= u i) ->
    closed_crps (crps_beta obs a b lower upper) s (fun i => ls_cdf (beta_cdf (p i) (q i)) (l i) (u i - l i)) y
| cc_loglaplace : forall (obs locationlog scalelog : arr) (s : list nat) (y m c : list nat -> R),
    params s [(obs, fins y); (locationlog, fins m); (scalelog, fins c)]%list -> (forall i, inb s i -> 0 < c i < 1 /\ 0 < y i) ->
    closed_crps (crps_loglaplace obs locationlog scalelog) s (fun i => exp_cdf (laplace_cdf (m i) (c i))) y
| cc_loglogistic : forall (obs mulog sigmalog : arr) (s : list nat) (y m c : list nat -> R),
    params s [(obs, fins y); (mulog, fins m); (sigmalog, fins c)]%list -> (forall i, inb s i -> 0 < c i < 1 /\ 0 <= y i) ->
    closed_crps (crps_loglogistic obs mulog sigmalog) s (fun i => exp_cdf (logistic_cdf (m i) (c i))) y
| cc_lognormal : forall (obs mulog sigmalog : arr) (s : list nat) (y m c : list nat -> R),
    params s [(obs, fins y); (mulog, fins m); (sigmalog, fins c)]%list -> (forall i, inb s i -> 0 < c i /\ 0 <= y i) ->
    closed_crps (crps_lognormal obs mulog sigmalog) s (fun i => exp_cdf (normal_cdf (m i) (c i))) y
| cc_mixnorm : forall (obs m sd : arr) (w : option arr) (ax : Z) (s : list nat) (p M : nat) (y mu sg ww : list nat -> R),
    mix_args obs m sd w ax s p M y mu sg ww -> mix_ok s p M sg ww ->
    closed_crps (crps_mixnorm obs m sd w ax) s (fun r => mixture M (member p ww r) (fun k => normal_cdf (member p mu r k) (member p sg r k))) y
| cc_gamma : forall (obs shape rate : arr) (s : list nat) (y a r : list nat -> R),
    params s [(obs, fins y); (shape, fins a); (rate, fins r)]%list -> (forall i, inb s i -> 0 < a i /\ 0 < r i) ->
    closed_crps (crps_gamma obs shape (Some rate) None) s (fun i => gamma_cdf (a i) (r i)) y
| cc_gamma_scale : forall (obs shape scale : arr) (s : list nat) (y a c : list nat -> R),
    params s [(obs, fins y); (shape, fins a); (scale, fins c)]%list -> (forall i, inb s i -> 0 < a i /\ 0 < c i) ->
    closed_crps (crps_gamma obs shape None (Some scale)) s (fun i => gamma_cdf (a i) (1 / c i)) y
| cc_csg0 : forall (obs shape rate shift : arr) (s : list nat) (y a r d : list nat -> R),
    params s [(obs, fins y); (shape, fins a); (rate, fins r); (shift, fins d)]%list -> (forall i, inb s i -> 0 < a i /\ 0 < r i /\ 0 <= y i) ->
    closed_crps (crps_csg0 obs shape (Some rate) None shift) s (fun i => csg0_cdf (a i) (r i) (d i)) y
| cc_csg0_scale : forall (obs shape scale shift : arr) (s : list nat) (y a c d : list nat -> R),
    params s [(obs, fins y); (shape, fins a); (scale, fins c); (shift, fins d)]%list -> (forall i, inb s i -> 0 < a i /\ 0 < c i /\ 0 <= y i) ->
    closed_crps (crps_csg0 obs shape None (Some scale) shift) s (fun i => csg0_cdf (a i) (1 / c i) (d i)) y
| cc_poisson : forall (obs mean : arr) (s : list nat) (y l : list nat -> R),
    params s [(obs, fins y); (mean, fins l)]%list -> (forall i, inb s i -> 0 <= l i) ->
    closed_crps (crps_poisson obs mean) s (fun i => count_cdf (poisson_pmf (l i))) y
| cc_negbinom : forall (obs size prob : arr) (s : list nat) (y r p : list nat -> R),
    params s [(obs, fins y); (size, fins r); (prob, fins p)]%list -> (forall i, inb s i -> 0 < r i /\ 0 < p i <= 1) ->
    closed_crps (crps_negbinom obs size (Some prob) None) s (fun i => count_cdf (negbinom_pmf (r i) (p i))) y
| cc_negbinom_mean : forall (obs size mean : arr) (s : list nat) (y r p : list nat -> R),
    params s [(obs, fins y); (size, fins r); (mean, fins p)]%list -> (forall i, inb s i -> 0 < r i /\ 0 <= p i) ->
    closed_crps (crps_negbinom obs size None (Some mean)) s (fun i => count_cdf (negbinom_pmf (r i) (r i / (r i + p i)))) y
| cc_hypergeometric : forall (obs m k : arr) (n : nat) (s : list nat) (y : list nat -> R) (a c : list nat -> nat),
    params s [(obs, fins y); (m, fins (fun i => INR (a i))); (k, fins (fun i => INR (c i)))]%list -> (forall i, inb s i -> (c i <= a i + n /\ Nat.min (a i) (c i) <= n)%nat) ->
    closed_crps (crps_hypergeometric obs m n k) s (fun i => count_cdf (hypergeometric_pmf (a i) n (c i))) y.
