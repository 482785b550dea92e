(** Catalogue of the closed-form logarithmic scores: [closed_logs T s f y] says that T is a call of one of the functions
    logs_* with admissible parameters, s the common shape of its arguments, f i the density (or, for counts, the
    probability) of the forecast and y i the observation at index i. *)
From Verif Require Export M_logs S_param S_dist S_dens S_cont S_disc.
Open Scope R_scope.

Inductive closed_logs : tensor -> list nat -> (list nat -> R -> R) -> (list nat -> R) -> Prop :=
| cl_exponential : forall (obs rate : arr) (s : list nat) (y l : list nat -> R),
    params s [(obs, fins y); (rate, fins l)]%list -> (forall i, inb s i -> 0 < l i) ->
    closed_logs (logs_exponential obs rate) s (fun i => exponential_pdf (l i)) y
| cl_2pexponential : forall (obs scale1 scale2 location : arr) (s : list nat) (y p q m : list nat -> R),
    params s [(obs, fins y); (scale1, fins p); (scale2, fins q); (location, fins m)]%list -> (forall i, inb s i -> 0 < p i /\ 0 < q i) ->
    closed_logs (logs_2pexponential obs scale1 scale2 location) s (fun i => exponential2p_pdf (p i) (q i) (m i)) y
| cl_laplace : forall (obs location scale : arr) (s : list nat) (y m c : list nat -> R),
    params s [(obs, fins y); (location, fins m); (scale, fins c)]%list -> (forall i, inb s i -> 0 < c i) ->
    closed_logs (logs_laplace obs location scale) s (fun i => laplace_pdf (m i) (c i)) y
| cl_logistic : forall (obs mu sigma : arr) (s : list nat) (y m c : list nat -> R),
    params s [(obs, fins y); (mu, fins m); (sigma, fins c)]%list -> (forall i, inb s i -> 0 < c i) ->
    closed_logs (logs_logistic obs mu sigma) s (fun i => logistic_pdf (m i) (c i)) y
| cl_normal : forall (obs mu sigma : arr) (s : list nat) (y m c : list nat -> R),
    params s [(obs, fins y); (mu, fins m); (sigma, fins c)]%list -> (forall i, inb s i -> 0 < c i) ->
    closed_logs (logs_normal obs mu sigma true) s (fun i => normal_pdf (m i) (c i)) y
| cl_2pnormal : forall (obs scale1 scale2 location : arr) (s : list nat) (y p q m : list nat -> R),
    params s [(obs, fins y); (scale1, fins p); (scale2, fins q); (location, fins m)]%list -> (forall i, inb s i -> 0 < p i /\ 0 < q i) ->
    closed_logs (logs_2pnormal obs scale1 scale2 location) s (fun i => normal2p_pdf (p i) (q i) (m i)) y
| cl_lognormal : forall (obs mulog sigmalog : arr) (s : list nat) (y m c : list nat -> R),
    params s [(obs, fins y); (mulog, fins m); (sigmalog, fins c)]%list -> (forall i, inb s i -> 0 < c i) ->
    closed_logs (logs_lognormal obs mulog sigmalog) s (fun i => exp_pdf (normal_pdf (m i) (c i))) y
| cl_loglaplace : forall (obs locationlog scalelog : arr) (s : list nat) (y m c : list nat -> R),
    params s [(obs, fins y); (locationlog, fins m); (scalelog, fins c)]%list -> (forall i, inb s i -> 0 < c i) ->
    closed_logs (logs_loglaplace obs locationlog scalelog) s (fun i => exp_pdf (laplace_pdf (m i) (c i))) y
| cl_loglogistic : forall (obs mulog sigmalog : arr) (s : list nat) (y m c : list nat -> R),
    params s [(obs, fins y); (mulog, fins m); (sigmalog, fins c)]%list -> (forall i, inb s i -> 0 < c i) ->
    closed_logs (logs_loglogistic obs mulog sigmalog) s (fun i => exp_pdf (logistic_pdf (m i) (c i))) y
| cl_uniform : forall (obs min max : arr) (s : list nat) (y a b : list nat -> R),
    params s [(obs, fins y); (min, fins a); (max, fins b)]%list -> (forall i, inb s i -> a i < b i) ->
    closed_logs (logs_uniform obs min max) s (fun i => uniform_pdf (a i) (b i)) y
| cl_exponential2 : forall (obs location scale : arr) (s : list nat) (y m c : list nat -> R),
    params s [(obs, fins y); (location, fins m); (scale, fins c)]%list -> dt obs = DFloat -> sh obs = s -> (forall i, inb s i -> 0 < c i) ->
    closed_logs (logs_exponential2 obs location scale) s (fun i => ls_pdf (exponential_pdf 1) (m i) (c i)) y
| cl_gpd : forall (obs shape location scale : arr) (s : list nat) (y k m c : list nat -> R),
    params s [(obs, fins y); (shape, fins k); (location, fins m); (scale, fins c)]%list -> (forall i, inb s i -> 0 < c i /\ 1 + k i * ((y i - m i) / c i) <> 0) ->
    closed_logs (logs_gpd obs shape location scale) s (fun i => ls_pdf (gpd_pdf (k i)) (m i) (c i)) y
| cl_gev : forall (obs shape location scale : arr) (s : list nat) (y k m c : list nat -> R),
    params s [(obs, fins y); (shape, fins k); (location, fins m); (scale, fins c)]%list -> (forall i, inb s i -> 0 < c i) ->
    closed_logs (logs_gev obs shape location scale) s (fun i => ls_pdf (gev_pdf (k i)) (m i) (c i)) y
| cl_tnormal : forall (obs location scale lower upper : arr) (s : list nat) (y m c : list nat -> R) (l u : list nat -> Rbar),
    params s [(obs, fins y); (location, fins m); (scale, fins c); (lower, fun i => rbn (l i)); (upper, fun i => rbn (u i))]%list -> (forall i, inb s i -> 0 < c i /\ Rbar_lt (l i) (u i)) ->
    closed_logs (logs_tnormal obs location scale lower upper) s (fun i => trunc_pdf (normal_cdf (m i) (c i)) (normal_pdf (m i) (c i)) (l i) (u i)) y
| cl_tlogistic : forall (obs location scale lower upper : arr) (s : list nat) (y m c : list nat -> R) (l u : list nat -> Rbar),
    params s [(obs, fins y); (location, fins m); (scale, fins c); (lower, fun i => rbn (l i)); (upper, fun i => rbn (u i))]%list -> (forall i, inb s i -> 0 < c i /\ Rbar_lt (l i) (u i)) ->
    closed_logs (logs_tlogistic obs location scale lower upper) s (fun i => trunc_pdf (logistic_cdf (m i) (c i)) (logistic_pdf (m i) (c i)) (l i) (u i)) y
| cl_mixnorm : forall (obs m sd : arr) (w : option arr) (ax : Z) (s : list nat) (p M : nat) (y mu sg ww : list nat -> R),
    mix_args obs m sd w ax s p M y mu sg ww -> mix_ok s p M sg ww ->
    closed_logs (logs_mixnorm obs m sd w ax) s (fun r => mixture M (member p ww r) (fun k => normal_pdf (member p mu r k) (member p sg r k))) y
| cl_gamma : forall (obs shape rate : arr) (s : list nat) (y a r : list nat -> R),
    params s [(obs, fins y); (shape, fins a); (rate, fins r)]%list -> (forall i, inb s i -> 0 < a i /\ 0 < r i) ->
    closed_logs (logs_gamma obs shape (Some rate) None) s (fun i => gamma_pdf (a i) (r i)) y
| cl_gamma_scale : forall (obs shape scale : arr) (s : list nat) (y a c : list nat -> R),
    params s [(obs, fins y); (shape, fins a); (scale, fins c)]%list -> (forall i, inb s i -> 0 < a i /\ 0 < c i) ->
    closed_logs (logs_gamma obs shape None (Some scale)) s (fun i => gamma_pdf (a i) (1 / c i)) y
| cl_beta : forall (obs a b lower upper : arr) (s : list nat) (y p q l u : list nat -> R),
    params s [(obs, fins y); (a, fins p); (b, fins q); (lower, fins l); (upper, fins u)]%list -> (forall i, inb s i -> 0 < p i /\ 0 < q i /\ l i < u i /\ y i <> l i /\ y i <> u i) ->
    closed_logs (logs_beta obs a b lower upper) s (fun i => ls_pdf (beta_pdf (p i) (q i)) (l i) (u i - l i)) y
| cl_t : forall (obs df location scale : arr) (s : list nat) (y n m c : list nat -> R),
    params s [(obs, fins y); (df, fins n); (location, fins m); (scale, fins c)]%list -> (forall i, inb s i -> 0 < n i /\ 0 < c i) ->
    closed_logs (logs_t obs df location scale) s (fun i => ls_pdf (t_pdf (n i)) (m i) (c i)) y
| cl_tt : forall (obs df location scale lower upper : arr) (s : list nat) (y n m c : list nat -> R) (l u : list nat -> Rbar),
    params s [(obs, fins y); (df, fins n); (location, fins m); (scale, fins c); (lower, fun i => rbn (l i)); (upper, fun i => rbn (u i))]%list -> (forall i, inb s i -> 0 < n i /\ 0 < c i /\ Rbar_lt (l i) (u i)) ->
    closed_logs (logs_tt obs df location scale lower upper) s (fun i => trunc_pdf (ls_cdf (t_cdf (n i)) (m i) (c i)) (ls_pdf (t_pdf (n i)) (m i) (c i)) (l i) (u i)) y
| cl_poisson : forall (obs mean : arr) (s : list nat) (y l : list nat -> R),
    params s [(obs, fins y); (mean, fins l)]%list -> (forall i, inb s i -> 0 <= l i) ->
    closed_logs (logs_poisson obs mean) s (fun i => outcome (poisson_pmf (l i))) y
| cl_binomial : forall (obs n prob : arr) (s : list nat) (p : list nat -> R) (k : list nat -> Z) (m : list nat -> nat),
    params s [(obs, fins (fun i => IZR (k i))); (n, fins (fun i => INR (m i))); (prob, fins p)]%list -> (forall i, inb s i -> 0 <= p i < 1) ->
    closed_logs (logs_binomial obs n prob) s (fun i => outcome (binomial_pmf (m i) (p i))) (fun i => IZR (k i))
| cl_hypergeometric : forall (obs m n k : arr) (s : list nat) (j : list nat -> Z) (a b c : list nat -> nat),
    params s [(obs, fins (fun i => IZR (j i))); (m, fins (fun i => INR (a i))); (n, fins (fun i => INR (b i))); (k, fins (fun i => INR (c i)))]%list -> (forall i, inb s i -> (c i <= a i + b i)%nat) ->
    closed_logs (logs_hypergeometric obs m n k) s (fun i => outcome (hypergeometric_pmf (a i) (b i) (c i))) (fun i => IZR (j i))
| cl_negbinom : forall (obs size prob : arr) (s : list nat) (y n p : list nat -> R),
    params s [(obs, fins y); (size, fins n); (prob, fins p)]%list -> (forall i, inb s i -> 1 <= n i /\ 0 < p i <= 1) ->
    closed_logs (logs_negbinom obs size (Some prob) None) s (fun i => outcome (negbinom_pmf (n i) (p i))) y
| cl_negbinom_mean : forall (obs size mu : arr) (s : list nat) (y n p : list nat -> R),
    params s [(obs, fins y); (size, fins n); (mu, fins p)]%list -> (forall i, inb s i -> 1 <= n i /\ 0 <= p i) ->
    closed_logs (logs_negbinom obs size None (Some mu)) s (fun i => outcome (negbinom_pmf (n i) (n i / (n i + p i)))) y.
