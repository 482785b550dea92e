(** Property C41, discrete families: the log score is minus the logarithm of the probability of
    the observation (infinite where that is 0), and the probabilities are non-negative with
    sum one.  All arguments broadcast. *)
From Verif Require Import T_logsd.
From Coq Require Import Psatz.
From Coquelicot Require Import Coquelicot.
Open Scope R_scope.

(** the Poisson distribution; any observation *)
Theorem C41_poisson :
forall (obs mean : arr) (s : list nat) (y l : list nat -> R),
  params s [(obs, fins y); (mean, fins l)]%list -> (forall i, inb s i -> 0 <= l i) ->
  returns (logs_poisson obs mean) s (fun i => logp (outcome (poisson_pmf (l i)) (y i))) /\
  forall i, inb s i -> pmf (poisson_pmf (l i)).
Proof. exact C41_poisson_l. Qed.
Print Assumptions C41_poisson.
Example C41_poisson_ex : let f v := fun _ : list nat => v in
  params (2%nat :: nil) [(farr (2%nat :: nil) (f 3), fins (f 3)); (farr nil (f (1 / 2)), fins (f (1 / 2)))]%list /\ 0 <= 1 / 2.
Proof. cbv zeta. split; [split; [reflexivity|repeat constructor]|repeat split; simpl; lra]. Qed.

(** the binomial distribution; integer observations, success probability below one *)
Theorem C41_binomial :
forall (obs n prob : arr) (s : list nat) (p : list nat -> R) (k : list nat -> Z) (m : list nat -> nat),
  params s [(obs, fins (fun i => IZR (k i))); (n, fins (fun i => INR (m i))); (prob, fins p)]%list -> (forall i, inb s i -> 0 <= p i < 1) ->
  returns (logs_binomial obs n prob) s (fun i => logp (outcome (binomial_pmf (m i) (p i)) (IZR (k i)))) /\
  forall i, inb s i -> pmf (binomial_pmf (m i) (p i)).
Proof. exact C41_binomial_l. Qed.
Print Assumptions C41_binomial.
Example C41_binomial_ex : let f v := fun _ : list nat => v in
  params (2%nat :: nil) [(farr (2%nat :: nil) (f (IZR 1)), fins (f (IZR 1))); (farr nil (f (INR 2)), fins (f (INR 2))); (farr (1%nat :: nil) (f (1 / 2)), fins (f (1 / 2)))]%list /\ 0 <= 1 / 2 < 1.
Proof. cbv zeta. split; [split; [reflexivity|repeat constructor]|repeat split; simpl; lra]. Qed.

(** the hypergeometric distribution; integer observations *)
Theorem C41_hypergeometric :
forall (obs m n k : arr) (s : list nat) (j : list nat -> Z) (a b c : list nat -> nat),
  params s [(obs, fins (fun i => IZR (j i))); (m, fins (fun i => INR (a i))); (n, fins (fun i => INR (b i))); (k, fins (fun i => INR (c i)))]%list ->
  (forall i, inb s i -> (c i <= a i + b i)%nat) ->
  returns (logs_hypergeometric obs m n k) s (fun i => logp (outcome (hypergeometric_pmf (a i) (b i) (c i)) (IZR (j i)))) /\
  forall i, inb s i -> pmf (hypergeometric_pmf (a i) (b i) (c i)).
Proof. exact C41_hypergeometric_l. Qed.
Print Assumptions C41_hypergeometric.
Example C41_hypergeometric_ex : let f v := fun _ : list nat => v in
  params (2%nat :: nil) [(farr (2%nat :: nil) (f (IZR 1)), fins (f (IZR 1))); (farr nil (f (INR 2)), fins (f (INR 2))); (farr (1%nat :: nil) (f (INR 3)), fins (f (INR 3))); (farr nil (f (INR 2)), fins (f (INR 2)))]%list /\ (2 <= 2 + 3)%nat.
Proof. cbv zeta. split; [split; [reflexivity|repeat constructor]|repeat split; simpl; lia]. Qed.

(** the negative binomial distribution with size n >= 1; any observation *)
Theorem C41_negbinom :
forall (obs size prob : arr) (s : list nat) (y n p : list nat -> R),
  params s [(obs, fins y); (size, fins n); (prob, fins p)]%list -> (forall i, inb s i -> 1 <= n i /\ 0 < p i <= 1) ->
  returns (logs_negbinom obs size (Some prob) None) s (fun i => logp (outcome (negbinom_pmf (n i) (p i)) (y i))) /\
  forall i, inb s i -> pmf (negbinom_pmf (n i) (p i)).
Proof. exact C41_negbinom_l. Qed.
Print Assumptions C41_negbinom.
Example C41_negbinom_ex : let f v := fun _ : list nat => v in
  params (2%nat :: nil) [(farr (2%nat :: nil) (f 3), fins (f 3)); (farr nil (f (3 / 2)), fins (f (3 / 2))); (farr (1%nat :: nil) (f (1 / 2)), fins (f (1 / 2)))]%list /\ 1 <= 3 / 2 /\ 0 < 1 / 2 <= 1.
Proof. cbv zeta. split; [split; [reflexivity|repeat constructor]|repeat split; simpl; lra]. Qed.

(** the negative binomial distribution with size n >= 1 and mean mu; any observation *)
Theorem C41_negbinom_mean :
forall (obs size mu : arr) (s : list nat) (y n p : list nat -> R),
  params s [(obs, fins y); (size, fins n); (mu, fins p)]%list -> (forall i, inb s i -> 1 <= n i /\ 0 <= p i) ->
  returns (logs_negbinom obs size None (Some mu)) s (fun i => logp (outcome (negbinom_pmf (n i) (n i / (n i + p i))) (y i))) /\
  forall i, inb s i -> pmf (negbinom_pmf (n i) (n i / (n i + p i))).
Proof. exact C41_negbinom_mean_l. Qed.
Print Assumptions C41_negbinom_mean.
Example C41_negbinom_mean_ex : let f v := fun _ : list nat => v in
  params (2%nat :: nil) [(farr (2%nat :: nil) (f 3), fins (f 3)); (farr nil (f (3 / 2)), fins (f (3 / 2))); (farr (1%nat :: nil) (f (1 / 2)), fins (f (1 / 2)))]%list /\ 1 <= 3 / 2 /\ 0 <= 1 / 2.
Proof. cbv zeta. split; [split; [reflexivity|repeat constructor]|repeat split; simpl; lra]. Qed.

(** The size may be any positive number, but for a size below one every observation scores infinity:
    scipy's comb is 0 for n - 1 < 0. *)
Theorem C41_negbinom_small_size_refuted :
exists (y n p : R), 0 < n /\ 0 < p <= 1 /\ returns (logs_negbinom (farr nil (fun _ => y)) (farr nil (fun _ => n)) (Some (farr nil (fun _ => p))) None) nil (fun _ => PInf) /\
  logp (outcome (negbinom_pmf n p) y) <> PInf.
Proof. exact C41_negbinom_small_size_refuted_l. Qed.
Print Assumptions C41_negbinom_small_size_refuted.

(** With success probability one, an observation above n scores NaN instead of infinity (0 * inf). *)
Theorem C41_binomial_certain_refuted :
exists y n : nat, returns (logs_binomial (farr nil (fun _ => INR y)) (farr nil (fun _ => INR n)) (farr nil (fun _ => 1))) nil (fun _ => NaN) /\
  logp (outcome (binomial_pmf n 1) (INR y)) = PInf.
Proof. exact C41_binomial_certain_refuted_l. Qed.
Print Assumptions C41_binomial_certain_refuted.
