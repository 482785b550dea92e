(** Property C64: the closed-form CRPS of the Poisson, negative binomial and hypergeometric distributions is the integral
    of (F - 1{obs <= .})^2. *)
From Verif Require Import T_crpsdisc.
From Coq Require Import Psatz Lia.
From Coquelicot Require Import Rbar.
Open Scope R_scope.

(** the Poisson distribution, for every observation *)
Theorem C64_poisson :
forall (obs mean : arr) (s : list nat) (y l : list nat -> R),
  params s [(obs, fins y); (mean, fins l)]%list -> (forall i, inb s i -> 0 <= l i) ->
  exists f, returns (crps_poisson obs mean) s (fins f) /\ forall i, inb s i -> is_crps (count_cdf (poisson_pmf (l i))) (y i) (f i).
Proof. exact C64_poisson_l. Qed.
Print Assumptions C64_poisson.
Example C64_poisson_ex : let f v := fun _ : list nat => v in
  params (2%nat :: nil) [(farr (2%nat :: nil) (f 3), fins (f 3)); (farr nil (f (5 / 2)), fins (f (5 / 2)))]%list /\ 0 <= 5 / 2.
Proof. cbv zeta. split; [split; [reflexivity|repeat constructor]|lra]. Qed.

(** the negative binomial distribution with given probability, for every observation *)
Theorem C64_negbinom :
forall (obs size prob : arr) (s : list nat) (y r p : list nat -> R),
  params s [(obs, fins y); (size, fins r); (prob, fins p)]%list -> (forall i, inb s i -> 0 < r i /\ 0 < p i <= 1) ->
  exists f, returns (crps_negbinom obs size (Some prob) None) s (fins f) /\ forall i, inb s i -> is_crps (count_cdf (negbinom_pmf (r i) (p i))) (y i) (f i).
Proof. exact C64_negbinom_l. Qed.
Print Assumptions C64_negbinom.
Example C64_negbinom_ex : let f v := fun _ : list nat => v in
  params (2%nat :: nil) [(farr (2%nat :: nil) (f 3), fins (f 3)); (farr nil (f (5 / 2)), fins (f (5 / 2))); (farr nil (f (2 / 3)), fins (f (2 / 3)))]%list /\ 0 < 5 / 2 /\ 0 < 2 / 3 <= 1.
Proof. cbv zeta. split; [split; [reflexivity|repeat constructor]|lra]. Qed.

(** the negative binomial distribution with given mean, for every observation *)
Theorem C64_negbinom_mean :
forall (obs size mean : arr) (s : list nat) (y r p : list nat -> R),
  params s [(obs, fins y); (size, fins r); (mean, fins p)]%list -> (forall i, inb s i -> 0 < r i /\ 0 <= p i) ->
  exists f, returns (crps_negbinom obs size None (Some mean)) s (fins f) /\ forall i, inb s i -> is_crps (count_cdf (negbinom_pmf (r i) (r i / (r i + p i)))) (y i) (f i).
Proof. exact C64_negbinom_mean_l. Qed.
Print Assumptions C64_negbinom_mean.
Example C64_negbinom_mean_ex : let f v := fun _ : list nat => v in
  params (2%nat :: nil) [(farr (2%nat :: nil) (f 3), fins (f 3)); (farr nil (f (5 / 2)), fins (f (5 / 2))); (farr nil (f (2 / 3)), fins (f (2 / 3)))]%list /\ 0 < 5 / 2 /\ 0 < 2 / 3 <= 1.
Proof. cbv zeta. split; [split; [reflexivity|repeat constructor]|lra]. Qed.

(** the hypergeometric distribution of the number of successes in k draws from m successes and n failures, for every observation, if no more than n successes can be drawn: the code sums over the counts 0..n *)
Theorem C64_hypergeometric :
forall (obs m k : arr) (n : nat) (s : list nat) (y : list nat -> R) (a c : list nat -> nat),
  params s [(obs, fins y); (m, fins (fun i => INR (a i))); (k, fins (fun i => INR (c i)))]%list -> (forall i, inb s i -> (c i <= a i + n /\ Nat.min (a i) (c i) <= n)%nat) ->
  exists f, returns (crps_hypergeometric obs m n k) s (fins f) /\ forall i, inb s i -> is_crps (count_cdf (hypergeometric_pmf (a i) n (c i))) (y i) (f i).
Proof. exact C64_hypergeometric_l. Qed.
Print Assumptions C64_hypergeometric.
Example C64_hypergeometric_ex : let f v := fun _ : list nat => v in
  params (2%nat :: nil) [(farr (2%nat :: nil) (f (5 / 2)), fins (f (5 / 2))); (farr nil (f (INR 7)), fins (f (INR 7))); (farr (1%nat :: nil) (f (INR 12)), fins (f (INR 12)))]%list /\ (12 <= 7 + 13 /\ Nat.min 7 12 <= 13)%nat.
Proof. cbv zeta. split; [split; [reflexivity|repeat constructor]|lia]. Qed.

(** with more successes than failures the sum misses counts: with 5 successes, 1 failure and 3 draws, 2 or 3 successes are drawn, and the code's score of every observation is 0, but the CRPS of the observation 0 is positive *)
Theorem C64_hypergeometric_refuted :
(forall y, returns (crps_hypergeometric (farr nil (fun _ => y)) (farr nil (fun _ => 5)) 1 (farr nil (fun _ => 3))) nil (fun _ => Fin 0)) /\
  exists v, is_crps (count_cdf (hypergeometric_pmf 5 1 3)) 0 v /\ v = 9 / 4.
Proof. exact C64_hypergeometric_refuted_l. Qed.
Print Assumptions C64_hypergeometric_refuted.
