(** Property C73: the special functions that the jax and torch backends compute by formulas of
    their own, and the discrete log scores on these backends.  [l] is the backend. *)
From Verif Require Import T_backend.
From Coquelicot Require Import Coquelicot.
From Coq Require Import Psatz Lia.
Open Scope R_scope.

(** C73.  The factorial of both backends is scipy's at every number on jax, and above -1 on torch. *)
Theorem C73_factorial :
forall (l : lib) (x : num), (l = Torch -> exists a, x = Fin a /\ 0 <= a) -> lfactorial l x = nfactorial x.
Proof. exact C73_factorial_l. Qed.
Print Assumptions C73_factorial.
(** 3! = 6 on both backends *)
Example C73_factorial_case : lfactorial Jax (Fin (INR 3)) = Fin (INR 6) /\ lfactorial Torch (Fin (INR 3)) = Fin (INR 6).
Proof. split; apply lfact_nat. Qed.

(** C73.  lgamma is 0 at 1 and 2 and satisfies lgamma (a + 1) = lgamma a + ln |a| wherever Gamma is finite, also for negative a; at 0, -1, -2, ... it is +inf. *)
Theorem C73_lgamma :
nlgamma (Fin 1) = Fin 0 /\ nlgamma (Fin 2) = Fin 0 /\
(forall a, (forall n, a <> - INR n) -> exists v, nlgamma (Fin a) = Fin v /\ nlgamma (Fin (a + 1)) = Fin (v + ln (Rabs a))) /\
forall n, nlgamma (Fin (- INR n)) = PInf.
Proof. exact C73_lgamma_l. Qed.
Print Assumptions C73_lgamma.
(** -1/2 is no pole *)
Example C73_lgamma_case : forall n, - (1/2) <> - INR n.
Proof. intros n E. assert (INR n = 1/2) as H by lra. destruct n; [simpl in H; lra|]. rewrite S_INR in H. pose proof (pos_INR n). lra. Qed.

(** C73.  Torch's gamma and beta functions, exp of sums of lgamma, are scipy's at positive arguments, hence so is the upper incomplete gamma function. *)
Theorem C73_torch_gamma_beta :
(forall a, 0 < a -> tgamma (Fin a) = ngamma (Fin a)) /\
(forall a b, 0 < a -> 0 < b -> tbeta (Fin a) (Fin b) = nbeta (Fin a) (Fin b)) /\
forall (x y : arr) (s : list nat) (a b : list nat -> R), params s [(x, fins a); (y, fins b)]%list -> (forall i, inb s i -> 0 < a i) ->
  exists v, returns (tgammauinc (Ok x) (Ok y)) s v /\ returns (agammauinc (Ok x) (Ok y)) s v.
Proof. exact C73_torch_gamma_beta_l. Qed.
Print Assumptions C73_torch_gamma_beta.
(** arguments 2 and 3 *)
Example C73_torch_gamma_beta_case : params nil [(farr nil (fun _ => 2), fins (fun _ => 2)); (farr nil (fun _ => 3), fins (fun _ => 3))]%list /\ 0 < 2.
Proof. split; [split; [reflexivity|repeat constructor]|repeat split; first [lra|lia|exact I|discriminate]]. Qed.

(** C73.  For naturals k <= n, comb is the binomial coefficient on both backends. *)
Theorem C73_comb :
forall (l : lib) (n k : arr) (s : list nat) (a b : list nat -> nat),
  params s [(n, fins (fun i => INR (a i))); (k, fins (fun i => INR (b i)))]%list -> (forall i, inb s i -> (b i <= a i)%nat) ->
  returns (alcomb l (Ok n) (Ok k)) s (fun i => Fin (INR (choose (a i) (b i)))).
Proof. exact C73_comb_l. Qed.
Print Assumptions C73_comb.
(** 3 of 5 *)
Example C73_comb_case : params nil [(farr nil (fun _ => INR 5), fins (fun _ => INR 5)); (farr nil (fun _ => INR 3), fins (fun _ => INR 3))]%list /\ (3 <= 5)%nat.
Proof. split; [split; [reflexivity|repeat constructor]|repeat split; first [lra|lia|exact I|discriminate]]. Qed.

(** C73.  For k > n or k < 0 scipy's comb and torch's are 0, but jax's is NaN (division by the factorial 0). *)
Theorem C73_comb_jax_refuted :
forall (n : nat) (k : Z), (k < 0)%Z \/ (Z.of_nat n < k)%Z ->
  ncomb (Fin (INR n)) (Fin (IZR k)) = Fin 0 /\ lcomb Torch (Fin (INR n)) (Fin (IZR k)) = Fin 0 /\ lcomb Jax (Fin (INR n)) (Fin (IZR k)) = NaN.
Proof. exact C73_comb_jax_refuted_l. Qed.
Print Assumptions C73_comb_jax_refuted.
(** 3 of 2 *)
Example C73_comb_jax_case : lcomb Jax (Fin (INR 2)) (Fin (INR 3)) = NaN /\ lcomb Torch (Fin (INR 2)) (Fin (INR 3)) = Fin 0.
Proof. split; [apply (lcomb_above Jax)|apply (lcomb_above Torch)]; lia. Qed.

(** C73.  The floor makes comb sensitive to rounding: if the numerator n! comes out too small, by however little, the binomial coefficient is too small by one. *)
Theorem C73_comb_rounding :
forall (l : lib) (n k : nat) (x : R), (k <= n)%nat -> 0 < INR (fact n) - x <= INR (fact k) * INR (fact (n - k)) ->
  nfloordiv l (Fin x) (Fin (INR (fact k) * INR (fact (n - k)))) = Fin (INR (choose n k) - 1).
Proof. exact C73_comb_rounding_l. Qed.
Print Assumptions C73_comb_rounding.
(** 2 of 3 with 3! computed as 5.99 *)
Example C73_comb_rounding_case : 0 < INR (fact 3) - 599 / 100 <= INR (fact 2) * INR (fact (3 - 2)).
Proof. simpl. lra. Qed.

(** C73.  The Poisson log score is the same on both backends as with numpy (C41_poisson), for every observation. *)
Theorem C73_poisson :
forall (l : lib) (obs mean : arr) (s : list nat) (y m : list nat -> R),
  params s [(obs, fins y); (mean, fins m)]%list -> (forall i, inb s i -> 0 <= m i) ->
  returns (logs_poisson_on l obs mean) s (fun i => logp (outcome (poisson_pmf (m i)) (y i))).
Proof. exact C73_poisson_l. Qed.
Print Assumptions C73_poisson.
(** observation 3, mean 1/2 *)
Example C73_poisson_case : params nil [(farr nil (fun _ => 3), fins (fun _ => 3)); (farr nil (fun _ => 1 / 2), fins (fun _ => 1 / 2))]%list /\ 0 <= 1 / 2.
Proof. split; [split; [reflexivity|repeat constructor]|repeat split; first [lra|lia|exact I|discriminate]]. Qed.

(** C73.  The binomial log score is the same as with numpy (C41_binomial): on torch for every integer observation, on jax for observations of at most n. *)
Theorem C73_binomial :
forall (l : lib) (obs n prob : arr) (s : list nat) (p : list nat -> R) (k : list nat -> Z) (m : list nat -> nat),
  params s [(obs, fins (fun i => IZR (k i))); (n, fins (fun i => INR (m i))); (prob, fins p)]%list -> (forall i, inb s i -> 0 <= p i < 1) ->
  (l = Jax -> forall i, inb s i -> (k i <= Z.of_nat (m i))%Z) ->
  returns (logs_binomial_on l obs n prob) s (fun i => logp (outcome (binomial_pmf (m i) (p i)) (IZR (k i)))).
Proof. exact C73_binomial_l. Qed.
Print Assumptions C73_binomial.
(** 1 success in 2 attempts with probability 1/2 *)
Example C73_binomial_case : params nil [(farr nil (fun _ => IZR 1), fins (fun _ => IZR 1)); (farr nil (fun _ => INR 2), fins (fun _ => INR 2)); (farr nil (fun _ => 1 / 2), fins (fun _ => 1 / 2))]%list /\ 0 <= 1 / 2 < 1 /\ (1 <= Z.of_nat 2)%Z.
Proof. split; [split; [reflexivity|repeat constructor]|]. split; [lra|simpl; lia]. Qed.

(** C73.  On jax an impossible observation above n scores NaN instead of infinity, whatever n and the success probability. *)
Theorem C73_binomial_jax_refuted :
forall (n k : nat) (p : R), (n < k)%nat -> 0 <= p < 1 ->
  returns (logs_binomial_on Jax (farr nil (fun _ => INR k)) (farr nil (fun _ => INR n)) (farr nil (fun _ => p))) nil (fun _ => NaN) /\
  logp (outcome (binomial_pmf n p) (INR k)) = PInf.
Proof. exact C73_binomial_jax_refuted_l. Qed.
Print Assumptions C73_binomial_jax_refuted.
(** observation 3 of 2 *)
Example C73_binomial_jax_case : (2 < 3)%nat /\ 0 <= 1 / 2 < 1.
Proof. split; [lia|lra]. Qed.

(** C73.  The hypergeometric log score on jax at the possible observations is the same as with numpy (C41_hypergeometric). *)
Theorem C73_hypergeometric_jax :
forall (obs m n k : arr) (s : list nat) (j : list nat -> Z) (a b c : list nat -> nat),
  params s [(obs, fins (fun i => IZR (j i))); (m, fins (fun i => INR (a i))); (n, fins (fun i => INR (b i))); (k, fins (fun i => INR (c i)))]%list -> (forall i, inb s i -> (c i <= a i + b i)%nat) ->
  (forall i, inb s i -> (0 <= j i <= Z.of_nat (a i))%Z /\ (0 <= Z.of_nat (c i) - j i <= Z.of_nat (b i))%Z) ->
  returns (logs_hypergeometric_on Jax obs m n k) s (fun i => logp (outcome (hypergeometric_pmf (a i) (b i) (c i)) (IZR (j i)))).
Proof. exact C73_hypergeometric_jax_l. Qed.
Print Assumptions C73_hypergeometric_jax.
(** 1 success in 2 draws from 2 successes and 3 failures *)
Example C73_hypergeometric_jax_case : params nil [(farr nil (fun _ => IZR 1), fins (fun _ => IZR 1)); (farr nil (fun _ => INR 2), fins (fun _ => INR 2)); (farr nil (fun _ => INR 3), fins (fun _ => INR 3)); (farr nil (fun _ => INR 2), fins (fun _ => INR 2))]%list /\ (2 <= 2 + 3)%nat /\ (0 <= 1 <= Z.of_nat 2)%Z /\ (0 <= Z.of_nat 2 - 1 <= Z.of_nat 3)%Z.
Proof. split; [split; [reflexivity|repeat constructor]|]. simpl. lia. Qed.

(** C73.  The hypergeometric log score on torch is the same as with numpy (C41_hypergeometric), for every integer observation. *)
Theorem C73_hypergeometric_torch :
forall (obs m n k : arr) (s : list nat) (j : list nat -> Z) (a b c : list nat -> nat),
  params s [(obs, fins (fun i => IZR (j i))); (m, fins (fun i => INR (a i))); (n, fins (fun i => INR (b i))); (k, fins (fun i => INR (c i)))]%list -> (forall i, inb s i -> (c i <= a i + b i)%nat) ->
  returns (logs_hypergeometric_on Torch obs m n k) s (fun i => logp (outcome (hypergeometric_pmf (a i) (b i) (c i)) (IZR (j i)))).
Proof. exact C73_hypergeometric_torch_l. Qed.
Print Assumptions C73_hypergeometric_torch.
(** 3 successes in 2 draws from 2 successes and 3 failures *)
Example C73_hypergeometric_torch_case : params nil [(farr nil (fun _ => IZR 3), fins (fun _ => IZR 3)); (farr nil (fun _ => INR 2), fins (fun _ => INR 2)); (farr nil (fun _ => INR 3), fins (fun _ => INR 3)); (farr nil (fun _ => INR 2), fins (fun _ => INR 2))]%list /\ (2 <= 2 + 3)%nat.
Proof. split; [split; [reflexivity|repeat constructor]|]. simpl. lia. Qed.

(** C73.  On jax every impossible observation scores NaN instead of infinity. *)
Theorem C73_hypergeometric_jax_refuted :
forall (a b c : nat) (j : Z), (c <= a + b)%nat -> ~ ((0 <= j <= Z.of_nat a)%Z /\ (0 <= Z.of_nat c - j <= Z.of_nat b)%Z) ->
  returns (logs_hypergeometric_on Jax (farr nil (fun _ => IZR j)) (farr nil (fun _ => INR a)) (farr nil (fun _ => INR b)) (farr nil (fun _ => INR c))) nil (fun _ => NaN) /\
  logp (outcome (hypergeometric_pmf a b c) (IZR j)) = PInf.
Proof. exact C73_hypergeometric_jax_refuted_l. Qed.
Print Assumptions C73_hypergeometric_jax_refuted.
(** 3 successes in 2 draws from 2 successes and 3 failures *)
Example C73_hypergeometric_jax_refuted_case : (2 <= 2 + 3)%nat /\ ~ ((0 <= 3 <= Z.of_nat 2)%Z /\ (0 <= Z.of_nat 2 - 3 <= Z.of_nat 3)%Z).
Proof. simpl. lia. Qed.

(** C73.  The negative binomial log score on both backends: the coefficients n (n + 1) ... (n + k - 1) / k! are rounded down.  Any observation; size at least one on jax, positive on torch. *)
Theorem C73_negbinom_value :
forall (l : lib) (obs size prob : arr) (s : list nat) (y n p : list nat -> R),
  params s [(obs, fins y); (size, fins n); (prob, fins p)]%list -> (forall i, inb s i -> match l with Jax => 1 <= n i | Torch => 0 < n i end /\ 0 < p i <= 1) ->
  returns (logs_negbinom_on l obs size prob) s
    (fun i => logp (outcome (fun k => IZR (Int_part (rising (n i) k)) * Rpower (p i) (n i) * (1 - p i) ^ k) (y i))).
Proof. exact C73_negbinom_value_l. Qed.
Print Assumptions C73_negbinom_value.
(** observation 3, size 3/2, success probability 1/2 *)
Example C73_negbinom_value_case : params nil [(farr nil (fun _ => 3), fins (fun _ => 3)); (farr nil (fun _ => 3 / 2), fins (fun _ => 3 / 2)); (farr nil (fun _ => 1 / 2), fins (fun _ => 1 / 2))]%list /\ 1 <= 3 / 2 /\ 0 < 1 / 2 <= 1.
Proof. split; [split; [reflexivity|repeat constructor]|repeat split; first [lra|lia|exact I|discriminate]]. Qed.

(** C73.  For an integer size, the negative binomial log score is the same as with numpy (C41_negbinom), for every observation. *)
Theorem C73_negbinom :
forall (l : lib) (obs size prob : arr) (s : list nat) (y p : list nat -> R) (m : list nat -> nat),
  params s [(obs, fins y); (size, fins (fun i => INR (S (m i)))); (prob, fins p)]%list -> (forall i, inb s i -> 0 < p i <= 1) ->
  returns (logs_negbinom_on l obs size prob) s (fun i => logp (outcome (negbinom_pmf (INR (S (m i))) (p i)) (y i))).
Proof. exact C73_negbinom_l. Qed.
Print Assumptions C73_negbinom.
(** observation 3, size 2, success probability 1/2 *)
Example C73_negbinom_case : params nil [(farr nil (fun _ => 3), fins (fun _ => 3)); (farr nil (fun _ => INR 2), fins (fun _ => INR 2)); (farr nil (fun _ => 1 / 2), fins (fun _ => 1 / 2))]%list /\ 0 < 1 / 2 <= 1.
Proof. split; [split; [reflexivity|repeat constructor]|lra]. Qed.

(** C73.  For every non-integer size above one the score differs from numpy's: at the observation one it is larger. *)
Theorem C73_negbinom_refuted :
forall (l : lib) (n p : R), 1 < n -> IZR (Int_part n) <> n -> 0 < p < 1 ->
  exists a b : R, returns (logs_negbinom_on l (farr nil (fun _ => 1)) (farr nil (fun _ => n)) (farr nil (fun _ => p))) nil (fun _ => Fin a) /\
    returns (logs_negbinom (farr nil (fun _ => 1)) (farr nil (fun _ => n)) (Some (farr nil (fun _ => p))) None) nil (fun _ => Fin b) /\ b < a.
Proof. exact C73_negbinom_refuted_l. Qed.
Print Assumptions C73_negbinom_refuted.
(** size 3/2 *)
Example C73_negbinom_refuted_case : 1 < 3 / 2 /\ IZR (Int_part (3 / 2)) <> 3 / 2 /\ 0 < 1 / 2 < 1.
Proof. split; [lra|]. split; [|lra]. assert (Int_part (3 / 2) = 1%Z) as ->; [|lra]. unfold Int_part. rewrite <- (up_tech (3 / 2) 1); [reflexivity|lra|simpl; lra]. Qed.

(** C73.  For a non-integer size above one the probabilities used by the score sum to less than one. *)
Theorem C73_negbinom_mass_refuted :
forall n p : R, 1 < n -> IZR (Int_part n) <> n -> 0 < p < 1 ->
  exists S, is_series (fun k => IZR (Int_part (rising n k)) * Rpower p n * (1 - p) ^ k) S /\ S < 1.
Proof. exact C73_negbinom_mass_refuted_l. Qed.
Print Assumptions C73_negbinom_mass_refuted.
(** size 3/2 *)
Example C73_negbinom_mass_refuted_case : 1 < 3 / 2 /\ IZR (Int_part (3 / 2)) <> 3 / 2 /\ 0 < 1 / 2 < 1.
Proof. split; [lra|]. split; [|lra]. assert (Int_part (3 / 2) = 1%Z) as ->; [|lra]. unfold Int_part. rewrite <- (up_tech (3 / 2) 1); [reflexivity|lra|simpl; lra]. Qed.
