(** Proofs about the jax and torch backends (statements in P_backend.v). *)
From Verif Require Export L_backend.
From Verif Require Import L_interval L_betagamma T_logsd.
From Coquelicot Require Import Coquelicot.
From Coq Require Import Psatz Lia.
Open Scope R_scope.
Lemma C73_factorial_l :
forall (l : lib) (x : num), (l = Torch -> exists a, x = Fin a /\ 0 <= a) -> lfactorial l x = nfactorial x.
Proof.
intros l x H. assert (forall a, 0 <= a -> lfactorial l (Fin a) = nfactorial (Fin a)) as K.
{ intros a Ha. rewrite lfact_gamma by (destruct l; lra). unfold nfactorial, Rfactorial. destruct (Rlt_dec a 0); [lra|]. f_equal.
  destruct (is_intR a) eqn:E; [|reflexivity]. destruct (count_cases a) as [[q ->]|[N|[N N']]]; [|lra|].
  - rewrite L_crpspois.gamma_fact, Int_part_INR, Nat2Z.id. reflexivity.
  - unfold is_intR, reqb in E. destruct (Req_EM_T _ _); [lra|discriminate]. }
destruct l; [|destruct (H eq_refl) as (a & -> & Ha); auto]. clear H. destruct x as [a| | |]; try reflexivity.
destruct (Rle_dec 0 a); [auto|]. simpl. destruct (Rlt_dec a 0); [reflexivity|lra].
Qed.
Lemma C73_lgamma_l :
nlgamma (Fin 1) = Fin 0 /\ nlgamma (Fin 2) = Fin 0 /\
(forall a, (forall n, a <> - INR n) -> exists v, nlgamma (Fin a) = Fin v /\ nlgamma (Fin (a + 1)) = Fin (v + ln (Rabs a))) /\
forall n, nlgamma (Fin (- INR n)) = PInf.
Proof.
assert (G1 : nlgamma (Fin 1) = Fin 0) by (unfold nlgamma; destruct (Rlt_dec 0 1); [|lra]; replace 1 with (INR 0 + 1) at 1 by (simpl; ring); rewrite L_crpspois.gamma_fact; simpl; rewrite ln_1; reflexivity).
split; [exact G1|]. split; [|split; [exact lgamma_rec|exact lgamma_negint]].
destruct (lgamma_rec 1) as (v & E1 & E2). { intros n. pose proof (pos_INR n). lra. }
rewrite G1 in E1. injection E1 as <-. replace 2 with (1 + 1) by ring. rewrite E2, Rabs_R1, ln_1. f_equal; ring.
Qed.
Lemma C73_torch_gamma_beta_l :
(forall a, 0 < a -> tgamma (Fin a) = ngamma (Fin a)) /\
(forall a b, 0 < a -> 0 < b -> tbeta (Fin a) (Fin b) = nbeta (Fin a) (Fin b)) /\
forall (x y : arr) (s : list nat) (a b : list nat -> R), params s [(x, fins a); (y, fins b)]%list -> (forall i, inb s i -> 0 < a i) ->
  exists v, returns (tgammauinc (Ok x) (Ok y)) s v /\ returns (agammauinc (Ok x) (Ok y)) s v.
Proof.
split; [exact tgamma_pos|]. split; [exact tbeta_pos|]. intros x y s a b P H. exists (fun i => nmul (ngammaincc (Fin (a i)) (Fin (b i))) (ngamma (Fin (a i)))). split.
- ret P. unfold fins. now rewrite tgamma_pos by auto.
- ret P. reflexivity.
Qed.
Lemma C73_comb_l :
forall (l : lib) (n k : arr) (s : list nat) (a b : list nat -> nat),
  params s [(n, fins (fun i => INR (a i))); (k, fins (fun i => INR (b i)))]%list -> (forall i, inb s i -> (b i <= a i)%nat) ->
  returns (alcomb l (Ok n) (Ok k)) s (fun i => Fin (INR (choose (a i) (b i)))).
Proof.
intros l n k s a b P H. ret P. unfold fins. now rewrite lcomb_nat by auto.
Qed.
Lemma C73_comb_jax_refuted_l :
forall (n : nat) (k : Z), (k < 0)%Z \/ (Z.of_nat n < k)%Z ->
  ncomb (Fin (INR n)) (Fin (IZR k)) = Fin 0 /\ lcomb Torch (Fin (INR n)) (Fin (IZR k)) = Fin 0 /\ lcomb Jax (Fin (INR n)) (Fin (IZR k)) = NaN.
Proof.
intros n k H. destruct (int_cases k) as [[m E]|[m E]]; rewrite E.
- assert (n < m)%nat as L. { destruct H as [H|H]. - apply IZR_lt in H. pose proof (pos_INR m). lra. - rewrite INR_IZR_INZ in E. apply eq_IZR in E. lia. }
  split; [|split]; [|now apply (lcomb_above Torch)|now apply (lcomb_above Jax)]. rewrite comb_nat, choose_out by auto. reflexivity.
- split; [|split]; [|apply (lcomb_below Torch)|apply (lcomb_below Jax)]. rewrite comb_fin. pose proof (lt_0_INR (S m) ltac:(lia)). destruct (Rle_dec 0 (- INR (S m))); [lra|reflexivity].
Qed.
Lemma C73_comb_rounding_l :
forall (l : lib) (n k : nat) (x : R), (k <= n)%nat -> 0 < INR (fact n) - x <= INR (fact k) * INR (fact (n - k)) ->
  nfloordiv l (Fin x) (Fin (INR (fact k) * INR (fact (n - k)))) = Fin (INR (choose n k) - 1).
Proof.
intros l n k x H X. pose proof (lt_0_INR _ (lt_O_fact k)) as F1. pose proof (lt_0_INR _ (lt_O_fact (n - k))) as F2.
set (d := INR (fact k) * INR (fact (n - k))) in *. assert (0 < d) as D by (unfold d; nra).
assert (INR (fact n) = INR (choose n k) * d) as E.
{ pose proof (gamma_rising (INR (n - k) + 1) k) as G. pose proof (pos_INR (n - k)). specialize (G ltac:(lra)). rewrite <- Rchoose_rising in G.
  replace (INR (n - k) + 1 + INR k - 1) with (INR n) in G by (rewrite minus_INR by auto; ring). rewrite Rchoose_choose, L_crpspois.gamma_fact in G.
  replace (INR (n - k) + 1 + INR k) with (INR n + 1) in G by (rewrite minus_INR by auto; ring). rewrite L_crpspois.gamma_fact in G. rewrite G. unfold d. ring. }
rewrite floordiv_fin by lra. f_equal. assert (Int_part (x / d) = Z.of_nat (choose n k) - 1)%Z as ->; [|rewrite minus_IZR, <- INR_IZR_INZ; reflexivity].
unfold Int_part. rewrite <- (up_tech (x / d) (Z.of_nat (choose n k) - 1)); [lia| |].
- rewrite minus_IZR, <- INR_IZR_INZ. apply (Rmult_le_reg_r d); [auto|]. replace (x / d * d) with x by (field; lra). lra.
- rewrite plus_IZR, minus_IZR, <- INR_IZR_INZ. apply (Rmult_lt_reg_r d); [auto|]. replace (x / d * d) with x by (field; lra). lra.
Qed.
Lemma C73_poisson_l :
forall (l : lib) (obs mean : arr) (s : list nat) (y m : list nat -> R),
  params s [(obs, fins y); (mean, fins m)]%list -> (forall i, inb s i -> 0 <= m i) ->
  returns (logs_poisson_on l obs mean) s (fun i => logp (outcome (poisson_pmf (m i)) (y i))).
Proof.
intros lb obs mean s y l P H.
ret P. specialize (H i Hi). unfold fins. destruct (count_cases (y i)) as [[n ->]|[N|[N N']]].
- pose proof (pos_INR n). pose proof (lt_0_INR _ (lt_O_fact n)). rewrite outcome_INR. nev. rewrite Rabs_right by lra. rewrite floor_nat, lfact_nat, pow_nat by auto. nev.
  apply logp_nn; [now apply (poisson_sum (l i))|reflexivity].
- rewrite outcome_neg by auto. nev. apply logp_nn; [lra|reflexivity].
- rewrite outcome_frac by auto. nev. rewrite Rabs_right by lra. cbn [Num.nfloor]. nev. apply logp_nn; [lra|reflexivity].
Qed.
Lemma C73_binomial_l :
forall (l : lib) (obs n prob : arr) (s : list nat) (p : list nat -> R) (k : list nat -> Z) (m : list nat -> nat),
  params s [(obs, fins (fun i => IZR (k i))); (n, fins (fun i => INR (m i))); (prob, fins p)]%list -> (forall i, inb s i -> 0 <= p i < 1) ->
  (l = Jax -> forall i, inb s i -> (k i <= Z.of_nat (m i))%Z) ->
  returns (logs_binomial_on l obs n prob) s (fun i => logp (outcome (binomial_pmf (m i) (p i)) (IZR (k i)))).
Proof.
intros lb obs n prob s p k m P H J.
ret P. specialize (H i Hi). unfold fins. destruct (Z_lt_ge_dec (k i) 0) as [K|K].
- apply IZR_lt in K. rewrite outcome_neg by auto. nev. apply logp_0. reflexivity.
- replace (IZR (k i)) with (INR (Z.to_nat (k i))) by (rewrite INR_IZR_INZ, Z2Nat.id by lia; reflexivity).
  assert (lb = Jax -> (Z.to_nat (k i) <= m i)%nat) as J' by (intros E; specialize (J E i Hi); lia). set (j := Z.to_nat (k i)) in *. pose proof (pos_INR j).
  rewrite outcome_INR. nev. destruct (le_lt_dec j (m i)) as [L|L].
  + rewrite lcomb_nat, pow_nat by (auto || lra). nev. rewrite <- minus_INR, Rpower_pow by (auto || lra). apply logp_nn; [apply (binomial_sum (m i) (p i)); lra|reflexivity].
  + destruct lb; [specialize (J' eq_refl); lia|]. rewrite lcomb_above, pow_nat by (auto || lra). nev. unfold binomial_pmf. rewrite choose_out by auto. apply logp_nn; simpl; [lra|ring].
Qed.
Lemma C73_binomial_jax_refuted_l :
forall (n k : nat) (p : R), (n < k)%nat -> 0 <= p < 1 ->
  returns (logs_binomial_on Jax (farr nil (fun _ => INR k)) (farr nil (fun _ => INR n)) (farr nil (fun _ => p))) nil (fun _ => NaN) /\
  logp (outcome (binomial_pmf n p) (INR k)) = PInf.
Proof.
intros n k p H Hp. split.
- assert (params nil [(farr nil (fun _ => INR k), fins (fun _ => INR k)); (farr nil (fun _ => INR n), fins (fun _ => INR n)); (farr nil (fun _ => p), fins (fun _ => p))]%list) as P
    by (split; [reflexivity|repeat constructor]).
  revert P. generalize (farr nil (fun _ => INR k)) (farr nil (fun _ => INR n)) (farr nil (fun _ => p)). intros a b c P. pose proof (pos_INR k).
  ret P. unfold fins. nev. rewrite lcomb_above by auto. reflexivity.
- rewrite outcome_INR. unfold binomial_pmf. rewrite choose_out by auto. symmetry. apply logp_0. simpl. ring.
Qed.
Lemma C73_hypergeometric_jax_l :
forall (obs m n k : arr) (s : list nat) (j : list nat -> Z) (a b c : list nat -> nat),
  params s [(obs, fins (fun i => IZR (j i))); (m, fins (fun i => INR (a i))); (n, fins (fun i => INR (b i))); (k, fins (fun i => INR (c i)))]%list -> (forall i, inb s i -> (c i <= a i + b i)%nat) ->
  (forall i, inb s i -> (0 <= j i <= Z.of_nat (a i))%Z /\ (0 <= Z.of_nat (c i) - j i <= Z.of_nat (b i))%Z) ->
  returns (logs_hypergeometric_on Jax obs m n k) s (fun i => logp (outcome (hypergeometric_pmf (a i) (b i) (c i)) (IZR (j i)))).
Proof.
intros obs m n k s j a b c P H J. ret P. specialize (H i Hi). destruct (J i Hi) as [J1 J2]. apply hyper_in; auto.
Qed.
Lemma C73_hypergeometric_torch_l :
forall (obs m n k : arr) (s : list nat) (j : list nat -> Z) (a b c : list nat -> nat),
  params s [(obs, fins (fun i => IZR (j i))); (m, fins (fun i => INR (a i))); (n, fins (fun i => INR (b i))); (k, fins (fun i => INR (c i)))]%list -> (forall i, inb s i -> (c i <= a i + b i)%nat) ->
  returns (logs_hypergeometric_on Torch obs m n k) s (fun i => logp (outcome (hypergeometric_pmf (a i) (b i) (c i)) (IZR (j i)))).
Proof.
intros obs m n k s j a b c P H. ret P. specialize (H i Hi).
destruct (Z_le_gt_dec 0 (j i)) as [A|A]; [destruct (Z_le_gt_dec (j i) (Z.of_nat (a i))) as [B|B]; [destruct (Z_le_gt_dec 0 (Z.of_nat (c i) - j i)) as [C|C]; [destruct (Z_le_gt_dec (Z.of_nat (c i) - j i) (Z.of_nat (b i))) as [D|D]|]|]|].
1: now apply hyper_in.
all: apply hyper_out; [assumption|lia].
Qed.
Lemma C73_hypergeometric_jax_refuted_l :
forall (a b c : nat) (j : Z), (c <= a + b)%nat -> ~ ((0 <= j <= Z.of_nat a)%Z /\ (0 <= Z.of_nat c - j <= Z.of_nat b)%Z) ->
  returns (logs_hypergeometric_on Jax (farr nil (fun _ => IZR j)) (farr nil (fun _ => INR a)) (farr nil (fun _ => INR b)) (farr nil (fun _ => INR c))) nil (fun _ => NaN) /\
  logp (outcome (hypergeometric_pmf a b c) (IZR j)) = PInf.
Proof.
intros a b c j H J. split.
- assert (params nil [(farr nil (fun _ => IZR j), fins (fun _ => IZR j)); (farr nil (fun _ => INR a), fins (fun _ => INR a)); (farr nil (fun _ => INR b), fins (fun _ => INR b)); (farr nil (fun _ => INR c), fins (fun _ => INR c))]%list) as P
    by (split; [reflexivity|repeat constructor]).
  revert P. generalize (farr nil (fun _ => IZR j)) (farr nil (fun _ => INR a)) (farr nil (fun _ => INR b)) (farr nil (fun _ => INR c)). intros x y z w P.
  ret P. unfold fins. now apply hyper_nan.
- symmetry. apply logp_0. rewrite hyper_zero; auto.
Qed.
Lemma C73_negbinom_value_l :
forall (l : lib) (obs size prob : arr) (s : list nat) (y n p : list nat -> R),
  params s [(obs, fins y); (size, fins n); (prob, fins p)]%list -> (forall i, inb s i -> match l with Jax => 1 <= n i | Torch => 0 < n i end /\ 0 < p i <= 1) ->
  returns (logs_negbinom_on l obs size prob) s
    (fun i => logp (outcome (fun k => IZR (Int_part (rising (n i) k)) * Rpower (p i) (n i) * (1 - p i) ^ k) (y i))).
Proof.
intros l obs size prob s y n p P H.
ret P. destruct (H i Hi) as [Hn Hp]. assert (0 < n i) as Hn' by (destruct l; lra). unfold fins.
destruct (count_cases (y i)) as [[k E]|[N|[N N']]].
- rewrite E in *. pose proof (pos_INR k). rewrite outcome_INR. nev. rewrite floor_nat. nev. rewrite Rabs_right by lra. rewrite floor_nat. nev.
  rewrite lcomb_rising by auto. rewrite pow_nat by lra. nev. apply logp_nn; [|reflexivity]. pose proof (floor_nonneg _ (Rlt_le _ _ (rising_pos (n i) k Hn'))).
  repeat apply Rmult_le_pos; [auto|left; apply exp_pos|apply pow_le; lra].
- rewrite outcome_neg by auto. nev. now apply logp_0.
- rewrite outcome_frac by auto. nev. cbn [Num.nfloor]. nev. now apply logp_0.
Qed.
Lemma C73_negbinom_l :
forall (l : lib) (obs size prob : arr) (s : list nat) (y p : list nat -> R) (m : list nat -> nat),
  params s [(obs, fins y); (size, fins (fun i => INR (S (m i)))); (prob, fins p)]%list -> (forall i, inb s i -> 0 < p i <= 1) ->
  returns (logs_negbinom_on l obs size prob) s (fun i => logp (outcome (negbinom_pmf (INR (S (m i))) (p i)) (y i))).
Proof.
intros l obs size prob s y p m P H.
assert (forall i, inb s i -> match l with Jax => 1 <= INR (S (m i)) | Torch => 0 < INR (S (m i)) end /\ 0 < p i <= 1) as K.
{ intros i Hi. split; [|now apply H]. rewrite S_INR. pose proof (pos_INR (m i)). destruct l; lra. }
destruct (C73_negbinom_value_l l obs size prob s y _ p P K) as (d & a & E & D & S & V). exists d, a. repeat split; auto. intros i Hi. rewrite V by auto. f_equal.
unfold outcome. destruct (Req_EM_T _ _); [|reflexivity]. unfold negbinom_pmf. rewrite rising_int, Int_part_INR, <- INR_IZR_INZ. reflexivity.
Qed.
Lemma C73_negbinom_refuted_l :
forall (l : lib) (n p : R), 1 < n -> IZR (Int_part n) <> n -> 0 < p < 1 ->
  exists a b : R, returns (logs_negbinom_on l (farr nil (fun _ => 1)) (farr nil (fun _ => n)) (farr nil (fun _ => p))) nil (fun _ => Fin a) /\
    returns (logs_negbinom (farr nil (fun _ => 1)) (farr nil (fun _ => n)) (Some (farr nil (fun _ => p))) None) nil (fun _ => Fin b) /\ b < a.
Proof.
intros l n p Hn Hi Hp.
assert (params nil [(farr nil (fun _ => 1), fins (fun _ => 1)); (farr nil (fun _ => n), fins (fun _ => n)); (farr nil (fun _ => p), fins (fun _ => p))]%list) as P
    by (split; [reflexivity|repeat constructor]).
pose proof (base_Int_part n) as [B1 B2]. assert (1 <= IZR (Int_part n)) as B3. { apply IZR_le. assert (0 < Int_part n)%Z; [|lia]. apply lt_IZR. lra. }
assert (rising n 1 = n) as R1 by (cbn [rising]; simpl; field). pose proof (exp_pos (n * ln p)) as X. fold (Rpower p n) in X.
assert (forall c, 0 < c -> 0 < c * Rpower p n * (1 - p) ^ 1) as X' by (intros c Hc; simpl; repeat apply Rmult_lt_0_compat; lra).
exists (- ln (IZR (Int_part n) * Rpower p n * (1 - p) ^ 1)), (- ln (n * Rpower p n * (1 - p) ^ 1)). split; [|split].
- destruct (C73_negbinom_value_l l _ _ _ _ _ _ _ P) as (d & a & E & D & S & V).
  { intros i _. split; [destruct l; lra|lra]. }
  exists d, a. repeat split; auto. intros i Hi'. rewrite V by auto. cbv beta. rewrite outcome_1, R1. apply logp_gt, X'. lra.
- destruct (proj1 (T_logsd.C41_negbinom_l _ _ _ _ _ _ _ P ltac:(intros i _; split; lra))) as (d & a & E & D & S & V).
  exists d, a. repeat split; auto. intros i Hi'. rewrite V by auto. cbv beta. rewrite outcome_1. unfold negbinom_pmf. rewrite R1. apply logp_gt, X'. lra.
- apply Ropp_lt_contravar, ln_increasing; [apply X'; lra|]. do 2 (apply Rmult_lt_compat_r; [simpl; lra|]). lra.
Qed.
Lemma C73_negbinom_mass_refuted_l :
forall n p : R, 1 < n -> IZR (Int_part n) <> n -> 0 < p < 1 ->
  exists S, is_series (fun k => IZR (Int_part (rising n k)) * Rpower p n * (1 - p) ^ k) S /\ S < 1.
Proof.
intros n p Hn Hi Hp. destruct (negbinom_sum n p ltac:(lra) ltac:(lra)) as [N1 N2].
pose proof (base_Int_part n) as [B1 B2]. assert (rising n 1 = n) as R1 by (cbn [rising]; simpl; field). pose proof (exp_pos (n * ln p)) as X. fold (Rpower p n) in X.
set (f := fun k => IZR (Int_part (rising n k)) * Rpower p n * (1 - p) ^ k).
assert (forall k, 0 <= f k <= negbinom_pmf n p k) as F.
{ intros k. unfold f, negbinom_pmf. pose proof (rising_pos n k ltac:(lra)) as Q. pose proof (floor_nonneg _ (Rlt_le _ _ Q)). pose proof (base_Int_part (rising n k)) as [Q1 Q2].
  assert (0 <= (1 - p) ^ k) by (apply pow_le; lra). split; [repeat apply Rmult_le_pos; auto; lra|]. apply Rmult_le_compat_r; auto. apply Rmult_le_compat_r; lra. }
assert (ex_series f) as Ef. { apply (ex_series_le f (negbinom_pmf n p)); [|eexists; exact N2]. intros k. destruct (F k). change (Rabs (f k) <= negbinom_pmf n p k). rewrite Rabs_right; lra. }
exists (Series f). split; [now apply Series_correct|]. set (g := fun k => if Nat.eqb k 1 then negbinom_pmf n p 1 - f 1%nat else 0).
assert (is_series g (sumn 2 g)) as G. { apply series_fin. intros k Hk. unfold g. destruct (Nat.eqb_spec k 1); [lia|reflexivity]. }
assert (sumn 2 g = negbinom_pmf n p 1 - f 1%nat) as Gv by (rewrite !sumn_S, sumn_0; unfold g; simpl; ring).
assert (0 < negbinom_pmf n p 1 - f 1%nat) as Gp. { unfold negbinom_pmf, f. rewrite R1. simpl. rewrite Rmult_1_r. replace (n * Rpower p n * (1 - p) - IZR (Int_part n) * Rpower p n * (1 - p)) with ((n - IZR (Int_part n)) * (Rpower p n * (1 - p))) by ring. apply Rmult_lt_0_compat; [lra|apply Rmult_lt_0_compat; lra]. }
pose proof (is_series_plus f g _ _ (Series_correct f Ef) G) as FG. apply is_series_unique in FG.
match type of FG with ?A = _ => assert (A <= Series (negbinom_pmf n p)) as L end.
{ apply Series_le; [|eexists; exact N2]. intros k. change (0 <= f k + g k <= negbinom_pmf n p k). destruct (F k). unfold g. destruct (Nat.eqb_spec k 1) as [->|]; lra. }
rewrite FG, (is_series_unique _ _ N2), Gv in L. change (Series f + (negbinom_pmf n p 1 - f 1%nat) <= 1) in L. lra.
Qed.
