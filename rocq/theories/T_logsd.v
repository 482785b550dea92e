(** Proofs that the log scores are minus the logarithm of probabilities (statements in P_logsd.v). *)
From Verif Require Export L_logp L_disc.
From Coq Require Import Psatz.
From Coquelicot Require Import Coquelicot.
Open Scope R_scope.
Lemma C41_poisson_l :
forall (obs mean : arr) (s : list nat) (y l : list nat -> R),
  params s [(obs, fins y); (mean, fins l)]%list -> (forall i, inb s i -> 0 <= l i) ->
  returns (logs_poisson obs mean) s (fun i => logp (outcome (poisson_pmf (l i)) (y i))) /\
  forall i, inb s i -> pmf (poisson_pmf (l i)).
Proof.
intros obs mean s y l P H. split; [|intros i Hi; now apply poisson_sum, H].
ret P. specialize (H i Hi). unfold fins. destruct (count_cases (y i)) as [[n ->]|[N|[N N']]].
- pose proof (pos_INR n). pose proof (lt_0_INR _ (lt_O_fact n)). rewrite outcome_INR. nev. rewrite Rabs_right by lra. rewrite floor_nat, factorial_nat, pow_nat by auto. nev.
  apply logp_nn; [now apply (poisson_sum (l i))|reflexivity].
- rewrite outcome_neg by auto. nev. apply logp_nn; [lra|reflexivity].
- rewrite outcome_frac by auto. nev. rewrite Rabs_right by lra. cbn [Num.nfloor]. nev. apply logp_nn; [lra|reflexivity].
Qed.
Lemma C41_binomial_l :
forall (obs n prob : arr) (s : list nat) (p : list nat -> R) (k : list nat -> Z) (m : list nat -> nat),
  params s [(obs, fins (fun i => IZR (k i))); (n, fins (fun i => INR (m i))); (prob, fins p)]%list -> (forall i, inb s i -> 0 <= p i < 1) ->
  returns (logs_binomial obs n prob) s (fun i => logp (outcome (binomial_pmf (m i) (p i)) (IZR (k i)))) /\
  forall i, inb s i -> pmf (binomial_pmf (m i) (p i)).
Proof.
intros obs n prob s p k m P H. split; [|intros i Hi; specialize (H i Hi); apply binomial_sum; lra].
ret P. specialize (H i Hi). unfold fins. destruct (Z_lt_ge_dec (k i) 0) as [K|K].
- apply IZR_lt in K. rewrite outcome_neg by auto. nev. apply logp_0. reflexivity.
- replace (IZR (k i)) with (INR (Z.to_nat (k i))) by (rewrite INR_IZR_INZ, Z2Nat.id by lia; reflexivity). set (j := Z.to_nat (k i)). pose proof (pos_INR j).
  rewrite outcome_INR. nev. rewrite comb_nat, pow_nat by lra. nev. destruct (le_lt_dec j (m i)) as [L|L].
  + rewrite <- minus_INR, Rpower_pow by (auto || lra). apply logp_nn; [apply (binomial_sum (m i) (p i)); lra|reflexivity].
  + unfold binomial_pmf. rewrite choose_out by auto. apply logp_nn; simpl; [lra|ring].
Qed.
Lemma C41_hypergeometric_l :
forall (obs m n k : arr) (s : list nat) (j : list nat -> Z) (a b c : list nat -> nat),
  params s [(obs, fins (fun i => IZR (j i))); (m, fins (fun i => INR (a i))); (n, fins (fun i => INR (b i))); (k, fins (fun i => INR (c i)))]%list ->
  (forall i, inb s i -> (c i <= a i + b i)%nat) ->
  returns (logs_hypergeometric obs m n k) s (fun i => logp (outcome (hypergeometric_pmf (a i) (b i) (c i)) (IZR (j i)))) /\
  forall i, inb s i -> pmf (hypergeometric_pmf (a i) (b i) (c i)).
Proof.
intros obs m n k s j a b c P H. split; [|intros i Hi; now apply hypergeometric_sum, H].
ret P. specialize (H i Hi). unfold fins. pose proof (lt_0_INR _ (choose_pos (a i + b i) (c i) H)) as Hc.
nev. rewrite <- plus_INR, comb_nat. replace (INR (a i + b i) - INR (a i)) with (INR (b i)) by (rewrite plus_INR; ring).
destruct (Z_lt_ge_dec (j i) 0) as [K|K].
- apply IZR_lt in K. rewrite outcome_neg by auto. pose proof (Rmax_l 0 (INR (c i) - INR (a i + b i) + INR (a i))). rewrite leb_f by lra. cbn [andb b2n].
  rewrite comb_fin, comb_fin. nev. apply logp_nn; [lra|]. unfold Rdiv; ring.
- replace (IZR (j i)) with (INR (Z.to_nat (j i))) by (rewrite INR_IZR_INZ, Z2Nat.id by lia; reflexivity). set (x := Z.to_nat (j i)). pose proof (pos_INR x).
  rewrite outcome_INR, comb_nat. destruct (hypergeometric_sum (a i) (b i) (c i) H) as [Q _]. specialize (Q x).
  destruct (le_lt_dec x (c i)) as [L|L]; [|rewrite (leb_f (INR x) (Rmin _ _)) by (apply lt_INR in L; pose proof (Rmin_r (INR (a i)) (INR (c i))); lra)].
  2:{ rewrite andb_false_r, comb_fin. cbn [b2n]. nev. apply logp_nn; auto. unfold hypergeometric_pmf. destruct (le_dec x (c i)); [lia|]. unfold Rdiv; ring. }
  rewrite <- (minus_INR (c i) x) by auto. rewrite comb_nat. unfold hypergeometric_pmf in *. destruct (le_dec x (c i)); [|lia].
  destruct (le_lt_dec x (a i)) as [A|A].
  2:{ rewrite (leb_f (INR x) (Rmin _ _)) by (apply lt_INR in A; pose proof (Rmin_l (INR (a i)) (INR (c i))); lra). rewrite andb_false_r. cbn [b2n]. nev.
      apply logp_nn; auto. rewrite (choose_out (a i) x) by auto. unfold Rdiv; simpl; ring. }
  destruct (le_lt_dec (c i - x) (b i)) as [B|B].
  2:{ rewrite (leb_f (Rmax _ _) (INR x)). 2:{ apply lt_INR in B. rewrite minus_INR in B by auto. pose proof (Rmax_r 0 (INR (c i) - INR (a i + b i) + INR (a i))) as R. rewrite plus_INR in *. lra. }
      cbn [andb b2n]. nev. apply logp_nn; auto. rewrite (choose_out (b i) (c i - x)) by auto. unfold Rdiv; simpl; ring. }
  rewrite !leb_t.
  + cbn [andb b2n]. nev. apply logp_nn; auto. unfold Rdiv; ring.
  + apply Rmin_glb; now apply le_INR.
  + apply Rmax_lub; [auto|]. apply le_INR in B. rewrite minus_INR in B by auto. rewrite plus_INR. lra.
Qed.
Lemma C41_negbinom_l :
forall (obs size prob : arr) (s : list nat) (y n p : list nat -> R),
  params s [(obs, fins y); (size, fins n); (prob, fins p)]%list -> (forall i, inb s i -> 1 <= n i /\ 0 < p i <= 1) ->
  returns (logs_negbinom obs size (Some prob) None) s (fun i => logp (outcome (negbinom_pmf (n i) (p i)) (y i))) /\
  forall i, inb s i -> pmf (negbinom_pmf (n i) (p i)).
Proof.
intros obs size prob s y n p P H. 
assert (forall i, inb s i -> 0 < p i <= 1) as Hq.
{ intros i Hi. destruct (H i Hi). lra. }
split; [|intros i Hi; destruct (H i Hi); apply negbinom_sum; [lra|auto]].
ret P. destruct (H i Hi) as [Hn Hp]. specialize (Hq i Hi). unfold fins.
destruct (count_cases (y i)) as [[k E]|[N|[N N']]].
- rewrite E in *. pose proof (pos_INR k). rewrite outcome_INR. nev. rewrite floor_nat. nev. rewrite Rabs_right by lra. rewrite floor_nat. nev.
  rewrite comb_in, Rchoose_rising, pow_nat by lra. nev. apply logp_nn; [apply negbinom_sum; lra|reflexivity].
- rewrite outcome_neg by auto. nev. now apply logp_0.
- rewrite outcome_frac by auto. nev. cbn [Num.nfloor]. nev. now apply logp_0.
Qed.
Lemma C41_negbinom_mean_l :
forall (obs size mu : arr) (s : list nat) (y n p : list nat -> R),
  params s [(obs, fins y); (size, fins n); (mu, fins p)]%list -> (forall i, inb s i -> 1 <= n i /\ 0 <= p i) ->
  returns (logs_negbinom obs size None (Some mu)) s (fun i => logp (outcome (negbinom_pmf (n i) (n i / (n i + p i))) (y i))) /\
  forall i, inb s i -> pmf (negbinom_pmf (n i) (n i / (n i + p i))).
Proof.
intros obs size mu s y n p P H. 
assert (forall i, inb s i -> 0 < n i / (n i + p i) <= 1) as Hq.
{ intros i Hi. destruct (H i Hi). split; [apply Rdiv_lt_0_compat; lra|]. apply (Rmult_le_reg_r (n i + p i)); [lra|]. unfold Rdiv. rewrite Rmult_assoc, Rinv_l by lra. lra. }
split; [|intros i Hi; destruct (H i Hi); apply negbinom_sum; [lra|auto]].
ret P. destruct (H i Hi) as [Hn Hp]. specialize (Hq i Hi). unfold fins.
destruct (count_cases (y i)) as [[k E]|[N|[N N']]].
- rewrite E in *. pose proof (pos_INR k). rewrite outcome_INR. nev. rewrite floor_nat. nev. rewrite Rabs_right by lra. rewrite floor_nat. nev.
  rewrite comb_in, Rchoose_rising, pow_nat by lra. nev. apply logp_nn; [apply negbinom_sum; lra|reflexivity].
- rewrite outcome_neg by auto. nev. now apply logp_0.
- rewrite outcome_frac by auto. nev. cbn [Num.nfloor]. nev. now apply logp_0.
Qed.
Lemma C41_negbinom_small_size_refuted_l :
exists (y n p : R), 0 < n /\ 0 < p <= 1 /\ returns (logs_negbinom (farr nil (fun _ => y)) (farr nil (fun _ => n)) (Some (farr nil (fun _ => p))) None) nil (fun _ => PInf) /\
  logp (outcome (negbinom_pmf n p) y) <> PInf.
Proof.
exists 1, (1 / 2), (1 / 2). split; [lra|]. split; [lra|]. split.
- assert (params nil [(farr nil (fun _ => 1), fins (fun _ => 1)); (farr nil (fun _ => 1 / 2), fins (fun _ => 1 / 2)); (farr nil (fun _ => 1 / 2), fins (fun _ => 1 / 2))]%list) as P
    by (split; [reflexivity|repeat constructor]).
  ret P. unfold fins. nev. cbn [Num.nfloor]. change 1 with (INR 1) at 1 2 3 4 5 6 7 8 9 10. rewrite ?Int_part_INR. 
  replace (IZR (Z.of_nat 1)) with 1 by (rewrite <- INR_IZR_INZ; reflexivity). rewrite !INR_1. nev. rewrite Rabs_R1. cbn [Num.nfloor].
  replace (IZR (Int_part 1)) with 1 by (change 1 with (INR 1); rewrite Int_part_INR, <- INR_IZR_INZ; reflexivity). nev.
  rewrite comb_fin. destruct (Rle_dec 0 1); [|lra]. destruct (Rle_dec 1 (1 / 2 + 1 - 1)); [lra|]. nev. rewrite !Rmult_0_l, L_nev.log_0. reflexivity.
- replace (outcome (negbinom_pmf (1 / 2) (1 / 2)) 1) with (negbinom_pmf (1 / 2) (1 / 2) 1) by (rewrite <- outcome_INR; reflexivity). unfold logp. destruct (Rlt_dec 0 _) as [L|L]; [discriminate|]. exfalso. apply L.
  unfold negbinom_pmf. apply Rmult_lt_0_compat; [apply Rmult_lt_0_compat; [apply rising_pos; lra|apply exp_pos]|simpl; lra].
Qed.
Lemma C41_binomial_certain_refuted_l :
exists y n : nat, returns (logs_binomial (farr nil (fun _ => INR y)) (farr nil (fun _ => INR n)) (farr nil (fun _ => 1))) nil (fun _ => NaN) /\
  logp (outcome (binomial_pmf n 1) (INR y)) = PInf.
Proof.
exists 3%nat, 2%nat. split.
- assert (params nil [(farr nil (fun _ => INR 3), fins (fun _ => INR 3)); (farr nil (fun _ => INR 2), fins (fun _ => INR 2)); (farr nil (fun _ => 1), fins (fun _ => 1))]%list) as P
    by (split; [reflexivity|repeat constructor]).
  revert P. generalize (farr nil (fun _ => INR 3)) (farr nil (fun _ => INR 2)) (farr nil (fun _ => 1)). intros a b c P.
  assert (ncomb (Fin 2) (Fin 3) = Fin 0) as C by (unfold ncomb; destruct (Rle_dec 0 3); [destruct (Rle_dec 3 2); [lra|reflexivity]|reflexivity]).
  ret P. unfold fins. nev. rewrite C. nev. replace (1 - 1) with 0 by ring. rewrite Rmult_0_l.
  assert (npow (Fin 0) (Fin (2 - 3)) = PInf) as -> by (simpl; destruct (Req_EM_T (2 - 3) 0); [lra|]; destruct (Rlt_dec 0 0); [lra|]; destruct (Rlt_dec 0 0); [lra|]; destruct (Rlt_dec 0 (2 - 3)); [lra|reflexivity]).
  simpl. unfold infsgn. repeat match goal with |- context [Rlt_dec ?a ?b] => destruct (Rlt_dec a b); try lra | |- context [Req_EM_T ?a ?b] => destruct (Req_EM_T a b); try lra end. reflexivity.
- rewrite outcome_INR. unfold logp. destruct (Rlt_dec 0 _) as [L|L]; [|reflexivity]. exfalso. unfold binomial_pmf in L. simpl in L. lra.
Qed.
