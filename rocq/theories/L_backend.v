(** The factorials and binomial coefficients of the jax and torch backends. *)
From Verif Require Export M_backend L_disc L_logp.
From Verif Require Import L_betagamma L_crpspois L_interval.
From Coq Require Import Psatz.
From Coquelicot Require Import Coquelicot.
Open Scope R_scope.

Lemma sub_ff a b : nsub (Fin a) (Fin b) = Fin (a - b). Proof. reflexivity. Qed.
Lemma lgamma_pos a : 0 < a -> nexp (nlgamma (Fin a)) = Fin (Rgamma a).
Proof. intros H. unfold nlgamma. destruct (Rlt_dec 0 a); [|lra]. cbn [nexp]. now rewrite exp_ln by now apply Rgamma_pos. Qed.
Lemma lgamma_negint n : nlgamma (Fin (- INR n)) = PInf.
Proof.
  unfold nlgamma. pose proof (pos_INR n). destruct (Rlt_dec 0 (- INR n)); [lra|]. unfold is_intR, reqb.
  rewrite INR_IZR_INZ, <- opp_IZR, Int_part_IZR'. destruct (Req_EM_T _ _); [reflexivity|congruence].
Qed.
Lemma lfact_gamma l a : (match l with Jax => 0 <= a | Torch => -1 < a end) -> lfactorial l (Fin a) = Fin (Rgamma (a + 1)).
Proof.
  intros H. unfold lfactorial. destruct l.
  - destruct (Rlt_dec a 0); [lra|]. apply lgamma_pos. lra.
  - apply lgamma_pos. lra.
Qed.
Lemma lfact_nat l n : lfactorial l (Fin (INR n)) = Fin (INR (fact n)).
Proof. pose proof (pos_INR n). rewrite lfact_gamma by (destruct l; lra). now rewrite gamma_fact. Qed.
Lemma lfact_neg l n : lfactorial l (Fin (- INR (S n))) = match l with Jax => Fin 0 | Torch => PInf end.
Proof.
  pose proof (lt_0_INR (S n) ltac:(lia)). unfold lfactorial. destruct l.
  - destruct (Rlt_dec (- INR (S n)) 0); [reflexivity|lra].
  - cbn [nadd]. replace (- INR (S n) + 1) with (- INR n) by (rewrite S_INR; ring). now rewrite lgamma_negint.
Qed.
Lemma gamma_rising n k : 0 < n -> Rgamma (n + INR k) = rising n k * INR (fact k) * Rgamma n.
Proof.
  intros Hn. induction k as [|k IH]; [simpl; rewrite Rplus_0_r; ring|]. pose proof (pos_INR k).
  replace (n + INR (S k)) with (n + INR k + 1) by (rewrite S_INR; ring). rewrite gamma_rec, IH by lra. cbn [rising].
  replace (fact (S k)) with (S k * fact k)%nat by reflexivity. rewrite mult_INR. field. apply not_0_INR. lia.
Qed.
Lemma floordiv_fin l a b : b <> 0 -> nfloordiv l (Fin a) (Fin b) = Fin (IZR (Int_part (a / b))).
Proof. intros H. unfold nfloordiv. destruct (Req_EM_T b 0); [lra|reflexivity]. Qed.
Lemma lcomb_rising l n k : (match l with Jax => 1 <= n | Torch => 0 < n end) ->
  lcomb l (Fin (n + INR k - 1)) (Fin (INR k)) = Fin (IZR (Int_part (rising n k))).
Proof.
  intros H. assert (0 < n) as Hn by (destruct l; lra). pose proof (pos_INR k). pose proof (Rgamma_pos n Hn). pose proof (lt_0_INR _ (lt_O_fact k)).
  unfold lcomb. rewrite sub_ff. rewrite lfact_nat, !lfact_gamma by (destruct l; lra).
  replace (n + INR k - 1 + 1) with (n + INR k) by ring. replace (n + INR k - 1 - INR k + 1) with n by ring.
  cbn [nmul]. rewrite floordiv_fin by nra. do 3 f_equal. rewrite gamma_rising by auto. field. split; lra.
Qed.
Lemma lcomb_nat l n k : (k <= n)%nat -> lcomb l (Fin (INR n)) (Fin (INR k)) = Fin (INR (choose n k)).
Proof.
  intros H. replace (INR n) with (INR (n - k) + 1 + INR k - 1) by (rewrite minus_INR by auto; ring). pose proof (pos_INR (n - k)).
  rewrite lcomb_rising by (destruct l; lra). rewrite <- Rchoose_rising. replace (INR (n - k) + 1 + INR k - 1) with (INR n) by (rewrite minus_INR by auto; ring).
  now rewrite Rchoose_choose, Int_part_INR, <- INR_IZR_INZ.
Qed.
Lemma mul_pinf a : 0 < a -> nmul (Fin a) PInf = PInf /\ nmul PInf (Fin a) = PInf.
Proof. intros H. simpl. unfold infsgn. destruct (Rlt_dec 0 a); [auto|lra]. Qed.
(** outside of 0 <= k <= n *)
Lemma lcomb_above l n k : (n < k)%nat -> lcomb l (Fin (INR n)) (Fin (INR k)) = match l with Jax => NaN | Torch => Fin 0 end.
Proof.
  intros H. pose proof (lt_0_INR _ (lt_O_fact n)). pose proof (lt_0_INR _ (lt_O_fact k)).
  unfold lcomb. rewrite sub_ff. replace (INR n - INR k) with (- INR (S (k - S n))) by (rewrite <- (minus_INR k n) || idtac; replace k with (S (k - S n) + n)%nat at 2 by lia; rewrite plus_INR; ring).
  rewrite !lfact_nat, lfact_neg. destruct l.
  - cbn [nmul]. rewrite Rmult_0_r. simpl. destruct (Req_EM_T 0 0); congruence.
  - rewrite (proj1 (mul_pinf _ H1)). simpl. destruct (Rlt_dec _ 0); [lra|reflexivity].
Qed.
Lemma lcomb_below l n k : lcomb l (Fin (INR n)) (Fin (- INR (S k))) = match l with Jax => NaN | Torch => Fin 0 end.
Proof.
  pose proof (lt_0_INR _ (lt_O_fact n)). pose proof (lt_0_INR _ (lt_O_fact (n + S k))).
  unfold lcomb. rewrite sub_ff. replace (INR n - - INR (S k)) with (INR (n + S k)) by (rewrite plus_INR; ring).
  rewrite !lfact_nat, lfact_neg. destruct l.
  - cbn [nmul]. rewrite Rmult_0_l. simpl. destruct (Req_EM_T 0 0); congruence.
  - rewrite (proj2 (mul_pinf _ H0)). simpl. destruct (Rlt_dec _ 0); [lra|reflexivity].
Qed.
Lemma tgamma_pos a : 0 < a -> tgamma (Fin a) = ngamma (Fin a).
Proof. intros H. unfold tgamma. rewrite lgamma_pos by auto. simpl. destruct (Rlt_dec 0 a); [reflexivity|lra]. Qed.
Lemma tbeta_pos a b : 0 < a -> 0 < b -> tbeta (Fin a) (Fin b) = nbeta (Fin a) (Fin b).
Proof.
  intros Ha Hb. pose proof (Rgamma_pos a Ha). pose proof (Rgamma_pos b Hb). pose proof (Rgamma_pos (a + b) ltac:(lra)). pose proof (beta_gamma a b Ha Hb) as E.
  unfold tbeta. cbn [nadd]. unfold nlgamma. destruct (Rlt_dec 0 a); [|lra]. destruct (Rlt_dec 0 b); [|lra]. destruct (Rlt_dec 0 (a + b)); [|lra]. cbn [nadd]. rewrite sub_ff. cbn [nexp].
  unfold nbeta. destruct (Rlt_dec 0 a); [|lra]. destruct (Rlt_dec 0 b); [|lra]. f_equal.
  unfold Rminus. rewrite !exp_plus, exp_Ropp, !exp_ln, E by auto. field. lra.
Qed.
(** negative integers and naturals *)
Lemma int_cases z : (exists n, IZR z = INR n) \/ (exists n, IZR z = - INR (S n)).
Proof.
  destruct (Z_lt_ge_dec z 0) as [H|H].
  - right. exists (Z.to_nat (- z - 1)). rewrite INR_IZR_INZ, <- opp_IZR. f_equal. lia.
  - left. exists (Z.to_nat z). rewrite INR_IZR_INZ, Z2Nat.id by lia. reflexivity.
Qed.
(** a rising factorial with a natural base is an integer *)
Lemma rising_int (m k : nat) : rising (INR (S m)) k = INR (choose (m + k) k).
Proof. rewrite <- Rchoose_rising. replace (INR (S m) + INR k - 1) with (INR (m + k)) by (rewrite plus_INR, S_INR; ring). apply Rchoose_choose. Qed.
Lemma floor_nonneg x : 0 <= x -> 0 <= IZR (Int_part x).
Proof. intros H. pose proof (base_Int_part x) as [B1 B2]. apply IZR_le. assert (-1 < Int_part x)%Z; [|lia]. apply lt_IZR. lra. Qed.
Lemma logp_gt p : 0 < p -> logp p = Fin (- ln p).
Proof. intros H. unfold logp. destruct (Rlt_dec 0 p); [reflexivity|lra]. Qed.
(** * the hypergeometric probabilities *)
Definition hyp_e (l : lib) (a b c : nat) (j : Z) : num :=
  nopp (nlog (b2n (nleb (nmax (nofnat 0) (nadd (nsub (Fin (INR c)) (nadd (Fin (INR a)) (Fin (INR b)))) (Fin (INR a)))) (Fin (IZR j)))
    .* b2n (nleb (Fin (IZR j)) (nmin (Fin (INR a)) (Fin (INR c))))
    .* lcomb l (Fin (INR a)) (Fin (IZR j))
    .* lcomb l (nsub (nadd (Fin (INR a)) (Fin (INR b))) (Fin (INR a))) (nsub (Fin (INR c)) (Fin (IZR j)))
    ./ lcomb l (nadd (Fin (INR a)) (Fin (INR b))) (Fin (INR c)))).
Lemma hyp_e_step l a b c j : (c <= a + b)%nat -> exists x y, hyp_e l a b c j = nopp (nlog (Fin (INR x) .* Fin (INR y) .* lcomb l (Fin (INR a)) (Fin (IZR j)) .* lcomb l (Fin (INR b)) (Fin (IZR (Z.of_nat c - j))) ./ Fin (INR (choose (a + b) c)))) /\
  ((0 <= j <= Z.of_nat a)%Z /\ (0 <= Z.of_nat c - j <= Z.of_nat b)%Z -> x = 1%nat /\ y = 1%nat).
Proof.
  intros H. exists (if nleb (nmax (nofnat 0) (nadd (nsub (Fin (INR c)) (nadd (Fin (INR a)) (Fin (INR b)))) (Fin (INR a)))) (Fin (IZR j)) then 1 else 0)%nat,
    (if nleb (Fin (IZR j)) (nmin (Fin (INR a)) (Fin (INR c))) then 1 else 0)%nat. split.
  - unfold hyp_e. assert (nadd (Fin (INR a)) (Fin (INR b)) = Fin (INR (a + b))) as -> by (rewrite plus_INR; reflexivity). rewrite lcomb_nat by auto.
    replace (nsub (Fin (INR (a + b))) (Fin (INR a))) with (Fin (INR b)) by (rewrite sub_ff, plus_INR; f_equal; ring).
    replace (nsub (Fin (INR c)) (Fin (IZR j))) with (Fin (IZR (Z.of_nat c - j))) by (rewrite sub_ff, minus_IZR, <- INR_IZR_INZ; reflexivity).
    assert (forall b : bool, b2n b = Fin (INR (if b then 1 else 0)%nat)) as B by (intros []; reflexivity). rewrite !B. reflexivity.
  - intros [J1 J2]. nev. replace (INR c - (INR a + INR b) + INR a) with (INR c - INR b) by ring.
    rewrite !leb_t; [auto| |]; rewrite !INR_IZR_INZ, <- ?minus_IZR; [apply Rmin_glb|apply Rmax_lub]; apply IZR_le; lia.
Qed.
Lemma hyper_zero a b c j : ~ ((0 <= j <= Z.of_nat a)%Z /\ (0 <= Z.of_nat c - j <= Z.of_nat b)%Z) -> outcome (hypergeometric_pmf a b c) (IZR j) = 0.
Proof.
  intros J. destruct (Z_lt_ge_dec j 0) as [K|K]; [apply outcome_neg; now apply IZR_lt|].
  replace (IZR j) with (INR (Z.to_nat j)) by (rewrite INR_IZR_INZ, Z2Nat.id by lia; reflexivity). rewrite outcome_INR. unfold hypergeometric_pmf.
  destruct (le_dec (Z.to_nat j) c); [|reflexivity]. destruct (le_lt_dec (Z.to_nat j) a) as [A|A]; [|rewrite choose_out by auto; unfold Rdiv; simpl; ring].
  rewrite (choose_out b) by lia. unfold Rdiv; simpl; ring.
Qed.
Lemma hyper_in l a b c j : (c <= a + b)%nat -> (0 <= j <= Z.of_nat a)%Z -> (0 <= Z.of_nat c - j <= Z.of_nat b)%Z ->
  hyp_e l a b c j = logp (outcome (hypergeometric_pmf a b c) (IZR j)).
Proof.
  intros H J1 J2. destruct (hyp_e_step l a b c j H) as (x & y & -> & E). destruct (E (conj J1 J2)) as [-> ->]. pose proof (lt_0_INR _ (choose_pos (a + b) c H)).
  replace (IZR (Z.of_nat c - j)) with (INR (c - Z.to_nat j)) by (rewrite INR_IZR_INZ; f_equal; lia).
  replace (IZR j) with (INR (Z.to_nat j)) by (rewrite INR_IZR_INZ, Z2Nat.id by lia; reflexivity). rewrite outcome_INR. rewrite !lcomb_nat by lia. nev.
  apply logp_nn; [now apply hypergeometric_sum|]. unfold hypergeometric_pmf. destruct (le_dec (Z.to_nat j) c); [|lia]. simpl INR. unfold Rdiv. ring.
Qed.
Lemma lcomb_int l n z : ~ (0 <= z <= Z.of_nat n)%Z -> lcomb l (Fin (INR n)) (Fin (IZR z)) = match l with Jax => NaN | Torch => Fin 0 end.
Proof.
  intros H. destruct (int_cases z) as [[m E]|[m E]]; rewrite E; [|apply lcomb_below]. apply lcomb_above. rewrite INR_IZR_INZ in E. apply eq_IZR in E. lia.
Qed.
Lemma lcomb_int_fin n z : exists v, lcomb Torch (Fin (INR n)) (Fin (IZR z)) = Fin v.
Proof.
  destruct (Z_le_gt_dec 0 z) as [A|A]; [destruct (Z_le_gt_dec z (Z.of_nat n)) as [B|B]|]; [|rewrite (lcomb_int Torch) by lia; eauto|rewrite (lcomb_int Torch) by lia; eauto].
  replace (IZR z) with (INR (Z.to_nat z)) by (rewrite INR_IZR_INZ, Z2Nat.id by lia; reflexivity). rewrite lcomb_nat by lia. eauto.
Qed.
Lemma hyper_out a b c j : (c <= a + b)%nat -> ~ ((0 <= j <= Z.of_nat a)%Z /\ (0 <= Z.of_nat c - j <= Z.of_nat b)%Z) ->
  hyp_e Torch a b c j = logp (outcome (hypergeometric_pmf a b c) (IZR j)).
Proof.
  intros H J. destruct (hyp_e_step Torch a b c j H) as (x & y & -> & E). rewrite hyper_zero by auto. pose proof (lt_0_INR _ (choose_pos (a + b) c H)).
  destruct (lcomb_int_fin a j) as [u U]. destruct (lcomb_int_fin b (Z.of_nat c - j)) as [w W].
  assert (u = 0 \/ w = 0) as Z. { destruct (Z_le_gt_dec 0 j), (Z_le_gt_dec j (Z.of_nat a)); [right; rewrite (lcomb_int Torch) in W by lia|left; rewrite (lcomb_int Torch) in U by lia ..]; congruence. }
  rewrite U, W. nev. apply logp_nn; [lra|]. destruct Z as [-> | ->]; unfold Rdiv; ring.
Qed.
Lemma hyper_nan a b c j : (c <= a + b)%nat -> ~ ((0 <= j <= Z.of_nat a)%Z /\ (0 <= Z.of_nat c - j <= Z.of_nat b)%Z) -> hyp_e Jax a b c j = NaN.
Proof.
  intros H J. destruct (hyp_e_step Jax a b c j H) as (x & y & -> & E). assert (forall v, nmul v NaN = NaN) as M by (intros []; reflexivity).
  destruct (Z_le_gt_dec 0 j), (Z_le_gt_dec j (Z.of_nat a)); [rewrite (lcomb_int Jax b), M by lia; reflexivity|rewrite (lcomb_int Jax a), M by lia; reflexivity ..].
Qed.
Lemma outcome_1 p : outcome p 1 = p 1%nat. Proof. exact (outcome_INR p 1). Qed.

(** ** the recurrence of lgamma *)
Lemma rise_l x n : rise x (S n) = x * rise (x + 1) n.
Proof.
  induction n as [|n IH]; [simpl; ring|].
  replace (rise x (S (S n))) with (rise x (S n) * (x + INR (S n))) by reflexivity. rewrite IH.
  cbn [rise]. rewrite S_INR. ring.
Qed.
Lemma rise_nz x n : (forall k, x <> - INR k) -> rise x n <> 0.
Proof.
  intros H. induction n as [|n IH]; [simpl; lra|]. cbn [rise]. intros E. apply Rmult_integral in E.
  destruct E as [E|E]; [auto|]. apply (H n). lra.
Qed.
Lemma not_int a : a < 0 -> (forall n, a <> - INR n) -> is_intR a = false /\ (Int_part a < 0)%Z.
Proof.
  intros H Hn. pose proof (base_Int_part a) as [B1 B2].
  assert ((Int_part a < 0)%Z) as L by (apply lt_IZR; lra). split; [|exact L].
  unfold is_intR, reqb. destruct (Req_EM_T _ _) as [E|]; [|reflexivity]. exfalso.
  apply (Hn (Z.to_nat (- Int_part a))). rewrite INR_IZR_INZ, Z2Nat.id by lia. rewrite opp_IZR. lra.
Qed.
Lemma Int_part_add1 a : Int_part (a + 1) = (Int_part a + 1)%Z.
Proof.
  pose proof (base_Int_part a) as [B1 B2]. pose proof (base_Int_part (a + 1)) as [C1 C2].
  assert ((Int_part (a + 1) < Int_part a + 2)%Z) by (apply lt_IZR; rewrite plus_IZR; lra).
  assert ((Int_part a < Int_part (a + 1))%Z) by (apply lt_IZR; lra). lia.
Qed.
Lemma lgamma_rec a : (forall n, a <> - INR n) -> exists v, nlgamma (Fin a) = Fin v /\ nlgamma (Fin (a + 1)) = Fin (v + ln (Rabs a)).
Proof.
  intros Hn. assert (Ha : a <> 0) by (specialize (Hn O); simpl in Hn; lra).
  assert (Hn1 : forall n, a + 1 <> - INR n) by (intros n E; apply (Hn (S n)); rewrite S_INR; lra).
  destruct (Rlt_dec 0 a) as [P|P].
  - exists (ln (Rgamma a)). unfold nlgamma. destruct (Rlt_dec 0 a), (Rlt_dec 0 (a + 1)); try lra. split; [reflexivity|].
    rewrite gamma_rec, (Rabs_right a), ln_mult by (auto using Rgamma_pos; lra). f_equal; ring.
  - destruct (not_int a ltac:(lra) Hn) as (E & L).
    remember (Z.to_nat (- Int_part a)) as n eqn:En.
    pose proof (base_Int_part a) as [B1 B2].
    assert (En' : INR n = - IZR (Int_part a)) by (rewrite En, INR_IZR_INZ, Z2Nat.id, opp_IZR by lia; ring).
    destruct n as [|n]; [lia|].
    exists (ln (Rgamma (a + INR (S n)) / Rabs (rise a (S n)))). split.
    { unfold nlgamma. destruct (Rlt_dec 0 a); [lra|]. rewrite E, <- En. reflexivity. }
    assert (PG : 0 < Rgamma (a + INR (S n))) by (apply Rgamma_pos; rewrite En'; specialize (Hn (S n)); lra).
    assert (Pa : 0 < Rabs a) by now apply Rabs_pos_lt.
    destruct (Rlt_dec 0 (a + 1)) as [Q|Q].
    + assert (n = O).
      { destruct n; auto. rewrite !S_INR in En'. pose proof (pos_INR n). lra. }
      subst n. unfold nlgamma. destruct (Rlt_dec 0 (a + 1)); [|lra]. rewrite rise_l. cbn [rise INR]. rewrite Rmult_1_r. cbn [INR] in PG.
      f_equal. unfold Rdiv. rewrite ln_mult by (auto; now apply Rinv_0_lt_compat). rewrite ln_Rinv by auto. ring.
    + assert (a + 1 < 0) as Q' by (specialize (Hn1 O); simpl in Hn1; lra).
      destruct (not_int (a + 1) Q' Hn1) as (E1 & L1). unfold nlgamma. destruct (Rlt_dec 0 (a + 1)); [lra|]. rewrite E1.
      replace (Z.to_nat (- Int_part (a + 1))) with n by (rewrite Int_part_add1; lia).
      assert (PR : 0 < Rabs (rise (a + 1) n)) by (apply Rabs_pos_lt, rise_nz; auto).
      rewrite rise_l, Rabs_mult. replace (a + 1 + INR n) with (a + INR (S n)) by (rewrite S_INR; ring).
      f_equal. unfold Rdiv. rewrite Rinv_mult_distr by lra.
      rewrite !ln_mult by (repeat (apply Rmult_lt_0_compat || apply Rinv_0_lt_compat); auto). rewrite !ln_Rinv by auto. ring.
Qed.
