(** Averages of the kernel forms over all samples drawn with replacement from a finite population. *)
From Verif Require Export L_crps_unbias T_kernels T_vario.
Open Scope R_scope.
Lemma lag1_other M k : (1 < M)%nat -> (k < M)%nat -> (lag1 M k < M)%nat /\ lag1 M k <> k.
Proof.
  intros H Hk. unfold lag1. split; [apply Nat.mod_upper_bound; lia|]. destruct k as [|k].
  - rewrite Nat.mod_small; lia.
  - replace (S k + M - 1)%nat with (k + 1 * M)%nat by lia. rewrite Nat.mod_add, Nat.mod_small; lia.
Qed.
Lemma lagc_other M k : (1 < M)%nat -> (k < M)%nat -> (lagc M k < M)%nat /\ lagc M k <> k.
Proof.
  intros H Hk. unfold lagc. split; [apply Nat.mod_upper_bound; lia|].
  pose proof (Nat.div_str_pos M 2 ltac:(lia)). pose proof (Nat.div_lt M 2 ltac:(lia) ltac:(lia)).
  destruct (le_lt_dec (M / 2) k) as [L|L].
  - replace (k + M - M / 2)%nat with (k - M / 2 + 1 * M)%nat by lia. rewrite Nat.mod_add, Nat.mod_small; lia.
  - rewrite Nat.mod_small; lia.
Qed.
Section K.
Variables (N M : nat) (E : nat -> R) (d : nat -> nat -> R).
Hypothesis HN : (0 < N)%nat.
Hypothesis HM : (1 < M)%nat.
Definition ix (t : list nat) (k : nat) : nat := nth k t 0%nat.
Definition dbar : R := sumn N (fun i => sumn N (d i)) / (INR N * INR N).
Let Nz := INR_nz N HN.
Let M2 := INR_ge2 M HM.
Lemma avg_first : avg N M (fun t => sumn M (fun k => E (ix t k))) = INR M * (sumn N E / INR N).
Proof.
  rewrite (avg_sumn N HN). rewrite (sumn_ext M _ (fun _ => sumn N E / INR N)) by (intros k Hk; apply (avg_one N HN M k E Hk)).
  now rewrite sumn_const.
Qed.
Lemma avg_lagd g : (forall k, (k < M)%nat -> (g k < M)%nat /\ g k <> k) ->
  avg N M (fun t => sumn M (fun k => d (ix t k) (ix t (g k)))) = INR M * dbar.
Proof.
  intros G. rewrite (avg_sumn N HN). rewrite (sumn_ext M _ (fun _ => dbar)); [now rewrite sumn_const|].
  intros k Hk. destruct (G k Hk). unfold ix. apply (avg_two N HN M k (g k) d); auto.
Qed.
Lemma avg_off : avg N M (fun t => offdiag M (fun i j => d (ix t i) (ix t j))) = INR M * (INR M - 1) * dbar.
Proof.
  unfold offdiag. rewrite (avg_sumn N HN).
  rewrite (sumn_ext M _ (fun i => (INR M - 1) * dbar)); [rewrite sumn_const; ring|].
  intros i Hi. rewrite (avg_sumn N HN). rewrite (sumn_ext M _ (fun j => dbar - (if Nat.eq_dec j i then dbar else 0))).
  - rewrite sumn_minus, sumn_const, sumn_delta by auto. ring.
  - intros j Hj. destruct (Nat.eqb_spec i j) as [<-|Nij]; destruct (Nat.eq_dec _ _); try congruence.
    + rewrite (avg_const N HN). ring.
    + rewrite Rminus_0_r. unfold ix. apply (avg_two N HN M i j d); auto.
Qed.
Lemma off_full n (h : nat -> nat -> R) c : (forall i, (i < n)%nat -> h i i = c) ->
  sumn n (fun i => sumn n (h i)) = offdiag n h + INR n * c.
Proof.
  intros H. unfold offdiag.
  transitivity (sumn n (fun i => sumn n (fun j => if (i =? j)%nat then 0 else h i j) + c)); [|now rewrite sumn_plus, sumn_const].
  apply sumn_ext; intros i Hi.
  rewrite (sumn_ext n (h i) (fun j => (if (i =? j)%nat then 0 else h i j) + (if Nat.eq_dec j i then c else 0))).
  - now rewrite sumn_plus, sumn_delta.
  - intros j Hj. destruct (Nat.eqb_spec i j) as [<-|Nij]; destruct (Nat.eq_dec _ _); try congruence; try ring. rewrite H by auto; ring.
Qed.
Lemma avg_full c : (forall i, d i i = c) -> avg N M (fun t => sumn M (fun i => sumn M (fun j => d (ix t i) (ix t j)))) = INR M * (INR M - 1) * dbar + INR M * c.
Proof.
  intros H. rewrite <- avg_off. rewrite <- (avg_const N HN M (INR M * c)), <- (avg_plus N M). apply avg_ext. intros t _.
  rewrite (off_full M (fun i j => d (ix t i) (ix t j)) c) by auto. reflexivity.
Qed.
(** the distance forms *)
Lemma avg_kfair : (forall i, d i i = 0) -> avg N M (fun t => k_fair M (fun k => E (ix t k)) (fun i j => d (ix t i) (ix t j))) = k_exact N E d.
Proof.
  intros H. unfold k_fair, k_exact.
  transitivity (avg N M (fun t => / INR M * sumn M (fun k => E (ix t k)) + (- / (2 * INR M * (INR M - 1))) * sumn M (fun i => sumn M (fun j => d (ix t i) (ix t j))))).
  { apply avg_ext; intros; unfold Rdiv; ring. }
  rewrite (avg_plus N M), !avg_scal, avg_first, (avg_full 0 H). unfold dbar. field. repeat split; auto; lra.
Qed.
Lemma avg_klag g : (forall k, (k < M)%nat -> (g k < M)%nat /\ g k <> k) ->
  avg N M (fun t => k_lag M g (fun k => E (ix t k)) (fun i j => d (ix t i) (ix t j))) = k_exact N E d.
Proof.
  intros G. unfold k_lag, k_exact.
  transitivity (avg N M (fun t => / INR M * sumn M (fun k => E (ix t k)) + (- / (2 * INR M)) * sumn M (fun i => d (ix t i) (ix t (g i))))).
  { apply avg_ext; intros; unfold Rdiv; ring. }
  rewrite (avg_plus N M), !avg_scal, avg_first, (avg_lagd g G). unfold dbar. field. repeat split; auto; lra.
Qed.
Lemma avg_kexact : (forall i, d i i = 0) -> avg N M (fun t => k_exact M (fun k => E (ix t k)) (fun i j => d (ix t i) (ix t j))) = k_exact N E d + dbar / (2 * INR M).
Proof.
  intros H. unfold k_exact.
  transitivity (avg N M (fun t => / INR M * sumn M (fun k => E (ix t k)) + (- / (2 * INR M * INR M)) * sumn M (fun i => sumn M (fun j => d (ix t i) (ix t j))))).
  { apply avg_ext; intros; unfold Rdiv; ring. }
  rewrite (avg_plus N M), !avg_scal, avg_first, (avg_full 0 H). unfold dbar. field. repeat split; auto; lra.
Qed.
(** the kernel forms *)
Lemma avg_gkfair : avg N M (fun t => gk_fair M (fun k => E (ix t k)) (fun i j => d (ix t i) (ix t j))) = gk_exact N E d.
Proof.
  unfold gk_fair, gk_exact.
  transitivity (avg N M (fun t => / 2 + ((- / INR M) * sumn M (fun k => E (ix t k)) + / (2 * INR M * (INR M - 1)) * offdiag M (fun i j => d (ix t i) (ix t j))))).
  { apply avg_ext; intros; unfold Rdiv; ring. }
  rewrite !(avg_plus N M), (avg_const N HN), !avg_scal, avg_first, avg_off. unfold dbar. field. repeat split; auto; lra.
Qed.
Lemma avg_gklag g : (forall k, (k < M)%nat -> (g k < M)%nat /\ g k <> k) ->
  avg N M (fun t => gk_lag M g (fun k => E (ix t k)) (fun i j => d (ix t i) (ix t j))) = gk_exact N E d.
Proof.
  intros G. unfold gk_lag, gk_exact.
  transitivity (avg N M (fun t => / 2 + ((- / INR M) * sumn M (fun k => E (ix t k)) + / (2 * INR M) * sumn M (fun i => d (ix t i) (ix t (g i)))))).
  { apply avg_ext; intros; unfold Rdiv; ring. }
  rewrite !(avg_plus N M), (avg_const N HN), !avg_scal, avg_first, (avg_lagd g G). unfold dbar. field. repeat split; auto; lra.
Qed.
Lemma avg_gkexact : (forall i, d i i = 1) -> avg N M (fun t => gk_exact M (fun k => E (ix t k)) (fun i j => d (ix t i) (ix t j))) = gk_exact N E d + (1 - dbar) / (2 * INR M).
Proof.
  intros H. unfold gk_exact.
  transitivity (avg N M (fun t => / 2 + ((- / INR M) * sumn M (fun k => E (ix t k)) + / (2 * INR M * INR M) * sumn M (fun i => sumn M (fun j => d (ix t i) (ix t j)))))).
  { apply avg_ext; intros; unfold Rdiv; ring. }
  rewrite !(avg_plus N M), (avg_const N HN), !avg_scal, avg_first, (avg_full 1 H). unfold dbar. field. repeat split; auto; lra.
Qed.
End K.
Lemma crps_k M y x : exact_crps M y x = k_exact M (fun i => Rabs (x i - y)) (fun i j => Rabs (x i - x j)).
Proof. reflexivity. Qed.
Lemma fair_k M y x : fair_crps M y x = k_fair M (fun i => Rabs (x i - y)) (fun i j => Rabs (x i - x j)).
Proof. reflexivity. Qed.
Lemma lag_k M g y x : (0 < M)%nat -> lag_crps M g y x = k_lag M g (fun i => Rabs (x i - y)) (fun i j => Rabs (x i - x j)).
Proof. intros HM. pose proof (INR_nz M HM). unfold lag_crps, k_lag, mae. field; auto. Qed.
Lemma vs_k D h p M y x : (0 < M)%nat -> vs_score D h p M (fun _ => / INR M) y x = k_exact M (fun k => vdist D h p (x k) y) (fun k l => vdist D h p (x k) (x l)).
Proof. intros HM. rewrite vs_score_kernel; [now apply k_exact_unif|]. rewrite sumn_const. apply Rinv_r, INR_nz, HM. Qed.
Lemma real_un_avg N M y v e : (0 < N)%nat -> (1 < M)%nat -> In e [Fair; Pwm; Akr; Circ] -> avg N M (fun t => real_un e M y (fun k => v (ix t k))) = exact_crps N y v.
Proof.
  intros HN HM He. rewrite crps_k. set (E := fun i => Rabs (v i - y)). set (d := fun i j => Rabs (v i - v j)).
  assert (d0 : forall i, d i i = 0) by (intros; unfold d; now rewrite Rminus_eq_0, Rabs_R0).
  destruct He as [<-|[<-|[<-|[<-|[]]]]]; cbn [real_un].
  - exact (avg_kfair N M E d HN HM d0).
  - exact (avg_kfair N M E d HN HM d0).
  - rewrite <- (avg_klag N M E d HN HM (lag1 M) (fun k => lag1_other M k HM)). apply avg_ext; intros. apply lag_k; lia.
  - rewrite <- (avg_klag N M E d HN HM (lagc M) (fun k => lagc_other M k HM)). apply avg_ext; intros. apply lag_k; lia.
Qed.
