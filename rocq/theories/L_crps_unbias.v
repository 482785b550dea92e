(** Averages over all samples drawn with replacement from a finite population. *)
From Verif Require Export L_crps_call S_sample.
Open Scope R_scope.

Section Avg.
Variable N : nat.
Hypothesis HN : (0 < N)%nat.
Let Nz := INR_nz N HN.
Lemma samples_length M : INR (length (samples N M)) = INR N ^ M.
Proof.
  induction M as [|M IH]; [reflexivity|]. cbn [samples].
  assert (A : forall l : list (list nat), length (flat_map (fun t => map (fun i => i :: t) (seq 0 N)) l) = (N * length l)%nat).
  { induction l; simpl; [lia|]. rewrite app_length, map_length, seq_length, IHl. lia. }
  rewrite A, mult_INR, IH. reflexivity.
Qed.
Lemma samples_len_pos M : INR (length (samples N M)) <> 0.
Proof. rewrite samples_length. now apply pow_nonzero. Qed.
Lemma in_samples M t : In t (samples N M) -> length t = M /\ forall k, (k < M)%nat -> (nth k t 0 < N)%nat.
Proof.
  revert t; induction M as [|M IH]; intros t H; cbn [samples] in H.
  - destruct H as [<-|[]]. split; auto. intros; lia.
  - apply in_flat_map in H. destruct H as (u & Hu & H). apply in_map_iff in H. destruct H as (i & <- & Hi).
    apply in_seq in Hi. destruct (IH u Hu) as [L B]. split; [simpl; congruence|].
    intros [|k] Hk; simpl; [lia|apply B; lia].
Qed.
Definition avg (M : nat) (F : list nat -> R) : R := average F (samples N M).
Lemma avg_S M F : avg (S M) F = avg M (fun t => sumn N (fun i => F (i :: t)) / INR N).
Proof.
  unfold avg, average. rewrite !samples_length. cbn [samples pow].
  rewrite map_flat_map, Rsum_flat_map.
  rewrite (Rsum_map_ext (fun t => sumn N (fun i => F (i :: t)) / INR N) (fun t => / INR N * sumn N (fun i => F (i :: t))))
    by (intros; unfold Rdiv; ring).
  rewrite Rsum_map_scal.
  rewrite (Rsum_map_ext (fun a => Rsum (map F (map (fun i => i :: a) (seq 0 N)))) (fun t => sumn N (fun i => F (i :: t))))
    by (intros; now rewrite map_map).
  field. split; auto. now apply pow_nonzero.
Qed.
Lemma avg_ext M F G : (forall t, In t (samples N M) -> F t = G t) -> avg M F = avg M G.
Proof. intros H. unfold avg, average. f_equal. now apply Rsum_map_ext. Qed.
Lemma avg_plus M F G : avg M (fun t => F t + G t) = avg M F + avg M G.
Proof. unfold avg, average. rewrite Rsum_map_plus. unfold Rdiv; ring. Qed.
Lemma avg_scal M c F : avg M (fun t => c * F t) = c * avg M F.
Proof. unfold avg, average. rewrite Rsum_map_scal. unfold Rdiv; ring. Qed.
Lemma avg_const M c : avg M (fun _ => c) = c.
Proof.
  unfold avg, average.
  rewrite (Rsum_map_ext (fun _ => c) (fun _ => c * 1)) by (intros; ring). rewrite Rsum_map_scal.
  replace (Rsum (map (fun _ => 1) (samples N M))) with (INR (length (samples N M))).
  - field. apply samples_len_pos.
  - induction (samples N M); [reflexivity|]. cbn [map length]. rewrite Rsum_cons, <- IHl, S_INR. ring.
Qed.
Lemma avg_sumn M n (F : nat -> list nat -> R) : avg M (fun t => sumn n (fun k => F k t)) = sumn n (fun k => avg M (F k)).
Proof.
  induction n; [rewrite sumn_0; transitivity (avg M (fun _ => 0)); [now apply avg_ext|apply avg_const]|].
  rewrite sumn_S, <- IHn, <- avg_plus. apply avg_ext; intros. now rewrite sumn_S.
Qed.
Lemma avg_one M k f : (k < M)%nat -> avg M (fun t => f (nth k t 0%nat)) = sumn N f / INR N.
Proof.
  revert k; induction M as [|M IH]; intros k Hk; [lia|]. rewrite avg_S. destruct k as [|k].
  - simpl. apply avg_const.
  - rewrite <- (IH k) by lia. apply avg_ext; intros t _. simpl. rewrite sumn_const. now field.
Qed.
Lemma avg_two M k l (h : nat -> nat -> R) : (k < M)%nat -> (l < M)%nat -> k <> l ->
  avg M (fun t => h (nth k t 0%nat) (nth l t 0%nat)) = sumn N (fun i => sumn N (fun j => h i j)) / (INR N * INR N).
Proof.
  revert k l; induction M as [|M IH]; intros k l Hk Hl Nkl; [lia|]. rewrite avg_S. destruct k as [|k], l as [|l]; try lia.
  - simpl. rewrite (avg_one M l (fun j => sumn N (fun i => h i j) / INR N)) by lia.
    rewrite sumn_div, (sumn_swap N N h). field; auto.
  - simpl. rewrite (avg_one M k (fun i => sumn N (fun j => h i j) / INR N)) by lia.
    rewrite sumn_div. field; auto.
  - rewrite <- (IH k l) by lia. apply avg_ext; intros t _. simpl. rewrite sumn_const. now field.
Qed.
Variables (y : R) (v : nat -> R).
Lemma avg_mae M : (0 < M)%nat -> avg M (fun t => mae M y (fun k => v (nth k t 0%nat))) = mae N y v.
Proof.
  intros HM. pose proof (INR_nz M HM). unfold mae.
  transitivity (avg M (fun t => / INR M * sumn M (fun i => Rabs (v (nth i t 0%nat) - y)))).
  { apply avg_ext; intros; unfold Rdiv; ring. }
  rewrite avg_scal, avg_sumn.
  rewrite (sumn_ext M _ (fun _ => sumn N (fun i => Rabs (v i - y)) / INR N))
    by (intros k Hk; apply (avg_one M k (fun i => Rabs (v i - y)) Hk)).
  rewrite sumn_const. field; auto.
Qed.
Lemma avg_pairsum M : (0 < M)%nat -> avg M (fun t => pairsum M (fun k => v (nth k t 0%nat))) =
  INR M * (INR M - 1) * (pairsum N v / (INR N * INR N)).
Proof.
  intros HM. unfold pairsum at 1. rewrite avg_sumn.
  rewrite (sumn_ext M _ (fun i => (INR M - 1) * (pairsum N v / (INR N * INR N)))).
  - rewrite sumn_const. ring.
  - intros i Hi. rewrite avg_sumn.
    rewrite (sumn_ext M _ (fun j => pairsum N v / (INR N * INR N) - (if Nat.eq_dec j i then pairsum N v / (INR N * INR N) else 0))).
    + rewrite sumn_minus, sumn_const, sumn_delta by auto. ring.
    + intros j Hj. destruct (Nat.eq_dec j i) as [->|Nij].
      * rewrite Rminus_eq_0. transitivity (avg M (fun _ => 0)); [apply avg_ext; intros; now rewrite Rminus_eq_0, Rabs_R0|].
        apply avg_const.
      * rewrite Rminus_0_r. apply (avg_two M i j (fun a b => Rabs (v a - v b))); auto.
Qed.
Lemma avg_fair M : (1 < M)%nat -> avg M (fun t => fair_crps M y (fun k => v (nth k t 0%nat))) = exact_crps N y v.
Proof.
  intros HM. pose proof (INR_ge2 M HM). unfold fair_crps, exact_crps.
  transitivity (avg M (fun t => mae M y (fun k => v (nth k t 0%nat)) +
    (- / (2 * INR M * (INR M - 1))) * pairsum M (fun k => v (nth k t 0%nat)))).
  { apply avg_ext; intros; unfold Rdiv; ring. }
  rewrite avg_plus, avg_scal, avg_mae, avg_pairsum by lia. field. repeat split; auto; lra.
Qed.
Lemma avg_exact M : (0 < M)%nat -> avg M (fun t => exact_crps M y (fun k => v (nth k t 0%nat))) =
  exact_crps N y v + pairsum N v / (INR N * INR N) / (2 * INR M).
Proof.
  intros HM. pose proof (INR_nz M HM). unfold exact_crps.
  transitivity (avg M (fun t => mae M y (fun k => v (nth k t 0%nat)) +
    (- / (2 * INR M * INR M)) * pairsum M (fun k => v (nth k t 0%nat)))).
  { apply avg_ext; intros; unfold Rdiv; ring. }
  rewrite avg_plus, avg_scal, avg_mae, avg_pairsum by lia. field. auto.
Qed.
End Avg.
