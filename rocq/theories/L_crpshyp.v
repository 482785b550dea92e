(** The CRPS of a distribution on 0..n, and the score of the hypergeometric distribution. *)
From Verif Require Export L_count M_closed L_closed.
From Coq Require Import Psatz Lia.
From Coquelicot Require Import Coquelicot.
Open Scope R_scope.

Section fin.
Variables (p : nat -> R) (n : nat) (y : R).
Hypothesis Hp : pmf p.
Hypothesis Hn : forall k, (n < k)%nat -> p k = 0.
Let F k := sumn (S k) p.
Lemma F_tail k : (n <= k)%nat -> F k = 1.
Proof.
  intros Hk. assert (F k = F n) as ->. { induction Hk; auto. unfold F in *. rewrite sumn_S, IHHk, Hn by lia. ring. }
  destruct Hp as [_ H]. pose proof (series_fin p (S n) ltac:(intros; apply Hn; lia)) as K. apply is_series_unique in K. apply is_series_unique in H. unfold F. lra.
Qed.
Definition gt_ind (k : nat) : R := if Rlt_dec y (INR k) then 1 else 0.
Lemma below N : (fl y < N)%nat -> sumn N (fun k => (1 - gt_ind k) * p k * (y - INR k)) = stepP F y.
Proof.
  intros HN. unfold stepP. destruct (Rlt_dec y 0) as [L|L].
  - rewrite (sumn_ext N _ (fun _ => 0)); [apply sumn_zero|]. intros k _. unfold gt_ind. pose proof (pos_INR k). destruct (Rlt_dec y (INR k)); [ring|lra].
  - pose proof (fl_spec y ltac:(lra)) as B. induction HN as [|N HN IH].
    + assert (forall m, (m <= fl y)%nat -> sumn (S m) (fun k => (1 - gt_ind k) * p k * (y - INR k)) = sumn m F + (y - INR m) * F m) as K; [|now apply K].
      induction m as [|m IH]; intros Hm.
      * rewrite sumn_S, !sumn_0. unfold F. rewrite sumn_S, sumn_0. unfold gt_ind. simpl. destruct (Rlt_dec y 0); [lra|ring].
      * rewrite sumn_S, IH by lia. rewrite sumn_S. unfold gt_ind. apply le_INR in Hm. destruct (Rlt_dec y (INR (S m))); [lra|]. unfold F. rewrite (sumn_S (S m)). rewrite S_INR. ring.
    + rewrite sumn_S, IH. unfold gt_ind. assert (fl y < N)%nat as HN' by lia. apply le_INR in HN'. rewrite S_INR in HN'. destruct (Rlt_dec y (INR N)); [ring|lra].
Qed.
Lemma fin_id N : sumn (S N) (fun k => 2 * (p k * (- F k + p k / 2) * (INR k - y))) + 2 * sumn (S N) (fun k => p k * (INR k - y)) =
  2 * (F N * (INR N - y)) - 2 * sumn N F + sumn N (fun k => F k ^ 2) - F N ^ 2 * (INR N - y).
Proof.
  induction N as [|N IH].
  - rewrite !sumn_S, !sumn_0. unfold F. rewrite !sumn_S, !sumn_0. simpl. field.
  - rewrite (sumn_S (S N)), (sumn_S (S N) (fun k => p k * (INR k - y))).
    match goal with |- ?a + ?b + 2 * (?c + ?d) = _ => replace (a + b + 2 * (c + d)) with ((a + 2 * c) + (b + 2 * d)) by ring end. rewrite IH, !(sumn_S N). unfold F. rewrite !(sumn_S (S N)). rewrite S_INR. field.
Qed.
Theorem fin_crps : is_crps (count_cdf p) y (2 * sumn (S n) (fun k => p k * (gt_ind k - F k + p k / 2) * (INR k - y))).
Proof.
  set (N := Nat.max n (fl y)).
  assert (sumn (S n) (fun k => p k * (gt_ind k - F k + p k / 2) * (INR k - y)) = sumn (S N) (fun k => p k * (gt_ind k - F k + p k / 2) * (INR k - y))) as ->.
  { assert (n <= N)%nat as L by apply Nat.le_max_l. clearbody N. induction L; auto. rewrite (sumn_S (S m)), Hn by lia. rewrite <- IHL. ring. }
  assert (n <= N)%nat as LN by apply Nat.le_max_l. assert (fl y < S N)%nat as LF by (unfold N; lia).
  assert (2 * sumn (S N) (fun k => p k * (gt_ind k - F k + p k / 2) * (INR k - y)) = 2 * stepP F y - y + sumn N (fun k => (1 - F k) ^ 2)) as ->.
  { rewrite <- (below (S N) LF). pose proof (fin_id N) as E. rewrite (F_tail N LN) in E.
    assert (sumn N (fun k => (1 - F k) ^ 2) = INR N - 2 * sumn N F + sumn N (fun k => F k ^ 2)) as ->.
    { clear. induction N as [|N IH]; [rewrite !sumn_0; simpl; ring|]. rewrite !sumn_S, IH, S_INR. ring. }
    assert (2 * sumn (S N) (fun k => p k * (gt_ind k - F k + p k / 2) * (INR k - y)) - 2 * sumn (S N) (fun k => (1 - gt_ind k) * p k * (y - INR k)) =
      sumn (S N) (fun k => 2 * (p k * (- F k + p k / 2) * (INR k - y))) + 2 * sumn (S N) (fun k => p k * (INR k - y))) as K.
    { clear. induction (S N) as [|m IH]; [rewrite !sumn_0; ring|]. rewrite !sumn_S. lra. }
    lra. }
  apply count_crps. apply (series_fin (fun k => (1 - F k) ^ 2) N). intros k Hk. rewrite F_tail by lia. simpl. ring.
Qed.
End fin.
(** * the score of the hypergeometric distribution *)
Lemma hyper_p_val a b c x : (c <= a + b)%nat -> hyper_p (nofnat x) (Fin (INR (a + b))) (Fin (INR a)) (Fin (INR c)) = Fin (hypergeometric_pmf a b c x).
Proof.
  intros H. pose proof (lt_0_INR _ (choose_pos (a + b) c H)) as Hc. unfold hyper_p. change (nofnat x) with (Fin (INR x)). pose proof (pos_INR x) as Px.
  rewrite !comb_nat. cbn [nsub nadd nmax nmin nopp]. replace (INR (a + b) + - INR a) with (INR b) by (rewrite plus_INR; ring).
  nev. unfold hypergeometric_pmf. destruct (le_dec x c) as [L|L].
  2:{ rewrite (leb_f (INR x) (Rmin _ _)) by (apply Nat.nle_gt, lt_INR in L; pose proof (Rmin_r (INR a) (INR c)); lra). rewrite andb_false_r, comb_fin. cbn [b2n]. nev. f_equal. unfold Rdiv. ring. }
  replace (INR c + - INR x) with (INR (c - x)) by (rewrite minus_INR by auto; ring). rewrite comb_nat.
  destruct (le_lt_dec x a) as [A|A].
  2:{ rewrite (leb_f (INR x) (Rmin _ _)) by (apply lt_INR in A; pose proof (Rmin_l (INR a) (INR c)); lra). rewrite andb_false_r. cbn [b2n]. nev. f_equal. rewrite (choose_out a x) by auto. simpl. unfold Rdiv. ring. }
  destruct (le_lt_dec (c - x) b) as [B|B].
  2:{ rewrite (leb_f (Rmax _ _) (INR x)). 2:{ apply lt_INR in B. rewrite minus_INR in B by auto. pose proof (Rmax_r 0 (INR c + - INR (a + b) + INR a)) as R. rewrite plus_INR in *. lra. }
      cbn [andb b2n]. nev. f_equal. rewrite (choose_out b (c - x)) by auto. simpl. unfold Rdiv. ring. }
  rewrite !leb_t.
  - cbn [andb b2n]. nev. f_equal. unfold Rdiv. ring.
  - apply Rmin_glb; now apply le_INR.
  - apply Rmax_lub; [auto|]. apply le_INR in B. rewrite minus_INR in B by auto. rewrite plus_INR. lra.
Qed.
Lemma nsum_nat N f g : (forall x, (x < N)%nat -> f x = Fin (g x)) -> nsum (map f (seq 0 N)) = Fin (sumn N g).
Proof.
  intros H. now apply nsum_sumn.
Qed.
Lemma hyper_score_val a b c y : (c <= a + b)%nat ->
  hyper_score b (Fin y) (Fin (INR a)) (Fin (INR c)) = Fin (2 * sumn (S b) (fun k => hypergeometric_pmf a b c k * (gt_ind y k - sumn (S k) (hypergeometric_pmf a b c) + hypergeometric_pmf a b c k / 2) * (INR k - y))).
Proof.
  intros H. unfold hyper_score. rewrite (nsum_nat (S b) _ (fun k => hypergeometric_pmf a b c k * (gt_ind y k - sumn (S k) (hypergeometric_pmf a b c) + hypergeometric_pmf a b c k / 2) * (INR k - y))); [nev; reflexivity|].
  intros x _. replace (nadd (Fin (INR a)) (nofnat b)) with (Fin (INR (a + b))) by (rewrite plus_INR; reflexivity). unfold hyper_F.
  rewrite (nsum_nat (S x) _ (hypergeometric_pmf a b c)) by (intros; now apply hyper_p_val). rewrite hyper_p_val by auto. change (nofnat x) with (Fin (INR x)).
  unfold gt_ind. destruct (Rlt_dec y (INR x)) as [L|L]; [rewrite ltb_t by auto|rewrite ltb_f by lra]; cbn [b2n]; nev; f_equal; unfold Rdiv; ring.
Qed.
Lemma hyper_support a b c k : (Nat.min a c < k)%nat -> hypergeometric_pmf a b c k = 0.
Proof.
  intros H. unfold hypergeometric_pmf. destruct (le_dec k c) as [L|L]; [|auto]. rewrite (choose_out a k) by lia. simpl. unfold Rdiv. ring.
Qed.
