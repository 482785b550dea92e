(** Rounding errors. *)
From Coq Require Import Reals List ZArith Permutation Lia Lra Psatz.
From Flocq Require Import Core Plus_error Relative.
From Verif Require Import L_crps_row.
From Verif Require Export S_round.
Open Scope R_scope.

Local Notation fmt := (generic_format radix2 (FLT_exp (-1074) 53)).
Local Notation bp := (bpow radix2).
Local Instance prec53 : Prec_gt_0 53. Proof. reflexivity. Qed.

Lemma bp_pow e : bp e = powerRZ 2 e.
Proof. apply (bpow_powerRZ radix2). Qed.
Lemma is64_fmt x : is64 x <-> fmt x.
Proof.
  split.
  - intros (m & e & -> & Hm & He). apply generic_format_FLT. exists (Float radix2 m e); simpl; auto. unfold F2R. simpl. now rewrite bp_pow.
  - intros H. apply FLT_format_generic in H; [|exact prec53]. destruct H as [[m e] E Hm He]. exists m, e. simpl in *. rewrite E. unfold F2R. simpl. rewrite bp_pow. auto.
Qed.
Lemma u64_bp : u64 = bp (-53).
Proof. unfold u64. change (-53)%Z with (- (53))%Z. now rewrite bpow_opp, bp_pow. Qed.
Lemma u64_ro : u64 = u_ro radix2 53.
Proof. rewrite u64_bp. unfold u_ro. rewrite bpow_plus. change (bp 1) with 2. change (- (53))%Z with (-53)%Z. field. Qed.
Lemma u64_pos : 0 < u64 < / 4.
Proof. rewrite u64_bp. split; [apply bpow_gt_0|]. replace (/ 4) with (bp (-2)) by (simpl; lra). apply bpow_lt. reflexivity. Qed.
Lemma b64_fmt x : fmt (b64 x). Proof. unfold b64. apply generic_format_round; typeclasses eauto. Qed.
Lemma b64_id x : fmt x -> b64 x = x. Proof. intros. unfold b64. apply round_generic; auto. typeclasses eauto. Qed.
Lemma b64_le x y : x <= y -> b64 x <= b64 y. Proof. intros. unfold b64. apply round_le; auto; typeclasses eauto. Qed.
Lemma fmt_0 : fmt 0. Proof. apply generic_format_0. Qed.
Lemma b64_0 : b64 0 = 0. Proof. apply b64_id, fmt_0. Qed.
Lemma b64_opp x : b64 (- x) = - b64 x. Proof. unfold b64. now rewrite round_NE_opp. Qed.
Lemma fmt_opp x : fmt x -> fmt (- x). Proof. apply generic_format_opp. Qed.
Lemma fmt_abs x : fmt x -> fmt (Rabs x). Proof. apply generic_format_abs. Qed.
Lemma b64_ge0 x : 0 <= x -> 0 <= b64 x. Proof. intros. rewrite <- b64_0. now apply b64_le. Qed.
Lemma b64_ge_fmt x f : fmt f -> f <= x -> f <= b64 x. Proof. intros F L. rewrite <- (b64_id f F). now apply b64_le. Qed.
Lemma b64_le_fmt x f : fmt f -> x <= f -> b64 x <= f. Proof. intros F L. rewrite <- (b64_id f F). now apply b64_le. Qed.
Lemma fmt_bp e : (-1074 <= e)%Z -> fmt (bp e).
Proof. intros. apply generic_format_FLT. exists (Float radix2 1 e); simpl; [unfold F2R; simpl; ring|lia|lia]. Qed.
Lemma fmt_int z : (Z.abs z <= 2 ^ 53)%Z -> fmt (IZR z).
Proof.
  intros H. destruct (Z.eq_dec (Z.abs z) (2 ^ 53)) as [E|E].
  - destruct (Z.abs_spec z) as [[_ A]|[_ A]]; rewrite A in E.
    + rewrite E, (IZR_Zpower radix2) by lia. apply fmt_bp. lia.
    + replace (IZR z) with (- bp 53); [apply fmt_opp, fmt_bp; lia|]. rewrite <- (IZR_Zpower radix2) by lia. rewrite <- opp_IZR. f_equal. simpl radix_val in *. lia.
  - apply generic_format_FLT. exists (Float radix2 z 0); simpl; [unfold F2R; simpl; ring|lia|lia].
Qed.
Lemma fmt_half z : (Z.abs z < 2 ^ 53)%Z -> fmt (IZR z / 2).
Proof. intros H. apply generic_format_FLT. exists (Float radix2 z (-1)); simpl; [unfold F2R; simpl; unfold Rdiv; reflexivity|lia|lia]. Qed.
Lemma fmt_double x : fmt x -> fmt (2 * x).
Proof.
  intros H. apply is64_fmt in H. destruct H as (m & e & -> & Hm & He). apply is64_fmt. exists m, (e + 1)%Z. split; [|split; [exact Hm|lia]].
  rewrite powerRZ_add by lra. simpl. ring.
Qed.
Lemma b64_nearest x z : fmt z -> Rabs (b64 x - x) <= Rabs (z - x).
Proof. intros Hz. apply (round_N_pt radix2 (FLT_exp (-1074) 53) (fun x => negb (Z.even x)) x). exact Hz. Qed.
(** relative errors *)
Lemma b64_plus a b : fmt a -> fmt b -> Rabs (b64 (a + b) - (a + b)) <= u64 * Rabs (a + b).
Proof.
  intros Ha Hb. destruct (FLT_plus_error_N_ex radix2 (-1074) 53 (fun x => negb (Z.even x)) a b Ha Hb) as (eps & He & E).
  unfold b64. rewrite E. replace ((a + b) * (1 + eps) - (a + b)) with (eps * (a + b)) by ring. rewrite Rabs_mult.
  apply Rmult_le_compat_r; [apply Rabs_pos|]. rewrite <- u64_ro in He. pose proof u64_pos. eapply Rle_trans; [exact He|].
  apply (Rmult_le_reg_r (1 + u64)); [lra|]. unfold Rdiv. rewrite Rmult_assoc, Rinv_l by lra. nra.
Qed.
Lemma b64_minus a b : fmt a -> fmt b -> Rabs (b64 (a - b) - (a - b)) <= u64 * Rabs (a - b).
Proof. intros Ha Hb. apply (b64_plus a (- b) Ha (fmt_opp b Hb)). Qed.
Lemma b64_norm x : bp (-1022) <= Rabs x -> Rabs (b64 x - x) <= u64 * Rabs x.
Proof. intros H. rewrite u64_ro. apply (relative_error_N_FLT radix2 (-1074) 53 eq_refl (fun x => negb (Z.even x)) x). exact H. Qed.

(** ** numbers that are not negative *)
Definition big (p : Z) (x : R) : Prop := x = 0 \/ bp (- p) <= x.
Lemma big_ge0 p x : big p x -> 0 <= x.
Proof. intros [->|H]; [lra|]. eapply Rle_trans; [apply bpow_ge_0|exact H]. Qed.
Lemma big_le p q x : (p <= q)%Z -> big p x -> big q x.
Proof. intros L [H|H]; [now left|right]. eapply Rle_trans; [apply bpow_le|exact H]. lia. Qed.
Lemma big_rnd p x : (p <= 1074)%Z -> big p x -> big p (b64 x).
Proof. intros L [->|H]; [left; apply b64_0|right]. apply b64_ge_fmt; [apply fmt_bp; lia|exact H]. Qed.
Lemma big_err p x : (p <= 1022)%Z -> big p x -> Rabs (b64 x - x) <= u64 * x.
Proof.
  intros L H. pose proof (big_ge0 _ _ H). destruct H as [->|H]; [rewrite b64_0, Rminus_0_r, Rabs_R0; lra|].
  rewrite <- (Rabs_pos_eq x) at 3 by auto. apply b64_norm. rewrite Rabs_pos_eq by auto. eapply Rle_trans; [apply bpow_le|exact H]. lia.
Qed.
Lemma big_add p x y : big p x -> big p y -> big p (x + y).
Proof.
  intros Hx Hy. pose proof (big_ge0 _ _ Hx). pose proof (big_ge0 _ _ Hy). destruct Hx as [->|Hx]; [now rewrite Rplus_0_l|].
  right. lra.
Qed.
Lemma big_scal p q c x : bp (- q) <= c -> big p x -> big (p + q) (c * x).
Proof.
  intros Hc [->|Hx]; [left; ring|right]. replace (- (p + q))%Z with (- q + - p)%Z by lia. rewrite bpow_plus.
  apply Rmult_le_compat; auto; apply bpow_ge_0.
Qed.
(** ** [within] *)
Lemma u1 : 0 < 1 - u64. Proof. pose proof u64_pos. lra. Qed.
Lemma pow_lo k : 0 < (1 - u64) ^ k <= 1.
Proof. pose proof u64_pos. split; [apply pow_lt; lra|]. pose proof (pow_incr (1 - u64) 1 k) as H1. rewrite pow1 in H1. apply H1. lra. Qed.
Lemma pow_hi k : 1 <= (1 + u64) ^ k.
Proof. pose proof u64_pos. apply pow_R1_Rle. lra. Qed.
Lemma within_0 X : within 0 X X. Proof. unfold within. simpl. lra. Qed.
Lemma within_le k l x X : (k <= l)%nat -> 0 <= X -> within k x X -> within l x X.
Proof.
  intros L HX [H1 H2]. pose proof u64_pos. replace l with (k + (l - k))%nat by lia. unfold within. rewrite !pow_add.
  pose proof (pow_lo k). pose proof (pow_lo (l - k)). pose proof (pow_hi k). pose proof (pow_hi (l - k)). split.
  - eapply Rle_trans; [|exact H1]. apply Rmult_le_compat_l; auto. nra.
  - eapply Rle_trans; [exact H2|]. apply Rmult_le_compat_l; auto. nra.
Qed.
Lemma within_rnd k x X : 0 <= x -> 0 <= X -> within k x X -> Rabs (b64 x - x) <= u64 * x -> within (S k) (b64 x) X.
Proof.
  intros H0 HX [H1 H2] He. apply Rabs_le_inv in He. pose proof u64_pos. pose proof (pow_lo k). pose proof (pow_hi k). unfold within. simpl. split; nra.
Qed.
Lemma within_add k x X y Y : within k x X -> within k y Y -> within k (x + y) (X + Y).
Proof. unfold within. lra. Qed.
Lemma within_scal k c x X : 0 <= c -> within k x X -> within k (c * x) (c * X).
Proof. unfold within. intros Hc [H1 H2]. split; rewrite Rmult_assoc; now apply Rmult_le_compat_l. Qed.
Lemma within_mul k l x X y Y : 0 <= X -> 0 <= Y -> within k x X -> within l y Y -> within (k + l) (x * y) (X * Y).
Proof.
  unfold within. intros HX HY [H1 H2] [H3 H4]. rewrite !pow_add. pose proof (pow_lo k). pose proof (pow_lo l). pose proof (pow_hi k). pose proof (pow_hi l).
  split.
  - replace (X * Y * ((1 - u64) ^ k * (1 - u64) ^ l)) with (X * (1 - u64) ^ k * (Y * (1 - u64) ^ l)) by ring. apply Rmult_le_compat; auto; apply Rmult_le_pos; lra.
  - replace (X * Y * ((1 + u64) ^ k * (1 + u64) ^ l)) with (X * (1 + u64) ^ k * (Y * (1 + u64) ^ l)) by ring.
    apply Rmult_le_compat; auto; (eapply Rle_trans; [|eassumption]); apply Rmult_le_pos; lra.
Qed.
Lemma within_ge0 k x X : 0 <= X -> within k x X -> 0 <= x.
Proof. intros HX [H _]. pose proof (pow_lo k). eapply Rle_trans; [|exact H]. apply Rmult_le_pos; lra. Qed.
Lemma bern k : 1 - INR k * u64 <= (1 - u64) ^ k.
Proof.
  pose proof u64_pos. induction k; [simpl; lra|]. rewrite S_INR. cbn [pow]. pose proof (pow_lo k). pose proof (pos_INR k). nra.
Qed.
Lemma bern2 k : 1 + INR k * u64 <= (1 + u64) ^ k.
Proof.
  pose proof u64_pos. induction k; [simpl; lra|]. rewrite S_INR. cbn [pow]. pose proof (pow_hi k). pose proof (pos_INR k). nra.
Qed.
Lemma within_abs k x X : 0 <= X -> within k x X -> Rabs (x - X) <= ((1 + u64) ^ k - 1) * X.
Proof.
  intros HX [H1 H2]. pose proof (bern k). pose proof (bern2 k). apply Rabs_le. split; nra.
Qed.
(** ** a number computed with at most k roundings, not negative *)
Definition calc (k : nat) (p : Z) (x X : R) : Prop := fmt x /\ 0 <= X /\ within k x X /\ big p x.
Lemma calc_exact p x : fmt x -> big p x -> calc 0 p x x.
Proof. intros F B. split; [exact F|]. split; [eapply big_ge0, B|]. split; [apply within_0|exact B]. Qed.
Lemma calc_le k l p q x X : (k <= l)%nat -> (p <= q)%Z -> calc k p x X -> calc l q x X.
Proof. intros L L' (F & P & W & B). split; [exact F|]. split; [exact P|]. split; [now apply (within_le k)|now apply (big_le p)]. Qed.
Lemma calc_add k p x X y Y : (p <= 1074)%Z -> calc k p x X -> calc k p y Y -> calc (S k) p (b64 (x + y)) (X + Y).
Proof.
  intros L (F & P & W & B) (F' & P' & W' & B'). split; [apply b64_fmt|]. split; [lra|].
  pose proof (big_ge0 _ _ B). pose proof (big_ge0 _ _ B'). split; [|apply big_rnd; [exact L|now apply big_add]].
  apply within_rnd; [lra|lra|now apply within_add|]. pose proof (b64_plus x y F F') as E. rewrite (Rabs_pos_eq (x + y)) in E by lra. exact E.
Qed.
Lemma calc_add0 k p x X : calc k p x X -> calc k p (b64 (x + 0)) (X + 0) /\ calc k p (b64 (0 + x)) (0 + X).
Proof. intros H. rewrite !Rplus_0_r, !Rplus_0_l. destruct H as (F & H). rewrite b64_id by exact F. split; split; auto. Qed.
Lemma calc_scal k p q r c x X : bp (- q) <= c -> (p + q <= r)%Z -> (r <= 1022)%Z -> calc k p x X -> calc (S k) r (b64 (c * x)) (c * X).
Proof.
  intros Hc L L' (F & P & W & B). pose proof (bpow_ge_0 radix2 (- q)). pose proof (big_ge0 _ _ B).
  assert (big r (c * x)) as B' by (eapply big_le; [exact L|now apply big_scal]).
  split; [apply b64_fmt|]. split; [apply Rmult_le_pos; lra|]. split; [|apply big_rnd; [lia|exact B']].
  apply within_rnd; [apply Rmult_le_pos; lra|apply Rmult_le_pos; lra|apply within_scal; [lra|exact W]|apply (big_err r); auto].
Qed.
Lemma calc_mul k l p q r x X y Y : (p + q <= r)%Z -> (r <= 1022)%Z -> calc k p x X -> calc l q y Y -> calc (S (k + l)) r (b64 (x * y)) (X * Y).
Proof.
  intros L L' (F & P & W & B) (F' & P' & W' & B'). pose proof (big_ge0 _ _ B). pose proof (big_ge0 _ _ B').
  assert (big r (x * y)) as C.
  { destruct B' as [->|B']; [left; ring|]. eapply big_le; [exact L|]. rewrite Rmult_comm. now apply big_scal. }
  split; [apply b64_fmt|]. split; [now apply Rmult_le_pos|]. split; [|apply big_rnd; [lia|exact C]].
  apply within_rnd; [now apply Rmult_le_pos|now apply Rmult_le_pos|now apply within_mul|apply (big_err r); auto].
Qed.
Lemma calc_div k p q r (n : nat) x X : (0 < n)%nat -> (Z.of_nat n <= 2 ^ q)%Z -> (0 <= q)%Z -> (p + q <= r)%Z -> (r <= 1022)%Z -> calc k p x X ->
  calc (S k) r (b64 (x / INR n)) (X / INR n).
Proof.
  intros Hn Hq Hq0 L L' H. unfold Rdiv. rewrite (Rmult_comm x), (Rmult_comm X). apply (calc_scal k p q r); auto.
  rewrite bpow_opp. apply Rinv_le; [now apply lt_0_INR|]. rewrite <- (IZR_Zpower radix2) by lia. rewrite INR_IZR_INZ. apply IZR_le. exact Hq.
Qed.
Lemma bp_inv e : / 2 ^ e = bp (Z.opp (Z.of_nat e)).
Proof. now rewrite bpow_opp, bp_pow, pow_powerRZ. Qed.
Lemma b64_abs x : b64 (Rabs x) = Rabs (b64 x).
Proof. unfold b64. apply round_NE_abs. typeclasses eauto. Qed.
Lemma calc_sub e a b : (e <= 1022)%nat -> fmt a -> fmt b -> apart e a b -> calc 1 (Z.of_nat e) (Rabs (b64 (a - b))) (Rabs (a - b)).
Proof.
  intros He Fa Fb H. rewrite <- b64_abs. assert (big (Z.of_nat e) (Rabs (a - b))) as B.
  { destruct H as [->|H]; [left; rewrite Rminus_eq_0; apply Rabs_R0|right; rewrite <- bp_inv; exact H]. }
  split; [apply b64_fmt|]. split; [apply Rabs_pos|]. split; [|apply big_rnd; [lia|exact B]].
  apply within_rnd; [apply Rabs_pos|apply Rabs_pos|apply within_0|]. apply (big_err (Z.of_nat e)); [lia|exact B].
Qed.
(** ** sums *)
Lemma tsum_calc t k p a A : (p <= 1074)%Z -> (forall i, In i (leaves t) -> calc k p (a i) (A i)) ->
  calc (k + height t) p (tsum b64 t a) (Rsum (map A (leaves t))).
Proof.
  intros L. induction t as [i|t1 IH1 t2 IH2]; intros H; simpl.
  - unfold Rsum; simpl. rewrite Rplus_0_r. apply (calc_le k _ p p); [lia|lia|]. apply H. now left.
  - rewrite map_app, Rsum_app. rewrite Nat.add_succ_r. apply calc_add; [exact L| |].
    + eapply calc_le; [| |apply IH1]; [lia|lia|]. intros; apply H. simpl. apply in_or_app. now left.
    + eapply calc_le; [| |apply IH2]; [lia|lia|]. intros; apply H. simpl. apply in_or_app. now right.
Qed.
Lemma Rsum_perm l l' : Permutation l l' -> Rsum l = Rsum l'.
Proof. unfold Rsum. induction 1; simpl; lra. Qed.
Lemma tsum_n t n k p a A : (p <= 1074)%Z -> adds t n -> (forall i, (i < n)%nat -> calc k p (a i) (A i)) ->
  calc (k + height t) p (tsum b64 t a) (sumn n A).
Proof.
  intros L Ht H. unfold sumn. rewrite <- (Rsum_perm _ _ (Permutation_map A Ht)). apply tsum_calc; [exact L|].
  intros i Hi. apply H. apply (Permutation_in i Ht) in Hi. apply in_seq in Hi. lia.
Qed.
Lemma F2_impl {A B} (P Q : A -> B -> Prop) l L : (forall a b, P a b -> Q a b) -> Forall2 P l L -> Forall2 Q l L.
Proof. intros H. induction 1; constructor; auto. Qed.
Lemma lsum_calc_from l L k p acc ACC : (p <= 1074)%Z -> Forall2 (calc k p) l L -> calc k p acc ACC ->
  calc (k + length l) p (fold_left (radd b64) l acc) (ACC + Rsum L).
Proof.
  intros Hp H. revert k L acc ACC H. induction l as [|x l IH]; intros k L acc ACC H HA; inversion H; subst; simpl.
  - unfold Rsum; simpl. rewrite Rplus_0_r. now rewrite Nat.add_0_r.
  - rewrite Nat.add_succ_r, <- Nat.add_succ_l. change (Rsum (y :: l')) with (y + Rsum l'). rewrite <- Rplus_assoc. apply IH.
    + eapply F2_impl; [|eassumption]. intros u v Hu. eapply calc_le; [| |exact Hu]; lia.
    + now apply calc_add.
Qed.
Lemma lsum_calc l L k p : (p <= 1074)%Z -> Forall2 (calc k p) l L -> calc (k + length l) p (lsum b64 l) (Rsum L).
Proof.
  intros Hp H. unfold lsum. rewrite <- (Rplus_0_l (Rsum L)). apply lsum_calc_from; auto.
  apply (calc_le 0 k p p); [lia|lia|]. apply calc_exact; [apply fmt_0|now left].
Qed.
(** ** the difference of two computed numbers *)
Lemma diff_err k l p q x X y Y : calc k p x X -> calc l q y Y ->
  Rabs (b64 (x - y) - (X - Y)) <= ((1 + u64) ^ S k - 1) * X + ((1 + u64) ^ S l - 1) * Y.
Proof.
  intros (F & P & W & B) (F' & P' & W' & B'). pose proof (b64_minus x y F F') as E.
  apply within_abs in W; [|exact P]. apply within_abs in W'; [|exact P']. pose proof u64_pos as U.
  assert (Rabs (x - y) <= (1 + u64) ^ k * X + (1 + u64) ^ l * Y) as A.
  { pose proof (Rabs_triang (x - X) (X - y)). pose proof (big_ge0 _ _ B). pose proof (big_ge0 _ _ B').
    apply Rabs_le. apply Rabs_le_inv in W. apply Rabs_le_inv in W'. split; lra. }
  replace (b64 (x - y) - (X - Y)) with ((b64 (x - y) - (x - y)) + ((x - X) - (y - Y))) by ring.
  eapply Rle_trans; [apply Rabs_triang|].
  assert (Rabs (x - X - (y - Y)) <= ((1 + u64) ^ k - 1) * X + ((1 + u64) ^ l - 1) * Y) as A2.
  { apply Rabs_le. apply Rabs_le_inv in W. apply Rabs_le_inv in W'. split; lra. }
  cbn [pow]. nra.
Qed.
