(** Deleting members: zero weights, repeated members, nan_policy="omit"; unbiasedness. *)
From Coq Require Import FunctionalExtensionality.
From Verif Require Export L_crps_math.
Open Scope R_scope.

(** ** zero weights *)
(** [keep] lists the members that stay; the others have weight zero *)
Definition covers (M : nat) (w : nat -> R) (keep : list nat) : Prop :=
  NoDup keep /\ (forall k, In k keep -> (k < M)%nat) /\ (forall k, (k < M)%nat -> ~ In k keep -> w k = 0).
Definition kept {A} (x : nat -> A) (keep : list nat) (j : nat) : A := x (nth j keep O).

Lemma nth_seq_map {A} (l : list A) d : map (fun j => nth j l d) (seq 0 (length l)) = l.
Proof.
  induction l; simpl; auto. f_equal. rewrite <- seq_shift, map_map. apply IHl.
Qed.
Lemma sumn_list (f : nat -> R) l : sumn (length l) (fun j => f (nth j l O)) = Rsum (map f l).
Proof. unfold sumn. rewrite <- map_map with (f := fun j => nth j l O) (g := f). now rewrite nth_seq_map. Qed.
Lemma NoDup_app2 {A} (l1 l2 : list A) : NoDup l1 -> NoDup l2 -> (forall a, In a l1 -> In a l2 -> False) -> NoDup (l1 ++ l2).
Proof.
  induction 1 as [|a l Ha Hl IH]; intros H2 H; simpl; auto. constructor.
  - rewrite in_app_iff. intros [I|I]; [auto|]. apply (H a); simpl; auto.
  - apply IH; auto. intros c Hc. apply H; simpl; auto.
Qed.
Lemma sum_covers M w keep (f : nat -> R) : covers M w keep ->
  sumn M (fun k => w k * f k) = sumn (length keep) (fun j => kept w keep j * f (nth j keep O)).
Proof.
  intros (Hnd & Hlt & H0).
  unfold kept. rewrite (sumn_list (fun k => w k * f k) keep).
  assert (P : Permutation (seq 0 M) (keep ++ filter (fun k => negb (existsb (Nat.eqb k) keep)) (seq 0 M))).
  { apply NoDup_Permutation.
    - apply seq_NoDup.
    - apply NoDup_app2.
      + auto.
      + apply NoDup_filter, seq_NoDup.
      + intros a Ha Hf. apply filter_In in Hf. destruct Hf as [_ Hf].
        assert (existsb (Nat.eqb a) keep = true) by (apply existsb_exists; exists a; split; auto; apply Nat.eqb_refl).
        rewrite H in Hf. discriminate.
    - intros a. rewrite in_app_iff, filter_In, in_seq. split.
      + intros Ha. destruct (existsb (Nat.eqb a) keep) eqn:E; [left|right; split; [lia|reflexivity]].
        apply existsb_exists in E. destruct E as (b & Hb & E). apply Nat.eqb_eq in E. now subst.
      + intros [Ha|[Ha _]]; [apply Hlt in Ha|]; lia. }
  unfold sumn. rewrite (Rsum_perm _ _ (Permutation_map (fun k => w k * f k) P)).
  rewrite map_app, Rsum_app.
  rewrite (Rsum_map_ext (fun k => w k * f k) (fun _ => 0) (filter _ _)).
  - rewrite Rsum_map_0. ring.
  - intros a Ha. apply filter_In in Ha. destruct Ha as [Ha Hf]. apply in_seq in Ha.
    rewrite H0; [ring|lia|]. intros Hin.
    assert (existsb (Nat.eqb a) keep = true) by (apply existsb_exists; exists a; split; auto; apply Nat.eqb_refl).
    rewrite H in Hf. discriminate.
Qed.
Lemma sum_covers1 M w keep : covers M w keep -> sumn M w = sumn (length keep) (kept w keep).
Proof.
  intros H. pose proof (sum_covers M w keep (fun _ => 1) H) as E.
  rewrite (sumn_ext M w (fun k => w k * 1)) by (intros; ring). rewrite E.
  apply sumn_ext; intros; ring.
Qed.
Lemma sum2_covers M w keep (f : nat -> nat -> R) : covers M w keep ->
  sumn M (fun i => sumn M (fun j => w i * w j * f i j)) =
  sumn (length keep) (fun i => sumn (length keep) (fun j => kept w keep i * kept w keep j * f (nth i keep O) (nth j keep O))).
Proof.
  intros H.
  rewrite (sumn_ext M _ (fun i => w i * sumn M (fun j => w j * f i j))).
  - rewrite (sum_covers M w keep _ H). apply sumn_ext; intros i Hi.
    rewrite (sum_covers M w keep _ H), <- sumn_scal. apply sumn_ext; intros j Hj. ring.
  - intros i Hi. rewrite <- sumn_scal. apply sumn_ext; intros; ring.
Qed.
Lemma covers_nw M w keep : covers M w keep -> covers M (nw M w) keep.
Proof.
  intros (H1 & H2 & H3). repeat split; auto. intros k Hk Hn. unfold nw. rewrite H3 by auto. unfold Rdiv; ring.
Qed.
Lemma nw_kept M w keep j : covers M w keep -> kept (nw M w) keep j = nw (length keep) (kept w keep) j.
Proof. intros H. unfold kept at 1, nw. now rewrite (sum_covers1 M w keep H). Qed.
Lemma real_w_covers b e M w keep y x : covers M w keep -> e <> Akr -> e <> Circ ->
  real_w b e M w y x = real_w b e (length keep) (kept w keep) y (kept x keep).
Proof.
  intros H N1 N2.
  pose proof (sum_covers M w keep (fun k => Rabs (x k - y)) H) as E1.
  pose proof (sum2_covers M w keep (fun i j => Rabs (x i - x j)) H) as E2.
  pose proof (sum_covers M w keep w H) as E3.
  pose proof (sum_covers M w keep x H) as E4.
  pose proof (sum_covers M w keep (fun k => w k * x k) H) as E5.
  pose proof (sum2_covers M w keep (fun i j => Rmax (x i) (x j)) H) as E6.
  assert (E5' : sumn M (fun k => w k * w k * x k) = sumn (length keep) (fun k => kept w keep k * kept w keep k * kept x keep k)).
  { rewrite (sumn_ext M _ (fun k => w k * (w k * x k))) by (intros; ring). rewrite E5. apply sumn_ext; intros; unfold kept; ring. }
  destruct e; cbn; try easy; unfold wexact_crps, wfair_crps, wpwm_free, wmae, wpairsum;
    rewrite ?E1, ?E2, ?E5', ?E3, ?E4, ?E6; reflexivity.
Qed.
Lemma fairc_covers M w keep : covers M w keep -> fairc M w = fairc (length keep) (kept w keep).
Proof. intros H. unfold fairc. now rewrite (sum_covers M w keep w H). Qed.

(** ** repeated members *)
Definition repeated (M : nat) (c : nat -> nat) (x : nat -> R) : list R :=
  flat_map (fun k => repeat (x k) (c k)) (seq 0 M).
Lemma Rsum_flat_map {A} (f : A -> list R) l : Rsum (flat_map f l) = Rsum (map (fun a => Rsum (f a)) l).
Proof. induction l; simpl; auto. now rewrite Rsum_app, IHl. Qed.
Lemma map_flat_map {A B C} (g : B -> C) (f : A -> list B) l : map g (flat_map f l) = flat_map (fun a => map g (f a)) l.
Proof. induction l; simpl; auto. now rewrite map_app, IHl. Qed.
Lemma Rsum_repeat n a : Rsum (repeat a n) = INR n * a.
Proof. induction n; [cbn; now rewrite Rmult_0_l|]. cbn [repeat]. rewrite Rsum_cons, IHn, S_INR. ring. Qed.
Lemma sum_repeated n x' M c x (f : R -> R) : Permutation (map x' (seq 0 n)) (repeated M c x) ->
  sumn n (fun j => f (x' j)) = sumn M (fun k => INR (c k) * f (x k)).
Proof.
  intros H. rewrite sumn_map. rewrite (Rsum_perm _ _ (Permutation_map f H)). unfold repeated.
  rewrite map_flat_map, Rsum_flat_map. unfold sumn. apply Rsum_map_ext; intros k _.
  rewrite <- Rsum_repeat. f_equal. induction (c k); simpl; congruence.
Qed.
Lemma repeated_total n x' M c x : Permutation (map x' (seq 0 n)) (repeated M c x) ->
  INR n = sumn M (fun k => INR (c k)).
Proof.
  intros H. pose proof (sum_repeated n x' M c x (fun _ => 1) H) as E. cbv beta in E. rewrite sumn_const in E.
  rewrite Rmult_1_r in E. rewrite E. apply sumn_ext; intros; ring.
Qed.
Lemma exact_repeated n x' M c x y : (0 < n)%nat -> Permutation (map x' (seq 0 n)) (repeated M c x) ->
  exact_crps n y x' = wexact_crps M (nw M (fun k => INR (c k))) y x.
Proof.
  intros Hn H. pose proof (INR_nz n Hn). pose proof (repeated_total n x' M c x H) as T.
  unfold exact_crps, wexact_crps, mae, pairsum, wmae, wpairsum, nw. rewrite <- T.
  rewrite (sum_repeated n x' M c x (fun a => Rabs (a - y)) H).
  rewrite (sumn_ext n _ (fun i => sumn M (fun k => INR (c k) * Rabs (x' i - x k))))
    by (intros; apply (sum_repeated n x' M c x (fun a => Rabs (x' k - a)) H)).
  rewrite (sum_repeated n x' M c x (fun a => sumn M (fun k => INR (c k) * Rabs (a - x k))) H).
  f_equal.
  - unfold Rdiv. rewrite <- sumn_scal_r. apply sumn_ext; intros; ring.
  - rewrite (sumn_ext M (fun i => sumn M (fun j => INR (c i) / INR n * (INR (c j) / INR n) * Rabs (x i - x j)))
      (fun i => / (INR n * INR n) * (INR (c i) * sumn M (fun j => INR (c j) * Rabs (x i - x j))))).
    + rewrite sumn_scal. field; auto.
    + intros i Hi. rewrite <- !sumn_scal. apply sumn_ext; intros j Hj. field; auto.
Qed.

(** ** a single member of positive weight *)
Section One.
Variables (M : nat) (w x : nat -> R).
Hypothesis H0 : forall k, (k < M)%nat -> 0 <= w k.
Hypothesis H1 : sumn M w = 1.
Hypothesis Hc : fairc M w = 0.
Lemma one_prod i j : (i < M)%nat -> (j < M)%nat -> i <> j -> w i * w j = 0.
Proof.
  intros Hi Hj N. 
  assert (E : sumn M (fun i => sumn M (fun j => if Nat.eq_dec i j then 0 else w i * w j)) = 0).
  { assert (S : sumn M (fun i => sumn M (fun j => if Nat.eq_dec i j then 0 else w i * w j))
              = sumn M (fun i => sumn M (fun j => w i * w j)) - sumn M (fun i => w i * w i)).
    { rewrite <- sumn_minus. apply sumn_ext; intros a Ha.
      rewrite <- (sumn_delta M a (w a * w a) Ha), <- sumn_minus. apply sumn_ext; intros c Hc'.
      destruct (Nat.eq_dec a c), (Nat.eq_dec c a); subst; try congruence; lra. }
    rewrite S, <- sumn_mul, H1. unfold fairc in Hc. lra. }
  pose proof (sumn_zero_inv M (fun i => sumn M (fun j => if Nat.eq_dec i j then 0 else w i * w j))) as Z.
  assert (P : forall k l, (k < M)%nat -> (l < M)%nat -> 0 <= (if Nat.eq_dec k l then 0 else w k * w l)).
  { intros k l Hk Hl. destruct (Nat.eq_dec k l); [lra|]. apply Rmult_le_pos; auto. }
  assert (Z1 : sumn M (fun j => if Nat.eq_dec i j then 0 else w i * w j) = 0).
  { apply (Z (fun k Hk => sumn_nonneg M _ (fun l Hl => P k l Hk Hl)) E i Hi). }
  pose proof (sumn_zero_inv M _ (fun l Hl => P i l Hi Hl) Z1 j Hj) as Z2.
  cbv beta in Z2. destruct (Nat.eq_dec i j); congruence.
Qed.
Lemma one_pairsum : wpairsum M w x = 0.
Proof.
  unfold wpairsum. rewrite (sumn_ext M _ (fun _ => 0)); [apply sumn_zero|]. intros i Hi.
  rewrite (sumn_ext M _ (fun _ => 0)); [apply sumn_zero|]. intros j Hj.
  destruct (Nat.eq_dec i j) as [->|N]; [rewrite Rminus_eq_0, Rabs_R0; ring|].
  rewrite (one_prod i j) by auto. ring.
Qed.
Lemma one_cum : sumn M (fun k => x k * w k * (sumn (S k) w - w k)) = 0.
Proof.
  rewrite (sumn_ext M _ (fun _ => 0)); [apply sumn_zero|]. intros k Hk. rewrite sumn_S.
  replace (x k * w k * (sumn k w + w k - w k)) with (x k * (w k * sumn k w)) by ring.
  rewrite <- sumn_scal. rewrite (sumn_ext k _ (fun _ => 0)); [rewrite sumn_zero; ring|].
  intros j Hj. apply one_prod; lia.
Qed.
End One.
Lemma row_w_one b e M yn xn wn y x w : need2 e = true -> yn = Fin y ->
  (forall k, (k < M)%nat -> xn k = Fin (x k)) -> (forall k, (k < M)%nat -> wn k = Fin (w k)) ->
  (forall k, (k < M)%nat -> 0 <= w k) -> sumn M w = 1 -> fairc M w = 0 ->
  row_w b e M yn xn wn = NaN.
Proof.
  intros He Hy Hx Hw H0 H1 Hc.
  destruct e; try discriminate; destruct b; cbn [row_w row_arr_w row_gu_w].
  - unfold row_fair_w. rewrite (fair_c_real M wn w Hw), Hc.
    replace (e2wn M xn wn) with (Fin 0); [rewrite ndiv_0; nan|].
    unfold e2wn. symmetry. fin. rewrite wpairsum_diag. now apply one_pairsum.
  - apply (fair_w_k_0 M yn xn wn y x w); auto.
  - unfold row_pwm_w. rewrite (fair_c_real M wn w Hw), Hc.
    rewrite (nsumn_Fin M (fun k => xn k .* wn k .* (cumn M wn k .- wn k))
      (fun k => x k * w k * (sumn (S k) w - w k))).
    + rewrite one_cum by auto. rewrite ndiv_0; nan.
    + intros k Hk. fin. 2:reflexivity. now apply cumn_real.
  - unfold crps_pwm_w_k. rewrite Hy. cbn [nisnan]. rewrite rw_length, combine_seq, fold_left_map.
    rewrite (fold3n _ (fun i => nabs (xn i .- Fin y) .* ith (rw M wn) i) (fun i => xn i .* ith (rw M wn) i)
        (fun i => xn i .* ith (rw M wn) i .* (ith (ncumsum (rw M wn)) i .- ith (rw M wn) i))) by reflexivity.
    rewrite (nsumn_Fin M (fun i => xn i .* ith (rw M wn) i .* (ith (ncumsum (rw M wn)) i .- ith (rw M wn) i))
      (fun k => x k * w k * (sumn (S k) w - w k))).
    + rewrite one_cum by auto. rewrite (nsumsq_rw M wn w Hw).
      unfold n0, n1, n2. rewrite nadd_Fin, nmul_Fin, nsub_Fin. fold (fairc M w). rewrite Hc.
      replace (2 * (0 + 0)) with 0 by ring. rewrite ndiv_0; nan.
    + intros k Hk. rewrite !rw_ith by auto. unfold ith. rewrite (ncumsum_real M wn w k Hw Hk).
      rewrite Hx, Hw by auto. reflexivity.
Qed.
Lemma row_un_one b e yn xn y x : need2 e = true -> yn = Fin y -> xn O = Fin x ->
  row_un b e 1 yn xn = NaN.
Proof.
  intros He Hy Hx.
  assert (Hx' : forall k, (k < 1)%nat -> xn k = Fin ((fun _ => x) k)) by (intros k Hk; replace k with O by lia; auto).
  destruct e; try discriminate; destruct b; cbn [row_un row_arr row_gu].
  - apply (row_fair_1 1 yn xn (fun _ => x)); auto.
  - apply (fair_k_1 1 yn xn y (fun _ => x)); auto.
  - unfold row_pwm, nsumn. simpl map. rewrite Hx, Hy. simpl INR.
    replace (1 * (1 - 1)) with 0 by ring.
    replace (nsum [Fin x .* nofnat 0]) with (Fin 0); [rewrite ndiv_0; nan|].
    unfold nsum, nofnat; simpl. f_equal; ring.
  - unfold crps_pwm_k. rewrite Hy. cbn [nisnan]. unfold rw. simpl map. rewrite Hx. simpl.
    unfold nofnat, n0, n2; simpl. replace (2 * (0 + x * 0)) with 0 by ring.
    replace (infsgn 0) with NaN by (unfold infsgn; rdec; try lra; reflexivity).
    destruct (Req_EM_T 0 0); [|easy]. apply nsub_NaN_r.
Qed.
