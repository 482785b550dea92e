(** Rounding errors of all kernel forms of the ensemble CRPS, underflow included. *)
From Coq Require Import Reals List ZArith Permutation Lia Lra Psatz.
From Flocq Require Import Core Relative.
From Verif Require Import L_crps_real L_crps_row L_crps_omit M_crps.
From Verif Require Export L_round4.
Open Scope R_scope.

Local Notation fmt := (generic_format radix2 (FLT_exp (-1074) 53)).
Local Notation bp := (bpow radix2).

Lemma appr_err k n x X A : appr k n x X A -> Rabs (x - X) <= err64 k n A.
Proof. intros (_ & _ & _ & H). exact H. Qed.
Lemma fold_pair {A B} (f : A -> nat -> A) (g : B -> nat -> B) l : forall a b,
  fold_left (fun '(u, v) i => (f u i, g v i)) l (a, b) = (fold_left f l a, fold_left g l b).
Proof. induction l; intros; simpl; auto. Qed.
Lemma fold_triple {A B C} (f : A -> nat -> A) (g : B -> nat -> B) (h : C -> nat -> C) l : forall a b c,
  fold_left (fun '(u, v, w) i => (f u i, g v i, h w i)) l (a, b, c) = (fold_left f l a, fold_left g l b, fold_left h l c).
Proof. induction l; intros; simpl; auto. Qed.
Lemma fold_lsum rnd (a : nat -> R) l : fold_left (fun u i => radd rnd u (a i)) l 0 = lsum rnd (map a l).
Proof. unfold lsum. generalize 0. induction l; intros; simpl; auto. Qed.

Section Any.
Variables (M : nat) (y : R) (x : nat -> R).
Hypothesis HM : (0 < M)%nat.
Hypothesis HB : (Z.of_nat M <= 2 ^ 26)%Z.
Hypothesis Fy : fmt y.
Hypothesis Fx : forall i, (i < M)%nat -> fmt (x i).
Lemma INRp : 1 <= INR M. Proof. apply (le_INR 1) in HM. simpl in HM. exact HM. Qed.
Lemma a1 t : adds t M -> appr (height t + 2) 1 (rdiv b64 (tsum b64 t (fun i => Rabs (rsub b64 y (x i)))) (INR M)) (mae M y x) (mae M y x).
Proof.
  intros Ht. unfold rdiv, mae. replace (height t + 2)%nat with (S (1 + height t)) by lia.
  replace 1 with (INR M * 0 / INR M + 1) at 1 by (pose proof INRp; field; lra).
  rewrite (sumn_ext M (fun k => Rabs (x k - y)) (fun i => Rabs (y - x i))) by (intros; apply Rabs_minus_sym).
  apply appr_div; [exact HM|]. apply tsum_an; [exact Ht|]. intros i Hi. apply appr_diff; auto.
Qed.
Lemma a1k : appr (M + 2) 1 (rdiv b64 (lsum b64 (map (fun i => Rabs (rsub b64 (x i) y)) (seq 0 M))) (INR M)) (mae M y x) (mae M y x).
Proof.
  unfold rdiv, mae. replace (M + 2)%nat with (S (1 + M)) by lia. replace 1 with (INR M * 0 / INR M + 1) at 1 by (pose proof INRp; field; lra).
  apply appr_div; [exact HM|]. apply lsum_an; [lra|]. intros i Hi. apply appr_diff; auto.
Qed.
(** ** nrg and fair *)
Lemma energy_arr_any t1 t2 c h : (0 < c)%nat -> adds t1 M -> adds t2 (M * M) -> (height t1 <= h)%nat -> (height t2 <= h)%nat ->
  appr (h + 4) 3 (crps_energy_arr_r b64 t1 t2 M c y x) (mae M y x - / 2 * (pairsum M x / INR c)) (mae M y x + / 2 * (pairsum M x / INR c)).
Proof.
  intros Hc H1 H2 L1 L2. unfold crps_energy_arr_r. replace (h + 4)%nat with (S (h + 3)) by lia. replace 3 with (1 + 2) by ring. apply appr_sub.
  - eapply appr_le; [| |apply a1; exact H1]; [lia|lra].
  - unfold rmul. replace (1 / 2) with (/ 2) by lra.
    apply (appr_le (S (S (1 + height t2))) (h + 3) (/ 2 * (INR (M * M) * 0 / INR c + 1) + 1) 2); [lia|unfold Rdiv; rewrite Rmult_0_r, Rmult_0_l; lra|]. apply appr_scal; [lra|].
    unfold rdiv. apply appr_div; [exact Hc|]. unfold pairsum. rewrite <- sumn_grid by exact HM. apply tsum_an; [exact H2|].
    intros k Hk. apply appr_diff; apply Fx; [apply Nat.div_lt_upper_bound; lia|apply Nat.mod_upper_bound; lia].
Qed.
Lemma energy_k_any c : (0 < c)%nat ->
  appr (M * (M - 1) / 2 + M + 4) 3 (crps_energy_k_r b64 M c y x) (mae M y x - / 2 * (pairsum M x / INR c)) (mae M y x + / 2 * (pairsum M x / INR c)).
Proof.
  intros Hc. unfold crps_energy_k_r. replace (M * (M - 1) / 2 + M + 4)%nat with (S (M * (M - 1) / 2 + M + 3)) by lia. replace 3 with (1 + 2) by ring. apply appr_sub.
  - eapply appr_le; [| |apply a1k]; [lia|lra].
  - unfold rmul at 1. replace (1 / 2) with (/ 2) by lra. pose proof (lt_0_INR c Hc) as Pc. assert (/ INR c <= 1) as Ic by (rewrite <- Rinv_1; apply Rinv_le_contravar; [lra|]; apply (le_INR 1); lia).
    set (l := flat_map (fun i => map (fun j => (i, j)) (seq (i + 1) (M - (i + 1)))) (seq 0 M)).
    assert (forall f : nat -> nat -> R, flat_map (fun i => map (fun j => f i j) (seq (i + 1) (M - (i + 1)))) (seq 0 M) = map (fun p => f (fst p) (snd p)) l) as EL.
    { intros f. unfold l. rewrite !flat_map_concat_map, concat_map, map_map. f_equal. apply map_ext. intros i. now rewrite map_map. }
    assert (length l = M * (M - 1) / 2)%nat as LL.
    { apply Nat.div_unique with (r := O); [lia|]. pose proof (tri_len M (fun _ _ => 0) M (le_n M)) as TL. cbv beta in TL. rewrite (EL (fun _ _ => 0)), map_length in TL. nia. }
    rewrite EL. replace (/ 2 * (pairsum M x / INR c)) with (/ 2 * pairsum M x / INR c) by (unfold Rdiv; ring).
    apply (appr_le (S (S (1 + length l))) _ ((/ 2 * (INR (length l) * (2 * 0)) + 1) / INR c + 1) 2); [rewrite LL; lia|unfold Rdiv; nra|].
    unfold rdiv. apply appr_div; [exact Hc|]. apply appr_scal; [lra|]. rewrite (tri M x). unfold sumn. rewrite <- Rsum_flat_map, (EL (fun i j => 2 * Rabs (x j - x i))).
    apply lsum_appr; [lra|]. intros p Hp. unfold rmul. apply appr_double, appr_diff.
    + apply in_flat_map in Hp as (i & Hi & Hp). apply in_map_iff in Hp as (j & <- & Hj). apply in_seq in Hi, Hj. apply Fx. simpl. lia.
    + apply in_flat_map in Hp as (i & Hi & Hp). apply in_map_iff in Hp as (j & <- & Hj). apply in_seq in Hi, Hj. apply Fx. simpl. lia.
Qed.
(** ** akr and akr_circperm *)
Lemma lag_arr_any s t1 t2 h : adds t1 M -> adds t2 M -> (height t1 <= h)%nat -> (height t2 <= h)%nat ->
  let e2 := / 2 * (sumn M (fun k => Rabs (x k - x ((k + M - s) mod M)%nat)) / INR M) in
  appr (h + 4) 3 (crps_lag_arr_r b64 s t1 t2 M y x) (mae M y x - e2) (mae M y x + e2).
Proof.
  intros H1 H2 L1 L2 e2. unfold crps_lag_arr_r. replace (h + 4)%nat with (S (h + 3)) by lia. replace 3 with (1 + 2) by ring. apply appr_sub.
  - eapply appr_le; [| |apply a1; exact H1]; [lia|lra].
  - unfold rmul, e2. replace (1 / 2) with (/ 2) by lra.
    apply (appr_le (S (S (1 + height t2))) (h + 3) (/ 2 * (INR M * 0 / INR M + 1) + 1) 2); [lia|unfold Rdiv; rewrite Rmult_0_r, Rmult_0_l; lra|]. apply appr_scal; [lra|].
    unfold rdiv. apply appr_div; [exact HM|]. apply tsum_an; [exact H2|]. intros k Hk. apply appr_diff; apply Fx; [exact Hk|apply Nat.mod_upper_bound; lia].
Qed.
Lemma inv_rnd : Rabs (rdiv b64 (rmul b64 (1 / 2) 1) (INR M) - / 2 / INR M) <= u64 * (/ 2 / INR M).
Proof.
  pose proof INRp as P. assert (rmul b64 (1 / 2) 1 = / 2) as -> by (unfold rmul; rewrite Rmult_1_r; replace (1 / 2) with (/ 2) by lra; apply b64_id; pose proof (fmt_half 1 ltac:(lia)) as H; replace (1 / 2) with (/ 2) in H by lra; exact H).
  unfold rdiv. assert (0 < / 2 / INR M) as Q by (apply Rdiv_lt_0_compat; lra).
  rewrite <- (Rabs_pos_eq (/ 2 / INR M)) at 3 by lra. apply b64_norm. rewrite Rabs_pos_eq by lra. apply Rle_trans with (bp (-27)); [apply bpow_le; lia|].
  assert (INR M <= bp 26) as B by (rewrite INR_IZR, <- (IZR_Zpower radix2) by lia; apply IZR_le; exact HB).
  replace (bp (-27)) with (/ 2 / bp 26) by (simpl; lra). unfold Rdiv. apply Rmult_le_compat_l; [lra|]. apply Rinv_le_contravar; lra.
Qed.
Lemma lag_k_any g : (forall i, (i < M)%nat -> (g i < M)%nat) ->
  let e2 := / 2 * (sumn M (fun k => Rabs (x k - x (g k))) / INR M) in
  appr (M + 4) 2 (crps_lag_k_r b64 g M y x) (mae M y x - e2) (mae M y x + e2).
Proof.
  intros Hg e2. unfold crps_lag_k_r. rewrite (fold_pair (fun u i => radd b64 u (Rabs (rsub b64 (x i) y))) (fun v i => radd b64 v (Rabs (rsub b64 (x i) (x (g i)))))), !fold_lsum.
  pose proof INRp as P. replace (M + 4)%nat with (S (1 + M + 2)) by lia. replace 2 with (1 + 1) at 1 by ring. apply appr_sub.
  - eapply appr_le; [| |apply a1k]; [lia|lra].
  - replace e2 with (/ 2 / INR M * sumn M (fun k => Rabs (x k - x (g k)))) by (unfold e2; field; lra). unfold rmul at 1.
    apply (appr_le (1 + M + 2) _ (/ 2 / INR M * (INR M * 0) + 1) 1); [lia|lra|]. apply appr_scal1; [apply Rlt_le, Rdiv_lt_0_compat; lra|apply inv_rnd|].
    apply lsum_an; [lra|]. intros k Hk. apply appr_diff; auto.
Qed.
(** ** pwm *)
Definition pwm_size : R := mae M y x + sumn M (fun i => Rabs (x i)) / INR M + 2 * (sumn M (fun i => INR i * Rabs (x i)) / INR (M * (M - 1))).
Lemma prod_any i : (i < M)%nat -> appr 1 1 (rmul b64 (x i) (INR i)) (x i * INR i) (INR i * Rabs (x i)).
Proof.
  intros Hi. unfold rmul. rewrite !(Rmult_comm (x i)). apply (appr_le 1 1 (INR i * 0 + 1) 1); [lia|lra|]. apply appr_scal; [apply pos_INR|]. now apply appr_exact, Fx.
Qed.
Lemma pwm_value : (1 < M)%nat -> ascending M x ->
  mae M y x + sumn M x / INR M - 2 * (sumn M (fun i => x i * INR i) / INR (M * (M - 1))) = fair_crps M y x.
Proof.
  intros H2 Ha. unfold fair_crps. rewrite (pwm_spread M x Ha). change (fun k => x k) with x. rewrite mult_INR, minus_INR by lia. apply lt_INR in H2. simpl INR in *. field. lra.
Qed.
Lemma pwm_arr_any t1 t2 t3 h : (1 < M)%nat -> ascending M x -> adds t1 M -> adds t2 M -> adds t3 M ->
  (height t1 <= h)%nat -> (height t2 <= h)%nat -> (height t3 <= h)%nat ->
  appr (h + 4) 6 (crps_pwm_arr_r b64 t1 t2 t3 M y x) (fair_crps M y x) pwm_size.
Proof.
  intros H2 Ha A1 A2 A3 L1 L2 L3. rewrite <- (pwm_value H2 Ha). unfold crps_pwm_arr_r, pwm_size. replace (h + 4)%nat with (S (h + 3)) by lia. replace 6 with (2 + 4) by ring.
  assert (0 < M * (M - 1))%nat as Hc by nia. pose proof INRp as P. apply appr_sub.
  - replace (h + 3)%nat with (S (h + 2)) by lia. replace 2 with (1 + 1) at 1 by ring. apply appr_add.
    + eapply appr_le; [| |apply a1; exact A1]; [lia|lra].
    + apply (appr_le (S (0 + height t2)) _ (INR M * 0 / INR M + 1) 1); [lia|unfold Rdiv; rewrite Rmult_0_r, Rmult_0_l; lra|]. apply appr_div; [exact HM|].
      apply tsum_an; [exact A2|]. intros i Hi. now apply appr_exact, Fx.
  - apply (appr_le (S (1 + height t3)) _ (2 * (INR M * 1 / INR (M * (M - 1)) + 1)) 4); [lia| |].
    + rewrite mult_INR, minus_INR by lia. apply lt_INR in H2. simpl INR in *.
      assert (INR M * 1 / (INR M * (INR M - 1)) <= 1); [|lra]. apply (Rmult_le_reg_r (INR M * (INR M - 1))); [nra|]. unfold Rdiv. rewrite Rmult_assoc, Rinv_l by nra.
      assert (2 <= INR M); [|nra]. clear - H2. replace 2 with (INR 2) by (simpl; lra). apply le_INR. apply (INR_lt 1). simpl INR. exact H2.
    + apply appr_double, appr_div; [exact Hc|]. apply tsum_an; [exact A3|]. intros i Hi. now apply prod_any.
Qed.
Lemma pwm_k_any : (1 < M)%nat -> ascending M x -> appr (M + 4) 6 (crps_pwm_k_r b64 M y x) (fair_crps M y x) pwm_size.
Proof.
  intros H2 Ha. rewrite <- (pwm_value H2 Ha). unfold crps_pwm_k_r, pwm_size.
  rewrite (fold_triple (fun u i => radd b64 u (Rabs (rsub b64 (x i) y))) (fun v i => radd b64 v (x i)) (fun w i => radd b64 w (rmul b64 (x i) (INR i)))), !fold_lsum.
  replace (M + 4)%nat with (S (M + 3)) by lia. replace 6 with (2 + 4) by ring.
  assert (0 < M * (M - 1))%nat as Hc by nia. pose proof INRp as P. apply appr_sub.
  - replace (M + 3)%nat with (S (M + 2)) by lia. replace 2 with (1 + 1) at 1 by ring. apply appr_add.
    + eapply appr_le; [| |apply a1k]; [lia|lra].
    + apply (appr_le (S (0 + M)) _ (INR M * 0 / INR M + 1) 1); [lia|unfold Rdiv; rewrite Rmult_0_r, Rmult_0_l; lra|]. apply appr_div; [exact HM|].
      apply (lsum_an M 0 0 x x); [lra|]. intros i Hi. now apply appr_exact, Fx.
  - replace (2 * (sumn M (fun i => x i * INR i) / INR (M * (M - 1)))) with (2 * sumn M (fun i => x i * INR i) / INR (M * (M - 1))) by (unfold Rdiv; ring).
    replace (2 * (sumn M (fun i => INR i * Rabs (x i)) / INR (M * (M - 1)))) with (2 * sumn M (fun i => INR i * Rabs (x i)) / INR (M * (M - 1))) by (unfold Rdiv; ring).
    apply (appr_le (S (1 + M)) _ (2 * (INR M * 1) / INR (M * (M - 1)) + 1) 4); [lia| |].
    + rewrite mult_INR, minus_INR by lia. apply lt_INR in H2. simpl INR in *.
      assert (2 * (INR M * 1) / (INR M * (INR M - 1)) <= 2); [|lra]. apply (Rmult_le_reg_r (INR M * (INR M - 1))); [nra|]. unfold Rdiv. rewrite Rmult_assoc, Rinv_l by nra.
      assert (2 <= INR M); [|nra]. clear - H2. replace 2 with (INR 2) by (simpl; lra). apply le_INR. apply (INR_lt 1). simpl INR. exact H2.
    + apply appr_div; [exact Hc|]. unfold rmul at 1. apply appr_double. apply lsum_an; [lra|]. intros i Hi. now apply prod_any.
Qed.
End Any.
(** ** a perfect ensemble *)
Section Perfect.
Variables (rnd : R -> R) (y : R) (x : nat -> R).
Hypothesis R0 : rnd 0 = 0.
Lemma tsum_zero t a : (forall i, In i (leaves t) -> a i = 0) -> tsum rnd t a = 0.
Proof.
  induction t as [i|t1 IH1 t2 IH2]; intros H; simpl; [apply H; now left|]. rewrite IH1, IH2 by (intros; apply H; apply in_or_app; auto). unfold radd. now rewrite Rplus_0_r.
Qed.
Lemma lsum_zero l : (forall r, In r l -> r = 0) -> lsum rnd l = 0.
Proof.
  unfold lsum. induction l as [|r l IH]; intros H; [reflexivity|]. cbn [fold_left]. replace (radd rnd 0 r) with 0; [apply IH; intros; apply H; now right|].
  rewrite (H r) by now left. unfold radd. now rewrite Rplus_0_r.
Qed.
Lemma same a b : a = b -> Rabs (rsub rnd a b) = 0. Proof. intros ->. unfold rsub. now rewrite Rminus_eq_0, R0, Rabs_R0. Qed.
Lemma fin0 c d k : rsub rnd (rdiv rnd 0 c) (rmul rnd k (rdiv rnd 0 d)) = 0 /\ rsub rnd (rdiv rnd 0 c) (rdiv rnd (rmul rnd k 0) d) = 0 /\ rsub rnd (rdiv rnd 0 c) (rmul rnd k 0) = 0.
Proof. unfold rsub, rdiv, rmul. unfold Rdiv. rewrite !Rmult_0_l, !R0, !Rmult_0_r, !R0, Rmult_0_l, R0, Rminus_eq_0. auto. Qed.
Variable M : nat.
Hypothesis Hx : forall i, (i < M)%nat -> x i = y.
Lemma in_adds t n i : adds t n -> In i (leaves t) -> (i < n)%nat.
Proof. intros H Hi. apply (Permutation_in i H) in Hi. apply in_seq in Hi. lia. Qed.
Lemma energy_arr_perfect t1 t2 c : adds t1 M -> adds t2 (M * M) -> crps_energy_arr_r rnd t1 t2 M c y x = 0.
Proof.
  intros H1 H2. unfold crps_energy_arr_r. rewrite !tsum_zero; [apply fin0| |].
  - intros k Hk. apply same. apply (in_adds _ _ _ H2) in Hk. rewrite !Hx; [reflexivity|apply Nat.mod_upper_bound; lia|apply Nat.div_lt_upper_bound; lia].
  - intros i Hi. apply same. apply (in_adds _ _ _ H1) in Hi. now rewrite Hx.
Qed.
Lemma energy_k_perfect c : crps_energy_k_r rnd M c y x = 0.
Proof.
  unfold crps_energy_k_r. rewrite !lsum_zero; [apply fin0| |].
  - intros r Hr. apply in_flat_map in Hr as (i & Hi & Hr). apply in_map_iff in Hr as (j & <- & Hj). apply in_seq in Hi, Hj.
    rewrite same by (rewrite !Hx by lia; reflexivity). unfold rmul. now rewrite Rmult_0_r.
  - intros r Hr. apply in_map_iff in Hr as (i & <- & Hi). apply in_seq in Hi. apply same. apply Hx. lia.
Qed.
Lemma lag_arr_perfect s t1 t2 : adds t1 M -> adds t2 M -> crps_lag_arr_r rnd s t1 t2 M y x = 0.
Proof.
  intros H1 H2. unfold crps_lag_arr_r. rewrite !tsum_zero; [apply fin0| |].
  - intros k Hk. apply same. apply (in_adds _ _ _ H2) in Hk. rewrite !Hx; [reflexivity|apply Nat.mod_upper_bound; lia|exact Hk].
  - intros i Hi. apply same. apply (in_adds _ _ _ H1) in Hi. now rewrite Hx.
Qed.
Lemma lag_k_perfect g : (forall i, (i < M)%nat -> (g i < M)%nat) -> crps_lag_k_r rnd g M y x = 0.
Proof.
  intros Hg. unfold crps_lag_k_r. rewrite (fold_pair (fun u i => radd rnd u (Rabs (rsub rnd (x i) y))) (fun v i => radd rnd v (Rabs (rsub rnd (x i) (x (g i)))))), !fold_lsum.
  rewrite !lsum_zero; [apply (fin0 _ 1)| |].
  - intros r Hr. apply in_map_iff in Hr as (i & <- & Hi). apply in_seq in Hi. apply same. rewrite !Hx; [reflexivity|apply Hg; lia|lia].
  - intros r Hr. apply in_map_iff in Hr as (i & <- & Hi). apply in_seq in Hi. apply same. apply Hx. lia.
Qed.
Lemma qd_arr_perfect t : adds t M -> crps_qd_arr_r rnd t M y x = 0.
Proof.
  intros Ht. unfold crps_qd_arr_r. rewrite tsum_zero.
  - unfold rmul at 1, rdiv. unfold Rdiv. now rewrite Rmult_0_l, R0, Rmult_0_r.
  - intros i Hi. apply (in_adds _ _ _ Ht) in Hi. rewrite (Hx i Hi).
    assert (forall c, rmul rnd c (rsub rnd y y) = 0) as Z by (intros c; unfold rmul, rsub; now rewrite Rminus_eq_0, R0, Rmult_0_r). rewrite !Z. unfold radd. now rewrite Rplus_0_r.
Qed.
Lemma qd_k_perfect : crps_qd_k_r rnd M y x = 0.
Proof.
  unfold crps_qd_k_r. assert (forall l a, (forall i, In i l -> (i < M)%nat) -> exists b,
    fold_left (fun '(obs_cdf, integral) i => let obs_cdf := if rlt y (x i) then 1 else obs_cdf in
      (obs_cdf, radd rnd integral (rmul rnd (rsub rnd (x i) y) (radd rnd (rsub rnd (rmul rnd (INR M) obs_cdf) (INR (i + 1))) (1 / 2))))) l (a, 0) = (b, 0)) as H.
  { induction l as [|i l IH]; intros a Hl; [now exists a|]. cbn [fold_left]. cbv zeta. match goal with |- context [radd rnd 0 ?e] => replace (radd rnd 0 e) with 0 end; [|rewrite (Hx i) by (apply Hl; now left); unfold radd at 1, rmul at 1, rsub at 1; rewrite Rminus_eq_0, R0, Rmult_0_l, R0, Rplus_0_r; auto].
    apply IH. intros; apply Hl; now right. }
  destruct (H (seq 0 M) 0) as [b E]; [intros i Hi; apply in_seq in Hi; lia|]. cbv zeta in E. rewrite E. unfold rmul. now rewrite Rmult_0_r.
Qed.
End Perfect.
