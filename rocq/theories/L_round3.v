(** Rounding: signs, underflow, and the rounded definitions without rounding. *)
From Coq Require Import Reals List ZArith Permutation Lia Lra Psatz.
From Flocq Require Import Core.
From Verif Require Import L_crps_row L_crps_omit.
From Verif Require Export L_round2.
Open Scope R_scope.

Local Notation fmt := (generic_format radix2 (FLT_exp (-1074) 53)).
Local Notation bp := (bpow radix2).

Lemma ens64_good M y x : ens64 M y x -> good M y x /\ goodp M x.
Proof.
  intros (HM & HB & Hy & Hx & Hp). split; [|exact Hp]. split; [now apply is64_fmt|]. split; [|auto].
  intros i Hi. destruct (Hx i Hi). split; [now apply is64_fmt|auto].
Qed.
(** a summation order exists *)
Fixpoint comb (n : nat) : stree := match n with O => Leaf 0 | S n => Node (comb n) (Leaf (S n)) end.
Lemma comb_adds n : adds (comb n) (S n) /\ height (comb n) = n.
Proof.
  induction n as [|n [IH1 IH2]]; [split; [apply Permutation_refl|reflexivity]|]. split.
  - unfold adds. simpl leaves. rewrite (seq_S (S n)). now apply Permutation_app.
  - simpl. rewrite IH2. lia.
Qed.
(** ** no rounding *)
Definition idr (x : R) : R := x.
Lemma tsum_id t n a : adds t n -> tsum idr t a = sumn n a.
Proof.
  intros H. unfold sumn. rewrite <- (Rsum_perm _ _ (Permutation_map a H)). clear H. induction t as [i|t1 IH1 t2 IH2]; simpl.
  - unfold Rsum. simpl. ring.
  - rewrite map_app, Rsum_app, IH1, IH2. reflexivity.
Qed.
Lemma lsum_id l : lsum idr l = Rsum l.
Proof.
  unfold lsum. assert (forall a, fold_left (radd idr) l a = a + Rsum l) as H; [|rewrite H; ring].
  induction l as [|b l IH]; intros a; [unfold Rsum; simpl; ring|]. cbn [fold_left]. rewrite IH. unfold Rsum. simpl. unfold radd, idr. ring.
Qed.
Lemma energy_arr_id t1 t2 M c y x : adds t1 M -> adds t2 (M * M) -> (0 < M)%nat ->
  crps_energy_arr_r idr t1 t2 M c y x = mae M y x - / 2 * (pairsum M x / INR c).
Proof.
  intros H1 H2 HM. unfold crps_energy_arr_r. rewrite (tsum_id t1 M), (tsum_id t2 (M * M)) by auto. unfold rsub, rmul, rdiv, idr.
  unfold mae, pairsum. rewrite <- sumn_grid by exact HM. rewrite (sumn_ext M (fun i => Rabs (y - x i)) (fun i => Rabs (x i - y))) by (intros; apply Rabs_minus_sym). lra.
Qed.
Lemma energy_k_id M c y x : crps_energy_k_r idr M c y x = mae M y x - / 2 * (pairsum M x / INR c).
Proof.
  unfold crps_energy_k_r. rewrite !lsum_id, Rsum_flat_map. unfold rsub, rmul, rdiv, idr. rewrite (tri M x). unfold mae, sumn, Rdiv. ring.
Qed.
Lemma qd_arr_id t M y x : adds t M -> (0 < M)%nat -> ascending M x -> crps_qd_arr_r idr t M y x = exact_crps M y x.
Proof.
  intros Ht HM Ha. rewrite <- (qd_value M y x HM Ha). unfold crps_qd_arr_r. rewrite (tsum_id t M _ Ht). unfold rmul at 1, rdiv, idr at 1. f_equal. unfold idr at 1. f_equal.
  apply sumn_ext. intros i Hi. unfold radd, rmul, rsub, idr, rbool, rle, rlt, qcoef. destruct (Rle_dec (x i) y).
  - destruct (Rlt_dec y (x i)); [lra|]. rewrite Rabs_left1 by lra. lra.
  - destruct (Rlt_dec y (x i)); [|lra]. rewrite Rabs_right by lra. lra.
Qed.
Lemma qd_fold rnd M y x : ascending M x -> forall n, (n <= M)%nat -> exists ob,
  fold_left (fun '(obs_cdf, integral) i => let obs_cdf := if rlt y (x i) then 1 else obs_cdf in
      (obs_cdf, radd rnd integral (rmul rnd (rsub rnd (x i) y) (radd rnd (rsub rnd (rmul rnd (INR M) obs_cdf) (INR (i + 1))) (1 / 2))))) (seq 0 n) (0, 0)
  = (ob, lsum rnd (map (fun i => rmul rnd (rsub rnd (x i) y) (radd rnd (rsub rnd (rmul rnd (INR M) (ind_lt y (x i))) (INR (i + 1))) (1 / 2))) (seq 0 n)))
  /\ ob = (if Nat.eq_dec n 0 then 0 else ind_lt y (x (n - 1)%nat)).
Proof.
  intros Ha. induction n as [|n IH]; intros Hn; [exists 0; split; reflexivity|].
  destruct IH as (ob & E & Eo); [lia|]. rewrite !seq_S, fold_left_app, E, map_app. cbn [fold_left Nat.add map].
  assert ((if rlt y (x n) then 1 else ob) = ind_lt y (x n)) as E1.
  { unfold rlt, ind_lt. destruct (Rlt_dec y (x n)) as [l|l]; [reflexivity|]. rewrite Eo. destruct (Nat.eq_dec n 0) as [|Hn0]; [reflexivity|].
    apply ind_lt_0. pose proof (Ha (n - 1)%nat n ltac:(lia)). lra. }
  cbv zeta. rewrite E1. exists (ind_lt y (x n)). split; [|simpl; now rewrite Nat.sub_0_r]. f_equal. unfold lsum. now rewrite fold_left_app.
Qed.
Lemma qd_k_id M y x : (0 < M)%nat -> ascending M x -> crps_qd_k_r idr M y x = exact_crps M y x.
Proof.
  intros HM Ha. rewrite <- (qd_value M y x HM Ha). unfold crps_qd_k_r. destruct (qd_fold idr M y x Ha M (le_n M)) as (ob & E & _). cbv zeta in E. rewrite E. clear E.
  rewrite lsum_id. unfold rmul at 1, rdiv, idr at 1 2. fold (sumn M (fun i => rmul idr (rsub idr (x i) y) (radd idr (rsub idr (rmul idr (INR M) (ind_lt y (x i))) (INR (i + 1))) (1 / 2)))).
  rewrite (sumn_ext M _ (fun i => qcoef M i y (x i) * Rabs (x i - y))); [unfold Rdiv; ring|]. intros i Hi.
  unfold radd, rmul, rsub, idr, ind_lt, qcoef. destruct (Rle_dec (x i) y).
  - destruct (Rlt_dec y (x i)); [lra|]. rewrite Rabs_left1 by lra. lra.
  - destruct (Rlt_dec y (x i)); [|lra]. rewrite Rabs_right by lra. lra.
Qed.
(** ** signs *)
Lemma b64_le0 x : x <= 0 -> b64 x <= 0. Proof. intros. rewrite <- b64_0. now apply b64_le. Qed.
Lemma tsum_ge0 t a : (forall i, In i (leaves t) -> 0 <= a i) -> 0 <= tsum b64 t a.
Proof.
  induction t as [i|t1 IH1 t2 IH2]; intros H; simpl; [apply H; now left|]. apply b64_ge0.
  pose proof (IH1 ltac:(intros; apply H; apply in_or_app; now left)). pose proof (IH2 ltac:(intros; apply H; apply in_or_app; now right)). lra.
Qed.
Lemma lsum_ge0 l : List.Forall (fun a => 0 <= a) l -> 0 <= lsum b64 l.
Proof.
  unfold lsum. assert (forall a, 0 <= a -> List.Forall (fun a => 0 <= a) l -> 0 <= fold_left (radd b64) l a) as H; [|intros; apply H; auto; lra].
  induction l as [|b l IH]; intros a Ha Hl; [exact Ha|]. inversion Hl; subst. cbn [fold_left]. apply IH; auto. apply b64_ge0. lra.
Qed.
Lemma qd_arr_ge0 t M y x : (0 < M)%nat -> (Z.of_nat M <= 2 ^ 26)%Z -> adds t M -> 0 <= crps_qd_arr_r b64 t M y x.
Proof.
  intros HM HB Ht. unfold crps_qd_arr_r. apply b64_ge0, Rmult_le_pos; [lra|]. apply b64_ge0. apply Rmult_le_pos; [|left; apply Rinv_0_lt_compat, lt_0_INR; lia].
  apply tsum_ge0. intros i Hi. apply (Permutation_in i Ht) in Hi. apply in_seq in Hi. destruct (qcoef_fmt M i y y ltac:(lia) HB) as [F1 B1]. destruct (qcoef_fmt M i y (y + 1) ltac:(lia) HB) as [F2 B2].
  pose proof (big_ge0 _ _ B1) as G1. pose proof (big_ge0 _ _ B2) as G2. unfold qcoef in *. destruct (Rle_dec y y); [|lra]. destruct (Rle_dec (y + 1) y); [lra|].
  unfold radd, rmul, rsub, rbool, rle, rlt. replace (1 / 2) with (/ 2) by lra. rewrite !(b64_id _ F1), !(b64_id _ F2). apply b64_ge0. apply Rplus_le_le_0_compat; apply b64_ge0.
  - destruct (Rle_dec (x i) y); [|rewrite Rmult_0_l, b64_0; lra]. rewrite Rmult_1_l. apply Rmult_le_pos; apply b64_ge0; lra.
  - destruct (Rlt_dec y (x i)); [|rewrite Rmult_0_l, b64_0; lra]. rewrite Rmult_1_l. apply Rmult_le_pos; apply b64_ge0; lra.
Qed.
Lemma qd_k_ge0 M y x : (0 < M)%nat -> (Z.of_nat M <= 2 ^ 26)%Z -> ascending M x -> 0 <= crps_qd_k_r b64 M y x.
Proof.
  intros HM HB Ha. unfold crps_qd_k_r. destruct (qd_fold b64 M y x Ha M (le_n M)) as (ob & E & _). cbv zeta in E. rewrite E. clear E.
  apply b64_ge0, Rmult_le_pos; [apply b64_ge0, Rmult_le_pos; [lra|left; apply Rinv_0_lt_compat, lt_0_INR; lia]|].
  apply lsum_ge0. apply List.Forall_forall. intros z Hz. apply in_map_iff in Hz. destruct Hz as (i & <- & Hi). apply in_seq in Hi.
  unfold radd, rmul, rsub. apply b64_ge0. change (2 ^ 26)%Z with 67108864%Z in HB. unfold ind_lt. destruct (Rlt_dec y (x i)).
  - apply Rmult_le_pos; apply b64_ge0; [lra|]. rewrite Rmult_1_r, (b64_id (INR M)) by (rewrite INR_IZR; apply fmt_int; lia).
    apply Rplus_le_le_0_compat; [apply b64_ge0|lra]. pose proof (le_INR (i + 1) M ltac:(lia)). lra.
  - pose proof (b64_le0 (x i - y) ltac:(lra)). assert (b64 (b64 (b64 (INR M * 0) - INR (i + 1)) + 1 / 2) <= 0); [|nra].
    apply b64_le0. rewrite Rmult_0_r, b64_0. assert (b64 (0 - INR (i + 1)) <= -1); [|lra]. apply b64_le_fmt; [apply (fmt_int (-1)); lia|]. rewrite plus_INR. pose proof (pos_INR i). simpl INR. lra.
Qed.
(** ** underflow *)
Definition eps := bp (-1074).
Lemma b64_tiny r : Rabs r < bp 53 -> b64 (r * eps) = IZR (ZnearestE r) * eps.
Proof.
  intros H. destruct (Req_dec r 0) as [->|Hr]; [rewrite Rmult_0_l, b64_0; replace (ZnearestE 0) with 0%Z by (symmetry; apply Znearest_imp; rewrite Rminus_eq_0, Rabs_R0; lra); ring|].
  unfold b64, round, scaled_mantissa, cexp, FLT_exp, F2R. simpl Fnum. simpl Fexp.
  assert (mag radix2 (r * eps) <= -1021)%Z as E.
  { apply mag_le_bpow; [apply Rmult_integral_contrapositive_currified; [exact Hr|apply Rgt_not_eq, bpow_gt_0]|].
    rewrite Rabs_mult, (Rabs_pos_eq eps) by apply bpow_ge_0. replace (bp (-1021)) with (bp 53 * eps) by (unfold eps; rewrite <- bpow_plus; reflexivity).
    apply Rmult_lt_compat_r; [apply bpow_gt_0|exact H]. }
  rewrite Z.max_r by lia. replace (r * eps * bp (- -1074)) with r; [reflexivity|]. unfold eps. rewrite Rmult_assoc, <- bpow_plus. simpl. ring.
Qed.
Lemma tiny_nat n : (Z.of_nat n <= 2 ^ 52)%Z -> b64 (INR n * eps) = INR n * eps.
Proof.
  intros H. rewrite b64_tiny; [|rewrite Rabs_pos_eq by apply pos_INR; rewrite INR_IZR, <- (IZR_Zpower radix2) by lia; apply IZR_lt; simpl radix_val; change (2 ^ 52)%Z with 4503599627370496%Z in H; change (2 ^ 53)%Z with 9007199254740992%Z; lia].
  f_equal. rewrite INR_IZR. f_equal. apply Znearest_imp. rewrite Rminus_eq_0, Rabs_R0. lra.
Qed.
Lemma tsum_tiny t (n : nat -> nat) : (Z.of_nat (list_sum (map n (leaves t))) <= 2 ^ 52)%Z -> tsum b64 t (fun i => INR (n i) * eps) = INR (list_sum (map n (leaves t))) * eps.
Proof.
  induction t as [i|t1 IH1 t2 IH2]; intros H; simpl in *; [now rewrite Nat.add_0_r|]. rewrite map_app, list_sum_app in *. rewrite IH1, IH2 by lia.
  unfold radd. rewrite <- Rmult_plus_distr_r, <- plus_INR. now apply tiny_nat.
Qed.
Lemma list_sum_perm l l' : Permutation l l' -> list_sum l = list_sum l'.
Proof. induction 1; simpl; lia. Qed.
Lemma tsum_ext t a b : (forall i, In i (leaves t) -> a i = b i) -> tsum b64 t a = tsum b64 t b.
Proof.
  induction t as [i|t1 IH1 t2 IH2]; intros H; simpl; [apply H; now left|]. f_equal; [apply IH1|apply IH2]; intros; apply H; apply in_or_app; auto.
Qed.
Definition xt (i : nat) : R := if (i =? 19)%nat then 28 * eps else 0.
Definition xn (i : nat) : nat := if (i =? 19)%nat then 28%nat else 0%nat.
Lemma xt_xn i : xt i = INR (xn i) * eps.
Proof. unfold xt, xn. destruct (i =? 19)%nat; [|simpl; ring]. f_equal. simpl; lra. Qed.
Lemma xn_le i : (xn i <= 28)%nat. Proof. unfold xn. destruct (i =? 19)%nat; lia. Qed.
Lemma xt_diff i j : Rabs (rsub b64 (xt i) (xt j)) = INR (xn i - xn j + (xn j - xn i)) * eps.
Proof.
  unfold rsub. rewrite <- b64_abs, !xt_xn, <- Rmult_minus_distr_r, Rabs_mult, (Rabs_pos_eq eps) by apply bpow_ge_0.
  pose proof (xn_le i). pose proof (xn_le j). replace (Rabs (INR (xn i) - INR (xn j))) with (INR (xn i - xn j + (xn j - xn i))); [apply tiny_nat; lia|].
  destruct (Nat.le_ge_cases (xn i) (xn j)) as [L|L].
  - replace (xn i - xn j + (xn j - xn i))%nat with (xn j - xn i)%nat by lia. rewrite minus_INR by exact L. apply le_INR in L. rewrite Rabs_left1; lra.
  - replace (xn i - xn j + (xn j - xn i))%nat with (xn i - xn j)%nat by lia. rewrite minus_INR by exact L. apply le_INR in L. rewrite Rabs_right; lra.
Qed.
Lemma near_int r z : Rabs (r - IZR z) < / 2 -> ZnearestE r = z. Proof. apply Znearest_imp. Qed.
Lemma near_32 : ZnearestE (3 / 2) = 2%Z.
Proof.
  unfold Znearest. assert (Zfloor (3 / 2) = 1%Z) as E by (apply Zfloor_imp; simpl; lra). rewrite E.
  rewrite Rcompare_Eq by lra. simpl. rewrite Zceil_floor_neq by (rewrite E; lra). now rewrite E.
Qed.
Lemma tiny_nrg t1 t2 : adds t1 20 -> adds t2 400 -> crps_nrg_arr_r b64 t1 t2 20 0 xt = - eps.
Proof.
  intros H1 H2. unfold crps_nrg_arr_r, crps_energy_arr_r. change (20 * 20)%nat with 400%nat.
  assert (tsum b64 t1 (fun i => Rabs (rsub b64 0 (xt i))) = 28 * eps) as ->.
  { rewrite (tsum_ext t1 _ (fun i => INR (xn i) * eps)).
    - assert (list_sum (map xn (leaves t1)) = 28%nat) as E by (rewrite (list_sum_perm _ _ (Permutation_map xn H1)); reflexivity).
      rewrite tsum_tiny, E by (rewrite E; lia). f_equal. simpl; lra.
    - intros i _. replace 0 with (xt 0) by reflexivity. rewrite xt_diff. f_equal. f_equal. change (xn 0) with O. lia. }
  assert (tsum b64 t2 (fun k => Rabs (rsub b64 (xt (k / 20)%nat) (xt (k mod 20)%nat))) = 1064 * eps) as ->.
  { set (n2 k := (xn (k / 20) - xn (k mod 20) + (xn (k mod 20) - xn (k / 20)))%nat). rewrite (tsum_ext t2 _ (fun k => INR (n2 k) * eps)) by (intros k _; apply xt_diff).
    assert (list_sum (map n2 (leaves t2)) = 1064%nat) as E by (rewrite (list_sum_perm _ _ (Permutation_map n2 H2)); vm_compute; reflexivity).
    rewrite tsum_tiny, E by (rewrite E; lia). f_equal. rewrite INR_IZR. reflexivity. }
  unfold rdiv, rmul, rsub. replace (INR 20) with 20 by (rewrite INR_IZR; reflexivity). replace (INR 400) with 400 by (rewrite INR_IZR; reflexivity).
  assert (forall r, Rabs r <= 10 -> Rabs r < bp 53) as B by (intros r Hr; eapply Rle_lt_trans; [exact Hr|]; apply Rlt_le_trans with (bp 4); [simpl; lra|apply bpow_le; lia]).
  replace (28 * eps / 20) with (7 / 5 * eps) by field. replace (1064 * eps / 400) with (133 / 50 * eps) by field.
  rewrite (b64_tiny (7 / 5)), (b64_tiny (133 / 50)) by (apply B; rewrite Rabs_right; lra).
  rewrite (near_int (7 / 5) 1) by (rewrite Rabs_right; lra). rewrite (near_int (133 / 50) 3) by (rewrite Rabs_left; lra).
  replace (1 / 2 * (3 * eps)) with (3 / 2 * eps) by field. rewrite (b64_tiny (3 / 2)) by (apply B; rewrite Rabs_right; lra). rewrite near_32.
  replace (1 * eps - 2 * eps) with (-1 * eps) by ring. rewrite (b64_tiny (-1)) by (apply B; rewrite Rabs_left; lra).
  rewrite (near_int (-1) (-1)) by (rewrite Rminus_eq_0, Rabs_R0; lra). ring.
Qed.
Lemma xt_64 i : is64 (xt i).
Proof.
  unfold xt. destruct (i =? 19)%nat.
  - exists 28%Z, (-1074)%Z. split; [unfold eps; now rewrite bp_pow|lia].
  - exists 0%Z, 0%Z. split; [simpl; ring|lia].
Qed.
