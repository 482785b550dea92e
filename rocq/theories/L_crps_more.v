(** Rejected weight shapes; sign of the pairwise estimators. *)
From Coq Require Import FunctionalExtensionality.
From Verif Require Export L_crps_call.
Open Scope nat_scope.

Lemma remove_len q (l : list nat) : q < length l -> S (length (remove_at q l)) = length l.
Proof.
  revert q; induction l as [|a l IH]; intros q H; [simpl in H; lia|]. destruct q; simpl; auto.
  f_equal. apply IH. simpl in H; lia.
Qed.
Lemma weight_check_shape wt fct M s : sh fct = M :: s -> sh wt <> M :: s ->
  (length (sh wt) = S (length s) -> univariate_weight_check wt fct (-1) = Err ValueError) /\
  (univariate_weight_check wt fct (-1) = Err ValueError \/ univariate_weight_check wt fct (-1) = Err AxisError).
Proof.
  intros Hf Hw. unfold univariate_weight_check, shift_axis. rewrite Hf. cbn [length].
  replace (if (0 <=? -1)%Z then (-1)%Z else (Z.of_nat (S (length s)) + -1)%Z) with (Z.of_nat (length s))
    by (destruct (Z.leb_spec 0 (-1)); lia).
  unfold amove_last. cbn [bind]. unfold rev_axis, norm_axis.
  destruct (((- Z.of_nat (length (sh wt)) <=? Z.of_nat (length s))%Z && (Z.of_nat (length s) <? Z.of_nat (length (sh wt)))%Z)%bool) eqn:E.
  - apply andb_prop in E. destruct E as [_ E]. apply Z.ltb_lt in E.
    destruct (Z.ltb_spec (Z.of_nat (length s)) 0); [lia|]. cbn [bind]. rewrite Nat2Z.id.
    cbn [sh]. set (pp := length (sh wt) - 1 - length s).
    assert (A : shape_eqb (nth pp (sh wt) 0 :: remove_at pp (sh wt)) (M :: s) = false).
    { destruct (shape_eqb _ _) eqn:E2; auto. apply shape_eqb_true in E2.
      assert (L : length (nth pp (sh wt) 0 :: remove_at pp (sh wt)) = length (sh wt)).
      { assert (pp < length (sh wt)) by (unfold pp; lia). cbn [length].
        apply remove_len; auto. }
      rewrite E2 in L. cbn [length] in L. assert (pp = 0) by (unfold pp; lia). rewrite H0 in E2.
      destruct (sh wt); [easy|]. simpl in E2. congruence. }
    rewrite A. cbn [negb]. auto.
  - cbn [bind]. split; auto. intros L. exfalso. apply Bool.andb_false_iff in E.
    destruct E as [E|E]; [apply Z.leb_gt in E; lia|apply Z.ltb_ge in E; lia].
Qed.
Lemma move_last_shape ax (a a' : arr) : amove_last ax (Ok a) = Ok a' ->
  exists q, q < length (sh a) /\ norm_axis ax (length (sh a)) = Ok (length (sh a) - 1 - q) /\ sh a' = nth q (sh a) 0 :: remove_at q (sh a).
Proof.
  unfold amove_last, rev_axis. cbn [bind]. destruct (norm_axis ax (length (sh a))) as [k|] eqn:E; [|discriminate].
  cbn [bind]. intros H; injection H as <-. destruct (norm_axis_shift _ _ _ E) as [Hk _].
  exists (length (sh a) - 1 - k). split; [lia|]. split; [f_equal; lia|reflexivity].
Qed.
Lemma nth_remove_insert q (l : list nat) : q < length l -> insert_at q (nth q l 0) (remove_at q l) = l.
Proof.
  revert q; induction l as [|a l IH]; intros q H; [simpl in H; lia|]. destruct q; [destruct l; reflexivity|].
  simpl. f_equal. apply IH. simpl in H; lia.
Qed.
Lemma weights_bad_shape srt b obs fct wt ax d1 d2 s p M y x : argsort_ok srt ->
  inputs obs fct ax d1 d2 s p M y x -> forall e sf, sh wt <> sh fct ->
  (length (sh wt) = length (sh fct) -> raises (crps_ensemble srt b obs fct ax (Some wt) e sf "propagate") ValueError) /\
  (raises (crps_ensemble srt b obs fct ax (Some wt) e sf "propagate") ValueError \/
   raises (crps_ensemble srt b obs fct ax (Some wt) e sf "propagate") AxisError).
Proof.
  intros Hs Hin e sf Hne. unfold raises. rewrite crps_ensemble_core.
  destruct (check_in obs fct ax d1 d2 s p M y x Hin) as (f' & E & Hf'). rewrite E. cbn [bind].
  unfold apply_nan_policy_ens_uv. destruct Hin as (H1 & (Hd2 & Hs2 & _) & Hp & Hax).
  assert (Lf : length (sh fct) = S (length s)) by (rewrite Hs2; apply insert_at_length; auto).
  cbn [bind].
  set (cw := acast (dt f') (Ok wt)).
  assert (Ecw : exists c, cw = Ok c /\ sh c = sh wt) by (eexists; split; [reflexivity|reflexivity]).
  clearbody cw. destruct Ecw as (c & -> & Hc). rewrite <- Hc in Hne |- *. clear wt Hc. rename c into wt.
  destruct (amove_last ax (Ok wt)) as [w'|err] eqn:Em.
  - apply move_last_shape in Em. destruct Em as (q & Hq & Hn & Hsh).
    cbn [bind String.eqb Ascii.eqb Bool.eqb].
    assert (N : sh w' <> M :: s).
    { rewrite Hsh. intros Eq. injection Eq as E1 E2. apply Hne. rewrite Hs2.
      assert (L : length (sh wt) = S (length s)).
      { rewrite <- (nth_remove_insert q (sh wt) Hq), E1, E2.
        apply insert_at_length. }
      rewrite L in Hn. rewrite Hax in Hn. injection Hn as Hn.
      rewrite <- (nth_remove_insert q (sh wt) Hq), E1, E2. f_equal. lia. }
    assert (Lw : length (sh w') = length (sh wt)).
    { rewrite Hsh. cbn [length]. now apply remove_len. }
    unfold crps_core, univariate_sort_ens.
    assert (K : forall f'', sh f'' = M :: s -> 
       (length (sh wt) = length (sh fct) -> univariate_weight_check w' f'' (-1) = Err ValueError) /\
       (univariate_weight_check w' f'' (-1) = Err ValueError \/ univariate_weight_check w' f'' (-1) = Err AxisError)).
    { intros f'' Hf''. destruct (weight_check_shape w' f'' M s Hf'' N) as [K1 K2]. split; auto.
      intros L. apply K1. rewrite Lw, L, Lf. reflexivity. }
    destruct (negb sf && str_in e ["qd"; "pwm"; "int"]%string)%bool.
    + destruct (gather_ok srt Hs f' f' d2 d2 M s _ _ Hf' Hf') as (f'' & E2 & Hf''). rewrite E2. cbn [bind].
      destruct (K f'' ltac:(apply Hf'')) as [K1 K2]. split.
      * intros L. now rewrite (K1 L).
      * destruct K2 as [-> | ->]; auto.
    + cbn [bind]. destruct (K f' ltac:(apply Hf')) as [K1 K2]. split.
      * intros L. now rewrite (K1 L).
      * destruct K2 as [-> | ->]; auto.
  - cbn [bind]. unfold amove_last, rev_axis in Em. cbn [bind sh] in Em.
    destruct (norm_axis ax (length (sh wt))) as [k|err'] eqn:En; [discriminate|]. cbn [bind] in Em.
    injection Em as <-. split.
    + intros L. rewrite L, Lf in En. congruence.
    + right. unfold norm_axis in En. destruct (_ && _)%bool; [discriminate|]. congruence.
Qed.

Open Scope R_scope.
Lemma real_w_ext2 b e M w w' y x x' : (0 < M)%nat ->
  (forall k, (k < M)%nat -> w k = w' k /\ x k = x' k) -> real_w b e M w y x = real_w b e M w' y x'.
Proof.
  intros HM H. rewrite (real_w_ext b e M w w' y x) by (intros; now apply H).
  assert (Hx : forall k, (k < M)%nat -> x k = x' k) by (intros; now apply H).
  assert (E1 : wmae M w' y x = wmae M w' y x') by (apply sumn_ext; intros; now rewrite Hx).
  assert (E2 : wpairsum M w' x = wpairsum M w' x') by (apply sumn_ext; intros; apply sumn_ext; intros; now rewrite !Hx).
  assert (E3 : forall g : nat -> nat, (forall k, (g k < M)%nat) -> wlag_crps M g w' y x = wlag_crps M g w' y x').
  { intros g Hg. unfold wlag_crps. rewrite E1. do 2 f_equal. apply sumn_ext; intros; now rewrite !Hx. }
  destruct e; cbn [real_w].
  - unfold wexact_crps. now rewrite E1, E2.
  - unfold wfair_crps. now rewrite E1, E2.
  - unfold wpwm_free. rewrite E1. rewrite (sumn_ext M (fun k => w' k * x k) (fun k => w' k * x' k)) by (intros; now rewrite Hx).
    rewrite (sumn_ext M (fun k => w' k * w' k * x k) (fun k => w' k * w' k * x' k)) by (intros; now rewrite Hx).
    do 3 f_equal. apply sumn_ext; intros; apply sumn_ext; intros; now rewrite !Hx.
  - unfold wexact_crps. now rewrite E1, E2.
  - apply E3. intros; apply Nat.mod_upper_bound; lia.
  - apply E3. destruct b; intros; apply Nat.mod_upper_bound; lia.
  - unfold wexact_crps. now rewrite E1, E2.
Qed.

(** triangle inequality: the unweighted pairwise scores are not negative *)
Lemma tri a b y : 0 <= Rabs (a - y) + Rabs (b - y) - Rabs (a - b).
Proof.
  replace (a - b) with ((a - y) + - (b - y)) by ring.
  pose proof (Rabs_triang (a - y) (- (b - y))). rewrite Rabs_Ropp in H. lra.
Qed.
Lemma fair_nonneg M y x : (1 < M)%nat -> 0 <= fair_crps M y x.
Proof.
  intros HM. pose proof (INR_ge2 M HM) as H2. unfold fair_crps, mae, pairsum.
  assert (E : sumn M (fun i => sumn M (fun j => if Nat.eq_dec j i then 0 else Rabs (x i - y) + Rabs (x j - y) - Rabs (x i - x j)))
    = 2 * (INR M - 1) * sumn M (fun i => Rabs (x i - y)) - sumn M (fun i => sumn M (fun j => Rabs (x i - x j)))).
  { rewrite (sumn_ext M _ (fun i => (INR M - 2) * Rabs (x i - y) + (sumn M (fun j => Rabs (x j - y)) - sumn M (fun j => Rabs (x i - x j))))).
    - rewrite sumn_plus, sumn_minus, sumn_scal, sumn_const. ring.
    - intros i Hi.
      rewrite (sumn_ext M _ (fun j => Rabs (x i - y) + (Rabs (x j - y) - Rabs (x i - x j))
         - (if Nat.eq_dec j i then 2 * Rabs (x i - y) else 0))).
      + rewrite sumn_minus, sumn_plus, sumn_minus, sumn_const, sumn_delta by auto. ring.
      + intros j Hj. destruct (Nat.eq_dec j i) as [->|]; [rewrite Rminus_eq_0, Rabs_R0; ring|ring]. }
  assert (P : 0 <= 2 * (INR M - 1) * sumn M (fun i => Rabs (x i - y)) - sumn M (fun i => sumn M (fun j => Rabs (x i - x j)))).
  { rewrite <- E. apply sumn_nonneg; intros i Hi. apply sumn_nonneg; intros j Hj. destruct (Nat.eq_dec j i); [lra|apply tri]. }
  replace (_ - _) with ((2 * (INR M - 1) * sumn M (fun i => Rabs (x i - y)) - sumn M (fun i => sumn M (fun j => Rabs (x i - x j))))
     / (2 * INR M * (INR M - 1))) by (field; split; lra).
  apply Rmult_le_pos; auto. left. apply Rinv_0_lt_compat. repeat apply Rmult_lt_0_compat; lra.
Qed.
Lemma lag_nonneg M c y x : (0 < M)%nat -> 0 <= lag_crps M (fun k => (k + c) mod M)%nat y x.
Proof.
  intros HM. pose proof (INR_pos M HM). unfold lag_crps, mae.
  assert (E : sumn M (fun i => Rabs (x i - y)) = / 2 * sumn M (fun k => Rabs (x k - y) + Rabs (x ((k + c) mod M)%nat - y))).
  { rewrite sumn_plus. rewrite (sumn_permutes M _ (fun k => Rabs (x k - y)) (shift_permutes M c)). field. }
  rewrite E. replace (_ - _) with (/ 2 * / INR M * (sumn M (fun k => Rabs (x k - y) + Rabs (x ((k + c) mod M)%nat - y))
     - sumn M (fun k => Rabs (x k - x ((k + c) mod M)%nat)))) by (field; lra).
  apply Rmult_le_pos; [apply Rmult_le_pos; [lra|left; now apply Rinv_0_lt_compat]|].
  rewrite <- sumn_minus. apply sumn_nonneg; intros; apply tri.
Qed.
Lemma real_un_nonneg e M y x : (0 < M)%nat -> (need2 e = true -> (1 < M)%nat) -> 0 <= real_un e M y x.
Proof.
  intros HM H2. assert (X : 0 <= exact_crps M y x).
  { rewrite exact_uniform by auto. apply wexact_nonneg; [|now apply uniform_sum].
    intros; left; now apply Rinv_0_lt_compat, INR_pos. }
  destruct e; cbn; auto; try (apply fair_nonneg; auto).
  - rewrite (lag_ext M _ (fun k => (k + (M - 1)) mod M)%nat); [now apply lag_nonneg|].
    intros k Hk. unfold lag1. f_equal. lia.
  - rewrite (lag_ext M _ (fun k => (k + (M - M / 2)) mod M)%nat); [now apply lag_nonneg|].
    intros k Hk. unfold lagc. f_equal. pose proof (Nat.div_le_upper_bound M 2 M). lia.
Qed.
