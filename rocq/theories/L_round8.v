(** Rounding errors of the estimator int of the ensemble CRPS, continued: the two forms as a whole. *)
From Coq Require Import Reals List ZArith Permutation Lia Lra Psatz Bool.
From Flocq Require Import Core Relative.
From Verif Require Import M_crps L_crps_real L_crps_row L_crps_roww L_crps_arr L_crps_gu.
From Verif Require Export L_round7.
Import ListNotations.
Open Scope R_scope.

Local Notation fmt := (generic_format radix2 (FLT_exp (-1074) 53)).
Local Notation bp := (bpow radix2).

(** * the array form *)
Lemma eterm_sum M p y x : (0 < M)%nat -> ascending M x -> (p <= M)%nat -> (forall k, (k < p)%nat -> x k <= y) -> (forall k, (p <= k < M)%nat -> y < x k) ->
  sumn M (eterm M p y x idr) = exact_crps M y x.
Proof.
  intros HM Ha Hp H1 H2. rewrite (exact_uniform M y x HM). rewrite <- (int_sum M (fun _ => / INR M) x y p Ha Hp H1 H2 (uniform_sum M HM)). apply sumn_ext. intros k Hk.
  unfold eterm. cbv zeta. rewrite (Nat.add_comm k 1). assert (forall n, sumn n (fun _ => / INR M) = freq M idr n) as E by (intros n; rewrite sumn_const; unfold freq, idr, Rdiv; ring).
  rewrite E. assert (ins p (fun k0 => sumn (S k0) (fun _ => / INR M)) (freq M idr p) k = ins p (fun i => freq M idr (S i)) (freq M idr p) k) as ->.
  { unfold ins. destruct (k <? p)%nat; [apply E|]. destruct (k =? p)%nat; [reflexivity|apply E]. }
  unfold rsub, rmul, idr. replace (rbool (rle y (ins p x y k))) with (ind_le y (ins p x y k)); [reflexivity|]. unfold ind_le, rle. destruct Rle_dec; reflexivity.
Qed.
Lemma ypos_id M x y p t : adds t M -> (p <= M)%nat -> (forall k, (k < p)%nat -> x k <= y) -> (forall k, (p <= k < M)%nat -> y < x k) ->
  tsum idr t (fun i => rmul idr (rbool (rle (x i) y)) 1) = INR p.
Proof.
  intros Ht Hp H1 H2. rewrite (tsum_id t M) by exact Ht. change (fun i => rmul idr (rbool (rle (x i) y)) 1) with (fun i => rbool (rle (x i) y) * (fun _ => 1) i).
  rewrite (sumn_cut p M); [rewrite sumn_const; ring|exact Hp| |]; intros k Hk; [apply rle_true|apply rle_false]; auto.
Qed.
Lemma int_arr_id M y x t1 t2 : (0 < M)%nat -> ascending M x -> adds t1 M -> adds t2 M -> crps_int_arr_r idr t1 t2 M y x = exact_crps M y x.
Proof.
  intros HM Ha A1 A2. destruct (split_at M x y Ha) as (p & Hp & H1 & H2). rewrite (int_arr_gen M p y x HM Ha Hp H1 H2 idr t1 t2); auto.
  - rewrite (tsum_id t2 M) by exact A2. now apply eterm_sum.
  - intros n. unfold idr. ring.
  - now apply (ypos_id M).
Qed.
Lemma int_arr_b64 M y x t1 t2 p : (0 < M)%nat -> (Z.of_nat M <= 2 ^ 26)%Z -> ascending M x -> adds t1 M -> adds t2 M -> (p <= M)%nat -> (forall k, (k < p)%nat -> x k <= y) -> (forall k, (p <= k < M)%nat -> y < x k) ->
  crps_int_arr_r b64 t1 t2 M y x = tsum b64 t2 (eterm M p y x b64).
Proof.
  intros HM HB Ha A1 A2 Hp H1 H2. apply int_arr_gen; auto.
  - intros a b. apply b64_le.
  - intros n. rewrite Rplus_0_l. apply b64_id, b64_fmt.
  - now apply (ypos_rnd M).
Qed.
Lemma int_arr_calc M y x t1 t2 : ens64 M y x -> ascending M x -> adds t1 M -> adds t2 M ->
  calc (8 * (M - 1) + 5 + height t2) 954 (crps_int_arr_r b64 t1 t2 M y x) (exact_crps M y x).
Proof.
  intros (HM & HB & Hy & Hx & App) Ha A1 A2. destruct (split_at M x y Ha) as (p & Hp & H1 & H2). rewrite (int_arr_b64 M y x t1 t2 p) by auto.
  rewrite <- (eterm_sum M p y x) by auto. apply tsum_n; [lia|exact A2|]. intros i Hi. apply eterm_calc; auto; [now apply is64_fmt| |]; intros j Hj; [apply is64_fmt|]; now apply Hx.
Qed.
Lemma int_arr_ge0 M y x t1 t2 : (0 < M)%nat -> (Z.of_nat M <= 2 ^ 26)%Z -> ascending M x -> adds t1 M -> adds t2 M -> 0 <= crps_int_arr_r b64 t1 t2 M y x.
Proof.
  intros HM HB Ha A1 A2. destruct (split_at M x y Ha) as (p & Hp & H1 & H2). rewrite (int_arr_b64 M y x t1 t2 p) by auto.
  apply tsum_ge0. intros i Hi. apply (Permutation_in i A2) in Hi. apply in_seq in Hi. apply eterm_ge0; auto. lia.
Qed.
Lemma int_arr_perfect rnd M y x t1 t2 : rnd 0 = 0 -> (forall i, (i < M)%nat -> x i = y) -> adds t2 M -> crps_int_arr_r rnd t1 t2 M y x = 0.
Proof.
  intros R0 Hx A2. unfold crps_int_arr_r. cbv zeta.
  assert (forall t a, (forall i, In i (leaves t) -> a i = 0) -> tsum rnd t a = 0) as Z.
  { induction t as [i|u IHu v IHv]; intros a H; simpl; [apply H; now left|]. rewrite IHu, IHv by (intros; apply H; apply in_or_app; auto). unfold radd. now rewrite Rplus_0_r. }
  apply Z. intros i Hi. apply (Permutation_in i A2) in Hi. apply in_seq in Hi.
  assert (forall k, (k < M + 1)%nat -> nth k (rsort (map x (seq 0 M) ++ (y :: nil))) 0 = y) as E.
  { intros k Hk. rewrite (rsort_ins M x y M); auto; [| | |lia].
    - unfold ins. destruct (Nat.ltb_spec k M); [auto|]. destruct (Nat.eqb_spec k M); [reflexivity|lia].
    - intros a b L. rewrite !Hx by lia. lra.
    - intros j Hj. rewrite Hx by lia. lra. }
  rewrite !E by lia. unfold rmul, rsub. now rewrite Rminus_eq_0, R0, Rmult_0_l.
Qed.

(** * the numba kernel *)
Lemma fold_S (A : Type) (f : A -> R -> A) (x : nat -> R) n s : fold_left f (map x (seq 0 (S n))) s = f (fold_left f (map x (seq 0 n)) s) (x n).
Proof. rewrite seq_S, map_app, fold_left_app. reflexivity. Qed.
Lemma rlt_spec a b : rlt a b = true <-> a < b.
Proof. unfold rlt. destruct Rlt_dec; split; intros; auto; easy. Qed.
Section Kernel.
Variables (M : nat) (y : R) (x : nat -> R).
Hypothesis HM : (0 < M)%nat.
Hypothesis Ha : ascending M x.
(** the state after n members *)
Definition kst (rnd : R -> R) (n : nat) := fold_left (crps_int_step_r rnd M y) (map x (seq 0 n)) (false, 0, 0, 0).
Definition at_obs (n : nat) (ob : bool) (prev : R) : Prop := (n = 0%nat /\ ob = false /\ prev = 0) \/ (exists m, n = S m /\ prev = x m /\ (ob = true <-> y < x m)).
Lemma at_step n (ob : bool) prev : (S n <= M)%nat -> at_obs n ob prev -> at_obs (S n) (if negb ob && rlt y (x n) then true else ob) (x n).
Proof.
  intros Hn H. right. exists n. split; [reflexivity|]. split; [reflexivity|]. destruct H as [(-> & -> & ->)|(m & -> & -> & Ho)].
  - simpl. pose proof (rlt_spec y (x 0%nat)). destruct (rlt y (x 0%nat)); [easy|]. split; [easy|]. intros L. now apply H in L.
  - destruct ob; simpl; [split; [intros _|auto]; pose proof (proj1 Ho eq_refl); pose proof (Ha m (S m) ltac:(lia)); lra|].
    pose proof (rlt_spec y (x (S m))) as K. destruct (rlt y (x (S m))); [easy|]. split; [easy|]. intros L. now apply K in L.
Qed.
(** the terms are not negative *)
Lemma term_ge0 n ob prev : (S n <= M)%nat -> at_obs n ob prev -> n <> 0%nat -> prev <= x n /\ (ob = false -> prev <= y).
Proof.
  intros Hn [(-> & _)|(m & -> & -> & Ho)] N; [easy|]. split; [apply Ha; lia|]. intros ->. destruct (Rlt_le_dec y (x m)) as [L|L]; [|exact L]. now apply Ho in L.
Qed.
Lemma kst_ge0 n : (n <= M)%nat -> exists ob fc prev I, kst b64 n = (ob, fc, prev, I) /\ at_obs n ob prev /\ (n = 0%nat -> fc = 0) /\ 0 <= I.
Proof.
  induction n as [|n IH]; intros Hn.
  - exists false, 0, 0, 0. split; [reflexivity|]. split; [now left|]. split; [auto|lra].
  - destruct (IH ltac:(lia)) as (ob & fc & prev & I & E & A & F & P). unfold kst in *. rewrite fold_S, E.
    pose proof (at_step n ob prev Hn A) as A'. pose proof (term_ge0 n ob prev Hn A) as Tg.
    assert (forall a, 0 <= rmul b64 a a) as Sq by (intros a; apply b64_ge0, Rle_0_sqr).
    cbn [crps_int_step_r]. destruct (negb ob && rlt y (x n)) eqn:Eb.
    + apply andb_prop in Eb as [Eo El]. apply negb_true_iff in Eo. apply rlt_spec in El. do 4 eexists. split; [reflexivity|]. split; [exact A'|]. split; [easy|].
      apply b64_ge0, Rplus_le_le_0_compat; [apply b64_ge0, Rplus_le_le_0_compat; [exact P|]|apply b64_ge0, Rmult_le_pos; [apply b64_ge0; lra|apply Sq]].
      destruct (Nat.eq_dec n 0) as [N|N].
      * rewrite (F N). unfold rmul. rewrite Rmult_0_l, b64_0, Rmult_0_r, b64_0. lra.
      * destruct (Tg N) as [_ T]. specialize (T Eo). apply b64_ge0, Rmult_le_pos; [apply b64_ge0; lra|apply Sq].
    + do 4 eexists. split; [reflexivity|]. split; [exact A'|]. split; [easy|].
      apply b64_ge0, Rplus_le_le_0_compat; [exact P|]. destruct (Nat.eq_dec n 0) as [N|N].
      * rewrite (F N). destruct A as [(_ & -> & _)|(m & -> & _)]; [|easy]. unfold rmul, rsub. simpl (rbool false). rewrite Rminus_0_r, b64_0, Rmult_0_l, b64_0, Rmult_0_l, b64_0. lra.
      * destruct (Tg N) as [T _]. apply b64_ge0, Rmult_le_pos; [apply Sq|apply b64_ge0; lra].
Qed.
Lemma int_k_ge0 : 0 <= crps_int_k_r b64 M y x.
Proof.
  destruct (kst_ge0 M ltac:(lia)) as (ob & fc & prev & I & E & A & _ & P). unfold crps_int_k_r. unfold kst in E. rewrite E. destruct ob; [exact P|].
  destruct A as [(-> & _)|(m & -> & -> & Ho)]; [lia|]. apply b64_ge0, Rplus_le_le_0_compat; [exact P|]. apply b64_ge0.
  destruct (Rlt_le_dec y (x m)) as [L|L]; [|lra]. now apply Ho in L.
Qed.
Hypothesis HB : (Z.of_nat M <= 2 ^ 25)%Z.
Lemma HB' : (Z.of_nat M <= 2 ^ 26)%Z. Proof. change (2 ^ 26)%Z with 67108864%Z. change (2 ^ 25)%Z with 33554432%Z in HB. lia. Qed.
Hypothesis Fy : fmt y.
Hypothesis Fx : forall i, (i < M)%nat -> fmt (x i).
Hypothesis Ap : forall i, (i < M)%nat -> apart 900 (x i) y.
Hypothesis App : forall i j, (i < M)%nat -> (j < M)%nat -> apart 900 (x i) (x j).
Definition K : nat := 8 * (M * (M - 1)) + 5.
Lemma small25 n : (n < M)%nat -> INR (2 * S n * n) * u64 <= / 2 /\ INR (S n) * u64 <= / 2.
Proof.
  intros Hn. assert (INR M <= 33554432) as L. { rewrite INR_IZR. change 33554432 with (IZR (2 ^ 25)). now apply IZR_le. }
  assert (INR (S n) <= INR M) by (apply le_INR; lia). assert (INR n <= INR M) by (apply le_INR; lia). pose proof (pos_INR n). pose proof (pos_INR (S n)).
  rewrite !mult_INR. simpl (INR 2). rewrite u64_bp. change (bp (-53)) with (/ 9007199254740992). split; [|lra]. assert (INR (S n) * INR n <= 33554432 * 33554432) by (apply Rmult_le_compat; lra). lra.
Qed.
Lemma dif_calc a b : fmt a -> fmt b -> apart 900 a b -> b <= a -> calc 1 900 (b64 (a - b)) (a - b).
Proof.
  intros Fa Fb H L. pose proof (calc_sub 900 a b ltac:(lia) Fa Fb H) as D. now rewrite (Rabs_pos_eq (b64 (_ - _))), (Rabs_pos_eq (_ - _)) in D by (try apply b64_ge0; lra).
Qed.
Lemma prod_calc d D v V : calc 1 900 d D -> calc (4 * (M * (M - 1)) + 1) 27 (Rabs v) V -> calc K 954 (rmul b64 d (rmul b64 v v)) (D * (V * V)).
Proof.
  intros Hd Hv. pose proof (calc_sq (4 * (M * (M - 1)) + 1) 27 v V ltac:(lia) Hv) as Q. unfold K. replace (8 * (M * (M - 1)) + 5)%nat with (S (1 + (2 * (4 * (M * (M - 1)) + 1) + 1))) by lia.
  apply (calc_mul 1 (2 * (4 * (M * (M - 1)) + 1) + 1) 900 54 954); auto; lia.
Qed.
Lemma prod_zero v : v = 0 -> forall d, rmul b64 d (rmul b64 v v) = 0.
Proof. intros -> d. unfold rmul. now rewrite Rmult_0_l, b64_0, Rmult_0_r, b64_0. Qed.
Lemma calc_zero k p : calc k p 0 0.
Proof. apply (calc_le 0 _ p p); [lia|lia|]. apply calc_exact; [apply fmt_0|now left]. Qed.
Lemma rmul_comm a b : rmul b64 a b = rmul b64 b a. Proof. unfold rmul. now rewrite Rmult_comm. Qed.
Lemma nM n : (n < M)%nat -> (n <= M - 1)%nat /\ ((n = 0)%nat \/ (S n <= M * (M - 1))%nat). Proof. intros. split; [lia|]. destruct n; [now left|]. right. nia. Qed.
(** the deviation of the forecast distribution from 0 and from 1 *)
Lemma dev0 n fc : (n < M)%nat -> n <> 0%nat -> calc (S n) 26 fc (INR n / INR M) -> calc (4 * (M * (M - 1)) + 1) 27 (Rabs fc) (INR n / INR M).
Proof.
  intros Hn N C. rewrite Rabs_pos_eq by (destruct C as (_ & _ & _ & B); exact (big_ge0 _ _ B)). eapply calc_le; [| |exact C]; [|lia]. destruct (nM n Hn) as [_ [?|?]]; lia.
Qed.
Lemma dev1 n fc : (n < M)%nat -> calc (S n) 26 fc (INR n / INR M) -> calc (4 * (M * (M - 1)) + 1) 27 (Rabs (rsub b64 fc 1)) (1 - INR n / INR M).
Proof.
  intros Hn C. destruct (small25 n Hn) as [S1 S2]. eapply calc_le; [| |exact (dev_calc (S n) 26 fc n M Hn HB' S1 S2 C)]; [|lia].
  assert (S n * n <= M * (M - 1))%nat by (apply Nat.mul_le_mono; lia). nia.
Qed.
Lemma inv_calc : calc 1 26 (rdiv b64 1 (INR M)) (1 / INR M).
Proof. pose proof (freq_calc M 0 HM HB' ltac:(lia) 1) as Q. unfold freq in Q. exact Q. Qed.
Lemma kst_calc n : (n <= M)%nat -> exists ob fc FC prev I J, kst b64 n = (ob, fc, prev, I) /\ kst idr n = (ob, FC, prev, J) /\
  at_obs n ob prev /\ FC = INR n / INR M /\ calc (S n) 26 fc FC /\ (n = 0%nat -> fc = 0) /\ calc (K + n + (if ob then 1 else 0)) 954 I J.
Proof.
  induction n as [|n IH]; intros Hn.
  - exists false, 0, 0, 0, 0, 0. split; [reflexivity|]. split; [reflexivity|]. split; [now left|]. split; [simpl; unfold Rdiv; ring|]. split; [apply calc_zero|]. split; [auto|apply calc_zero].
  - destruct (IH ltac:(lia)) as (ob & fc & FC & prev & I & J & E & E' & A & EF & C & F & CI). unfold kst in *. rewrite !fold_S, E, E'.
    pose proof (at_step n ob prev Hn A) as A'. pose proof (term_ge0 n ob prev Hn A) as Tg. pose proof (lt_0_INR M HM) as PM.
    assert (radd idr FC (rdiv idr 1 (INR M)) = INR (S n) / INR M) as EF' by (unfold radd, rdiv, idr; rewrite EF, S_INR; field; lra).
    assert (calc (S (S n)) 26 (radd b64 fc (rdiv b64 1 (INR M))) (radd idr FC (rdiv idr 1 (INR M)))) as C'.
    { apply (calc_add (S n) 26 fc FC _ (1 / INR M)); [lia|exact C|]. eapply calc_le; [| |exact inv_calc]; lia. }
    assert (n <> 0%nat -> fmt prev /\ apart 900 y prev /\ apart 900 (x n) prev) as Pv.
    { intros N. destruct A as [(-> & _)|(m & -> & -> & _)]; [easy|]. split; [apply Fx; lia|]. split; [apply apart_sym, Ap; lia|apply App; lia]. }
    cbn [crps_int_step_r]. destruct (negb ob && rlt y (x n)) eqn:Eb.
    + apply andb_prop in Eb as [Eo El]. apply negb_true_iff in Eo. apply rlt_spec in El. subst ob.
      do 6 eexists. split; [reflexivity|]. split; [reflexivity|]. split; [exact A'|]. split; [exact EF'|]. split; [exact C'|]. split; [easy|].
      replace (K + S n + 1)%nat with (S (S (K + n)))%nat by lia. unfold radd at 1 3. unfold idr at 1.
      apply calc_add; [lia| |].
      * unfold radd at 1 2. unfold idr at 1. apply calc_add; [lia|eapply calc_le; [| |exact CI]; lia|]. destruct (Nat.eq_dec n 0) as [N|N].
        { rewrite (prod_zero fc (F N)). assert (FC = 0) as -> by (rewrite EF, N; simpl; unfold Rdiv; ring). unfold rmul, idr. rewrite !Rmult_0_r. apply calc_zero. }
        { destruct (Pv N) as (F1 & F2 & F3). destruct (Tg N) as [_ T]. specialize (T eq_refl). apply (calc_le K _ 954 954); [lia|lia|]. apply prod_calc; [now apply dif_calc|]. rewrite EF in C |- *. now apply dev0. }
      * apply (calc_le K _ 954 954); [lia|lia|]. change (rmul idr (rsub idr (x n) y) (rmul idr (rsub idr FC 1) (rsub idr FC 1))) with ((x n - y) * ((FC - 1) * (FC - 1))).
        replace ((FC - 1) * (FC - 1)) with ((1 - FC) * (1 - FC)) by ring. apply prod_calc; [apply dif_calc; auto; lra|]. rewrite EF in C |- *. now apply dev1.
    + do 6 eexists. split; [reflexivity|]. split; [reflexivity|]. split; [exact A'|]. split; [exact EF'|]. split; [exact C'|]. split; [easy|].
      replace (K + S n + (if ob then 1 else 0))%nat with (S (K + n + (if ob then 1 else 0)))%nat by lia. unfold radd at 1 2. unfold idr at 1.
      apply calc_add; [lia|exact CI|]. apply (calc_le K _ 954 954); [lia|lia|]. rewrite rmul_comm. destruct (Nat.eq_dec n 0) as [N|N].
      { destruct A as [(_ & -> & _)|(m & -> & _)]; [|easy]. rewrite prod_zero by (rewrite (F N); unfold rsub; simpl; now rewrite Rminus_0_r, b64_0).
        assert (FC = 0) as -> by (rewrite EF, N; simpl; unfold Rdiv; ring). unfold rmul, rsub, idr. simpl. rewrite Rminus_0_r, !Rmult_0_l. apply calc_zero. }
      destruct (Pv N) as (F1 & F2 & F3). destruct (Tg N) as [T _].
      change (rmul idr (rmul idr (rsub idr FC (rbool ob)) (rsub idr FC (rbool ob))) (rsub idr (x n) prev)) with ((FC - rbool ob) * (FC - rbool ob) * (x n - prev)). rewrite (Rmult_comm ((FC - _) * _)). destruct ob; simpl (rbool _).
      { replace ((FC - 1) * (FC - 1)) with ((1 - FC) * (1 - FC)) by ring. apply prod_calc; [apply dif_calc; auto|]. rewrite EF in C |- *. now apply dev1. }
      { rewrite Rminus_0_r. replace (rsub b64 fc 0) with fc by (unfold rsub; rewrite Rminus_0_r; symmetry; apply b64_id; apply C). apply prod_calc; [apply dif_calc; auto|]. rewrite EF in C |- *. now apply dev0. }
Qed.
Lemma int_k_calc : calc (K + M + 1) 954 (crps_int_k_r b64 M y x) (crps_int_k_r idr M y x).
Proof.
  destruct (kst_calc M ltac:(lia)) as (ob & fc & FC & prev & I & J & E & E' & A & _ & _ & _ & C). unfold crps_int_k_r. unfold kst in E, E'. rewrite E, E'. destruct ob; [exact C|].
  destruct A as [(-> & _)|(m & Em & -> & Ho)]; [lia|]. replace (K + M + 1)%nat with (S (K + M)) by lia. unfold radd at 1 2. unfold idr at 1. apply calc_add; [lia|eapply calc_le; [| |exact C]; lia|].
  eapply calc_le; [| |apply dif_calc]; [unfold K; lia|lia|exact Fy|apply Fx; lia|apply apart_sym, Ap; lia|]. destruct (Rlt_le_dec y (x m)) as [L|L]; [|lra]. now apply Ho in L.
Qed.
End Kernel.
(** without rounding it is the kernel of M_crps.v *)
Definition up (s : bool * R * R * R) : option (bool * num * num * num) := let '(a, b, c, d) := s in Some (a, Fin b, Fin c, Fin d).
Lemma step_id M y s v : (0 < M)%nat -> crps_int_step (n1 ./ nofnat M) (Fin y) (up s) (Fin v) = up (crps_int_step_r idr M y s v).
Proof.
  intros HM. destruct s as [[[ob fc] prev] I]. pose proof (lt_0_INR M HM) as PM.
  assert (n1 ./ nofnat M = Fin (1 / INR M)) as -> by (unfold n1; fin; lra).
  cbn [crps_int_step up nisnan crps_int_step_r]. replace (nltb (Fin y) (Fin v)) with (rlt y v) by (unfold rlt; cbn; unfold rltb; destruct Rlt_dec; reflexivity).
  destruct (negb ob && rlt y v); [reflexivity|]. destruct ob; reflexivity.
Qed.
Lemma int_k_id M y x : (0 < M)%nat -> crps_int_k (Fin y) (map (fun i => Fin (x i)) (seq 0 M)) = Fin (crps_int_k_r idr M y x).
Proof.
  intros HM. unfold crps_int_k. rewrite map_length, seq_length. cbn [nisnan].
  assert (forall l s, fold_left (crps_int_step (n1 ./ nofnat M) (Fin y)) (map (fun i => Fin (x i)) l) (up s) = up (fold_left (crps_int_step_r idr M y) (map x l) s)) as H.
  { induction l as [|i l IH]; intros s; [reflexivity|]. cbn [map fold_left]. rewrite step_id by exact HM. apply IH. }
  specialize (H (seq 0 M) (false, 0, 0, 0)). unfold n0. change (Some (false, Fin 0, Fin 0, Fin 0)) with (up (false, 0, 0, 0)). rewrite H. unfold crps_int_k_r.
  destruct (fold_left (crps_int_step_r idr M y) (map x (seq 0 M)) (false, 0, 0, 0)) as [[[ob fc] prev] I]. cbn [up]. destruct ob; reflexivity.
Qed.
Lemma int_k_idr M y x : (0 < M)%nat -> ascending M x -> crps_int_k_r idr M y x = exact_crps M y x.
Proof.
  intros HM Ha. pose proof (int_k_id M y x HM) as E. pose proof (int_k_real M (Fin y) (fun i => Fin (x i)) y x HM eq_refl (fun _ _ => eq_refl) Ha) as E'. unfold rw in E'. rewrite E in E'. now injection E'.
Qed.
Lemma int_k_perfect rnd M y x : rnd 0 = 0 -> (0 < M)%nat -> (forall i, (i < M)%nat -> x i = y) -> crps_int_k_r rnd M y x = 0.
Proof.
  intros R0 HM Hx. assert (forall n, (0 < n <= M)%nat -> exists fc, fold_left (crps_int_step_r rnd M y) (map x (seq 0 n)) (false, 0, 0, 0) = (false, fc, y, 0)) as H.
  { induction n as [|n IH]; intros Hn; [lia|]. rewrite fold_S. destruct (Nat.eq_dec n 0) as [->|N].
    - simpl. rewrite Hx by lia. unfold rlt. destruct Rlt_dec; [lra|]. simpl. eexists. unfold radd at 2, rmul, rsub. now rewrite Rminus_0_r, R0, !Rmult_0_l, !R0, Rmult_0_l, R0, Rplus_0_r, R0.
    - destruct (IH ltac:(lia)) as [fc ->]. simpl. rewrite Hx by lia. unfold rlt. destruct Rlt_dec; [lra|]. simpl. eexists. unfold radd at 2, rmul at 1, rsub at 3. now rewrite Rminus_eq_0, R0, Rmult_0_r, R0, Rplus_0_r, R0. }
  unfold crps_int_k_r. destruct (H M ltac:(lia)) as [fc ->]. unfold radd, rsub. now rewrite Rminus_eq_0, R0, Rplus_0_r, R0.
Qed.
