(** Thirty-five decimals of Euler's constant. *)
From Verif Require Export L_euler M_closed.
From Coq Require Import Psatz Lia ZArith.
From Coquelicot Require Import Coquelicot.
Open Scope R_scope.

Fixpoint eT (n : nat) (v : R) : R := match n with O => 1 | S k => eT k v + (- v) ^ S k / INR (fact (S k)) end.
Fixpoint eS (n : nat) (v : R) : R := match n with O => 0 | S k => eS k v - (- v) ^ S k / (INR (S k) * INR (fact (S k))) end.
Fixpoint eD (n : nat) (v : R) : R := match n with O => 0 | S k => eD k v + (- v) ^ k / INR (fact (S k)) end.
Lemma fact_pos n : 0 < INR (fact n). Proof. apply lt_0_INR, lt_O_fact. Qed.
Lemma fact_S n : INR (fact (S n)) = INR (S n) * INR (fact n). Proof. change (fact (S n)) with (S n * fact n)%nat. apply mult_INR. Qed.
Lemma opp_pow_der n (v : R) : is_derive (fun v => (- v) ^ S n) v (- INR (S n) * (- v) ^ n).
Proof. evar_last; [apply (is_derive_pow (fun v => - v) (S n) v (- (1))); auto_derive; auto|]. change (pred (S n)) with n. ring. Qed.
Lemma eS_der n (v : R) : is_derive (eS n) v (eD n v).
Proof.
  induction n as [|n IH]; [exact (is_derive_const (K := R_AbsRing) (V := R_NormedModule) 0 v)|]. pose proof (fact_pos (S n)) as P. pose proof (lt_0_INR (S n) ltac:(lia)) as Q.
  set (c := / (INR (S n) * INR (fact (S n)))).
  apply (is_derive_ext (fun v => eS n v - c * (- v) ^ S n)); [intros t; change (eS n t - c * (- t) ^ S n = eS n t - (- t) ^ S n / (INR (S n) * INR (fact (S n)))); unfold c, Rdiv; ring|].
  evar_last; [apply (is_derive_minus (eS n) (fun v => c * (- v) ^ S n) v (eD n v) (c * (- INR (S n) * (- v) ^ n))); [exact IH|apply (is_derive_scal (fun v => (- v) ^ S n)), opp_pow_der]|].
  change (eD n v - c * (- INR (S n) * (- v) ^ n) = eD n v + (- v) ^ n / INR (fact (S n))). unfold c. field. lra.
Qed.
Lemma eT_der n (v : R) : is_derive (eT (S n)) v (- eT n v).
Proof.
  assert (forall k (v : R), is_derive (fun v => (- v) ^ S k / INR (fact (S k))) v (- ((- v) ^ k / INR (fact k)))) as K.
  { intros k w. pose proof (fact_pos (S k)) as P. pose proof (fact_pos k) as P'. pose proof (lt_0_INR (S k) ltac:(lia)) as Q.
    apply (is_derive_ext (fun v => / INR (fact (S k)) * (- v) ^ S k)); [intros; apply Rmult_comm|]. evar_last; [apply (is_derive_scal (fun v => (- v) ^ S k)), opp_pow_der|]. rewrite fact_S. simpl pow. field. lra. }
  induction n as [|n IH].
  - evar_last; [apply (is_derive_plus (fun _ => 1) (fun v => (- v) ^ 1 / INR (fact 1)) v 0 (- ((- v) ^ 0 / INR (fact 0)))); [exact (is_derive_const (K := R_AbsRing) (V := R_NormedModule) 1 v)|apply K]|]. unfold plus; simpl. field.
  - evar_last; [apply (is_derive_plus (eT (S n)) (fun v => (- v) ^ S (S n) / INR (fact (S (S n)))) v (- eT n v) (- ((- v) ^ S n / INR (fact (S n))))); [exact IH|apply K]|].
    change (- eT n v + - ((- v) ^ S n / INR (fact (S n))) = - (eT n v + (- v) ^ S n / INR (fact (S n)))). ring.
Qed.
Lemma eD_x n v : v * eD n v = 1 - eT n v.
Proof.
  induction n as [|n IH]; [simpl; ring|]. change (v * (eD n v + (- v) ^ n / INR (fact (S n))) = 1 - (eT n v + (- v) * (- v) ^ n / INR (fact (S n)))).
  rewrite Rmult_plus_distr_l, IH. unfold Rdiv. ring.
Qed.
Lemma eT_0 n : eT n 0 = 1.
Proof. induction n as [|n IH]; [reflexivity|]. change (eT n 0 + - 0 * (- 0) ^ n / INR (fact (S n)) = 1). rewrite IH. unfold Rdiv. ring. Qed.
Lemma powfact_der k (v : R) : is_derive (fun v => v ^ S k / INR (fact (S k))) v (v ^ k / INR (fact k)).
Proof.
  pose proof (fact_pos (S k)) as P. pose proof (fact_pos k) as P'. pose proof (lt_0_INR (S k) ltac:(lia)) as Q.
  apply (is_derive_ext (fun v => / INR (fact (S k)) * v ^ S k)); [intros; apply Rmult_comm|].
  evar_last; [apply (is_derive_scal (fun v => v ^ S k) v (/ INR (fact (S k))) (INR (S k) * 1 * v ^ k)); apply (is_derive_pow (fun v => v) (S k) v 1); apply is_derive_Reals, derivable_pt_lim_id|]. rewrite fact_S. field. lra.
Qed.
Lemma exp_rem n v : 0 <= v -> Rabs (exp (- v) - eT n v) <= v ^ S n / INR (fact (S n)).
Proof.
  revert v. induction n as [|n IH]; intros v Hv.
  - simpl. rewrite Rmult_1_r. pose proof (one_exp v Hv). apply Rabs_le. lra.
  - assert (forall t : R, is_derive (fun t => exp (- t) - eT (S n) t) t (- (exp (- t) - eT n t))) as D.
    { intros t. evar_last; [apply (is_derive_minus (fun t => exp (- t)) (eT (S n)) t (- exp (- t)) (- eT n t)); [auto_derive; auto; ring|apply eT_der]|]. unfold minus, plus, opp; simpl. ring. }
    assert (forall t, 0 <= t <= v -> Rabs (exp (- t) - eT n t) <= t ^ S n / INR (fact (S n))) as B by (intros; apply IH; lra).
    apply Rabs_le. split.
    + assert (0 + 0 ^ S (S n) / INR (fact (S (S n))) <= (exp (- v) - eT (S n) v) + v ^ S (S n) / INR (fact (S (S n)))) as K; [|rewrite pow_i in K by lia; unfold Rdiv in *; lra].
      replace 0 with (exp (- 0) - eT (S n) 0) at 1 by (rewrite eT_0, Ropp_0, exp_0; ring).
      apply (mono_der (fun t => (exp (- t) - eT (S n) t) + t ^ S (S n) / INR (fact (S (S n)))) (fun t => - (exp (- t) - eT n t) + t ^ S n / INR (fact (S n))) 0 v Hv).
      * intros t Ht. apply (is_derive_plus (fun t => exp (- t) - eT (S n) t) (fun t => t ^ S (S n) / INR (fact (S (S n)))) t (- (exp (- t) - eT n t)) (t ^ S n / INR (fact (S n)))); [apply D|apply powfact_der].
      * intros t Ht. specialize (B t Ht). apply Rabs_def3 in B || (apply Rcomplements.Rabs_le_between in B). lra.
    + assert (0 ^ S (S n) / INR (fact (S (S n))) - 0 <= v ^ S (S n) / INR (fact (S (S n))) - (exp (- v) - eT (S n) v)) as K; [|rewrite pow_i in K by lia; unfold Rdiv in *; lra].
      replace 0 with (exp (- 0) - eT (S n) 0) at 2 by (rewrite eT_0, Ropp_0, exp_0; ring).
      apply (mono_der (fun t => t ^ S (S n) / INR (fact (S (S n))) - (exp (- t) - eT (S n) t)) (fun t => t ^ S n / INR (fact (S n)) - - (exp (- t) - eT n t)) 0 v Hv).
      * intros t Ht. apply (is_derive_minus (fun t => t ^ S (S n) / INR (fact (S (S n)))) (fun t => exp (- t) - eT (S n) t) t (t ^ S n / INR (fact (S n))) (- (exp (- t) - eT n t))); [apply powfact_der|apply D].
      * intros t Ht. specialize (B t Ht). apply Rcomplements.Rabs_le_between in B. lra.
Qed.
Lemma eS_bound C n v : filterlim eB (at_right 0) (locally C) -> 0 < v -> Rabs (eB v + eS n v - C) <= v ^ S n / (INR (S n) * INR (fact (S n))).
Proof.
  intros HC Hv. pose proof (fact_pos (S n)) as P. pose proof (lt_0_INR (S n) ltac:(lia)) as Q. set (D := fun t => eB t + eS n t). set (p := fun t => t ^ S n / (INR (S n) * INR (fact (S n)))).
  assert (forall t : R, 0 < t -> is_derive D t ((exp (- t) - eT n t) / t)) as DD.
  { intros t Ht. evar_last; [apply (is_derive_plus eB (eS n) t (- ((1 - exp (- t)) / t)) (eD n t)); [now apply eB_der|apply eS_der]|]. unfold plus; simpl. pose proof (eD_x n t). replace (eT n t) with (1 - t * eD n t) by lra. field. lra. }
  assert (forall t : R, is_derive p t (t ^ n / INR (fact (S n)))) as Dp.
  { intros t. unfold p. apply (is_derive_ext (fun t => / (INR (S n) * INR (fact (S n))) * t ^ S n)); [intros; apply Rmult_comm|].
    evar_last; [apply (is_derive_scal (fun v => v ^ S n) t (/ (INR (S n) * INR (fact (S n)))) (INR (S n) * 1 * t ^ n)); apply (is_derive_pow (fun v => v) (S n) t 1); apply is_derive_Reals, derivable_pt_lim_id|]. field. lra. }
  assert (filterlim D (at_right 0) (locally C)) as LD.
  { rewrite <- (Rplus_0_r C). apply (filterlim_comp_2 eB (eS n) plus HC (H := locally 0)); [|apply (filterlim_plus (K := R_AbsRing) (V := R_NormedModule) C 0)].
    apply der_at0; [apply (ex_derive_continuous (eS n)); eexists; apply eS_der|]. clear. induction n as [|n IH]; [reflexivity|]. change (eS n 0 - - 0 * (- 0) ^ n / (INR (S n) * INR (fact (S n))) = 0). rewrite IH. unfold Rdiv. ring. }
  assert (filterlim p (at_right 0) (locally 0)) as Lp.
  { apply der_at0; [apply (ex_derive_continuous p); eexists; apply Dp|]. unfold p. rewrite pow_i by lia. unfold Rdiv. ring. }
  assert (forall t, 0 < t <= v -> - (t ^ n / INR (fact (S n))) <= (exp (- t) - eT n t) / t <= t ^ n / INR (fact (S n))) as B.
  { intros t Ht. pose proof (exp_rem n t ltac:(lra)) as B. apply Rcomplements.Rabs_le_between in B. replace (t ^ S n / INR (fact (S n))) with (t ^ n / INR (fact (S n)) * t) in B by (change (t ^ S n) with (t * t ^ n); field; lra).
    replace (exp (- t) - eT n t) with ((exp (- t) - eT n t) / t * t) in B by (field; lra). split; apply (Rmult_le_reg_r t); lra. }
  apply Rabs_le. change (eB v + eS n v) with (D v). change (v ^ S n / (INR (S n) * INR (fact (S n)))) with (p v). split.
  - assert (C + - p v <= D v); [|lra]. apply (prim_ge D (fun t => (exp (- t) - eT n t) / t) (fun t => - p t) (fun t => - (t ^ n / INR (fact (S n)))) v C Hv); auto.
    + intros t Ht. split; [apply DD; lra|split; [apply (is_derive_opp p), Dp|apply B; auto]].
    + rewrite <- Ropp_0 at 2. eapply filterlim_comp; [exact Lp|apply (filterlim_opp (K := R_AbsRing) (V := R_NormedModule) 0)].
  - assert (D v <= C + p v); [|lra]. apply (prim_le D (fun t => (exp (- t) - eT n t) / t) p (fun t => t ^ n / INR (fact (S n))) v C Hv); auto.
    intros t Ht. split; [apply DD; lra|split; [apply Dp|apply B; auto]].
Qed.
(** ln 3 *)
Fixpoint at_s (n : nat) (x : R) : R := match n with O => 0 | S k => at_s k x + 2 * (x ^ S (2 * k) / INR (S (2 * k))) end.
Fixpoint at_d (n : nat) (x : R) : R := match n with O => 0 | S k => at_d k x + 2 * x ^ (2 * k) end.
Lemma at_der n (x : R) : is_derive (at_s n) x (at_d n x).
Proof.
  induction n as [|n IH]; [exact (is_derive_const (K := R_AbsRing) (V := R_NormedModule) 0 x)|]. pose proof (lt_0_INR (S (2 * n)) ltac:(lia)) as Q. set (k := (2 * n)%nat) in *.
  apply (is_derive_plus (at_s n) (fun x => 2 * (x ^ S k / INR (S k))) x (at_d n x) (2 * x ^ k)); [exact IH|]. apply (is_derive_scal (fun x => x ^ S k / INR (S k)) x 2).
  apply (is_derive_ext (fun x => / INR (S k) * x ^ S k)); [intros; apply Rmult_comm|].
  evar_last; [apply (is_derive_scal (fun v => v ^ S k) x (/ INR (S k)) (INR (S k) * 1 * x ^ k)); apply (is_derive_pow (fun v => v) (S k) x 1); apply is_derive_Reals, derivable_pt_lim_id|]. field. lra.
Qed.
Lemma at_x n x : (1 - x * x) * at_d n x = 2 - 2 * x ^ (2 * n).
Proof.
  induction n as [|n IH]; [simpl; ring|]. change (at_d (S n) x) with (at_d n x + 2 * x ^ (2 * n)). rewrite Rmult_plus_distr_l, IH. replace (2 * S n)%nat with (S (S (2 * n))) by lia. simpl pow. ring.
Qed.
Lemma ln3_bounds n : 0 <= ln 3 - at_s n (1 / 2) <= 8 / 3 * (1 / 2) ^ S (2 * n) / INR (S (2 * n)).
Proof.
  pose proof (lt_0_INR (S (2 * n)) ltac:(lia)) as Q. set (k := (2 * n)%nat) in *.
  set (A := fun x => ln (1 + x) - ln (1 - x) - at_s n x).
  assert (forall x : R, 0 <= x <= 1 / 2 -> is_derive A x (2 * x ^ k / (1 - x * x))) as D.
  { intros x Hx. assert (1 - x * x <> 0) as Nx by nra. evar_last.
    - apply (is_derive_minus (fun x => ln (1 + x) - ln (1 - x)) (at_s n) x (/ (1 + x) + / (1 - x)) (at_d n x)); [auto_derive; [lra|field; lra]|apply at_der].
    - change (/ (1 + x) + / (1 - x) - at_d n x = 2 * x ^ k / (1 - x * x)). replace (at_d n x) with ((2 - 2 * x ^ k) / (1 - x * x)) by (pose proof (at_x n x) as E; fold k in E; rewrite <- E; field; auto). field. split; [auto|lra]. }
  assert (A 0 = 0) as A0.
  { unfold A. rewrite Rplus_0_r, Rminus_0_r, ln_1. assert (at_s n 0 = 0) as ->; [|ring]. clear. induction n as [|n IH]; [reflexivity|].
    change (at_s n 0 + 2 * (0 * 0 ^ (2 * n) / INR (S (2 * n))) = 0). rewrite IH. unfold Rdiv. ring. }
  assert (A (1 / 2) = ln 3 - at_s n (1 / 2)) as A1.
  { unfold A. replace (1 - 1 / 2) with (/ 2) by field. rewrite ln_Rinv by lra. replace (ln (1 + 1 / 2) - - ln 2) with (ln ((1 + 1 / 2) * 2)) by (rewrite ln_mult by lra; ring). do 2 f_equal. field. }
  rewrite <- A1. split.
  - rewrite <- A0. apply (mono_der A (fun x => 2 * x ^ k / (1 - x * x)) 0 (1 / 2)); [lra|exact D|]. intros x Hx. apply Rdiv_le_0_compat; [|nra]. pose proof (pow_le x k ltac:(lra)). lra.
  - assert (8 / 3 * 0 ^ S k / INR (S k) - A 0 <= 8 / 3 * (1 / 2) ^ S k / INR (S k) - A (1 / 2)) as K; [|rewrite A0, pow_i in K by lia; unfold Rdiv in *; lra].
    apply (mono_der (fun x => 8 / 3 * x ^ S k / INR (S k) - A x) (fun x => 8 / 3 * x ^ k - 2 * x ^ k / (1 - x * x)) 0 (1 / 2)); [lra| |].
    + intros x Hx. apply (is_derive_minus (fun x => 8 / 3 * x ^ S k / INR (S k)) A x (8 / 3 * x ^ k) (2 * x ^ k / (1 - x * x))); [|now apply D].
      apply (is_derive_ext (fun x => (8 / 3 / INR (S k)) * x ^ S k)); [intros t; change (8 / 3 / INR (S k) * t ^ S k = 8 / 3 * t ^ S k / INR (S k)); unfold Rdiv; ring|].
      evar_last; [apply (is_derive_scal (fun v => v ^ S k) x (8 / 3 / INR (S k)) (INR (S k) * 1 * x ^ k)); apply (is_derive_pow (fun v => v) (S k) x 1); apply is_derive_Reals, derivable_pt_lim_id|]. field. lra.
    + intros x Hx. pose proof (pow_le x k ltac:(lra)) as P. assert (/ (1 - x * x) <= 4 / 3) as R1. { apply (Rmult_le_reg_r (1 - x * x)); [nra|]. rewrite Rinv_l by nra. nra. } unfold Rdiv in *. nra.
Qed.
(** * exact rational values *)
(** (numerator of eS n 81 over (n!)^2, (-81)^n, n!, n) *)
Definition zstep (s : Z * Z * Z * Z) : Z * Z * Z * Z :=
  let '(p, w, f, k) := s in
  let k' := (k + 1)%Z in let w' := (w * -81)%Z in ((p * (k' * k') - w' * f)%Z, w', (f * k')%Z, k').
Fixpoint zst (n : nat) : Z * Z * Z * Z := match n with O => (0, 1, 1, 0)%Z | S k => zstep (zst k) end.
Lemma zst_spec n : let '(p, w, f, k) := zst n in
  eS n 81 = IZR p / (IZR f * IZR f) /\ IZR w = (- (81)) ^ n /\ IZR f = INR (fact n) /\ IZR k = INR n.
Proof.
  induction n as [|n IH]; [simpl; repeat split; auto; field|]. change (zst (S n)) with (zstep (zst n)). destruct (zst n) as [[[p w] f] k]. destruct IH as (E1 & E2 & E3 & E4).
  unfold zstep. pose proof (fact_pos n) as P. pose proof (fact_S n) as F. pose proof (lt_0_INR (S n) ltac:(lia)) as Q.
  assert (IZR (k + 1) = INR (S n)) as K by (rewrite plus_IZR, E4, S_INR; auto).
  assert (IZR (w * -81) = (- (81)) ^ S n) as W by (rewrite mult_IZR, E2; change ((- (81)) ^ S n) with (- (81) * (- (81)) ^ n); ring).
  repeat split; auto.
  - change (eS n 81 - (- (81)) ^ S n / (INR (S n) * INR (fact (S n))) = IZR (p * ((k + 1) * (k + 1)) - w * -81 * f) / (IZR (f * (k + 1)) * IZR (f * (k + 1)))).
    rewrite E1, minus_IZR, !(mult_IZR _ (k + 1)), (mult_IZR p), (mult_IZR (w * -81)), mult_IZR, W, K, F, E3. field. lra.
  - rewrite mult_IZR, K, E3, F. ring.
Qed.
(** (numerator of at_s n (1/2) over 4^n o, 4^n, o = 1 * 3 * ... * (2n-1), 2n+1) *)
Definition lstep (s : Z * Z * Z * Z) : Z * Z * Z * Z :=
  let '(p, w, o, k) := s in ((p * (4 * k) + 4 * o)%Z, (w * 4)%Z, (o * k)%Z, (k + 2)%Z).
Fixpoint lst (n : nat) : Z * Z * Z * Z := match n with O => (0, 1, 1, 1)%Z | S k => lstep (lst k) end.
Lemma lst_spec n : let '(p, w, o, k) := lst n in
  at_s n (1 / 2) = IZR p / (IZR w * IZR o) /\ IZR w = 4 ^ n /\ 0 < IZR o /\ IZR k = INR (S (2 * n)).
Proof.
  induction n as [|n IH]; [simpl; repeat split; auto; try field; lra|]. change (lst (S n)) with (lstep (lst n)). destruct (lst n) as [[[p w] o] k]. destruct IH as (E1 & E2 & E3 & E4).
  unfold lstep. pose proof (lt_0_INR (S (2 * n)) ltac:(lia)) as Q. pose proof (pow_lt 4 n ltac:(lra)) as P.
  repeat split.
  - change (at_s n (1 / 2) + 2 * ((1 / 2) ^ S (2 * n) / INR (S (2 * n))) = IZR (p * (4 * k) + 4 * o) / (IZR (w * 4) * IZR (o * k))).
    rewrite E1, plus_IZR, !mult_IZR, E2, E4.
    replace ((1 / 2) ^ S (2 * n)) with (1 / 2 * / 4 ^ n). { field. lra. }
    change ((1 / 2) ^ S (2 * n)) with (1 / 2 * (1 / 2) ^ (2 * n)). f_equal. rewrite pow_mult. replace ((1 / 2) ^ 2) with (/ 4) by field. now rewrite pow_inv.
  - rewrite mult_IZR, E2. simpl. ring.
  - rewrite mult_IZR, E4. apply Rmult_lt_0_compat; lra.
  - rewrite plus_IZR, E4. replace (S (2 * S n)) with (S (2 * n) + 2)%nat by lia. rewrite plus_INR. simpl. ring.
Qed.
Lemma ratio_bounds (p d m s : Z) : (0 < d)%Z -> (0 < m)%Z -> (s * d <= p * m)%Z -> (p * m <= (s + 1) * d)%Z -> IZR s / IZR m <= IZR p / IZR d <= (IZR s + 1) / IZR m.
Proof.
  intros Hd Hm H1 H2. apply IZR_lt in Hd, Hm. apply IZR_le in H1, H2. rewrite !mult_IZR in H1, H2. rewrite plus_IZR in H2.
  split; apply (Rmult_le_reg_r (IZR d * IZR m)); try (apply Rmult_lt_0_compat; lra).
  - replace (IZR s / IZR m * (IZR d * IZR m)) with (IZR s * IZR d) by (field; lra). replace (IZR p / IZR d * (IZR d * IZR m)) with (IZR p * IZR m) by (field; lra). lra.
  - replace ((IZR s + 1) / IZR m * (IZR d * IZR m)) with ((IZR s + 1) * IZR d) by (field; lra). replace (IZR p / IZR d * (IZR d * IZR m)) with (IZR p * IZR m) by (field; lra). lra.
Qed.
Definition zcheck (n : nat) (m s : Z) : bool :=
  let '(p, w, f, k) := zst n in let d := (f * f)%Z in
  ((0 <? d) && (s * d <=? p * m) && (p * m <=? (s + 1) * d) && (Z.abs w * 81 * m <=? (k + 1) * ((k + 1) * f)))%Z%bool.
Lemma eS_81 n m s : (0 < m)%Z -> zcheck n m s = true -> IZR s / IZR m <= eS n 81 <= (IZR s + 1) / IZR m /\ 81 ^ S n / (INR (S n) * INR (fact (S n))) <= 1 / IZR m.
Proof.
  intros Hm. unfold zcheck. pose proof (zst_spec n) as Sp. destruct (zst n) as [[[p w] f] k]. destruct Sp as (E1 & E2 & E3 & E4). cbv zeta. rewrite !Bool.andb_true_iff, Z.ltb_lt, !Z.leb_le. intros (((H0 & H1) & H2) & H3).
  split; [rewrite E1, <- mult_IZR; now apply ratio_bounds|]. pose proof (fact_pos n) as P. pose proof (lt_0_INR (S n) ltac:(lia)) as Q.
  apply IZR_le in H3. rewrite !mult_IZR, abs_IZR, !plus_IZR, E2, E3, E4 in H3. rewrite <- RPow_abs, Rabs_Ropp, Rabs_right in H3 by lra. apply IZR_lt in Hm.
  replace (INR n + 1) with (INR (S n)) in H3 by (rewrite S_INR; ring). rewrite <- fact_S in H3. pose proof (fact_pos (S n)) as P'.
  apply (Rmult_le_reg_r (IZR m * (INR (S n) * INR (fact (S n))))); [apply Rmult_lt_0_compat; [lra|apply Rmult_lt_0_compat; lra]|].
  replace (81 ^ S n / (INR (S n) * INR (fact (S n))) * (IZR m * (INR (S n) * INR (fact (S n))))) with (81 ^ n * 81 * IZR m) by (change (81 ^ S n) with (81 * 81 ^ n); field; lra).
  replace (1 / IZR m * (IZR m * (INR (S n) * INR (fact (S n))))) with (INR (S n) * INR (fact (S n))) by (field; lra). lra.
Qed.
Definition lcheck (n : nat) (m s : Z) : bool :=
  let '(p, w, o, k) := lst n in let d := (w * o)%Z in
  ((0 <? d) && (s * d <=? p * m) && (p * m <=? (s + 1) * d) && (4 * m <=? 3 * k * w))%Z%bool.
Lemma ln3 n m s : (0 < m)%Z -> lcheck n m s = true -> IZR s / IZR m <= ln 3 <= (IZR s + 2) / IZR m.
Proof.
  intros Hm. unfold lcheck. pose proof (lst_spec n) as Sp. destruct (lst n) as [[[p w] o] k]. destruct Sp as (E1 & E2 & E3 & E4). cbv zeta. rewrite !Bool.andb_true_iff, Z.ltb_lt, !Z.leb_le. intros (((H0 & H1) & H2) & H3).
  pose proof (ratio_bounds _ _ _ _ H0 Hm H1 H2) as B. rewrite mult_IZR, <- E1 in B. pose proof (ln3_bounds n) as L.
  apply IZR_le in H3. rewrite !mult_IZR, E2, E4 in H3. apply IZR_lt in Hm. pose proof (lt_0_INR (S (2 * n)) ltac:(lia)) as Q. pose proof (pow_lt 4 n ltac:(lra)) as P.
  assert (8 / 3 * (1 / 2) ^ S (2 * n) / INR (S (2 * n)) <= 1 / IZR m) as K.
  { replace ((1 / 2) ^ S (2 * n)) with (1 / 2 * / 4 ^ n).
    - apply (Rmult_le_reg_r (3 * INR (S (2 * n)) * 4 ^ n * IZR m)); [repeat apply Rmult_lt_0_compat; lra|].
      replace (8 / 3 * (1 / 2 * / 4 ^ n) / INR (S (2 * n)) * (3 * INR (S (2 * n)) * 4 ^ n * IZR m)) with (4 * IZR m) by (field; lra).
      replace (1 / IZR m * (3 * INR (S (2 * n)) * 4 ^ n * IZR m)) with (3 * INR (S (2 * n)) * 4 ^ n) by (field; lra). lra.
    - change ((1 / 2) ^ S (2 * n)) with (1 / 2 * (1 / 2) ^ (2 * n)). f_equal. rewrite pow_mult. replace ((1 / 2) ^ 2) with (/ 4) by field. now rewrite pow_inv. }
  replace ((IZR s + 2) / IZR m) with ((IZR s + 1) / IZR m + 1 / IZR m) by (field; lra). lra.
Qed.
Lemma E1_81 : 0 <= L_euler.E1 81 <= 2 / 10 ^ 37.
Proof.
  split; [apply E1_nonneg; lra|]. eapply Rle_trans; [apply E1_upper; lra|].
  assert (exp (- (1)) <= 37 / 100) as K. { pose proof (exp_rem 6 1 ltac:(lra)) as B. apply Rcomplements.Rabs_le_between in B. unfold eT, fact in B. simpl in B. lra. }
  replace (- (81)) with (INR 81 * - (1)) by (simpl; ring). rewrite exp_mul_pow.
  assert (exp (- (1)) ^ 81 <= (37 / 100) ^ 81) as B by (apply pow_incr; split; [left; apply exp_pos|exact K]).
  apply Rle_trans with ((37 / 100) ^ 81 / 81); [unfold Rdiv; lra|]. clear. unfold Rdiv. rewrite Rpow_mult_distr, pow_inv.
  apply (Rmult_le_reg_r (100 ^ 81 * 81 * 10 ^ 37)); [repeat apply Rmult_lt_0_compat; try apply pow_lt; lra|].
  replace (37 ^ 81 * / 100 ^ 81 * / 81 * (100 ^ 81 * 81 * 10 ^ 37)) with (37 ^ 81 * 10 ^ 37) by (field; apply Rgt_not_eq, pow_lt; lra).
  replace (2 * / 10 ^ 37 * (100 ^ 81 * 81 * 10 ^ 37)) with (162 * 100 ^ 81) by (field; apply Rgt_not_eq, pow_lt; lra).
  rewrite !pow_IZR, <- !mult_IZR. apply IZR_le. apply Z.leb_le. vm_compute. reflexivity.
Qed.
Lemma euler_value C : filterlim eB (at_right 0) (locally C) -> 0 < C - EULERMASCHERONI < 2 / 10 ^ 36.
Proof.
  intros HC. set (m := (10 ^ 42)%Z). assert (0 < m)%Z as Hm by reflexivity.
  destruct (eS_81 300 m 4971664819573971626187493037772505249713105 Hm ltac:(vm_compute; reflexivity)) as [S1 S2].
  pose proof (ln3 72 m 1098612288668109691395245236922525704647490 Hm ltac:(vm_compute; reflexivity)) as L.
  pose proof (eS_bound C 300 81 HC ltac:(lra)) as B. assert (Rabs (eB 81 + eS 300 81 - C) <= 1 / IZR m) as B' by lra. clear B S2. apply Rcomplements.Rabs_le_between in B'.
  unfold eB in B'. replace (ln 81) with (4 * ln 3) in B' by (replace 81 with (3 * 3 * (3 * 3)) by ring; rewrite !ln_mult by lra; ring).
  pose proof E1_81 as E. set (a := ln 3) in *. set (b := eS 300 81) in *. set (e := L_euler.E1 81) in *. clearbody a b e. unfold EULERMASCHERONI. change (IZR m) with (IZR 1000000000000000000000000000000000000000000) in *. clear Hm m.
  assert (10 ^ 36 = 1000000000000000000000000000000000000) as E36 by ring. assert (10 ^ 37 = 10000000000000000000000000000000000000) as E37 by ring. rewrite E36. rewrite E37 in E. clear E36 E37. lra.
Qed.
