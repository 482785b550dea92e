(** The true density minimises the expected log score (Gibbs' inequality). *)
From Verif Require Export L_dens.
From Coq Require Import Psatz.
From Coquelicot Require Import Coquelicot.
Open Scope R_scope.

Lemma ln_le_1 x : 0 < x -> ln x <= x - 1.
Proof.
  intros H. destruct (Req_dec x 1) as [->|N]; [rewrite ln_1; lra|]. 
  assert (ln x <> 0) as N' by (intros E; apply N; rewrite <- (exp_ln x), E, exp_0; auto).
  pose proof (exp_ineq1 (ln x) N') as K. rewrite exp_ln in K by auto. lra.
Qed.
Lemma gibbs_pt p q : 0 <= p -> 0 <= q -> (0 < p -> 0 < q) -> p - q <= p * - ln q - p * - ln p.
Proof.
  intros Hp Hq Hpq. destruct (Req_dec p 0) as [->|N]; [lra|]. assert (0 < p) as P by lra. specialize (Hpq P).
  pose proof (ln_le_1 (q / p) (Rdiv_lt_0_compat _ _ Hpq P)) as K. unfold Rdiv in K. rewrite ln_mult, ln_Rinv in K by (auto using Rinv_0_lt_compat).
  apply (Rmult_le_compat_l p) in K; [|lra]. replace (p * (q * / p - 1)) with (q - p) in K by (field; lra). lra.
Qed.
Lemma gen_eps (f : R -> R) l u v e : 0 < e -> is_RInt_gen f (from_below l) (from_above u) v ->
  filter_prod (from_below l) (from_above u) (fun ab => exists w, is_RInt f (fst ab) (snd ab) w /\ Rabs (w - v) < e).
Proof. intros He H. apply (H (fun w => Rabs (w - v) < e)). exists (mkposreal e He). intros w Hw. exact Hw. Qed.
Lemma below_le (l : Rbar) (a : R) : Rbar_lt l a -> from_below l (fun x => x <= a).
Proof. intros H. eapply filter_imp; [|apply (below_in l a H)]. intros x [_ Hx]. simpl. lra. Qed.
Lemma above_ge (u : Rbar) (b : R) : Rbar_lt b u -> from_above u (fun x => b <= x).
Proof. intros H. eapply filter_imp; [|apply (above_in u b H)]. intros x [_ Hx]. simpl. lra. Qed.
Lemma dens_seg G g l u a b : distribution G g l u -> Rbar_lt l (Finite a) -> a <= b -> Rbar_lt (Finite b) u -> ex_RInt g a b /\ RInt g a b <= 1.
Proof.
  intros (Hg & _ & _ & _ & H) Ha Hab Hb.
  assert (forall e, 0 < e -> ex_RInt g a b /\ RInt g a b <= 1 + e) as K.
  { intros e He. pose proof (gen_eps _ _ _ _ _ He H) as E.
    assert (filter_prod (from_below l) (from_above u) (fun xz => fst xz <= a /\ b <= snd xz)) as P.
    { apply (Filter_prod _ _ _ (fun x => x <= a) (fun z => b <= z)); [now apply below_le|now apply above_ge|auto]. }
    destruct (filter_ex (F := filter_prod (from_below l) (from_above u)) _ (filter_and _ _ E P)) as ((x & z) & (w & Hw & Dw) & Hx & Hz). simpl in *.
    assert (ex_RInt g x z) as X by (eexists; exact Hw).
    assert (ex_RInt g x b) as X1 by (apply (ex_RInt_Chasles_1 g x b z); auto; lra).
    assert (ex_RInt g a b) as X2 by (apply (ex_RInt_Chasles_2 g x a b); auto; lra).
    assert (ex_RInt g x a) as X3 by (apply (ex_RInt_Chasles_1 g x a b); auto; lra).
    assert (ex_RInt g b z) as X4 by (apply (ex_RInt_Chasles_2 g x b z); auto; lra).
    split; auto. apply (is_RInt_unique (V := R_CompleteNormedModule)) in Hw. pose proof (RInt_Chasles g x b z X1 X4) as C1. pose proof (RInt_Chasles g x a b X3 X2) as C2. unfold plus in C1, C2; simpl in C1, C2.
    assert (0 <= RInt g x a) by (apply RInt_ge_0; auto). assert (0 <= RInt g b z) by (apply RInt_ge_0; auto). apply Rabs_def2 in Dw. lra. }
  split; [apply (K 1); lra|]. apply Rnot_lt_le. intros C. destruct (K ((RInt g a b - 1) / 2)) as [_ L]; lra.
Qed.
Lemma gibbs F f l u G g l' u' A B : Rbar_lt l u -> distribution F f l u -> distribution G g l' u' ->
  (forall t : R, Rbar_lt l t -> Rbar_lt t u -> 0 < g t) ->
  is_RInt_gen (fun t => f t * - ln (g t)) (from_below l) (from_above u) A ->
  is_RInt_gen (fun t => f t * - ln (f t)) (from_below l) (from_above u) B -> B <= A.
Proof.
  intros Hlu HF HG Hg HA HB.
  assert (forall t : R, Rbar_lt l t -> Rbar_lt t u -> Rbar_le l' t /\ Rbar_le t u') as Sub.
  { intros t H1 H2. pose proof (Hg t H1 H2) as P. destruct HG as (_ & O1 & O2 & _). split; apply Rbar_not_lt_le; intros C; [destruct (O1 t C)|destruct (O2 t C)]; lra. }
  assert (forall t : R, Rbar_lt l t -> Rbar_lt t u -> Rbar_lt l' t /\ Rbar_lt t u') as Sub'.
  { intros t H1 H2. destruct (inside l t H1) as (a & A1 & A2). destruct (inside t u H2) as (b & B1 & B2).
    destruct (Sub a A1 (Rbar_lt_trans _ _ _ A2 H2)) as [S1 _]. destruct (Sub b (Rbar_lt_trans _ _ _ H1 B1) B2) as [_ S2].
    split; [eapply Rbar_le_lt_trans; eauto|eapply Rbar_lt_le_trans; eauto]. }
  apply Rnot_lt_le. intros C. set (e := (B - A) / 4). assert (0 < e) as He by (unfold e; lra).
  pose proof (gen_eps _ _ _ _ _ He HA) as EA. pose proof (gen_eps _ _ _ _ _ He HB) as EB.
  pose proof HF as (Pf & _ & _ & _ & If). pose proof (gen_eps _ _ _ _ _ He If) as Ef.
  destruct (inside l u Hlu) as (c & C1 & C2).
  assert (filter_prod (from_below l) (from_above u) (fun ab => (Rbar_lt l (fst ab) /\ fst ab < c) /\ (Rbar_lt (snd ab) u /\ c < snd ab))) as Pr.
  { apply (Filter_prod _ _ _ (fun x : R => Rbar_lt l x /\ x < c) (fun x : R => Rbar_lt x u /\ c < x)); [now apply below_in|now apply above_in|auto]. }
  destruct (filter_ex (F := filter_prod (from_below l) (from_above u)) _ (filter_and _ _ (filter_and _ _ EA EB) (filter_and _ _ Ef Pr)))
    as ((a & b) & ((vA & IA & DA) & (vB & IB & DB)) & (vf & Iff & Df) & (La & Lc) & (Rb & Rc)). cbn [fst snd] in *.
  assert (forall x, a <= x <= b -> Rbar_lt l x /\ Rbar_lt x u) as In.
  { intros x [X1 X2]. split; [eapply Rbar_lt_le_trans; [exact La|exact X1]|eapply Rbar_le_lt_trans; [|exact Rb]; exact X2]. }
  destruct (dens_seg G g l' u' a b HG) as [Xg Ig]; [apply Sub'; apply In; lra|lra|apply Sub'; apply In; lra|].
  assert (vf - RInt g a b <= vA - vB) as K.
  { apply (is_RInt_le (fun t => f t - g t) (fun t => f t * - ln (g t) - f t * - ln (f t)) a b); [lra| | |].
    - apply (is_RInt_minus f g a b vf (RInt g a b)); auto. now apply (RInt_correct (V := R_CompleteNormedModule)).
    - now apply (is_RInt_minus (fun t => f t * - ln (g t)) (fun t => f t * - ln (f t)) a b vA vB).
    - intros x Hx. destruct (In x) as [X1 X2]; [lra|]. apply gibbs_pt; auto. pose proof (Hg x X1 X2). lra. }
  apply Rabs_def2 in DA. apply Rabs_def2 in DB. apply Rabs_def2 in Df. unfold e in *. lra.
Qed.
(** the discrete case *)
Lemma series_le (a b : nat -> R) x y : (forall n, a n <= b n) -> is_series a x -> is_series b y -> x <= y.
Proof.
  intros H Ha Hb. apply (is_lim_seq_le (sum_n a) (sum_n b) x y); [|exact Ha|exact Hb]. intros n. apply sum_n_m_le. auto.
Qed.
Lemma gibbs_discrete (p q : nat -> R) A B : (forall n, 0 <= p n) -> (forall n, 0 <= q n) -> (forall n, 0 < p n -> 0 < q n) ->
  is_series p 1 -> is_series q 1 -> is_series (fun n => p n * - ln (q n)) A -> is_series (fun n => p n * - ln (p n)) B -> B <= A.
Proof.
  intros Hp Hq Hpq Sp Sq SA SB. assert (1 - 1 <= A - B); [|lra].
  refine (series_le (fun n => p n - q n) (fun n => p n * - ln (q n) - p n * - ln (p n)) _ _ _ _ _).
  - intros n. apply gibbs_pt; auto.
  - apply (is_series_minus p q 1 1); auto.
  - now apply (is_series_minus (fun n => p n * - ln (q n)) (fun n => p n * - ln (p n)) A B).
Qed.
