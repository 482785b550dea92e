(** The square root of the CRPS as a distance: monotone functions are integrable, domination on the line, the triangle
    inequality for root mean squares. *)
From Verif Require Export S_metric L_score L_improp.
From Coq Require Import Psatz Lia.
From Coquelicot Require Import Coquelicot.
Open Scope R_scope.

(** * monotone functions are integrable *)
Lemma up_int (P : R -> Prop) (d : forall t, {P t} + {~ P t}) a b : (forall s t, s <= t -> P s -> P t) -> a <= b ->
  ex_RInt (fun t => if d t then 1 else 0) a b.
Proof.
  intros U Hab. destruct (completeness (fun t => t = a \/ (a <= t <= b /\ ~ P t))) as [c [Hc Hl]].
  - exists b. intros t [->|[H _]]; lra.
  - exists a. auto.
  - assert (a <= c) as Ac by (apply Hc; auto). assert (c <= b) as Cb by (apply Hl; intros t [->|[H _]]; lra).
    apply (ex_RInt_Chasles _ a c b).
    + apply (ex_RInt_ext (fun _ => 0)); [|apply ex_RInt_const]. intros t Ht. rewrite Rmin_left, Rmax_right in Ht by lra.
      destruct (d t) as [p|_]; auto. exfalso. assert (c <= t); [|lra]. apply Hl. intros s [->|[H N]]; [lra|]. apply Rnot_lt_le. intros L. apply N. apply (U t); auto. lra.
    + apply (ex_RInt_ext (fun _ => 1)); [|apply ex_RInt_const]. intros t Ht. rewrite Rmin_left, Rmax_right in Ht by lra.
      destruct (d t) as [p|n]; auto. exfalso. assert (t <= c); [|lra]. apply Hc. right. split; [lra|auto].
Qed.
(** the integer part of z as a number of thresholds passed *)
Lemma steps n z : 0 <= z -> sumn n (fun k => if Rle_dec (INR (S k)) z then 1 else 0) <= z /\
  (z <= INR n -> z - 1 <= sumn n (fun k => if Rle_dec (INR (S k)) z then 1 else 0)) /\
  (INR n <= z -> sumn n (fun k => if Rle_dec (INR (S k)) z then 1 else 0) = INR n).
Proof.
  intros Hz. induction n as [|n (A & B & C)]; [rewrite sumn_0; simpl; repeat split; intros; lra|]. rewrite sumn_S. pose proof (S_INR n).
  destruct (Rle_dec (INR (S n)) z) as [L|L].
  - rewrite C by lra. repeat split; intros; lra.
  - rewrite Rplus_0_r. repeat split; auto; intros; try lra.
Qed.
Definition mono (F : R -> R) : Prop := forall s t, s <= t -> F s <= F t.
Lemma sum_int n (f : nat -> R -> R) a b : (forall k, (k < n)%nat -> ex_RInt (f k) a b) -> ex_RInt (fun t => sumn n (fun k => f k t)) a b.
Proof.
  induction n as [|n IH]; intros H.
  - apply (ex_RInt_ext (fun _ => 0)); [intros; now rewrite sumn_0|apply ex_RInt_const].
  - apply (ex_RInt_ext (fun t => plus (sumn n (fun k => f k t)) (f n t))); [intros; now rewrite sumn_S|].
    apply (ex_RInt_plus (V := R_NormedModule)); [apply IH; intros; apply H; lia|apply H; lia].
Qed.
Lemma mono_int_le F a b : mono F -> (forall t, 0 <= F t <= 1) -> a <= b -> ex_RInt F a b.
Proof.
  intros M B Hab.
  set (g := fun n t => / INR (S n) * sumn (S n) (fun k => if Rle_dec (INR (S k)) (INR (S n) * F t) then 1 else 0)).
  assert (forall n, ex_RInt (g n) a b) as I.
  { intros n. apply (ex_RInt_scal (V := R_NormedModule)). apply sum_int. intros k _.
    apply (up_int (fun t => INR (S k) <= INR (S n) * F t) (fun t => Rle_dec _ _)); auto. intros s t Hst H. specialize (M s t Hst). pose proof (lt_0_INR (S n) ltac:(lia)). nra. }
  destruct (filterlim_RInt (V := R_CompleteNormedModule) g a b eventually _ F (fun n => RInt (g n) a b)) as (v & _ & Hv).
  - intros n. apply (RInt_correct (V := R_CompleteNormedModule)). auto.
  - intros Q [e HQ]. destruct (archimed_cor1 e (cond_pos e)) as (N & HN & HN0). exists N. intros n Hn. apply HQ. intros t.
    unfold ball; simpl. unfold AbsRing_ball, abs, minus, plus, opp; simpl. pose proof (lt_0_INR (S n) ltac:(lia)) as P.
    destruct (steps (S n) (INR (S n) * F t)) as (A1 & A2 & _); [specialize (B t); nra|]. specialize (A2 ltac:(specialize (B t); nra)).
    set (w := sumn (S n) (fun k => if Rle_dec (INR (S k)) (INR (S n) * F t) then 1 else 0)) in *.
    assert (g n t = / INR (S n) * w) as -> by reflexivity.
    assert (/ INR (S n) < e). { eapply Rle_lt_trans; [|exact HN]. apply Rinv_le_contravar; [apply lt_0_INR; lia|]. apply le_INR. lia. }
    assert (/ INR (S n) * w - F t = / INR (S n) * (w - INR (S n) * F t)) as E by (field; lra).
    pose proof (Rinv_0_lt_compat _ P). apply Rabs_def1.
    + replace (/ INR (S n) * w + - F t) with (/ INR (S n) * w - F t) by ring. rewrite E. pose proof (cond_pos e). nra.
    + replace (/ INR (S n) * w + - F t) with (/ INR (S n) * w - F t) by ring. rewrite E. nra.
  - now exists v.
Qed.
Lemma mono_int F a b : mono F -> (forall t, 0 <= F t <= 1) -> ex_RInt F a b.
Proof. intros M B. destruct (Rle_dec a b); [now apply mono_int_le|apply ex_RInt_swap, mono_int_le; auto; lra]. Qed.
(** * domination on the line *)
Lemma line_dom (f g : R -> R) (v : R) : (forall t, 0 <= f t <= g t) -> (forall a b, ex_RInt f a b) -> line g v -> exists w : R, line f w.
Proof.
  intros B I L.
  assert (exists A C, forall a b, a < A -> C < b -> exists J, is_RInt g a b J /\ J <= v + 1) as (A & C & HAC).
  { pose proof (L (ball v (mkposreal 1 Rlt_0_1)) (locally_ball v (mkposreal 1 Rlt_0_1))) as K. unfold filtermapi in K. destruct K as [Q S [A HA] [C HC] H]. exists A, C.
    intros a b Ha Hb. destruct (H a b (HA a Ha) (HC b Hb)) as (J & HJ & HB). exists J. split; auto.
    unfold ball in HB; simpl in HB. unfold AbsRing_ball, abs, minus, plus, opp in HB; simpl in HB. apply Rabs_def2 in HB. lra. }
  assert (forall x y, x <= y -> 0 <= RInt f x y) as Np by (intros x y H; apply RInt_ge_0; auto; intros; apply B).
  assert (forall x y z, RInt f x y + RInt f y z = RInt f x z) as Ch by (intros x y z; apply (RInt_Chasles (V := R_CompleteNormedModule)); auto).
  assert (forall x y, x <= y -> RInt f x y <= v + 1) as Bd.
  { intros x y Hxy. set (a := Rmin x (A - 1) - 1). set (b := Rmax y (C + 1) + 1).
    assert (a < A /\ a <= x) as [a1 a2] by (unfold a, Rmin; destruct Rle_dec; lra). assert (C < b /\ y <= b) as [b1 b2] by (unfold b, Rmax; destruct Rle_dec; lra).
    destruct (HAC a b a1 b1) as (J & HJ & HJ'). pose proof (Ch a x b). pose proof (Ch x y b). pose proof (Np a x a2). pose proof (Np y b b2).
    assert (RInt f a b <= J); [|lra]. apply (is_RInt_le f g a b (RInt f a b) J); auto; [lra|apply (RInt_correct (V := R_CompleteNormedModule)); auto|]. intros; apply B. }
  set (P := RInt f 0).
  assert (forall x y, P y - P x = RInt f x y) as E by (intros x y; pose proof (Ch 0 x y); unfold P; lra).
  assert (forall x y, inn m_infty p_infty x -> inn m_infty p_infty y -> x <= y -> P x <= P y) as M by (intros x y _ _ H; pose proof (Np x y H); rewrite <- E in *; lra).
  assert (P 0 = 0) as P0 by apply (RInt_point (V := R_CompleteNormedModule)).
  assert (0 <= v + 1) as V by (pose proof (Bd 0 0 (Rle_refl 0)) as K; change (RInt f 0 0) with (P 0) in K; lra).
  destruct (mono_above m_infty p_infty 0 ltac:(split; simpl; auto) P (v + 1) M) as (b & Lb & _).
  { intros x _. destruct (Rle_dec 0 x) as [H|H]; [apply Bd; auto|]. pose proof (Np x 0 ltac:(lra)) as K. rewrite <- E in K. lra. }
  destruct (mono_below m_infty p_infty 0 ltac:(split; simpl; auto) P (- (v + 1)) M) as (a & La & _).
  { intros x _. destruct (Rle_dec 0 x) as [H|H]; [pose proof (Np 0 x H) as K; change (RInt f 0 x) with (P x) in K; lra|]. pose proof (Bd x 0 ltac:(lra)) as K. rewrite <- E in K. lra. }
  exists (b - a). apply (prim_gen f P _ _ (HA := _) (HB := _)); auto.
  apply (Filter_prod _ _ _ (fun _ => True) (fun _ => True)); [exists 0; auto|exists 0; auto|]. intros x y _ _. simpl. rewrite E. apply (RInt_correct (V := R_CompleteNormedModule)). auto.
Qed.
(** * triangle inequality *)
Lemma line_unique (f : R -> R) (v w : R) : line f v -> line f w -> v = w.
Proof. intros A B. rewrite <- (is_RInt_gen_unique _ _ A). apply (is_RInt_gen_unique _ _ B). Qed.
Lemma minkowski (f g : R -> R) (a b c : R) : line (fun t => f t ^ 2) a -> line (fun t => g t ^ 2) b -> line (fun t => (f t - g t) ^ 2) c ->
  Rabs (sqrt a - sqrt b) <= sqrt c.
Proof.
  intros A B C. assert (0 <= a) as Pa by (eapply line_nonneg; [|exact A]; intros; apply pow2_ge_0).
  assert (0 <= b) as Pb by (eapply line_nonneg; [|exact B]; intros; apply pow2_ge_0).
  assert (0 <= c) as Pc by (eapply line_nonneg; [|exact C]; intros; apply pow2_ge_0). set (m := (a + b - c) / 2).
  assert (forall l, 0 <= a - 2 * l * m + l ^ 2 * b) as Q.
  { intros l. eapply (line_nonneg (fun t => (f t - l * g t) ^ 2)); [intros; apply pow2_ge_0|].
    eapply line_ext; [| |exact (line_plus _ _ _ _ (line_scal _ (1 - l) _ A) (line_plus _ _ _ _ (line_scal _ (l ^ 2 - l) _ B) (line_scal _ l _ C)))].
    - intros t. cbv beta. ring.
    - unfold m. field. }
  assert (m <= sqrt a * sqrt b) as Cs.
  { rewrite <- sqrt_mult by auto. destruct (Rle_dec m 0) as [N|N]; [pose proof (sqrt_pos (a * b)); lra|].
    assert (m * m <= a * b) as S.
    { destruct (Req_dec b 0) as [Z|Z].
      - specialize (Q ((a + 1) / (2 * m))). rewrite Z in Q. assert (a - 2 * ((a + 1) / (2 * m)) * m + ((a + 1) / (2 * m)) ^ 2 * 0 = -1) by (field; lra). lra.
      - specialize (Q (m / b)). assert (a - 2 * (m / b) * m + (m / b) ^ 2 * b = (a * b - m * m) * / b) as E by (field; auto). rewrite E in Q.
        assert (0 < b) by lra. apply Rnot_lt_le. intros H1. assert (0 < / b) by now apply Rinv_0_lt_compat. nra. }
    rewrite <- (sqrt_square m) by lra. apply sqrt_le_1_alt. auto. }
  rewrite <- (sqrt_Rsqr_abs (sqrt a - sqrt b)). apply sqrt_le_1_alt. unfold Rsqr. pose proof (sqrt_sqrt a Pa). pose proof (sqrt_sqrt b Pb). unfold m in Cs. nra.
Qed.
(** * CRPS *)
Notation df := is_df.
Lemma df_ind y : df (ind_le y).
Proof. split; [intros s t H; unfold ind_le; destruct (Rle_dec y s), (Rle_dec y t); lra|intros t; unfold ind_le; destruct Rle_dec; lra]. Qed.
Lemma df_sq F G a b : df F -> df G -> ex_RInt (fun t => (F t - G t) ^ 2) a b.
Proof.
  intros [M B] [M' B'].
  assert (forall F G, mono F -> (forall t, 0 <= F t <= 1) -> mono G -> (forall t, 0 <= G t <= 1) -> ex_RInt (fun t => F t * G t) a b) as K.
  { intros H H' m c m' c'. apply mono_int; [intros s t L; specialize (m s t L); specialize (m' s t L); specialize (c s); specialize (c' s); nra|intros t; specialize (c t); specialize (c' t); nra]. }
  apply (ex_RInt_ext (fun t => plus (plus (F t * F t) (scal (-2) (F t * G t))) (G t * G t))).
  - intros t _. unfold plus, scal; simpl. unfold mult; simpl. ring.
  - apply (ex_RInt_plus (V := R_NormedModule)); [apply (ex_RInt_plus (V := R_NormedModule)); [now apply K|apply (ex_RInt_scal (V := R_NormedModule)); now apply K]|now apply K].
Qed.
(** the squared distance of two distribution functions exists when both have a score *)
Lemma df_dist F G y v w : df F -> df G -> is_crps F y v -> is_crps G y w -> exists d : R, line (fun t => (F t - G t) ^ 2) d.
Proof.
  intros HF HG A B. apply (line_dom _ (fun t => 2 * (F t - ind_le y t) ^ 2 + 2 * (G t - ind_le y t) ^ 2) (2 * v + 2 * w)).
  - intros t. split; [apply pow2_ge_0|]. pose proof (pow2_ge_0 ((F t - ind_le y t) + (G t - ind_le y t))). nra.
  - intros a b. now apply df_sq.
  - apply line_plus; apply line_scal; auto.
Qed.
Lemma crps_metric F G y v w (d : R) : is_crps F y v -> is_crps G y w -> line (fun t => (F t - G t) ^ 2) d -> Rabs (sqrt v - sqrt w) <= sqrt d.
Proof.
  intros A B C. apply (minkowski (fun t => F t - ind_le y t) (fun t => G t - ind_le y t)); auto.
  eapply line_ext; [| |exact C]; auto. intros t. cbv beta. ring.
Qed.
Lemma crps_obs F y y' v v' : is_crps F y v -> is_crps F y' v' -> Rabs (sqrt v - sqrt v') <= sqrt (Rabs (y - y')).
Proof.
  intros A B. apply (minkowski (fun t => F t - ind_le y t) (fun t => F t - ind_le y' t)); auto.
  eapply line_ext; [| |exact (gap y y')]; auto. intros t. cbv beta. ring.
Qed.
(** other observations have a score, too *)
Lemma crps_other F y y' v : df F -> is_crps F y v -> exists v', is_crps F y' v'.
Proof.
  intros HF A. apply (line_dom _ (fun t => 2 * (F t - ind_le y t) ^ 2 + 2 * (ind_le y t - ind_le y' t) ^ 2) (2 * v + 2 * Rabs (y - y'))).
  - intros t. split; [apply pow2_ge_0|]. pose proof (pow2_ge_0 ((F t - ind_le y t) - (ind_le y t - ind_le y' t))). nra.
  - intros a b. apply df_sq; auto. apply df_ind.
  - apply line_plus; apply line_scal; auto. apply gap.
Qed.
Lemma crps_area F G y v w (d : R) : (forall t, 0 <= F t <= 1) -> (forall t, 0 <= G t <= 1) -> is_crps F y v -> is_crps G y w -> line (fun t => Rabs (F t - G t)) d ->
  Rabs (v - w) <= 2 * d.
Proof.
  intros HF HG A B D. pose proof (line_minus _ _ _ _ A B) as E. pose proof (line_scal _ 2 _ D) as D2.
  assert (forall t, Rabs ((F t - ind_le y t) ^ 2 - (G t - ind_le y t) ^ 2) <= 2 * Rabs (F t - G t)) as K.
  { intros t. replace ((F t - ind_le y t) ^ 2 - (G t - ind_le y t) ^ 2) with ((F t + G t - 2 * ind_le y t) * (F t - G t)) by ring. rewrite Rabs_mult. apply Rmult_le_compat_r; [apply Rabs_pos|].
    specialize (HF t). specialize (HG t). apply Rabs_le. unfold ind_le. destruct Rle_dec; lra. }
  assert (0 <= 2 * d - (v - w)) by (eapply line_nonneg; [|exact (line_minus _ _ _ _ D2 E)]; intros t; cbv beta; specialize (K t); apply Rabs_le_between in K; lra).
  assert (0 <= 2 * d + (v - w)) by (eapply line_nonneg; [|exact (line_plus _ _ _ _ D2 E)]; intros t; cbv beta; specialize (K t); apply Rabs_le_between in K; lra).
  apply Rabs_le. lra.
Qed.
Lemma df_ecdf M x : (0 < M)%nat -> df (ecdf M x).
Proof.
  intros HM. pose proof (lt_0_INR M HM) as P. split.
  - intros s t H. unfold ecdf, Rdiv. apply Rmult_le_compat_r; [left; now apply Rinv_0_lt_compat|]. apply sumn_le. intros k _. now apply (proj1 (df_ind (x k))).
  - intros t. unfold ecdf, Rdiv. split.
    + apply Rmult_le_pos; [|left; now apply Rinv_0_lt_compat]. apply sumn_nonneg. intros k _. apply (proj2 (df_ind (x k))).
    + apply Rmult_le_reg_r with (INR M); auto. rewrite Rmult_assoc, Rinv_l, Rmult_1_r, Rmult_1_l by lra.
      replace (INR M) with (sumn M (fun _ => 1)) by (rewrite sumn_const; ring). apply sumn_le. intros k _. apply (proj2 (df_ind (x k))).
Qed.
Lemma df_wcdf M w x : (forall k, (k < M)%nat -> 0 <= w k) -> 0 < sumn M w -> df (wcdf M w x).
Proof.
  intros W P. split.
  - intros s t H. unfold wcdf, Rdiv. apply Rmult_le_compat_r; [left; now apply Rinv_0_lt_compat|]. apply sumn_le. intros k Hk. apply Rmult_le_compat_l; auto. now apply (proj1 (df_ind (x k))).
  - intros t. unfold wcdf, Rdiv. split.
    + apply Rmult_le_pos; [|left; now apply Rinv_0_lt_compat]. apply sumn_nonneg. intros k Hk. apply Rmult_le_pos; auto. apply (proj2 (df_ind (x k))).
    + apply Rmult_le_reg_r with (sumn M w); auto. rewrite Rmult_assoc, Rinv_l, Rmult_1_r, Rmult_1_l by lra. apply sumn_le. intros k Hk. rewrite <- (Rmult_1_r (w k)) at 2.
      apply Rmult_le_compat_l; auto. apply (proj2 (df_ind (x k))).
Qed.
Lemma endist_sqdist M x N z : (0 < M)%nat -> (0 < N)%nat -> is_sqdist (ecdf M x) (ecdf N z) (endist M x N z).
Proof.
  intros HM HN. pose proof (lt_0_INR M HM) as PM. pose proof (lt_0_INR N HN) as PN.
  eapply line_ext; [| |apply (insample N (ecdf M x) z (fun j => mae M (z j) x - pairsum M x / (2 * INR M * INR M)) (fun j => mae N (z j) z - pairsum N z / (2 * INR N * INR N))); auto]; auto.
  - unfold mean. rewrite !sumn_minus, !sumn_const. unfold mae, endist, pairsum.
    assert (sumn N (fun j => sumn M (fun i => Rabs (x i - z j)) / INR M) = sumn M (fun i => sumn N (fun j => Rabs (x i - z j))) / INR M) as ->.
    { unfold Rdiv. rewrite sumn_swap. rewrite (sumn_ext N _ (fun j => / INR M * sumn M (fun i => Rabs (x i - z j)))) by (intros; ring). rewrite sumn_scal. ring. }
    assert (sumn N (fun j => sumn N (fun i => Rabs (z i - z j)) / INR N) = sumn N (fun i => sumn N (fun j => Rabs (z i - z j))) / INR N) as ->.
    { unfold Rdiv. rewrite sumn_swap. rewrite (sumn_ext N _ (fun j => / INR N * sumn N (fun i => Rabs (z i - z j)))) by (intros; ring). rewrite sumn_scal. ring. }
    field. lra.
  - intros i Hi. now apply is_crps_ecdf.
  - intros i Hi. now apply is_crps_ecdf.
Qed.
