(** Truncated and censored distributions with possibly infinite bounds. *)
From Verif Require Export L_cdf.
From Coq Require Import Psatz.
From Coquelicot Require Import Coquelicot.
Open Scope R_scope.

Definition clamp (w : R) (l u : Rbar) : R :=
  match l, u with
  | Finite l, Finite u => Rmin (Rmax w l) u
  | Finite l, _ => Rmax w l
  | _, Finite u => Rmin w u
  | _, _ => w
  end.
Section tc.
Variables (F A B C : R -> R).
Hypothesis DA : forall t, is_derive A t (F t).
Hypothesis DB : forall t, is_derive B t (F t ^ 2).
Hypothesis CF : forall t, continuous F t.
Hypothesis LB : forall y, ltail (fun t => F t ^ 2) y (B y).
Hypothesis RB : forall y, rtail (fun t => (1 - F t) ^ 2) y (C y).
Hypothesis IF : forall a b, a < b -> F a < F b.
Hypothesis F0 : forall t, 0 < F t.
Hypothesis F1 : forall t, F t < 1.
Lemma rtail_unique f y v w : rtail f y v -> rtail f y w -> v = w.
Proof.
  intros Hv Hw. rewrite <- (is_RInt_gen_unique (V := R_CompleteNormedModule) (Fa := at_point y) (Fb := Rbar_locally p_infty) f v Hv).
  apply (is_RInt_gen_unique (V := R_CompleteNormedModule) (Fa := at_point y) (Fb := Rbar_locally p_infty) f w Hw).
Qed.
Lemma is_RInt_ext_v (f : R -> R) (a b v w : R) : is_RInt f a b v -> v = w -> is_RInt f a b w.
Proof. intros H ->. exact H. Qed.
Lemma lin_cont c e t : continuous (fun t => (c * F t + e) ^ 2) t.
Proof.
  apply cont_sq. apply (continuous_plus (fun t => c * F t) (fun _ => e)); [|apply continuous_const].
  apply (continuous_mult (fun _ => c) F); [apply continuous_const|apply CF].
Qed.
Lemma lin_seg G c e a b : a <= b -> (forall t, a < t < b -> G t = (c * F t + e) ^ 2) ->
  is_RInt G a b (c ^ 2 * (B b - B a) + 2 * c * e * (A b - A a) + e ^ 2 * (b - a)).
Proof.
  intros Hab E.
  replace (c ^ 2 * (B b - B a) + 2 * c * e * (A b - A a) + e ^ 2 * (b - a))
    with ((fun t => c ^ 2 * B t + 2 * c * e * A t + e ^ 2 * t) b - (fun t => c ^ 2 * B t + 2 * c * e * A t + e ^ 2 * t) a) by (simpl; ring).
  apply (seg_der _ (fun t => (c * F t + e) ^ 2) (fun t => c ^ 2 * B t + 2 * c * e * A t + e ^ 2 * t)); auto.
  - intros t _. evar_last.
    + apply (is_derive_plus (fun t => c ^ 2 * B t + 2 * c * e * A t) (fun t => e ^ 2 * t)).
      * apply (is_derive_plus (fun t => c ^ 2 * B t) (fun t => 2 * c * e * A t)); [apply (is_derive_scal B), DB|apply (is_derive_scal A), DA].
      * auto_derive; auto.
    + unfold plus; simpl. ring.
  - intros t _. apply lin_cont.
Qed.
Lemma tails_C y : forall z, C y - C z = (z - y) - 2 * (A z - A y) + (B z - B y).
Proof.
  assert (forall a b, a <= b -> C a - C b = (b - a) - 2 * (A b - A a) + (B b - B a)) as K.
  { intros a b Hab. assert (is_RInt (fun t => (1 - F t) ^ 2) a b ((b - a) - 2 * (A b - A a) + (B b - B a))) as S.
    { eapply is_RInt_ext_v; [apply (lin_seg (fun t => (1 - F t) ^ 2) (-1) 1 a b Hab)|]; [intros t Ht; ring|ring]. }
    pose proof (rtail_unique _ _ _ _ (RB a) (rtail_seg _ _ _ _ _ S (RB b))).
    lra. }
  intros z. destruct (Rle_dec y z); [now apply K|]. pose proof (K z y ltac:(lra)). lra.
Qed.
Definition tc_value (l u : Rbar) (lm um z : R) : R :=
  match l, u with
  | Finite l, Finite u => trunc_value F A B l u lm um z
  | Finite l, _ => let c := (1 - lm) / (1 - F l) in
      c ^ 2 * (B z - B l) + 2 * c * (1 - c) * (A z - A l) + (1 - c) ^ 2 * (z - l) + c ^ 2 * C z
  | _, Finite u => let c := (1 - um) / F u in c ^ 2 * B u - 2 * c * (A u - A z) + (u - z)
  | _, _ => B z + C z
  end.
Lemma tc_ff l u lm um w : l < u ->
  is_crps (truncensx F l u lm um) w (Rabs (w - clamp w l u) + tc_value l u lm um (clamp w l u)).
Proof.
  intros H. eapply crps_eq; [| |apply (trunc_crps' F A B l u lm um w H)]; auto.
  - intros t. unfold truncens, truncensx. destruct (Rbar_lt_dec t l) as [a|a], (Rlt_dec t l); simpl in a; try lra.
    destruct (Rbar_lt_dec t u) as [b|b], (Rlt_dec t u); simpl in b; try lra; reflexivity.
  - pose proof (IF l u H). lra.
Qed.
Lemma scal_ltail G c y : (forall t, t < y -> G t = c ^ 2 * F t ^ 2) -> ltail G y (c ^ 2 * B y).
Proof.
  intros E. apply (ltail_ext (fun t => c ^ 2 * F t ^ 2)); [intros t Ht; symmetry; now apply E|].
  apply (is_RInt_gen_scal (V := R_NormedModule) (fun t => F t ^ 2) (c ^ 2) (B y)). apply LB.
Qed.
Lemma scal_rtail G c y : (forall t, y < t -> G t = c ^ 2 * (1 - F t) ^ 2) -> rtail G y (c ^ 2 * C y).
Proof.
  intros E. apply (rtail_ext (fun t => c ^ 2 * (1 - F t) ^ 2)); [intros t Ht; symmetry; now apply E|].
  apply (is_RInt_gen_scal (V := R_NormedModule) (fun t => (1 - F t) ^ 2) (c ^ 2) (C y)). apply RB.
Qed.
Lemma tc_mf (u : R) um w :
  is_crps (truncensx F m_infty u 0 um) w (Rabs (w - clamp w m_infty u) + tc_value m_infty u 0 um (clamp w m_infty u)).
Proof.
  set (G := truncensx F m_infty u 0 um). set (c := (1 - um) / F u). pose proof (F0 u) as Pu.
  assert (forall t, t < u -> G t = c * F t) as E.
  { intros t Ht. unfold G, truncensx. destruct (Rbar_lt_dec t m_infty) as [a|a]; [now simpl in a|].
    destruct (Rbar_lt_dec t u) as [b|b]; [|now simpl in b]. unfold ext_cdf, c. field. lra. }
  assert (forall t, u <= t -> G t = 1) as E1.
  { intros t Ht. unfold G, truncensx. destruct (Rbar_lt_dec t m_infty) as [a|a]; [now simpl in a|].
    destruct (Rbar_lt_dec t u) as [b|b]; [simpl in b; lra|reflexivity]. }
  unfold tc_value, clamp. fold c. destruct (Rle_dec w u) as [Hw|Hw].
  - rewrite Rmin_left by lra. eapply crps_eq; [reflexivity| |apply (crps_split G w)].
    2: { apply (scal_ltail _ c). intros t Ht. rewrite E by lra. ring. }
    2: { eapply rtail_seg; [apply (lin_seg _ (- c) 1 w u); [lra|]; intros t Ht; rewrite E by lra; ring|].
         apply rtail_0. intros t Ht. rewrite E1 by lra. ring. }
    rewrite Rminus_eq_0, Rabs_R0. ring.
  - rewrite Rmin_right, Rabs_right by lra. eapply crps_eq; [reflexivity| |apply (crps_split G w)].
    2: { eapply ltail_seg; [apply (scal_ltail _ c u); intros t Ht; rewrite E by lra; ring|].
         apply (seg_const _ 1 u w); [lra|]. intros t Ht. rewrite E1 by lra. ring. }
    2: { apply rtail_0. intros t Ht. rewrite E1 by lra. ring. }
    ring.
Qed.
Lemma tc_fp (l : R) lm w :
  is_crps (truncensx F l p_infty lm 0) w (Rabs (w - clamp w l p_infty) + tc_value l p_infty lm 0 (clamp w l p_infty)).
Proof.
  set (G := truncensx F l p_infty lm 0). set (c := (1 - lm) / (1 - F l)). pose proof (F1 l) as Pu.
  assert (forall t, l <= t -> G t = c * F t + (1 - c)) as E.
  { intros t Ht. unfold G, truncensx. destruct (Rbar_lt_dec t l) as [a|a]; [simpl in a; lra|].
    destruct (Rbar_lt_dec t p_infty) as [b|b]; [|now simpl in b]. unfold ext_cdf, c. field. lra. }
  assert (forall t, t < l -> G t = 0) as E1.
  { intros t Ht. unfold G, truncensx. destruct (Rbar_lt_dec t l) as [a|a]; [reflexivity|now simpl in a]. }
  unfold tc_value, clamp. fold c. destruct (Rle_dec l w) as [Hw|Hw].
  - rewrite Rmax_left by lra. eapply crps_eq; [reflexivity| |apply (crps_split G w)].
    2: { eapply ltail_seg; [apply (ltail_0 _ l); intros t Ht; rewrite E1 by lra; ring|].
         apply (lin_seg _ c (1 - c) l w); [lra|]. intros t Ht. rewrite E by lra. ring. }
    2: { apply (scal_rtail _ c). intros t Ht. rewrite E by lra. ring. }
    rewrite Rminus_eq_0, Rabs_R0. cbv zeta. ring.
  - rewrite Rmax_right, Rabs_left by lra. eapply crps_eq; [reflexivity| |apply (crps_split G w)].
    2: { apply ltail_0. intros t Ht. rewrite E1 by lra. ring. }
    2: { eapply rtail_seg; [apply (seg_const _ 1 w l); [lra|]; intros t Ht; rewrite E1 by lra; ring|].
         apply (scal_rtail _ c). intros t Ht. rewrite E by lra. ring. }
    cbv zeta. ring.
Qed.
Lemma tc_mp w : is_crps (truncensx F m_infty p_infty 0 0) w (Rabs (w - clamp w m_infty p_infty) + tc_value m_infty p_infty 0 0 (clamp w m_infty p_infty)).
Proof.
  unfold clamp, tc_value. eapply crps_eq; [| |apply (crps_split F w); [apply LB|apply RB]].
  - intros t. unfold truncensx. destruct (Rbar_lt_dec t m_infty) as [a|a]; [now simpl in a|].
    destruct (Rbar_lt_dec t p_infty) as [b|b]; [|now simpl in b]. unfold ext_cdf. field.
  - rewrite Rminus_eq_0, Rabs_R0. ring.
Qed.
Lemma tc_crps l u lm um w : tc_ok l u lm um ->
  is_crps (truncensx F l u lm um) w (Rabs (w - clamp w l u) + tc_value l u lm um (clamp w l u)).
Proof.
  intros (H & _ & Hl & Hu). destruct l as [l| |], u as [u| |]; simpl in H; try contradiction.
  - now apply tc_ff.
  - rewrite (Hu eq_refl). apply tc_fp.
  - rewrite (Hl eq_refl). apply tc_mf.
  - rewrite (Hu eq_refl), (Hl eq_refl). apply tc_mp.
Qed.
End tc.
(** location and scale *)
Definition std (m s : R) (b : Rbar) : Rbar := match b with Finite x => Finite ((x - m) / s) | _ => b end.
Lemma std_lt m s (a b : Rbar) : 0 < s -> (Rbar_lt (std m s a) (std m s b) <-> Rbar_lt a b).
Proof.
  intros Hs. destruct a as [a| |], b as [b| |]; simpl; try tauto. assert (forall x, m + s * ((x - m) / s) = x) as I by (intros; field; lra).
  pose proof (I a). pose proof (I b). split; intros; nra.
Qed.
Lemma truncensx_scale F m s l u lm um t : 0 < s ->
  truncensx F (std m s l) (std m s u) lm um ((t - m) / s) = truncensx (fun t => F ((t - m) / s)) l u lm um t.
Proof.
  intros Hs. unfold truncensx. pose proof (std_lt m s t l Hs) as H1. pose proof (std_lt m s t u Hs) as H2. simpl std in H1, H2.
  destruct (Rbar_lt_dec ((t - m) / s) (std m s l)), (Rbar_lt_dec t l); auto; try tauto.
  destruct (Rbar_lt_dec ((t - m) / s) (std m s u)), (Rbar_lt_dec t u); auto; try tauto.
  now destruct l, u.
Qed.
Lemma std_ok m s l u lm um : 0 < s -> tc_ok l u lm um -> tc_ok (std m s l) (std m s u) lm um.
Proof.
  intros Hs (H & N & Hl & Hu). split; [now apply std_lt|]. split; auto. destruct l, u; simpl in *; split; auto; discriminate.
Qed.
