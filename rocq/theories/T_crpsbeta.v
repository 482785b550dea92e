(** Proofs that the closed-form CRPS of the beta distribution is the CRPS integral (statements in P_crpsbeta.v). *)
From Verif Require Export L_closed L_crpsbeta.
From Coq Require Import Psatz.
From Coquelicot Require Import Coquelicot.
Open Scope R_scope.
Lemma beta_value y a b : 0 < a -> 0 < b -> 0 <= y <= 1 ->
  beta_core (Fin y) (Fin a) (Fin b) = Fin (y * (2 * Rbetainc a b y - 1) + a / (a + b) * (1 - 2 * Rbetainc (a + 1) b y - bK a b)).
Proof.
  intros Ha Hb Hy. pose proof (Rbeta_pos a b Ha Hb) as HB. assert (0 < a * (Rbeta a b * Rbeta a b)) as HB2 by (repeat apply Rmult_lt_0_compat; lra).
  assert (forall p, 0 < p -> Rmin (Rmax (Rbetainc p b y) 0) 1 = Rbetainc p b y) as C.
  { intros p Hp. assert (0 <= Rbetainc p b y <= 1); [|now rewrite Rmax_left, Rmin_left by lra].
    destruct (Rbeta_improper p b Hp Hb) as (HZ & _ & G & _ & _ & _ & Bd & IG). unfold Rbetainc. destruct (Rle_dec y 0); [lra|]. destruct (Rle_dec 1 y); [lra|].
    assert (inn 0 1 y) as It by (apply (inn_beta y); lra).
    specialize (Bd _ It). specialize (IG _ It). rewrite (is_RInt_gen_unique (V := R_CompleteNormedModule) (Fa := at_right 0) _ _ IG).
    split; [apply Rdiv_le_0_compat; lra|]. apply (Rmult_le_reg_r (Rbeta p b)); [lra|]. unfold Rdiv. rewrite Rmult_assoc, Rinv_l by lra. lra. }
  unfold beta_core. cbv zeta. nev. rewrite !betainc_f1, !beta_f1 by lra. nev. rewrite !C by lra. unfold bK. f_equal; try (field; repeat split; lra).
Qed.
Lemma beta_value_nan y a b : y < 0 \/ 1 < y -> beta_core (Fin y) (Fin a) (Fin b) = NaN.
Proof.
  intros Hy. assert (forall p, nbetainc p (Fin b) (Fin y) = NaN) as E.
  { intros p. unfold nbetainc. destruct p; auto. destruct (Rlt_dec 0 _), (Rlt_dec 0 b); auto. destruct (Rle_dec 0 y), (Rle_dec y 1); auto; lra. }
  unfold beta_core. cbv zeta. rewrite !E. nev. reflexivity.
Qed.
Lemma in01 y l u : l < u -> l <= y <= u -> 0 <= (y - l) / (u - l) <= 1.
Proof. intros H K. split; [apply Rdiv_le_0_compat; lra|]. apply (Rmult_le_reg_r (u - l)); [lra|]. unfold Rdiv. rewrite Rmult_assoc, Rinv_l by lra. lra. Qed.
Lemma C59_beta_l :
forall (obs a b lower upper : arr) (s t : list nat) (y p q l u l' u' : list nat -> R),
  params s [(obs, fins y); (a, fins p); (b, fins q)]%list ->
  params s [(obs, fins y); (a, fins p); (b, fins q); (lower, fins l); (upper, fins u)]%list ->
  params t [(lower, fins l'); (upper, fins u')]%list -> (forall i, inb t i -> l' i < u' i) ->
  (forall i, inb s i -> 0 < p i /\ 0 < q i /\ l i < u i /\ l i <= y i <= u i) ->
  exists f, returns (crps_beta obs a b lower upper) s (fins f) /\
    forall i, inb s i -> is_crps (ls_cdf (beta_cdf (p i) (q i)) (l i) (u i - l i)) (y i) (f i).
Proof.
intros obs a b lower upper s t y p q l u l' u' P0 P1 Pt Ht H.
exists (fun i => (u i - l i) * (let z := (y i - l i) / (u i - l i) in z * (2 * Rbetainc (p i) (q i) z - 1) + p i / (p i + q i) * (1 - 2 * Rbetainc (p i + 1) (q i) z - bK (p i) (q i)))). split.
- eapply returns_eq; [exact (beta_entry _ _ _ _ _ _ _ _ _ _ _ _ _ _ P0 P1 Pt Ht)|]. intros i Hi. destruct (H i Hi) as (Hp & Hq & Hl & Hy).
  unfold fins. nev. rewrite beta_value by (auto using in01). cbv zeta. nev. f_equal. ring.
- intros i Hi. destruct (H i Hi) as (Hp & Hq & Hl & Hy). apply (crps_scale _ (l i) (u i - l i) (y i)); [lra|]. apply beta_crps; auto using in01.
Qed.
Lemma C59_beta_outside_nan_l :
forall (obs a b lower upper : arr) (s t : list nat) (y p q l u l' u' : list nat -> R),
  params s [(obs, fins y); (a, fins p); (b, fins q)]%list ->
  params s [(obs, fins y); (a, fins p); (b, fins q); (lower, fins l); (upper, fins u)]%list ->
  params t [(lower, fins l'); (upper, fins u')]%list -> (forall i, inb t i -> l' i < u' i) ->
  (forall i, inb s i -> l i < u i /\ (y i < l i \/ u i < y i)) ->
  returns (crps_beta obs a b lower upper) s (fun _ => NaN).
Proof.
intros obs a b lower upper s t y p q l u l' u' P0 P1 Pt Ht H.
eapply returns_eq; [exact (beta_entry _ _ _ _ _ _ _ _ _ _ _ _ _ _ P0 P1 Pt Ht)|]. intros i Hi. destruct (H i Hi) as (Hl & Hy).
unfold fins. nev. rewrite beta_value_nan; [nev; reflexivity|]. assert ((y i - l i) / (u i - l i) * (u i - l i) = y i - l i) as E by (field; lra).
destruct Hy; [left|right]; nra.
Qed.
Lemma C59_beta_outside_refuted_l :
exists obs a b lower upper : arr,
  params nil [(obs, fun _ => Fin 2); (a, fun _ => Fin 1); (b, fun _ => Fin 1); (lower, fun _ => Fin 0); (upper, fun _ => Fin 1)]%list /\
  (exists v, is_crps (beta_cdf 1 1) 2 v) /\ returns (crps_beta obs a b lower upper) nil (fun _ => NaN).
Proof.
exists (farr nil (fun _ => 2)), (farr nil (fun _ => 1)), (farr nil (fun _ => 1)), (farr nil (fun _ => 0)), (farr nil (fun _ => 1)).
split; [split; [reflexivity|repeat constructor]|]. split.
- destruct (Ibeta_lims 1 1 ltac:(lra) ltac:(lra)) as [L0 L1]. destruct (Ibeta_lims (1 + 1) 1 ltac:(lra) ltac:(lra)) as [M0 M1]. destruct (Ibeta_lims (2 * 1) (2 * 1) ltac:(lra) ltac:(lra)) as [N0 N1].
  apply beta_crps_ex; lra.
- eapply (C59_beta_outside_nan_l _ _ _ _ _ nil nil (fun _ => 2) (fun _ => 1) (fun _ => 1) (fun _ => 0) (fun _ => 1) (fun _ => 0) (fun _ => 1));
  [split; [reflexivity|repeat constructor]..|intros; lra|intros; lra].
Qed.
