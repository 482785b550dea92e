(** Proofs for the energy, variogram and ranked probability scores as squared distances (statements in P_emetric.v). *)
From Verif Require Export L_emetric.
From Coq Require Import Psatz.
Open Scope R_scope.
(** two members in the plane with the weights 1 and 2 *)
Lemma ex_ec b y : energy_call (es_ensemble b (real1 2 y) (real2 2 2 (fun i k => INR (i * k))) (-2) (-1) (Some (real1 2 (fun k => INR k + 1))) "nrg") nil 2 2
  (fun r => member (wpos 1 0) (fun i => INR (hd 0%nat i) + 1) r) (fun r => memv 1 0 (fun i => INR (hd 0%nat (tl i) * hd 0%nat i)) r) (fun r => obsv 0 (fun i => y (hd 0%nat i)) r).
Proof.
  apply ec_mvw; [apply real2_args|lia|lia|easy|lia|apply (real1_wts 2 (fun k => INR k + 1))].
  - intros k _. pose proof (pos_INR k). lra.
  - rewrite !sumn_S, sumn_0. simpl. lra.
Qed.
(** two members in R^3, order 1/2, all pair weights 1 *)
Lemma ex_vc b y : vario_call (vs_ensemble b (real1 3 y) (real2 2 3 (fun i k => INR (i * k))) None (-2) (-1) None (/ 2) "nrg") nil 3 (fun _ _ _ => 1) (/ 2) 2
  (fun _ _ => 1) (fun r => memv 1 0 (fun i => INR (hd 0%nat (tl i) * hd 0%nat i)) r) (fun r => obsv 0 (fun i => y (hd 0%nat i)) r).
Proof. apply vc_mv; [apply real2_args|easy|lia|lia|lra|easy|intros; lra]. Qed.
Lemma C92_energy_value_l :
forall T s D M w x y, energy_call T s D M w x y ->
  exists u, returns T s (fun r => Fin (u r)) /\ forall r, inb s r -> u r = edist2 D M (nw M (w r)) (x r) 1 (fun _ => 1) (fun _ => y r) / 2.
Proof.
intros T s D M w x y H. destruct (energy_call_value _ _ _ _ _ _ _ H) as (V & A). eexists (fun r => _). split; [exact V|]. intros r Hr. rewrite edist2_point by auto. field.
Qed.
Lemma C92_energy_distance_l :
forall D M w x N v z L u t, sumn M w = sumn N v -> sumn N v = sumn L u ->
  0 <= edist2 D M w x N v z /\ edist2 D M w x M w x = 0 /\ edist2 D M w x N v z = edist2 D N v z M w x /\
  sqrt (edist2 D M w x L u t) <= sqrt (edist2 D M w x N v z) + sqrt (edist2 D N v z L u t).
Proof.
intros D M w x N v z L u t S1 S2. split; [now apply edist2_nonneg|]. split; [unfold edist2; ring|]. split; [apply edist2_sym|now apply edist_triangle].
Qed.
Lemma C92_energy_triangle_l :
forall T T' s D M N w v x z y y', energy_call T s D M w x y -> energy_call T' s D N v z y' ->
  (forall r k, inb s r -> (k < D)%nat -> y' r k = y r k) ->
  exists f g, returns T s (fun r => Fin (f r)) /\ returns T' s (fun r => Fin (g r)) /\ forall r, inb s r ->
    Rabs (sqrt (f r) - sqrt (g r)) <= sqrt (edist2 D M (nw M (w r)) (x r) N (nw N (v r)) (z r) / 2).
Proof.
intros T T' s D M N w v x z y y' H H' Hy. destruct (energy_call_value _ _ _ _ _ _ _ H) as (F & A). destruct (energy_call_value _ _ _ _ _ _ _ H') as (G & B).
  eexists (fun r => _), (fun r => _). split; [exact F|]. split; [exact G|]. intros r Hr. cbv beta. specialize (A r Hr). specialize (B r Hr).
  rewrite (k_wexact_ext N (nw N (v r)) (nw N (v r)) (es_err D (y' r) (z r)) (es_dist D (z r)) (es_err D (y r) (z r)) (es_dist D (z r)));
    [|auto|intros; apply eucl_ext; auto|auto].
  assert (1 = sumn 1 (fun _ => 1)) as E1 by (rewrite sumn_S, sumn_0; ring).
  pose proof (edist_reverse D M (nw M (w r)) (x r) N (nw N (v r)) (z r) 1 (fun _ => 1) (fun _ => y r) ltac:(lra) ltac:(lra)) as R.
  pose proof (edist2_nonneg D M (nw M (w r)) (x r) 1 (fun _ => 1) (fun _ => y r) ltac:(lra)) as P1. pose proof (edist2_nonneg D N (nw N (v r)) (z r) 1 (fun _ => 1) (fun _ => y r) ltac:(lra)) as P2.
  pose proof (edist2_nonneg D M (nw M (w r)) (x r) N (nw N (v r)) (z r) ltac:(lra)) as P3.
  rewrite !edist2_point in * by auto. rewrite !sqrt_mult in R by lra. unfold Rdiv. rewrite sqrt_mult by lra.
  rewrite <- Rmult_minus_distr_l, Rabs_mult, (Rabs_pos_eq (sqrt 2)) in R by apply sqrt_pos. apply (Rmult_le_compat_r (sqrt (/ 2))) in R; [|apply sqrt_pos].
  rewrite (Rmult_comm (sqrt 2)), Rmult_assoc, <- (sqrt_mult 2), Rinv_r, sqrt_1, Rmult_1_r in R by lra. exact R.
Qed.
Lemma C92_energy_observation_l :
forall T T' s D M w x x' y y', energy_call T s D M w x y -> energy_call T' s D M w x' y' ->
  (forall r i k, inb s r -> (i < M)%nat -> (k < D)%nat -> x' r i k = x r i k) ->
  exists f g, returns T s (fun r => Fin (f r)) /\ returns T' s (fun r => Fin (g r)) /\ forall r, inb s r ->
    Rabs (sqrt (g r) - sqrt (f r)) <= sqrt (eucl D (y' r) (y r)).
Proof.
intros T T' s D M w x x' y y' H H' Hx. destruct (energy_call_value _ _ _ _ _ _ _ H) as (F & A). destruct (energy_call_value _ _ _ _ _ _ _ H') as (G & _).
  eexists (fun r => _), (fun r => _). split; [exact F|]. split; [exact G|]. intros r Hr. cbv beta. specialize (A r Hr).
  rewrite (k_wexact_ext M (nw M (w r)) (nw M (w r)) (es_err D (y' r) (x' r)) (es_dist D (x' r)) (es_err D (y' r) (x r)) (es_dist D (x r)));
    [|auto|intros; apply eucl_ext; auto|intros; apply eucl_ext; auto].
  assert (1 = sumn 1 (fun _ => 1)) as E1 by (rewrite sumn_S, sumn_0; ring).
  pose proof (edist_reverse D 1 (fun _ => 1) (fun _ => y' r) 1 (fun _ => 1) (fun _ => y r) M (nw M (w r)) (x r) ltac:(lra) ltac:(lra)) as R.
  rewrite edist2_points, !(edist2_sym D 1) in R.
  pose proof (edist2_nonneg D M (nw M (w r)) (x r) 1 (fun _ => 1) (fun _ => y r) ltac:(lra)) as P1. pose proof (edist2_nonneg D M (nw M (w r)) (x r) 1 (fun _ => 1) (fun _ => y' r) ltac:(lra)) as P2.
  pose proof (eucl_nonneg D (y' r) (y r)) as P3.
  rewrite !edist2_point in * by auto. rewrite !sqrt_mult in R by lra.
  rewrite <- Rmult_minus_distr_l, Rabs_mult, (Rabs_pos_eq (sqrt 2)) in R by apply sqrt_pos. apply (Rmult_le_reg_l (sqrt 2)); [apply sqrt_lt_R0; lra|exact R].
Qed.
Lemma C92_vario_triangle_l :
forall T T' s D h po M N w v x z y y', vario_call T s D h po M w x y -> vario_call T' s D h po N v z y' ->
  (forall r k, inb s r -> (k < D)%nat -> y' r k = y r k) ->
  exists f g, returns T s (fun r => Fin (f r)) /\ returns T' s (fun r => Fin (g r)) /\ forall r, inb s r ->
    Rabs (sqrt (f r) - sqrt (g r)) <= sqrt (vgap D (h r) po M (nw M (w r)) (x r) N (nw N (v r)) (z r)).
Proof.
intros T T' s D h po M N w v x z y y' H H' Hy. destruct (vario_call_value _ _ _ _ _ _ _ _ _ H) as (_ & _ & F & A). destruct (vario_call_value _ _ _ _ _ _ _ _ _ H') as (_ & _ & G & _).
  eexists (fun r => _), (fun r => _). split; [exact F|]. split; [exact G|]. intros r Hr. cbv beta. destruct (A r Hr) as (Hh & _).
  set (Y := vgram po (y r)). set (X i j := sumn M (fun m => nw M (w r) m * vgram po (x r m) i j)). set (Z i j := sumn N (fun m => nw N (v r) m * vgram po (z r m) i j)).
  assert (vs_score D (h r) po N (nw N (v r)) (y' r) (z r) = sumn D (fun i => sumn D (fun j => h r i j * (Y i j - Z i j) ^ 2))) as ->.
  { unfold vs_score. apply sumn_ext; intros i Hi; apply sumn_ext; intros j Hj. do 3 f_equal. unfold Y, vgram. now rewrite !Hy. }
  destruct (vgap_triangle D (h r) Y X Z Hh) as (_ & T1). destruct (vgap_triangle D (h r) Y Z X Hh) as (_ & T2).
  assert (sumn D (fun i => sumn D (fun j => h r i j * (Z i j - X i j) ^ 2)) = sumn D (fun i => sumn D (fun j => h r i j * (X i j - Z i j) ^ 2))) as E by (apply sumn_ext; intros; apply sumn_ext; intros; ring).
  rewrite E in T2. unfold vgap, vs_score. fold Y. apply Rabs_le. split; unfold X, Z in *; lra.
Qed.
Lemma C92_vario_stable_l :
forall T T' s D h po M w x x' y y' dy dx, vario_call T s D h po M w x y -> vario_call T' s D h po M w x' y' -> po <= 1 ->
  (forall r k, inb s r -> (k < D)%nat -> Rabs (y' r k - y r k) <= dy r) -> (forall r i k, inb s r -> (i < M)%nat -> (k < D)%nat -> Rabs (x' r i k - x r i k) <= dx r) ->
  exists f g, returns T s (fun r => Fin (f r)) /\ returns T' s (fun r => Fin (g r)) /\ forall r, inb s r ->
    Rabs (sqrt (g r) - sqrt (f r)) <= (vpow (2 * dy r) po + vpow (2 * dx r) po) * sqrt (offdiag D (h r)).
Proof.
intros T T' s D h po M w x x' y y' dy dx H H' Hp Hy Hx. destruct (vario_call_value _ _ _ _ _ _ _ _ _ H) as (P0 & HM & F & A). destruct (vario_call_value _ _ _ _ _ _ _ _ _ H') as (_ & _ & G & _).
  eexists (fun r => _), (fun r => _). split; [exact F|]. split; [exact G|]. intros r Hr. cbv beta. destruct (A r Hr) as (Hh & W0 & W1).
  set (W := nw M (w r)) in *.
  set (a i j := vgram po (y r) i j - sumn M (fun m => W m * vgram po (x r m) i j)). set (b i j := vgram po (y' r) i j - sumn M (fun m => W m * vgram po (x' r m) i j)). set (o (i j : nat) := 0).
  set (cc := vpow (2 * dy r) po + vpow (2 * dx r) po).
  assert (Cp : 0 <= cc) by (pose proof (vpow_nonneg (2 * dy r) po); pose proof (vpow_nonneg (2 * dx r) po); unfold cc; lra).
  assert (B : sqrt (sumn D (fun i => sumn D (fun j => h r i j * (b i j - a i j) ^ 2))) <= cc * sqrt (offdiag D (h r))).
  { apply vgap_bound; auto.
    - intros i j Hi Hj. pose proof (vgram_holder po (y' r) (y r) (dy r) i j ltac:(lra) (Hy r i Hr Hi) (Hy r j Hr Hj)) as B1.
      assert (B2 : Rabs (sumn M (fun m => W m * vgram po (x' r m) i j) - sumn M (fun m => W m * vgram po (x r m) i j)) <= vpow (2 * dx r) po).
      { apply (avg_lip M W (fun m => vgram po (x r m) i j) (fun m => vgram po (x' r m) i j)); auto. intros m Hm. apply vgram_holder; [lra| |]; now apply Hx. }
      apply Rabs_le_between in B1. apply Rabs_le_between in B2. apply Rabs_le. unfold a, b, cc. lra.
    - intros i. unfold a, b. rewrite !vgram_diag. f_equal. apply sumn_ext; intros. now rewrite !vgram_diag. }
  destruct (vgap_triangle D (h r) b a o Hh) as (_ & T1). destruct (vgap_triangle D (h r) a b o Hh) as (_ & T2).
  assert (sumn D (fun i => sumn D (fun j => h r i j * (a i j - b i j) ^ 2)) = sumn D (fun i => sumn D (fun j => h r i j * (b i j - a i j) ^ 2))) as E by (apply sumn_ext; intros; apply sumn_ext; intros; ring).
  rewrite E in T2.
  assert (S : forall f, sumn D (fun i => sumn D (fun j => h r i j * (f i j - o i j) ^ 2)) = sumn D (fun i => sumn D (fun j => h r i j * f i j ^ 2))) by (intros; unfold o; apply sumn_ext; intros; apply sumn_ext; intros; ring).
  rewrite !S in *. unfold vs_score. fold a b. apply Rabs_le. split; unfold a, b in *; lra.
Qed.
Lemma C92_rps_l :
forall obs obs' fct fct' ax s p K c c' x x', cat_args obs fct ax s p K c x -> probs s p K x -> (forall r, inb s r -> (0 < c r)%nat) ->
  cat_args obs' fct' ax s p K c' x' -> probs s p K x' -> (forall r, inb s r -> (0 < c' r)%nat) ->
  exists f g, returns (rps_score obs fct ax false) s (fun r => Fin (f r)) /\ returns (rps_score obs' fct' ax false) s (fun r => Fin (g r)) /\ forall r, inb s r ->
    Rabs (sqrt (f r) - sqrt (g r)) <= sqrt (sumn K (fun k => (cum (member p x r) k - cum (member p x' r) k) ^ 2)) + sqrt (Rabs (INR (c r) - INR (c' r))).
Proof.
intros obs obs' fct fct' ax s p K c c' x x' H Hp Hc H' Hp' Hc'. eexists (fun r => _), (fun r => _). split; [now apply (C30_value_l obs fct ax s p K c x)|]. split; [now apply (C30_value_l obs' fct' ax s p K c' x')|].
  intros r Hr. cbv beta. unfold rps. set (a := cum (member p x r)). set (b := cum (member p x' r)). set (o := ind_cat (c r)). set (o' := ind_cat (c' r)).
  pose proof (rps_triangle K a b o) as T1. pose proof (rps_triangle K b o' o) as T2. pose proof (rps_triangle K b a o') as T3. pose proof (rps_triangle K a o o') as T4. cbv zeta beta in T1, T2, T3, T4.
  assert (E : forall f g : nat -> R, sumn K (fun k => (g k - f k) ^ 2) = sumn K (fun k => (f k - g k) ^ 2)) by (intros; apply sumn_ext; intros; ring).
  rewrite (E a b) in T3. rewrite (E o o') in T2. pose proof (ind_cat_gap K (c r) (c' r)) as G. apply sqrt_le_1_alt in G. fold o o' in G. apply Rabs_le. lra.
Qed.
