(** Proofs that the closed-form CRPS of the gamma distribution and of its shifted, censored version is the CRPS integral (statements in P_crpsgam.v). *)
From Verif Require Export L_closed L_crpsgam.
From Coq Require Import Psatz.
From Coquelicot Require Import Coquelicot.
Open Scope R_scope.
Lemma gcdf_val a r y : 0 < a -> 0 < r -> nmax (ngammainc (Fin a) (nmul (Fin r) (nmax (Fin y) (Fin 0)))) (Fin 0) = Fin (gam_cdf0 a (r * y)).
Proof.
  intros Ha Hr. assert (forall t, gam_cdf0 a t = 0 \/ 0 <= gam_cdf0 a t) as B.
  { intros t. unfold gam_cdf0. destruct (Rle_dec t 0); auto. right. pose proof (LG_bounds a (ln t) Ha) as L. unfold LG in L. rewrite exp_ln in L by lra. pose proof (Rgamma_pos a Ha). nra. }
  nev. unfold ngammainc. destruct (Rlt_dec 0 a); [|lra]. pose proof (Rmax_r y 0) as M. destruct (Rle_dec 0 (r * Rmax y 0)) as [L|L]; [|exfalso; apply L; apply Rmult_le_pos; lra].
  assert (Rgammainc a (r * Rmax y 0) = gam_cdf0 a (r * y)) as ->.
  { unfold gam_cdf0. destruct (Rle_dec (r * y) 0) as [K|K].
    - assert (y <= 0) by nra. rewrite Rmax_right, Rmult_0_r by auto. unfold Rgammainc. destruct (Req_EM_T 0 0); [auto|lra].
    - assert (0 < y) by nra. now rewrite Rmax_left by lra. }
  nev. f_equal. specialize (B (r * y)). apply Rmax_left. lra.
Qed.
Lemma gamma_value y a r : 0 < a -> 0 < r -> forall n, n = nsub (nsub (nmul (Fin y) (nsub (nmul (Fin 2) (nmax (ngammainc (Fin a) (nmul (Fin r) (nmax (Fin y) (Fin 0)))) (Fin 0))) (Fin 1)))
    (nmul (ndiv (Fin a) (Fin r)) (nsub (nmul (Fin 2) (nmax (ngammainc (nadd (Fin a) (Fin 1)) (nmul (Fin r) (nmax (Fin y) (Fin 0)))) (Fin 0))) (Fin 1))))
    (ndiv (Fin 1) (nmul (Fin r) (nbeta (Fin (1 / 2)) (Fin a)))) ->
  n = Fin (y * (2 * gam_cdf0 a (r * y) - 1) - a / r * (2 * gam_cdf0 (a + 1) (r * y) - 1) - 1 / (r * Rbeta (1 / 2) a)).
Proof.
  intros Ha Hr n ->. pose proof (Rbeta_pos (1 / 2) a ltac:(lra) Ha) as HB. assert (r * Rbeta (1 / 2) a <> 0) by (apply Rgt_not_eq, Rmult_lt_0_compat; lra).
  replace (nadd (Fin a) (Fin 1)) with (Fin (a + 1)) by (nev; auto). rewrite !gcdf_val, !beta_f1 by lra. nev. reflexivity.
Qed.
Lemma csg0_value y a r d : 0 < a -> 0 < r ->
  (Fin y .+ Fin d) .* (nofnat 2 .* nmax (ngammainc (Fin a) (Fin r .* nmax (Fin y .+ Fin d) (Fin 0))) (Fin 0) .- nofnat 1)
  .- Fin a ./ (Fin r .* Fin PI) .* nbeta (Fin (1 / 2)) (Fin a .+ Fin (1 / 2)) .* (nofnat 1 .- nmax (ngammainc (nofnat 2 .* Fin a) (Fin r .* nmax (nofnat 2 .* Fin d) (Fin 0))) (Fin 0))
  .+ Fin a ./ Fin r .* (nofnat 1 .+ nofnat 2 .* nmax (ngammainc (Fin a) (Fin r .* nmax (Fin d) (Fin 0))) (Fin 0) .* nmax (ngammainc (Fin a .+ nofnat 1) (Fin r .* nmax (Fin d) (Fin 0))) (Fin 0)
     .- nsq (nmax (ngammainc (Fin a) (Fin r .* nmax (Fin d) (Fin 0))) (Fin 0)) .- nofnat 2 .* nmax (ngammainc (Fin a .+ nofnat 1) (Fin r .* nmax (Fin y .+ Fin d) (Fin 0))) (Fin 0))
  .- Fin d .* nsq (nmax (ngammainc (Fin a) (Fin r .* nmax (Fin d) (Fin 0))) (Fin 0)) =
  Fin ((y + d) * (2 * gam_cdf0 a (r * (y + d)) - 1) - a / (r * PI) * Rbeta (1 / 2) (a + 1 / 2) * (1 - gam_cdf0 (2 * a) (r * (2 * d))) + a / r * (1 + 2 * gam_cdf0 a (r * d) * gam_cdf0 (a + 1) (r * d) - gam_cdf0 a (r * d) ^ 2 - 2 * gam_cdf0 (a + 1) (r * (y + d))) - d * gam_cdf0 a (r * d) ^ 2).
Proof.
  intros Ha Hr. pose proof (Rbeta_pos (1 / 2) (a + 1 / 2) ltac:(lra) ltac:(lra)) as HB. pose proof PI_RGT_0 as HP. assert (r * PI <> 0) by (apply Rgt_not_eq, Rmult_lt_0_compat; lra).
  change (nofnat 2) with (Fin 2). change (nofnat 1) with (Fin 1).
  replace (Fin a .+ Fin 1) with (Fin (a + 1)) by (nev; auto). replace (Fin y .+ Fin d) with (Fin (y + d)) by (nev; auto). replace (Fin 2 .* Fin d) with (Fin (2 * d)) by (nev; auto).
  replace (Fin 2 .* Fin a) with (Fin (2 * a)) by (nev; auto). replace (Fin a .+ Fin (1 / 2)) with (Fin (a + 1 / 2)) by (nev; auto).
  rewrite !gcdf_val, !beta_f1 by lra. set (B := Rbeta (1 / 2) (a + 1 / 2)) in *. clearbody B.
  repeat match goal with |- context [gam_cdf0 ?p ?q] => let g := fresh "g" in set (g := gam_cdf0 p q) in *; clearbody g end.
  nev. f_equal. simpl. ring.
Qed.
Lemma C62_gamma_l :
forall (obs shape rate : arr) (s : list nat) (y a r : list nat -> R),
  params s [(obs, fins y); (shape, fins a); (rate, fins r)]%list -> (forall i, inb s i -> 0 < a i /\ 0 < r i) ->
  exists f, returns (crps_gamma obs shape (Some rate) None) s (fins f) /\
    forall i, inb s i -> is_crps (gamma_cdf (a i) (r i)) (y i) (f i).
Proof.
intros obs shape rate s y a r P H.
exists (fun i => let q := r i in y i * (2 * gam_cdf0 (a i) (q * y i) - 1) - a i / q * (2 * gam_cdf0 (a i + 1) (q * y i) - 1) - 1 / (q * Rbeta (1 / 2) (a i))). split.
- unfold crps_gamma; ret P. destruct (H i Hi) as [Ha Hr]. unfold fins. cbv zeta. eapply gamma_value; [exact Ha|exact Hr|]. reflexivity.
- intros i Hi. destruct (H i Hi) as [Ha Hr]. cbv zeta. apply gamma_crps; auto.
Qed.
Lemma C62_gamma_scale_l :
forall (obs shape scale : arr) (s : list nat) (y a c : list nat -> R),
  params s [(obs, fins y); (shape, fins a); (scale, fins c)]%list -> (forall i, inb s i -> 0 < a i /\ 0 < c i) ->
  exists f, returns (crps_gamma obs shape None (Some scale)) s (fins f) /\
    forall i, inb s i -> is_crps (gamma_cdf (a i) (1 / c i)) (y i) (f i).
Proof.
intros obs shape scale s y a c P H.
exists (fun i => let q := (1 / c i) in y i * (2 * gam_cdf0 (a i) (q * y i) - 1) - a i / q * (2 * gam_cdf0 (a i + 1) (q * y i) - 1) - 1 / (q * Rbeta (1 / 2) (a i))). split.
- unfold crps_gamma; ret P. destruct (H i Hi) as [Ha Hr]. unfold fins. assert (0 < 1 / c i) as Hq by (apply Rdiv_lt_0_compat; lra). assert (ndiv (Fin 1) (Fin (c i)) = Fin (1 / c i)) as E by (nev; auto). cbv zeta. eapply gamma_value; [exact Ha|exact Hq|]. rewrite ?E. reflexivity.
- intros i Hi. destruct (H i Hi) as [Ha Hr]. cbv zeta. apply gamma_crps; auto. apply Rdiv_lt_0_compat; lra.
Qed.
Lemma C62_csg0_l :
forall (obs shape rate shift : arr) (s : list nat) (y a r d : list nat -> R),
  params s [(obs, fins y); (shape, fins a); (rate, fins r); (shift, fins d)]%list -> (forall i, inb s i -> 0 < a i /\ 0 < r i /\ 0 <= y i) ->
  exists f, returns (crps_csg0 obs shape (Some rate) None shift) s (fins f) /\
    forall i, inb s i -> is_crps (csg0_cdf (a i) (r i) (d i)) (y i) (f i).
Proof.
intros obs shape rate shift s y a r d P H.
exists (fun i => (y i + d i) * (2 * gam_cdf0 (a i) (r i * (y i + d i)) - 1) - a i / (r i * PI) * Rbeta (1 / 2) (a i + 1 / 2) * (1 - gam_cdf0 (2 * a i) (r i * (2 * d i))) + a i / r i * (1 + 2 * gam_cdf0 (a i) (r i * d i) * gam_cdf0 (a i + 1) (r i * d i) - gam_cdf0 (a i) (r i * d i) ^ 2 - 2 * gam_cdf0 (a i + 1) (r i * (y i + d i))) - d i * gam_cdf0 (a i) (r i * d i) ^ 2). split.
- unfold crps_csg0; ret P. destruct (H i Hi) as (Ha & Hr & Hy). unfold fins. rewrite csg0_value by auto. reflexivity.
- intros i Hi. destruct (H i Hi) as (Ha & Hr & Hy). apply csg0_crps; auto.
Qed.
Lemma C62_csg0_scale_l :
forall (obs shape scale shift : arr) (s : list nat) (y a c d : list nat -> R),
  params s [(obs, fins y); (shape, fins a); (scale, fins c); (shift, fins d)]%list -> (forall i, inb s i -> 0 < a i /\ 0 < c i /\ 0 <= y i) ->
  exists f, returns (crps_csg0 obs shape None (Some scale) shift) s (fins f) /\
    forall i, inb s i -> is_crps (csg0_cdf (a i) (1 / c i) (d i)) (y i) (f i).
Proof.
intros obs shape scale shift s y a c d P H.
exists (fun i => (y i + d i) * (2 * gam_cdf0 (a i) ((1 / c i) * (y i + d i)) - 1) - a i / ((1 / c i) * PI) * Rbeta (1 / 2) (a i + 1 / 2) * (1 - gam_cdf0 (2 * a i) ((1 / c i) * (2 * d i))) + a i / (1 / c i) * (1 + 2 * gam_cdf0 (a i) ((1 / c i) * d i) * gam_cdf0 (a i + 1) ((1 / c i) * d i) - gam_cdf0 (a i) ((1 / c i) * d i) ^ 2 - 2 * gam_cdf0 (a i + 1) ((1 / c i) * (y i + d i))) - d i * gam_cdf0 (a i) ((1 / c i) * d i) ^ 2). split.
- unfold crps_csg0; ret P. destruct (H i Hi) as (Ha & Hr & Hy). unfold fins. assert (0 < 1 / c i) as Hq by (apply Rdiv_lt_0_compat; lra). assert (ndiv (Fin 1) (Fin (c i)) = Fin (1 / c i)) as E by (nev; auto). rewrite ?E. rewrite csg0_value by auto. reflexivity.
- intros i Hi. destruct (H i Hi) as (Ha & Hr & Hy). apply csg0_crps; auto. apply Rdiv_lt_0_compat; lra.
Qed.
Lemma C62_csg0_negative_refuted_l :
exists f v, returns (crps_csg0 (farr nil (fun _ => -1)) (farr nil (fun _ => 1)) (Some (farr nil (fun _ => 1))) None (farr nil (fun _ => 1))) nil (fins f) /\
  is_crps (csg0_cdf 1 1 1) (-1) v /\ f nil < v.
Proof.
pose proof (csg0_crps 1 1 1 0 ltac:(lra) ltac:(lra) ltac:(lra)) as K. apply (cens0_below _ (-1) _ ltac:(lra)) in K.
eexists (fun _ => _), _. split; [|split; [exact K|]].
- assert (params nil [(farr nil (fun _ => -1), fins (fun _ => -1)); (farr nil (fun _ => 1), fins (fun _ => 1)); (farr nil (fun _ => 1), fins (fun _ => 1)); (farr nil (fun _ => 1), fins (fun _ => 1))]%list) as P by (split; [reflexivity|repeat constructor]).
  unfold crps_csg0; ret P. unfold fins. rewrite csg0_value by lra. reflexivity.
- cbv beta. pose proof (gam_1_lt (1 * (0 + 1)) ltac:(lra)) as L. replace (1 * (-1 + 1)) with 0 by ring. rewrite (gam_cont_inc 1 0), (gam_cont_inc (1 + 1) 0) by lra. replace (1 * (0 + 1)) with (1 * 1) in * by ring. clear K.
  set (k := 1 / (1 * PI) * Rbeta (1 / 2) (1 + 1 / 2) * (1 - gam_cdf0 (2 * 1) (1 * (2 * 1)))). clearbody k.
  set (g := gam_cdf0 1 (1 * 1)) in *. set (h := gam_cdf0 (1 + 1) (1 * 1)) in *. clearbody g h. apply Rminus_gt_0_lt; apply Rlt_gt. match goal with |- 0 < ?e => replace e with (2 * (g - h)) by field end. lra.
Qed.
