(** Proofs that the closed-form CRPS of the generalised extreme value distribution is the CRPS integral (statements in P_crpsgev.v). *)
From Verif Require Export T_equiv L_crpsgum L_eulernum L_closed S_float.
From Coq Require Import Psatz.
From Coquelicot Require Import Coquelicot.
Open Scope R_scope.
Definition gevG (k w : R) : R := (Rgamma (1 - k) - LG (1 - k) (- gu k w) - gev_cdf k w) / k.
Definition gevV (k w : R) : R := if Req_EM_T k 0 then - w + 2 * L_euler.E1 (exp (- w)) + EULERMASCHERONI - ln 2 else
  w * (2 * gev_cdf k w - 1) - 2 * (if Rlt_dec 0 (1 + k * w) then gevG k w else if Rlt_dec 0 k then 0 else gev_m k) + gev_q k.
Lemma gamma_inc_val k t : k < 1 -> 0 < t -> nmul (ngammaincc (Fin (1 - k)) (Fin t)) (ngamma (Fin (1 - k))) = Fin (Rgamma (1 - k) - LG (1 - k) (ln t)).
Proof.
  intros Hk Ht. unfold ngammaincc, ngammainc, ngamma. destruct (Rlt_dec 0 (1 - k)); [|lra]. destruct (Rle_dec 0 t); [|lra]. nev. f_equal. unfold LG. rewrite exp_ln by auto. ring.
Qed.
Lemma expi_val t : 0 < t -> nexpi (Fin (- t)) = Fin (- L_euler.E1 t).
Proof. intros Ht. unfold nexpi. destruct (Rlt_dec (- t) 0); [|lra]. rewrite Ropp_involutive. reflexivity. Qed.
Lemma gev_out (obs shape location scale : arr) (s : list nat) (y k m c : list nat -> R) :
  params s [(obs, fins y); (shape, fins k); (location, fins m); (scale, fins c)]%list -> (forall i, inb s i -> 0 < c i /\ k i < 1) ->
  returns (crps_gev_out obs shape location scale) s (fins (fun i => c i * gevV (k i) ((y i - m i) / c i))).
Proof.
  intros P H. ret P. destruct (H i Hi) as [Hc Hk]. unfold fins.
  assert (nsub (Fin (y i)) (Fin (m i)) = Fin (y i - m i)) as -> by (nev; auto).
  assert (ndiv (Fin (y i - m i)) (Fin (c i)) = Fin ((y i - m i) / c i)) as -> by (nev; auto).
  set (w := (y i - m i) / c i). clearbody w. set (q := c i) in *. set (z := k i) in *. clearbody q z. clear - Hc Hk.
  destruct (Req_EM_T z 0) as [K|K].
  - subst z. nev. pose proof (exp_pos (- w)). pose proof (exp_pos (- exp (- w))). nev. rewrite ln_exp, expi_val by auto. nev. unfold gevV. destruct (Req_EM_T 0 0); [|lra]. f_equal. ring.
  - unfold gevV. destruct (Req_EM_T z 0); [contradiction|]. assert (z * (-1 / z) = -1) as E1 by (field; auto). assert (0 < 1 - z) as Hz by lra.
    assert (ngamma (Fin (1 - z)) = Fin (Rgamma (1 - z))) as Eg by (unfold ngamma; destruct (Rlt_dec 0 (1 - z)); [auto|lra]).
    assert (-1 / z = - (1 / z)) as Eq by (field; auto).
    destruct (Rlt_dec 0 (1 + z * w)) as [B|B].
    + assert (gev_cdf z w = exp (- Rpower (1 + z * w) (- (1 / z)))) as EF by (unfold gev_cdf; destruct (Req_EM_T z 0); [contradiction|]; destruct (Rlt_dec 0 (1 + z * w)); [auto|lra]).
      assert (0 < Rpower (1 + z * w) (- (1 / z))) as Pp by apply exp_pos. pose proof (exp_pos (- Rpower (1 + z * w) (- (1 / z)))) as Pe.
      assert (LG (1 - z) (- gu z w) = LG (1 - z) (ln (Rpower (1 + z * w) (- (1 / z))))) as EL by (f_equal; unfold gu; rewrite ln_Rpower; field; auto).
      assert (forall G L F R2, (w * (2 * F - 1) - 2 * (-1 / z * F + (G - L) / z) - (1 - (2 - R2) * G) / z) * q = q * (w * (2 * F - 1) - 2 * ((G - L - F) / z) + ((2 - R2) * G - 1) / z)) as EE by (intros; field; auto).
      destruct (Rlt_dec 0 z) as [Z|Z].
      * assert (-1 / z < w) by nra. nev. rewrite Eq, ln_exp, Ropp_involutive, gamma_inc_val, Eg by auto. nev. f_equal. unfold gevG, gev_q. rewrite EL, EF. rewrite <- EE, Eq. reflexivity.
      * assert (z < 0) by lra. assert (w < -1 / z) by nra. assert (1 / Rabs z = -1 / z) as Ea by (rewrite Rabs_left by auto; field; auto). assert (Rabs z <> 0) by (rewrite Rabs_left by auto; lra). assert (w < 1 / Rabs z) by (rewrite Ea; auto).
        nev. rewrite Eq, ln_exp, Ropp_involutive, gamma_inc_val, Eg by auto. nev. f_equal. unfold gevG, gev_q. rewrite EL, EF. rewrite <- EE, Eq. reflexivity.
    + assert (gev_cdf z w = if Rlt_dec 0 z then 0 else 1) as EF by (unfold gev_cdf; destruct (Req_EM_T z 0); [contradiction|]; destruct (Rlt_dec 0 (1 + z * w)); [lra|auto]).
      destruct (Rlt_dec 0 z) as [Z|Z].
      * assert (w <= -1 / z) by nra. rewrite EF. nev. rewrite Eg. nev. f_equal. unfold gev_q. field; auto.
      * assert (z < 0) by lra. assert (-1 / z <= w) by nra. assert (1 / Rabs z = -1 / z) as Ea by (rewrite Rabs_left by auto; field; auto). assert (Rabs z <> 0) by (rewrite Rabs_left by auto; lra). assert (1 / Rabs z <= w) by (rewrite Ea; auto).
        rewrite EF. nev. rewrite Eg. nev. f_equal. unfold gev_q, gev_m. field; auto.
Qed.
Lemma gevV_crps k : k < 1 -> k <> 0 -> forall w, is_crps (gev_cdf k) w (gevV k w).
Proof.
  intros Hk K w. pose proof (gev_crps k Hk K w) as G. unfold gevV. destruct (Req_EM_T k 0); [contradiction|].
  match type of G with is_crps _ _ ?a => match goal with |- is_crps _ _ ?b => replace b with a; [exact G|] end end. f_equal. f_equal. f_equal.
  destruct (Rlt_dec 0 (1 + k * w)) as [B|B].
  - destruct (proj2 (gev_dom k w K) B) as [D1 D2]. rewrite xtd_in by auto. unfold MU, gevG. f_equal. f_equal. rewrite gu_F by auto. unfold gev_cdf. destruct (Req_EM_T k 0); [contradiction|]. destruct (Rlt_dec 0 (1 + k * w)); [auto|lra].
  - assert (k * - (1 / k) = -1) as E1 by (field; auto). unfold gev_lower, gev_upper. destruct (Rlt_dec 0 k) as [Z|Z].
    + apply xtd_lo. simpl. set (q := - (1 / k)) in *. clearbody q. nra.
    + destruct (Rlt_dec k 0); [|lra]. apply xtd_hi; [exact I|]. simpl. set (q := - (1 / k)) in *. clearbody q. nra.
Qed.
Lemma gevV_gumbel C : filterlim eB (at_right 0) (locally C) -> forall w, is_crps (gev_cdf 0) w (gevV 0 w + (C - EULERMASCHERONI)).
Proof.
  intros HC w. unfold gevV. destruct (Req_EM_T 0 0); [|lra]. pose proof (gumbel_crps C HC w) as G.
  match type of G with is_crps _ _ ?a => match goal with |- is_crps _ _ ?b => replace b with a; [exact G|] end end. ring.
Qed.
Lemma float_pick s (f : list nat -> num) T : returns T s f -> returns (float1 T) (float_shape s) (fun i => f (float_index s i)).
Proof.
  intros R. eapply returns_eq; [exact (float1_returns _ _ _ R)|]. intros i _. unfold float_index. destruct (fold_right Nat.mul 1 s =? 1)%nat; auto.
Qed.
Lemma C63_gev_l :
forall (obs shape location scale : arr) (s : list nat) (y k m c : list nat -> R),
  params s [(obs, fins y); (shape, fins k); (location, fins m); (scale, fins c)]%list -> (forall i, inb s i -> 0 < c i /\ k i < 1 /\ k i <> 0) ->
  exists f, returns (crps_gev obs shape location scale) (float_shape s) (fun i => Fin (f (float_index s i))) /\
    forall i, inb s i -> is_crps (ls_cdf (gev_cdf (k i)) (m i) (c i)) (y i) (f i).
Proof.
intros obs shape location scale s y k m c P H.
exists (fun i => c i * gevV (k i) ((y i - m i) / c i)). split.
- apply (float_pick s (fins (fun i => c i * gevV (k i) ((y i - m i) / c i))) (crps_gev_out obs shape location scale)). apply gev_out; auto. intros i Hi. destruct (H i Hi) as (? & ? & ?); auto.
- intros i Hi. destruct (H i Hi) as (Hc & Hk & Nk). apply crps_scale; auto. now apply gevV_crps.
Qed.
Lemma C63_gumbel_l :
exists e, 0 < e < 2 / 10 ^ 36 /\
  forall (obs shape location scale : arr) (s : list nat) (y m c : list nat -> R),
  params s [(obs, fins y); (shape, fins (fun _ => 0)); (location, fins m); (scale, fins c)]%list -> (forall i, inb s i -> 0 < c i) ->
  exists f, returns (crps_gev obs shape location scale) (float_shape s) (fun i => Fin (f (float_index s i))) /\
    forall i, inb s i -> is_crps (ls_cdf (gev_cdf 0) (m i) (c i)) (y i) (f i + c i * e).
Proof.
destruct eB_lim as (C & HC). exists (C - EULERMASCHERONI). split; [now apply euler_value|]. intros obs shape location scale s y m c P H.
exists (fun i => c i * gevV 0 ((y i - m i) / c i)). split.
- apply (float_pick s (fins (fun i => c i * gevV 0 ((y i - m i) / c i))) (crps_gev_out obs shape location scale)). apply (gev_out _ _ _ _ _ _ (fun _ => 0)); auto. intros i Hi. specialize (H i Hi). split; auto. lra.
- intros i Hi. specialize (H i Hi). rewrite <- Rmult_plus_distr_l. apply crps_scale; auto. now apply gevV_gumbel.
Qed.
Lemma C63_mixed_l :
exists e, 0 < e < 2 / 10 ^ 36 /\
  forall (obs shape location scale : arr) (s : list nat) (y k m c : list nat -> R),
  params s [(obs, fins y); (shape, fins k); (location, fins m); (scale, fins c)]%list -> (forall i, inb s i -> 0 < c i /\ k i < 1) ->
  exists f, returns (crps_gev obs shape location scale) (float_shape s) (fun i => Fin (f (float_index s i))) /\
    forall i, inb s i -> is_crps (ls_cdf (gev_cdf (k i)) (m i) (c i)) (y i) (f i + if Req_EM_T (k i) 0 then c i * e else 0).
Proof.
destruct eB_lim as (C & HC). exists (C - EULERMASCHERONI). split; [now apply euler_value|]. intros obs shape location scale s y k m c P H.
exists (fun i => c i * gevV (k i) ((y i - m i) / c i)). split.
- apply (float_pick s (fins (fun i => c i * gevV (k i) ((y i - m i) / c i))) (crps_gev_out obs shape location scale)). now apply gev_out.
- intros i Hi. destruct (H i Hi) as (Hc & Hk). destruct (Req_EM_T (k i) 0) as [K|K].
  + rewrite K, <- Rmult_plus_distr_l. apply crps_scale; auto. now apply gevV_gumbel.
  + rewrite Rplus_0_r. apply crps_scale; auto. now apply gevV_crps.
Qed.
Lemma C63_gumbel_exact_refuted_l :
exists f v, returns (crps_gev (farr nil (fun _ => 3)) (farr nil (fun _ => 0)) (farr nil (fun _ => 2)) (farr nil (fun _ => 5))) nil (fins f) /\
  is_crps (ls_cdf (gev_cdf 0) 2 5) 3 v /\ f nil < v.
Proof.
destruct C63_gumbel_l as (e & He & H).
assert (params nil [(farr nil (fun _ => 3), fins (fun _ => 3)); (farr nil (fun _ => 0), fins (fun _ => 0)); (farr nil (fun _ => 2), fins (fun _ => 2)); (farr nil (fun _ => 5), fins (fun _ => 5))]%list) as P by (split; [reflexivity|repeat constructor]).
destruct (H _ _ _ _ _ _ _ _ P) as (f & R & K); [intros; lra|]. exists f, (f nil + 5 * e). split; [|split; [apply (K nil I)|lra]].
eapply returns_eq; [exact R|]. intros i Hi. unfold fins. f_equal. destruct i; [reflexivity|destruct Hi].
Qed.
Lemma C63_euler_l :
exists g, is_euler g /\ EULERMASCHERONI < g < EULERMASCHERONI + 2 / 10 ^ 36.
Proof.
destruct eB_lim as (C & HC). exists C. split; [now apply euler_lim|]. pose proof (euler_value C HC). lra.
Qed.
