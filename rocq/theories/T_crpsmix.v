(** Proofs that the closed-form CRPS of a mixture of normal distributions is the CRPS integral (statements in P_crpsmix.v). *)
From Verif Require Export L_closed L_crpsmix L_mix.
From Coq Require Import Psatz.
From Coquelicot Require Import Coquelicot.
Open Scope R_scope.
Lemma tb_e0 a d M K s f i : arr_is a d (M :: s) f -> tb (aexpand 0 (Ok a)) (K :: M :: s) i (f (tl i)) ((1%nat :: M :: s) :: nil).
Proof.
  intros (Hd & Hs & Ha). eexists. split; [reflexivity|]. cbn [sh at_ insert_at]. rewrite Hs. split; [|split].
  - split; [now right|apply bto_refl].
  - destruct i as [|k i]; intros Hi; [easy|]. destruct Hi as [Hk Hi]. change (bidx (1 :: M :: s)%nat (k :: i)) with (0%nat :: bidx (M :: s) i). rewrite bidx_id by exact Hi. now apply Ha.
  - intros j t [<-|[]]; auto.
Qed.
Lemma tb_e1 a d M K s f i : arr_is a d (M :: s) f -> tb (aexpand 1 (Ok a)) (M :: K :: s) i (f (hd 0%nat i :: tl (tl i))) ((M :: 1%nat :: s) :: nil).
Proof.
  intros (Hd & Hs & Ha). unfold aexpand. cbn [bind]. rewrite Hs. cbn [length Nat.leb]. eexists. split; [reflexivity|]. cbn [sh at_]. change (insert_at 1 1%nat (M :: s)) with (M :: 1 :: s)%nat. split; [|split].
  - split; [now left|]. split; [now right|apply bto_refl].
  - destruct i as [|k [|l i]]; intros Hi; [easy|now destruct Hi|]. destruct Hi as [Hk [Hl Hi]]. cbn [hd tl bidx]. rewrite bidx_id by auto. cbn [remove_at Nat.eqb].
    change (remove_at 1 ((if (M =? 1)%nat then 0%nat else k) :: 0%nat :: i)) with ((if (M =? 1)%nat then 0%nat else k) :: i). rewrite Ha.
    + destruct (Nat.eqb_spec M 1); [|auto]. now replace k with 0%nat by lia.
    + split; [|auto]. destruct (Nat.eqb_spec M 1); lia.
  - intros j t [<-|[]]; auto.
Qed.
Lemma full_tb2 T M s f L : (forall i, tb T (M :: M :: s) i (f i) L) -> In (1%nat :: M :: s) L -> In (M :: 1%nat :: s) L -> returns T (M :: M :: s) f.
Proof.
  intros H HL HR. destruct (H nil) as (a & -> & H1 & _ & H3).
  assert (sh a = M :: M :: s)%nat as E.
  { apply bto_pres_eq; auto. intros j Hj. destruct j as [|j].
    - apply (H3 0%nat _ HR). exists M. auto.
    - apply (H3 (S j) _ HL). destruct (nth_error (M :: M :: s) (S j)) as [d|] eqn:E; [exists d; auto|]. apply nth_error_None in E. lia. }
  exists (dt a), a. split; [reflexivity|]. split; [|split]; auto. intros i Hi.
  destruct (H i) as (a' & E' & _ & H2 & _). injection E' as <-. rewrite <- (H2 Hi). now rewrite E, bidx_id.
Qed.
Lemma mix_crps_core obs m sd w d0 d1 d2 d3 s M (y : list nat -> R) mu sg ww : arr_is obs d0 s (fins y) ->
  arr_is m d1 (M :: s) (fins mu) -> arr_is sd d2 (M :: s) (fins sg) -> arr_is w d3 (M :: s) (fins ww) -> (forall i, inb (M :: s) i -> 0 < sg i) ->
  returns (mixnorm_crps_core (Ok obs) (Ok m) (Ok sd) (Ok w)) s
    (fun r => Fin (sumn M (fun k => ww (k :: r) * mA (y r - mu (k :: r)) (sg (k :: r))) -
      1 / 2 * sumn M (fun i => sumn M (fun j => ww (i :: r) * ww (j :: r) * mA (mu (i :: r) - mu (j :: r)) (mx (sg (i :: r)) (sg (j :: r))))))).
Proof.
  intros Ho Hm Hs Hw Hp. unfold mixnorm_crps_core. cbv zeta.
  assert (forall i, inb (M :: s) i -> forall K, K = Fin (sg i) -> 0 < sg i) as Hp' by (intros; now apply Hp).
  match goal with |- returns (asum ?A - _)%A _ _ => assert (returns A (M :: s) (fun i => Fin (ww i * mA (y (tl i) - mu i) (sg i)))) as E1 end.
  { eapply full_tb.
    - intros i. pose proof (tb_obs _ _ _ M _ Ho i). pose proof (tb_full _ _ _ i (ex_intro _ d1 (ten_Ok _ _ _ _ Hm))).
      pose proof (tb_full _ _ _ i (ex_intro _ d2 (ten_Ok _ _ _ _ Hs))). pose proof (tb_full _ _ _ i (ex_intro _ d3 (ten_Ok _ _ _ _ Hw))).
      eapply tb_eq; [tbn|intros Hi]. specialize (Hp i Hi). unfold fins. nev. unfold mA. reflexivity.
    - rewrite !in_app_iff. left. now left. }
  match goal with |- returns (_ - _ * asum2 ?A)%A _ _ => assert (returns A (M :: M :: s) (fun i => Fin (ww (tl i) * ww (hd 0%nat i :: tl (tl i)) * mA (mu (tl i) - mu (hd 0%nat i :: tl (tl i))) (mx (sg (tl i)) (sg (hd 0%nat i :: tl (tl i))))))) as E2 end.
  { eapply full_tb2.
    - intros i. pose proof (tb_e0 _ _ _ M _ _ i Hm). pose proof (tb_e1 _ _ _ M _ _ i Hm).
      pose proof (tb_e0 _ _ _ M _ _ i Hs). pose proof (tb_e1 _ _ _ M _ _ i Hs). pose proof (tb_e0 _ _ _ M _ _ i Hw). pose proof (tb_e1 _ _ _ M _ _ i Hw).
      eapply tb_eq; [tbn|intros Hi]. destruct i as [|k [|l i]]; [easy|now destruct Hi|]. destruct Hi as [Hk Hi]. cbn [hd tl]. specialize (Hp _ Hi) as P1.
      assert (0 < sg (k :: i)) as P2 by (apply Hp; split; [auto|apply Hi]). unfold fins. set (A := sg (l :: i)) in *. set (B := sg (k :: i)) in *. pose proof (mx_pos A B P1) as Px. unfold mx in *. assert (0 <= A * A + B * B) by nra. nev. unfold mA. reflexivity.
    - rewrite !in_app_iff. do 2 left. now left.
    - rewrite !in_app_iff. left. right. now left. }
  apply ret_sum in E1. apply ret_sum, ret_sum in E2. fold (asum2) in E2. eapply full_tb.
  - intros i. pose proof (tb_full _ _ _ i E1) as K1. pose proof (tb_full _ _ _ i E2) as K2. cbv beta in K1, K2. set (D1 := asum _) in *. set (D2 := asum2 _) in *. change (asum (asum _)) with D2 in K2. eapply tb_eq; [tbn|intros Hi].
    rewrite (nsumn_Fin M _ (fun k => ww (k :: i) * mA (y i - mu (k :: i)) (sg (k :: i)))) by reflexivity.
    rewrite (nsumn_Fin M _ (fun l => sumn M (fun k => ww (l :: i) * ww (k :: i) * mA (mu (l :: i) - mu (k :: i)) (mx (sg (l :: i)) (sg (k :: i)))))).
    + nev. reflexivity.
    + intros l Hl. apply nsumn_Fin. reflexivity.
  - rewrite !in_app_iff. left. now left.
Qed.
Lemma C61_mixnorm_l :
forall (obs m sd : arr) (w : option arr) (ax : Z) (s : list nat) (p M : nat) (y mu sg ww : list nat -> R),
  mix_args obs m sd w ax s p M y mu sg ww -> mix_ok s p M sg ww ->
  exists f, returns (crps_mixnorm obs m sd w ax) s (fins f) /\
    forall r, inb s r -> is_crps (mixture M (member p ww r) (fun k => normal_cdf (member p mu r k) (member p sg r k))) (y r) (f r).
Proof.
intros obs m sd w ax s p M y mu sg ww (Hm & Hs & Hw) Hk.
assert (returns (azeros (sh m) + sc 1 / sci M)%A (insert_at p M s) (fun _ => Fin (/ INR M))) as He.
{ destruct Hm as (_ & (Sm & _) & Hp & _). eapply full_tb; [intros i|].
  - assert (tb (azeros (sh m)) (insert_at p M s) i (Fin 0) (sh m :: nil)).
    { rewrite Sm. apply (tb_full _ _ (fun _ => Fin 0)). exists DFloat. eexists. split; [reflexivity|]. repeat split. }
    eapply tb_eq; [tbs|intros Hi].
    destruct M as [|M]; [destruct (inb_remove p 0 s i Hp Hi) as [? ?]; lia|]. pose proof (lt_0_INR (S M) ltac:(lia)). unfold nofnat. nev. f_equal. field. lra.
  - left. exact Sm. }
destruct (mix_form obs m sd ax s p M y mu sg ww Hm Hs w (fun M => azeros (sh m) + sc 1 / sci M)%A mixnorm_crps_core Hw He) as (m' & s' & w' & d1 & d2 & d3 & E & Am & As & Aw).
eexists (fun r => _). split.
- unfold crps_mixnorm. rewrite E. eapply ret_ext; [exact (mix_crps_core _ _ _ _ _ _ _ _ _ _ _ _ _ _ (real_arr_is _ _ _ (proj1 Hm)) Am As Aw (fun i Hi => match i return inb (M :: s) i -> 0 < member p sg (tl i) (hd 0%nat i) with nil => fun H => match H with end | cons k r => fun H => proj1 (proj1 (Hk r (proj2 H)) k (proj1 H)) end Hi))|].
  intros r Hr. reflexivity.
- intros r Hr. destruct (Hk r Hr) as [K S]. apply (mix_crps M (member p ww r) (member p mu r) (member p sg r)); auto; intros k Hk'; apply K; auto.
Qed.
