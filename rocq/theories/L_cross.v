(** Facts that relate different scores. *)
From Verif Require Export S_prob S_tw L_score.
From Coq Require Import Psatz Lia.
From Coquelicot Require Import Coquelicot.
Open Scope R_scope.

(** the ranked probability score is the CRPS of the distribution with mass p k at k + 1 *)
Lemma rps_crps K p c : sumn K p = 1 -> (0 < c <= K)%nat -> is_crps (wcdf K p (fun k => INR (k + 1))) (INR c) (rps K p c).
Proof.
  intros Hp Hc. unfold is_crps, rps.
  eapply line_ext; [|reflexivity|apply (line_sumn K (fun k t => (cum p k - ind_cat c k) ^ 2 * (ind_le (INR (k + 1)) t - ind_le (INR (k + 2)) t) ^ 2)); intros k Hk].
  2:{ cbv beta. eapply line_ext; [| |apply (line_scal _ ((cum p k - ind_cat c k) ^ 2) _ (gap (INR (k + 1)) (INR (k + 2))))]; [intros; reflexivity|].
      rewrite !plus_INR. simpl INR. rewrite Rabs_left by lra. ring. }
  intros t. cbv beta. unfold wcdf. rewrite Hp, Rdiv_1.
  destruct (Rlt_le_dec t 1) as [H1|H1].
  - rewrite (sumn_ext K (fun i => p i * ind_le (INR (i + 1)) t) (fun _ => 0)), sumn_zero.
    2:{ intros k Hk. unfold ind_le. destruct (Rle_dec _ _) as [E|E]; [|ring]. rewrite plus_INR in E. pose proof (pos_INR k). simpl in E. lra. }
    rewrite (sumn_ext K _ (fun _ => 0)), sumn_zero.
    + unfold ind_le. destruct (Rle_dec (INR c) t) as [E|E]; [|ring]. assert (1 <= INR c) by (change 1 with (INR 1); apply le_INR; lia). lra.
    + intros k Hk. unfold ind_le. rewrite !plus_INR. pose proof (pos_INR k). simpl INR. destruct (Rle_dec _ t), (Rle_dec _ t); try lra.
  - destruct (nfloor_ex t ltac:(lra)) as [n Hn]. assert (1 <= n)%nat as Hn1 by (assert (INR 0 < INR n) as X by (simpl; rewrite <- (Rplus_0_r 0); simpl in *; lra); apply INR_lt in X; lia).
    assert (forall m, ind_le (INR m) t = if (m <=? n)%nat then 1 else 0) as I.
    { intros m. unfold ind_le. destruct (Rle_dec (INR m) t) as [E|E]; destruct (Nat.leb_spec m n) as [L|L]; auto.
      - apply lt_le_S, le_INR in L. rewrite S_INR in L. lra.
      - apply le_INR in L. lra. }
    rewrite I. destruct (le_lt_dec (n + 1) (K + 1)) as [L|L]; [destruct (le_lt_dec n K) as [L2|L2]; [|lia]|].
    + rewrite (sumn_ext K _ (fun k => if Nat.eq_dec k (n - 1) then (cum p (n - 1) - ind_cat c (n - 1)) ^ 2 else 0)).
      2:{ intros k Hk. rewrite !I. destruct (Nat.eq_dec k (n - 1)) as [->|E].
          - destruct (Nat.leb_spec (n - 1 + 1) n); [|lia]. destruct (Nat.leb_spec (n - 1 + 2) n); [lia|]. ring.
          - destruct (Nat.leb_spec (k + 1) n), (Nat.leb_spec (k + 2) n); try lia; ring. }
      rewrite sumn_delta by lia. f_equal. f_equal.
      * rewrite (sumn_ext K _ (fun i => if (i <? n)%nat then p i else 0)).
        2:{ intros k Hk. rewrite I. destruct (Nat.leb_spec (k + 1) n), (Nat.ltb_spec k n); try lia; ring. }
        unfold cum. replace (S (n - 1)) with n by lia. replace K with (n + (K - n))%nat by lia. rewrite sumn_plus_idx.
        symmetry. rewrite (sumn_ext n _ p), (sumn_ext (K - n) _ (fun _ => 0)), sumn_zero; [ring| |].
        -- intros k Hk. destruct (Nat.ltb_spec (n + k) n); [lia|auto].
        -- intros k Hk. destruct (Nat.ltb_spec k n); [auto|lia].
      * unfold ind_cat. replace (n - 1 + 1)%nat with n by lia. reflexivity.
    + rewrite (sumn_ext K _ (fun _ => 0)), sumn_zero.
      2:{ intros k Hk. rewrite !I. destruct (Nat.leb_spec (k + 1) n), (Nat.leb_spec (k + 2) n); try lia; ring. }
      rewrite (sumn_ext K _ p), Hp. 2:{ intros k Hk. rewrite I. destruct (Nat.leb_spec (k + 1) n); [ring|lia]. }
      destruct (Nat.leb_spec c n); [ring|lia].
Qed.
Lemma rps_two p c : p 0%nat + p 1%nat = 1 -> c = 1%nat \/ c = 2%nat -> rps 2 p c = (p 0%nat - (if (c =? 1)%nat then 1 else 0)) ^ 2.
Proof.
  intros Hp Hc. unfold rps, cum, ind_cat. rewrite !sumn_S, !sumn_0. destruct Hc as [-> | ->]; cbn [Nat.leb Nat.eqb Nat.add]; replace (0 + p 0%nat + p 1%nat) with 1 by lra; ring.
Qed.
Lemma rls_two p c : p 0%nat + p 1%nat = 1 -> c = 1%nat \/ c = 2%nat -> rls 2 p c = - ln (if (c =? 1)%nat then p 0%nat else p 1%nat).
Proof.
  intros Hp Hc. unfold rls, cum, ind_cat, logsc. rewrite !sumn_S, !sumn_0. replace (0 + p 0%nat + p 1%nat) with 1 by lra.
  destruct Hc as [-> | ->]; cbn [Nat.leb Nat.eqb Nat.add]; repeat destruct (Req_EM_T _ _); try lra; rewrite ln_1.
  all: replace (0 + p 0%nat) with (p 0%nat) by ring; replace (1 - p 0%nat) with (p 1%nat) by lra; ring.
Qed.
Global Instance end_of_proper a : ProperFilter (end_of a).
Proof. destruct a; simpl; apply _. Qed.
Lemma tw_unique F y a b v w : is_twcrps F y a b v -> is_twcrps F y a b w -> v = w.
Proof. intros H H'. unfold is_twcrps in *. rewrite <- (is_RInt_gen_unique _ _ H). exact (is_RInt_gen_unique _ _ H'). Qed.
Lemma tw_join F y a b c v w : is_twcrps F y a (Fin b) v -> is_twcrps F y (Fin b) c w -> is_twcrps F y a c (v + w).
Proof. intros H H'. exact (is_RInt_gen_Chasles (V := R_NormedModule) _ b v w H H'). Qed.
