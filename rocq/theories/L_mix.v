(** Mixtures of normal distributions: arrays of components. *)
From Verif Require Export L_dens L_logs M_logs.
From Coq Require Import Psatz Classical.
From Coquelicot Require Import Coquelicot.
Open Scope R_scope.

Section mix.
Variables (obs m sd : arr) (ax : Z) (s : list nat) (p M : nat) (y mu sg ww : list nat -> R).
Hypotheses (Hm : ens_args obs m ax s p M y mu) (Hs : real_arr sd (insert_at p M s) sg).

Lemma mix_index : py_index ax (pyshape m) = Ok M.
Proof.
  destruct Hm as (_ & (Sm & _) & Hp & Hax). unfold pyshape. rewrite Sm. unfold py_index.
  assert (length (rev (insert_at p M s)) = S (length s)) as L.
  { now rewrite rev_length, insert_at_length. }
  rewrite L. cbv zeta. set (k := (if (ax <? 0)%Z then (Z.of_nat (S (length s)) + ax)%Z else ax)).
  assert (k = Z.of_nat (length s - p)) as ->.
  { unfold k. destruct Hax as [->| ->]; [destruct (Z.ltb_spec (- Z.of_nat p - 1) 0)|destruct (Z.ltb_spec (Z.of_nat (length s) - Z.of_nat p) 0)]; lia. }
  replace ((0 <=? Z.of_nat (length s - p)) && (Z.of_nat (length s - p) <? Z.of_nat (S (length s))))%Z%bool with true
    by (symmetry; apply andb_true_intro; split; [apply Z.leb_le|apply Z.ltb_lt]; lia).
  rewrite Nat2Z.id, (rev_insert p M s Hp), nth_error_app2; rewrite firstn_length, rev_length; [|lia]. replace (length s - p - Nat.min (length s - p) (length s))%nat with 0%nat by lia. reflexivity.
Qed.
Definition moved (f : list nat -> R) (i : list nat) : num := Fin (member p f (tl i) (hd 0%nat i)).
Lemma move_full a f : real_arr a (insert_at p M s) f -> exists a' d, (if (ax =? -1)%Z then Ok a else amove_last ax (Ok a)) = Ok a' /\ arr_is a' d (M :: s) (moved f).
Proof.
  intros H. destruct Hm as (_ & _ & Hp & Hax). apply real_arr_is in H.
  assert (ten_is (if (ax =? -1)%Z then Ok a else amove_last ax (Ok a)) (dt a) (M :: s) (moved f)) as (a' & E & K).
  { destruct (Z.eqb_spec ax (-1)) as [E|E].
    - assert (p = 0)%nat as E0 by (destruct Hax; lia). unfold moved, member. subst p. eapply ten_ext; [exact (ten_Ok _ _ _ _ H)|].
      intros i Hi. destruct i as [|k i]; [easy|]. cbn [hd tl]. unfold insert_at. now destruct i.
    - apply (ten_move_last ax (Ok a) (dt a) p M s _ (ten_Ok _ _ _ _ H) Hp). now apply ens_axis_ok. }
  eauto.
Qed.

(** the weights, given or equal; [eqw] stands for the two ways of computing them *)
Lemma moved_w (w : option arr) (eqw : nat -> tensor) : match w with Some w => real_arr w (insert_at p M s) ww | None => forall i, ww i = / INR M end ->
  returns (eqw M) (insert_at p M s) (fun _ => Fin (/ INR M)) ->
  exists w0 w' d, match w with None => let* M := py_index ax (pyshape m) in eqw M | Some w => Ok w end = Ok w0 /\
    (if (ax =? -1)%Z then Ok w0 else amove_last ax (Ok w0)) = Ok w' /\ arr_is w' d (M :: s) (moved ww).
Proof.
  intros Hw He. destruct w as [w|].
  - destruct (move_full w ww Hw) as (w' & d & E & K). eauto 8.
  - rewrite mix_index. cbn [bind]. destruct He as (d0 & w0 & E & _ & S0 & A0). rewrite E. exists w0.
    destruct (move_full w0 ww) as (w' & d & E' & K); [split; auto; intros i Hi; rewrite A0 by auto; now rewrite Hw|]. eauto 8.
Qed.
Lemma mix_form (w : option arr) (eqw : nat -> tensor) (core : tensor -> tensor -> tensor -> tensor -> tensor) :
  match w with Some w => real_arr w (insert_at p M s) ww | None => forall i, ww i = / INR M end ->
  returns (eqw M) (insert_at p M s) (fun _ => Fin (/ INR M)) ->
  exists m' s' w' d1 d2 d3, (let* w := match w with None => let* M := py_index ax (pyshape m) in eqw M | Some w => Ok w end in
    if (ax =? -1)%Z then core (Ok obs) (Ok m) (Ok sd) (Ok w)
    else let* m := amove_last ax (Ok m) in let* s := amove_last ax (Ok sd) in let* w := amove_last ax (Ok w) in
      core (Ok obs) (Ok m) (Ok s) (Ok w)) = core (Ok obs) (Ok m') (Ok s') (Ok w') /\
    arr_is m' d1 (M :: s) (moved mu) /\ arr_is s' d2 (M :: s) (moved sg) /\ arr_is w' d3 (M :: s) (moved ww).
Proof.
  intros Hw He. destruct (moved_w w eqw Hw He) as (w0 & w' & d3 & E0 & Ew & Kw). destruct Hm as (_ & Hm' & _).
  destruct (move_full m mu Hm') as (m' & d1 & Em & Km). destruct (move_full sd sg Hs) as (s' & d2 & Es & Ks).
  exists m', s', w', d1, d2, d3. split; [|auto]. rewrite E0. cbn [bind]. destruct (Z.eqb_spec ax (-1)).
  - injection Ew as ->. injection Em as ->. injection Es as ->. reflexivity.
  - rewrite Em, Es, Ew. reflexivity.
Qed.
End mix.
Lemma sum_pos M (f : nat -> R) : (forall k, (k < M)%nat -> 0 <= f k) -> sumn M f <> 0 -> exists k, (k < M)%nat /\ 0 < f k.
Proof.
  intros H N. destruct (classic (exists k, (k < M)%nat /\ 0 < f k)) as [?|K]; auto. exfalso. apply N.
  rewrite (sumn_ext M f (fun _ => 0)); [apply sumn_zero|]. intros k Hk. specialize (H k Hk). destruct (Rle_lt_or_eq_dec _ _ H); auto.
  exfalso. apply K. eauto.
Qed.
Lemma sumn_pos1 M (f : nat -> R) k : (forall k, (k < M)%nat -> 0 <= f k) -> (k < M)%nat -> 0 < f k -> 0 < sumn M f.
Proof.
  intros H Hk P. revert H Hk. induction M as [|M IH]; intros H Hk; [lia|]. rewrite sumn_S. destruct (Nat.eq_dec k M) as [->|].
  - pose proof (sumn_nonneg M f ltac:(intros; apply H; lia)). lra.
  - specialize (IH ltac:(intros; apply H; lia) ltac:(lia)). specialize (H M ltac:(lia)). lra.
Qed.
Lemma mix_logs_core obs m sd w d0 d1 d2 d3 s M (y : list nat -> R) mu sg ww : arr_is obs d0 s (fins y) ->
  arr_is m d1 (M :: s) mu -> arr_is sd d2 (M :: s) sg -> arr_is w d3 (M :: s) ww ->
  returns (mixnorm_logs_core (Ok obs) (Ok m) (Ok sd) (Ok w)) s
    (fun r => nopp (nlog (nsumn M (fun k => ww (k :: r) .* dn (Fin (y r)) (mu (k :: r)) (sg (k :: r)))))).
Proof.
  intros Ho Hm Hs Hw.
  assert (returns (Ok w * (_norm_pdf ((aexpand 0 (Ok obs) - Ok m) / Ok sd) / Ok sd))%A (M :: s) (fun i => ww i .* dn (Fin (y (tl i))) (mu i) (sg i))) as E.
  { eapply full_tb.
    - intros i. pose proof (tb_obs _ _ _ M _ Ho i). pose proof (tb_full _ _ _ i (ex_intro _ d1 (ten_Ok _ _ _ _ Hm))).
      pose proof (tb_full _ _ _ i (ex_intro _ d2 (ten_Ok _ _ _ _ Hs))). pose proof (tb_full _ _ _ i (ex_intro _ d3 (ten_Ok _ _ _ _ Hw))).
      eapply tb_eq; [tbn|intros Hi; reflexivity].
    - rewrite !in_app_iff. left. now left. }
  unfold mixnorm_logs_core. cbv zeta. apply ret_sum in E. eapply full_tb.
  - intros i. pose proof (tb_full _ _ _ i E) as K. set (D := asum _) in *. eapply tb_eq; [tbn|intros Hi; reflexivity].
  - now left.
Qed.
