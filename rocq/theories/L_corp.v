(** Pool adjacent violators computes the isotonic regression. *)
From Verif Require Export M_corp S_corp L_mv.
From Coq Require Import Psatz Lia Sorting.Sorted.
Open Scope R_scope.

Fixpoint lsum (l : list R) : R := match l with [] => 0 | a :: l => a + lsum l end.
Definition lmean (l : list R) : R := lsum l / INR (length l).
Lemma lsum_app a b : lsum (a ++ b) = lsum a + lsum b.
Proof. induction a; simpl; lra. Qed.
(** every initial segment of a block has at least the mean of the block *)
Definition good (l : list R) : Prop := l <> [] /\ forall l1 l2, l = l1 ++ l2 -> lmean l * INR (length l1) <= lsum l1.
Lemma len_pos (l : list R) : l <> [] -> 0 < INR (length l).
Proof. destruct l; [easy|]. intros _. apply lt_0_INR. simpl. lia. Qed.
Lemma lmean_sum l : l <> [] -> lmean l * INR (length l) = lsum l.
Proof. intros H. unfold lmean. pose proof (len_pos l H). field. lra. Qed.
Lemma mean_app a b : a <> [] -> b <> [] -> lmean b <= lmean a -> lmean b <= lmean (a ++ b) <= lmean a.
Proof.
  intros Ha Hb H. pose proof (len_pos a Ha). pose proof (len_pos b Hb). pose proof (lmean_sum a Ha). pose proof (lmean_sum b Hb).
  assert (a ++ b <> []) as Hab by (destruct a; easy). pose proof (lmean_sum _ Hab) as E. rewrite lsum_app, app_length, plus_INR in E.
  split.
  - apply (Rmult_le_reg_r (INR (length a) + INR (length b))); [lra|]. rewrite E. nra.
  - apply (Rmult_le_reg_r (INR (length a) + INR (length b))); [lra|]. rewrite E. nra.
Qed.
Lemma app_split (a b l1 l2 : list R) : a ++ b = l1 ++ l2 -> (exists k, a = l1 ++ k) \/ exists k, l1 = a ++ k /\ b = k ++ l2.
Proof.
  revert l1. induction a as [|x a IH]; intros l1 E; [right; exists l1; auto|]. destruct l1 as [|z l1]; [left; exists (x :: a); auto|]. simpl in E. injection E as -> E. destruct (IH l1 E) as [[k ->]|(k & -> & ->)]; [left|right]; exists k; auto.
Qed.
Lemma good_app a b : good a -> good b -> lmean b <= lmean a -> good (a ++ b).
Proof.
  intros [Ha Ga] [Hb Gb] H. split; [destruct a; easy|]. intros l1 l2 E. destruct (mean_app a b Ha Hb H) as [M1 M2]. set (c := lmean (a ++ b)) in *.
  destruct (app_split a b l1 l2 E) as [[k K]|(k & -> & K)].
  - specialize (Ga l1 k K). pose proof (pos_INR (length l1)). nra.
  - specialize (Gb k l2 K). rewrite app_length, plus_INR, lsum_app. pose proof (lmean_sum a Ha) as Ea. pose proof (lmean_sum b Hb) as Eb.
    assert (a ++ b <> []) as Hab by (destruct a; easy). pose proof (lmean_sum _ Hab) as E2. fold c in E2. rewrite lsum_app, app_length, plus_INR in E2.
    assert (INR (length k) <= INR (length b)) by (apply le_INR; rewrite K, app_length; lia). pose proof (pos_INR (length k)). nra.
Qed.
Lemma good_one v : good (v :: nil).
Proof.
  split; [easy|]. intros l1 l2 E. assert (lmean (v :: nil) = v) as -> by (unfold lmean; simpl; field). destruct l1 as [|z l1]; [simpl; lra|]. simpl in E. injection E as -> E. destruct l1; [simpl; lra|discriminate].
Qed.

(** ** least squares *)
Fixpoint ssel (l w : list R) : R := match l, w with a :: l, b :: w => (a - b) ^ 2 + ssel l w | _, _ => 0 end.
Fixpoint dotc (c : R) (l w : list R) : R := match l, w with a :: l, b :: w => (a - c) * b + dotc c l w | _, _ => 0 end.
Lemma dotc_neg c l : forall w s w0, length w = length l -> StronglySorted Rle (w0 :: w) ->
  (forall l1 l2, l = l1 ++ l2 -> 0 <= s + lsum l1 - c * INR (length l1)) -> s + lsum l - c * INR (length l) = 0 -> s * w0 + dotc c l w <= 0.
Proof.
  induction l as [|a l IH]; intros w s w0 Hl Hs Hp Ht.
  - simpl in *. replace s with 0 by lra. destruct w; lra.
  - destruct w as [|b w]; [discriminate|]. simpl. inversion Hs as [|? ? Hs' Hf]; subst. inversion Hf as [|? ? Hb Hf']; subst.
    pose proof (Hp [] (a :: l) eq_refl) as H0. simpl in H0.
    assert ((s + (a - c)) * b + dotc c l w <= 0) as K.
    { apply IH; auto.
      - intros l1 l2 E. specialize (Hp (a :: l1) l2 ltac:(simpl; now rewrite E)). change (length (a :: l1)) with (S (length l1)) in Hp. rewrite S_INR in Hp. simpl lsum in Hp. lra.
      - change (length (a :: l)) with (S (length l)) in Ht. rewrite S_INR in Ht. simpl lsum in Ht. lra. }
    nra.
Qed.
Lemma dotc_const c l b : dotc c l (repeat b (length l)) = (lsum l - c * INR (length l)) * b.
Proof. induction l as [|a l IH]; [simpl; ring|]. change (length (a :: l)) with (S (length l)). rewrite S_INR. simpl. rewrite IH. ring. Qed.
Lemma ssel_block c l : forall w, length w = length l -> ssel l w = ssel l (repeat c (length l)) + ssel (repeat c (length l)) w + 2 * (c * (lsum l - c * INR (length l)) - dotc c l w).
Proof.
  induction l as [|a l IH]; intros w Hl; [destruct w; simpl; ring|]. destruct w as [|b w]; [discriminate|]. change (length (a :: l)) with (S (length l)). rewrite S_INR. simpl. rewrite IH by (simpl in Hl; lia). ring.
Qed.
Lemma ssel_good l w : good l -> length w = length l -> StronglySorted Rle w -> ssel l (repeat (lmean l) (length l)) + ssel (repeat (lmean l) (length l)) w <= ssel l w.
Proof.
  intros [Hn Hg] Hl Hs. rewrite (ssel_block (lmean l) l w Hl). pose proof (lmean_sum l Hn) as E. destruct w as [|b w]; [destruct l; easy|].
  assert (0 * b + dotc (lmean l) l (b :: w) <= 0).
  { apply dotc_neg; auto.
    - constructor; auto. inversion Hs; subst. constructor; [lra|auto].
    - intros l1 l2 E'. specialize (Hg l1 l2 E'). lra.
    - lra. }
  replace (lsum l - lmean l * INR (length l)) with 0 by lra. lra.
Qed.
Lemma ssel_app l1 l2 w1 w2 : length l1 = length w1 -> ssel (l1 ++ l2) (w1 ++ w2) = ssel l1 w1 + ssel l2 w2.
Proof. revert w1. induction l1 as [|a l1 IH]; intros [|b w1] H; simpl in *; try discriminate; [ring|]. rewrite IH by lia. ring. Qed.
Lemma ss_app (a b : list R) : StronglySorted Rle (a ++ b) -> StronglySorted Rle a /\ StronglySorted Rle b.
Proof.
  induction a as [|x a IH]; simpl; intros H; [split; [constructor|auto]|]. inversion H as [|? ? H1 H2]; subst. destruct (IH H1) as [A B]. split; auto. constructor; auto. rewrite Forall_app in H2. tauto.
Qed.
Definition levels (bs : list (list R)) : list R := flat_map (fun b => repeat (lmean b) (length b)) bs.
Lemma levels_len bs : length (levels bs) = length (concat bs).
Proof. induction bs; simpl; [auto|]. now rewrite !app_length, repeat_length, IHbs. Qed.
Lemma levels_opt bs : Forall good bs -> forall w, length w = length (concat bs) -> StronglySorted Rle w ->
  ssel (concat bs) (levels bs) + ssel (levels bs) w <= ssel (concat bs) w.
Proof.
  induction 1 as [|b bs Hb Hbs IH]; intros w Hl Hs; [destruct w; simpl; lra|]. simpl in *. rewrite app_length in Hl.
  assert (w = firstn (length b) w ++ skipn (length b) w) as E by (symmetry; apply firstn_skipn). rewrite E in Hs. destruct (ss_app _ _ Hs) as [S1 S2].
  assert (length (firstn (length b) w) = length b) as L1 by (rewrite firstn_length; lia). assert (length (skipn (length b) w) = length (concat bs)) as L2 by (rewrite skipn_length; lia).
  rewrite E. rewrite !ssel_app by (rewrite ?repeat_length; auto). specialize (IH _ L2 S2). pose proof (ssel_good b _ Hb L1 S1). lra.
Qed.

(** ** the stack *)
Fixpoint inc (st : list (list R)) : Prop := match st with b :: ((p :: _) as st') => lmean p < lmean b /\ inc st' | _ => True end.
Definition bl (b : list R) : num * nat := (Fin (lsum b), length b).
Lemma bmean_bl b : b <> [] -> bmean (bl b) = Fin (lmean b).
Proof. intros H. unfold bmean, bl. cbn [fst snd]. pose proof (len_pos b H). unfold nofnat. rewrite ndiv_Fin by lra. reflexivity. Qed.
Lemma inc_tl b st : inc (b :: st) -> inc st.
Proof. destruct st; intros H; [exact I|exact (proj2 H)]. Qed.
Lemma pool_blocks st : forall b, Forall good st -> good b -> inc st ->
  exists st', pool (bl b) (map bl st) = map bl st' /\ Forall good st' /\ inc st' /\ concat (rev st') = concat (rev st) ++ b.
Proof.
  induction st as [|p st IH]; intros b Hs Hb Hi.
  - exists (b :: nil). simpl. repeat split; auto. now rewrite app_nil_r.
  - inversion Hs as [|? ? Hp Hs']; subst. cbn [map pool]. rewrite !bmean_bl by (apply Hb || apply Hp). cbn [nleb]. destruct (rleb (lmean b) (lmean p)) eqn:E.
    + assert (lmean b <= lmean p) as L by (unfold rleb in E; destruct (Rle_dec (lmean b) (lmean p)); [auto|discriminate]).
      destruct (IH (p ++ b) Hs' (good_app p b Hp Hb L) (inc_tl _ _ Hi)) as (st' & E1 & G & I & C). exists st'. split; [|split; [auto|split; [auto|]]].
      * rewrite <- E1. f_equal. unfold bl. simpl. rewrite lsum_app, app_length. reflexivity.
      * rewrite C. simpl. rewrite concat_app. simpl. now rewrite app_nil_r, app_assoc.
    + assert (lmean p < lmean b) as L by (unfold rleb in E; destruct (Rle_dec (lmean b) (lmean p)); [discriminate|lra]).
      exists (b :: p :: st). repeat split; auto. simpl. rewrite !concat_app. simpl. now rewrite !app_nil_r.
Qed.
Lemma pav_blocks l : forall st, Forall good st -> inc st ->
  exists st', fold_left (fun st v => pool (v, 1%nat) st) (map Fin l) (map bl st) = map bl st' /\ Forall good st' /\ inc st' /\ concat (rev st') = concat (rev st) ++ l.
Proof.
  induction l as [|v l IH]; intros st Hs Hi.
  - exists st. simpl. rewrite app_nil_r. auto.
  - cbn [map fold_left]. destruct (pool_blocks st (v :: nil) Hs (good_one v) Hi) as (st' & E & G & I & C). assert (bl (v :: nil) = (Fin v, 1%nat)) as Ev by (unfold bl; simpl; f_equal; f_equal; ring). rewrite Ev in E. rewrite E.
    destruct (IH st' G I) as (st2 & E2 & G2 & I2 & C2). exists st2. split; [exact E2|]. split; [auto|]. split; [auto|]. rewrite C2, C. now rewrite <- app_assoc.
Qed.
Lemma repeat_Fin c n : map Fin (repeat c n) = repeat (Fin c) n.
Proof. induction n; simpl; congruence. Qed.
Lemma ss_snoc (l m : list R) : StronglySorted Rle l -> StronglySorted Rle m -> (forall a b, In a l -> In b m -> a <= b) -> StronglySorted Rle (l ++ m).
Proof.
  induction 1 as [|x l Hl IH Hf]; intros Hm H; simpl; auto. constructor; [apply IH; auto; intros; apply H; simpl; auto|]. rewrite Forall_app. split; auto. apply Forall_forall. intros b Hb. apply H; simpl; auto.
Qed.
Lemma inc_levels st : inc st -> StronglySorted Rle (levels (rev st)) /\ forall b st', st = b :: st' -> forall a, In a (levels (rev st)) -> a <= lmean b.
Proof.
  assert (forall c n, StronglySorted Rle (repeat c n)) as Sr.
  { intros c n. induction n; simpl; constructor; auto. apply Forall_forall. intros z Hz. apply repeat_spec in Hz. lra. }
  induction st as [|b st IH]; intros Hi; [split; [constructor|discriminate]|]. destruct (IH (inc_tl _ _ Hi)) as [S1 S2]. unfold levels in *. simpl. rewrite flat_map_app. simpl. rewrite app_nil_r.
  assert (forall a, In a (flat_map (fun b0 => repeat (lmean b0) (length b0)) (rev st)) -> a <= lmean b) as Hle.
  { intros a Ha. destruct st as [|p st]; [destruct Ha|]. specialize (S2 p st eq_refl a Ha). simpl in Hi. lra. }
  split.
  - apply ss_snoc; auto. intros a c Ha Hc. apply repeat_spec in Hc. subst c. auto.
  - intros b' st' E a Ha. injection E as <- <-. apply in_app_or in Ha. destruct Ha as [Ha|Ha]; auto. apply repeat_spec in Ha. lra.
Qed.
Lemma iso_list l : exists z, isotonic_regression (map Fin l) = map Fin z /\ length z = length l /\ StronglySorted Rle z /\
  (forall w, length w = length l -> StronglySorted Rle w -> ssel l z + ssel z w <= ssel l w) /\ lsum z = lsum l /\ (forall lo hi, (forall a, In a l -> lo <= a <= hi) -> forall a, In a z -> lo <= a <= hi).
Proof.
  destruct (pav_blocks l [] (Forall_nil _) I) as (st & E & G & Hi & C). cbn [rev concat app] in C. exists (levels (rev st)). assert (Forall good (rev st)) as Gr by now apply Forall_rev.
  assert (lsum (levels (rev st)) = lsum l) as Hsum.
  { rewrite <- C. clear - Gr. induction Gr as [|b bs Hb _ IH]; [reflexivity|]. simpl. rewrite !lsum_app. f_equal; [|exact IH]. destruct Hb as [Hn _]. rewrite <- (lmean_sum b Hn). clear. generalize (lmean b). intros c. induction b; [simpl; ring|]. change (length (a :: b)) with (S (length b)). rewrite S_INR. simpl. rewrite IHb. ring. }
  split; [|split; [|split; [|split; [|split; [exact Hsum|]]]]].
  - unfold isotonic_regression. simpl in E. rewrite E. rewrite <- map_rev. unfold levels. clear - Gr. induction Gr as [|b bs Hb _ IH]; [reflexivity|]. cbn [map flat_map]. rewrite map_app, IH. f_equal. rewrite repeat_Fin. rewrite bmean_bl by apply Hb. reflexivity.
  - now rewrite levels_len, C.
  - now apply inc_levels.
  - intros w Hw Hs. rewrite <- C in *. now apply levels_opt.
  - intros lo hi Hl a Ha. rewrite <- C in Hl. unfold levels in Ha. apply in_flat_map in Ha. destruct Ha as (b & Hb & Ha). apply repeat_spec in Ha. subst a.
    rewrite Forall_forall in Gr. destruct (Gr b Hb) as [Hn _]. pose proof (len_pos b Hn) as Lp. pose proof (lmean_sum b Hn) as Em.
    assert (forall a, In a b -> lo <= a <= hi) as Hb' by (intros a Ha; apply Hl; apply in_concat; eauto).
    assert (lo * INR (length b) <= lsum b <= hi * INR (length b)) as K. { clear - Hb'. induction b as [|a b IH]; [simpl; lra|]. change (length (a :: b)) with (S (length b)). rewrite S_INR. simpl. specialize (IH ltac:(intros; apply Hb'; simpl; auto)). specialize (Hb' a (or_introl eq_refl)). lra. }
    split; apply (Rmult_le_reg_r (INR (length b))); auto; lra.
Qed.

(** ** from lists to sequences *)
Definition rl (n : nat) (f : nat -> R) : list R := map f (seq 0 n).
Lemma rlist_rl n f : rlist n f = map Fin (rl n f).
Proof. unfold rlist, rl. now rewrite map_map. Qed.
Lemma rl_len n f : length (rl n f) = n.
Proof. unfold rl. now rewrite map_length, seq_length. Qed.
Lemma rl_S n f : rl (S n) f = f 0%nat :: rl n (fun i => f (S i)).
Proof. unfold rl. simpl. now rewrite <- seq_shift, map_map. Qed.
Lemma rl_nth (l : list R) n : length l = n -> rl n (fun i => nth i l 0) = l.
Proof. intros <-. induction l as [|a l IH]; [reflexivity|]. simpl length. rewrite rl_S. simpl. now rewrite IH. Qed.
Lemma rl_ext n f g : (forall i, (i < n)%nat -> f i = g i) -> rl n f = rl n g.
Proof. intros H. apply map_ext_in. intros i Hi. apply in_seq in Hi. apply H. lia. Qed.
Lemma rl_inj n f g : rl n f = rl n g -> forall i, (i < n)%nat -> f i = g i.
Proof.
  intros E i Hi. assert (nth i (rl n f) 0 = nth i (rl n g) 0) as K by now rewrite E. unfold rl in K.
  rewrite !(nth_indep _ 0 (f 0%nat)) in K by now rewrite map_length, seq_length. rewrite map_nth in K. rewrite (nth_indep _ (f 0%nat) (g 0%nat)) in K by now rewrite map_length, seq_length. now rewrite map_nth, seq_nth in K.
Qed.
Lemma rlist_inj n f g : rlist n f = rlist n g -> forall i, (i < n)%nat -> f i = g i.
Proof.
  rewrite !rlist_rl. intros E. apply rl_inj. revert E. generalize (rl n f) (rl n g). induction l as [|a l IH]; intros [|b m] E; simpl in E; try discriminate; auto. injection E as -> E. f_equal. auto.
Qed.
Lemma rlist_ext n f g : (forall i, (i < n)%nat -> f i = g i) -> rlist n f = rlist n g.
Proof. intros H. rewrite !rlist_rl. f_equal. now apply rl_ext. Qed.
Lemma ssel_rl n : forall f g, ssel (rl n f) (rl n g) = sse n f g.
Proof. induction n as [|n IH]; intros f g; [reflexivity|]. rewrite !rl_S. cbn [ssel]. rewrite IH. unfold sse. rewrite (sumn_S_l n). reflexivity. Qed.
Lemma lsum_rl n : forall f, lsum (rl n f) = sumn n f.
Proof. induction n as [|n IH]; intros f; [reflexivity|]. rewrite rl_S, sumn_S_l. simpl. now rewrite IH. Qed.
Lemma rl_in n f a : In a (rl n f) <-> exists i, (i < n)%nat /\ f i = a.
Proof. unfold rl. rewrite in_map_iff. split; [intros (i & E & Hi); apply in_seq in Hi; exists i; split; [lia|auto]|intros (i & Hi & E); exists i; split; auto; apply in_seq; lia]. Qed.
Lemma ss_rl n : forall f, StronglySorted Rle (rl n f) <-> nondec n f.
Proof.
  induction n as [|n IH]; intros f; [split; [intros _ i j Hi Hj; lia|constructor]|]. rewrite rl_S. split.
  - intros H. inversion H as [|? ? H1 H2]; subst. apply IH in H1. rewrite Forall_forall in H2. intros i j Hij Hj. destruct i as [|i].
    + destruct j as [|j]; [lra|]. apply H2. apply rl_in. exists j. split; [lia|auto].
    + destruct j as [|j]; [lia|]. apply (H1 i j); lia.
  - intros H. constructor; [apply IH; intros i j Hi Hj; apply (H (S i) (S j)); lia|]. apply Forall_forall. intros a Ha. apply rl_in in Ha. destruct Ha as (i & Hi & <-). apply H; lia.
Qed.
Lemma sse_nonneg n f g : 0 <= sse n f g.
Proof. unfold sse. apply sumn_nonneg. intros. apply pow2_ge_0. Qed.
Lemma sse_zero n f g : sse n f g = 0 -> forall i, (i < n)%nat -> f i = g i.
Proof. intros H i Hi. unfold sse in H. pose proof (sumn_zero_inv n _ ltac:(intros; apply pow2_ge_0) H i Hi) as K. cbv beta in K. nra. Qed.
Lemma iso_fun n y : exists z, isotonic_regression (rlist n y) = rlist n z /\ nondec n z /\ (forall w, nondec n w -> sse n y z + sse n z w <= sse n y w) /\
  sumn n z = sumn n y /\ (forall lo hi, (forall i, (i < n)%nat -> lo <= y i <= hi) -> forall i, (i < n)%nat -> lo <= z i <= hi).
Proof.
  destruct (iso_list (rl n y)) as (zl & E & L & S1 & O & M & B). rewrite rl_len in L. set (z := fun i => nth i zl 0). assert (rl n z = zl) as Ez by now apply rl_nth. exists z. rewrite <- Ez in *. repeat split.
  - now rewrite !rlist_rl.
  - now apply ss_rl.
  - intros w Hw. specialize (O (rl n w) ltac:(now rewrite !rl_len) ltac:(now apply ss_rl)). now rewrite !ssel_rl in O.
  - now rewrite <- !lsum_rl.
  - intros. apply (B lo hi); [|apply rl_in; eauto]. intros a Ha. apply rl_in in Ha. destruct Ha as (k & Hk & <-). auto.
  - intros. apply (B lo hi); [|apply rl_in; eauto]. intros a Ha. apply rl_in in Ha. destruct Ha as (k & Hk & <-). auto.
Qed.
Lemma nondec_const n c : nondec n (fun _ => c).
Proof. intros i j _ _. lra. Qed.

(** ** means *)
Lemma map_rlist n f (h : num -> num) g : (forall i, (i < n)%nat -> h (Fin (f i)) = Fin (g i)) -> map h (rlist n f) = rlist n g.
Proof. intros H. unfold rlist. rewrite map_map. apply map_ext_in. intros i Hi. apply in_seq in Hi. apply H. lia. Qed.
Lemma nmean_rlist n f : (1 <= n)%nat -> nmean (rlist n f) = Fin (mean n f).
Proof.
  intros Hn. unfold nmean. unfold rlist at 2. rewrite map_length, seq_length. unfold rlist. rewrite (nsum_sumn n _ f) by auto. unfold nofnat. rewrite ndiv_Fin; [reflexivity|]. apply not_0_INR. lia.
Qed.
Lemma combine_rlist n f g : combine (rlist n f) (rlist n g) = map (fun i => (Fin (f i), Fin (g i))) (seq 0 n).
Proof. unfold rlist. generalize (seq 0 n). induction l; simpl; congruence. Qed.
Lemma mse_rlist n f g : (1 <= n)%nat -> nmean (map nsq (vsub (rlist n f) (rlist n g))) = Fin (sse n f g / INR n).
Proof.
  intros Hn. unfold vsub. rewrite combine_rlist, !map_map. transitivity (nmean (rlist n (fun i => (f i - g i) ^ 2))).
  - f_equal. apply map_ext. intros i. unfold nsq. simpl. f_equal. ring.
  - now rewrite nmean_rlist.
Qed.
Lemma decomp_value n x y z : (1 <= n)%nat -> corp_score_decomposition (rlist n x) (rlist n y) (rlist n z) =
  (Fin (sse n y z / INR n), Fin (sse n y x / INR n), Fin (sse n y (fun _ => mean n y) / INR n)).
Proof.
  intros Hn. unfold corp_score_decomposition. rewrite !mse_rlist, nmean_rlist by auto. f_equal. rewrite (map_rlist n y _ (fun i => (y i - mean n y) ^ 2)); [now rewrite nmean_rlist|]. intros i _. unfold nsq. simpl. f_equal. ring.
Qed.

(** ** sorting *)
Lemma ith_rlist n f i : (i < n)%nat -> ith (rlist n f) i = Fin (f i).
Proof. intros H. unfold ith, rlist. rewrite (nth_indep _ NaN (Fin (f 0%nat))) by now rewrite map_length, seq_length. rewrite (map_nth (fun k => Fin (f k))). now rewrite seq_nth. Qed.
Lemma rlist_len n f : length (rlist n f) = n.
Proof. unfold rlist. now rewrite map_length, seq_length. Qed.
Lemma perm_in n p i : Permutation p (seq 0 n) -> In i p -> (i < n)%nat.
Proof. intros H Hi. apply (Permutation_in _ H) in Hi. apply in_seq in Hi. lia. Qed.
Lemma map_ith n f p : Permutation p (seq 0 n) -> map (ith (rlist n f)) p = rlist n (fun i => f (nth i p 0%nat)).
Proof.
  intros H. pose proof (Permutation_length H) as L. rewrite seq_length in L. transitivity (map (fun i => Fin (f i)) p).
  - apply map_ext_in. intros i Hi. apply ith_rlist. eapply perm_in; eauto.
  - unfold rlist. rewrite <- (map_map (fun i => nth i p 0%nat) (fun k => Fin (f k))). f_equal. subst n. clear. induction p as [|a p IH]; [reflexivity|]. simpl. f_equal. rewrite <- seq_shift, map_map. simpl. exact IH.
Qed.
Lemma corp_perm srt n f : argsort_ok srt -> Permutation (srt (rlist n f)) (seq 0 n) /\ nondec n (fun i => f (nth i (srt (rlist n f)) 0%nat)).
Proof.
  intros H. destruct (H (rlist n f)) as [P S]. rewrite rlist_len in P, S. split; auto. intros i j Hij Hj. pose proof (Permutation_length P) as L. rewrite seq_length in L. assert (i = j \/ (i < j)%nat) as [->|Hl] by lia; [lra|]. specialize (S i j ltac:(lia)).
  change (nth ?k ?l NaN) with (ith l k) in S. assert (forall k, (k < n)%nat -> (nth k (srt (rlist n f)) 0 < n)%nat) as B by (intros k Hk; eapply perm_in; [exact P|]; apply nth_In; lia).
  rewrite !ith_rlist in S by (apply B; lia). unfold nle_sort in S. simpl in S. unfold rleb in S. destruct (Rle_dec _ _) in S; [auto|discriminate].
Qed.
Lemma rel_value srt n o f m : argsort_ok srt -> (n <= m)%nat -> corp_reliability srt (rlist m o) (rlist n f) =
  Ok (rlist n (fun i => f (nth i (srt (rlist n f)) 0%nat)), rlist n (fun i => o (nth i (srt (rlist n f)) 0%nat)), isotonic_regression (rlist n (fun i => o (nth i (srt (rlist n f)) 0%nat)))).
Proof.
  intros H Hm. destruct (corp_perm srt n f H) as [P _]. unfold corp_reliability. rewrite rlist_len.
  destruct (existsb _ _) eqn:E.
  - apply existsb_exists in E. destruct E as (i & Hi & E). apply Nat.leb_le in E. pose proof (perm_in n _ i P Hi). lia.
  - rewrite map_ith by auto. assert (map (ith (rlist m o)) (srt (rlist n f)) = map (ith (rlist n o)) (srt (rlist n f))) as ->; [|now rewrite map_ith by auto].
    apply map_ext_in. intros i Hi. pose proof (perm_in n _ i P Hi). rewrite !ith_rlist by lia. reflexivity.
Qed.
Lemma rel_short srt n o f m : argsort_ok srt -> (m < n)%nat -> corp_reliability srt (rlist m o) (rlist n f) = Err IndexError.
Proof.
  intros H Hm. destruct (corp_perm srt n f H) as [P _]. unfold corp_reliability. rewrite rlist_len. assert (existsb (fun i => (m <=? i)%nat) (srt (rlist n f)) = true) as ->; auto.
  apply existsb_exists. exists m. split; [|apply Nat.leb_refl]. apply (Permutation_in _ (Permutation_sym P)). apply in_seq. lia.
Qed.

(** ** sorted pairs are unique when the first components are distinct *)
Definition plt (a b : R * R) : Prop := fst a < fst b.
Lemma ssort_unique (l : list (R * R)) : forall m, StronglySorted plt l -> StronglySorted plt m -> Permutation l m -> l = m.
Proof.
  induction l as [|a l IH]; intros m Sl Sm P.
  - apply Permutation_nil in P. now subst.
  - destruct m as [|b m]; [symmetry in P; apply Permutation_nil in P; discriminate|]. inversion Sl as [|? ? S1 F1]; subst. inversion Sm as [|? ? S2 F2]; subst. rewrite Forall_forall in F1, F2.
    assert (a = b) as ->.
    { assert (In a (b :: m)) as Ia by (apply (Permutation_in _ P); simpl; auto). assert (In b (a :: l)) as Ib by (apply (Permutation_in _ (Permutation_sym P)); simpl; auto). destruct Ia as [Ia|Ia]; auto. destruct Ib as [Ib|Ib]; auto. specialize (F1 b Ib). specialize (F2 a Ia). unfold plt in *. lra. }
    f_equal. apply IH; auto. now apply Permutation_cons_inv in P.
Qed.
Lemma ss_pairs n : forall x y : nat -> R, (forall i j, (i < j)%nat -> (j < n)%nat -> x i < x j) -> StronglySorted plt (map (fun i => (x i, y i)) (seq 0 n)).
Proof.
  induction n as [|n IH]; intros x y H; [constructor|]. simpl. rewrite <- seq_shift, map_map. constructor; [apply (IH (fun i => x (S i)) (fun i => y (S i))); intros; apply H; lia|].
  apply Forall_forall. intros a Ha. apply in_map_iff in Ha. destruct Ha as (i & <- & Hi). apply in_seq in Hi. unfold plt. simpl. apply H; lia.
Qed.
Lemma pairs_unique n (x y x' y' : nat -> R) : (forall i j, (i < j)%nat -> (j < n)%nat -> x i < x j) -> (forall i j, (i < j)%nat -> (j < n)%nat -> x' i < x' j) ->
  Permutation (map (fun i => (x i, y i)) (seq 0 n)) (map (fun i => (x' i, y' i)) (seq 0 n)) -> rlist n x = rlist n x' /\ rlist n y = rlist n y'.
Proof.
  intros H H' P. assert (map (fun i => (x i, y i)) (seq 0 n) = map (fun i => (x' i, y' i)) (seq 0 n)) as E by (apply ssort_unique; auto using ss_pairs). split.
  - assert (map (fun a => Fin (fst a)) (map (fun i => (x i, y i)) (seq 0 n)) = map (fun a => Fin (fst a)) (map (fun i => (x' i, y' i)) (seq 0 n))) as K by now rewrite E. now rewrite !map_map in K.
  - assert (map (fun a => Fin (snd a)) (map (fun i => (x i, y i)) (seq 0 n)) = map (fun a => Fin (snd a)) (map (fun i => (x' i, y' i)) (seq 0 n))) as K by now rewrite E. now rewrite !map_map in K.
Qed.
Lemma nth_map_seq p n : length p = n -> map (fun i => nth i p 0%nat) (seq 0 n) = p.
Proof. intros <-. induction p as [|a p IH]; [reflexivity|]. simpl. f_equal. rewrite <- seq_shift, map_map. simpl. exact IH. Qed.
Lemma sorted_strict n f p : Permutation p (seq 0 n) -> distinct n f -> nondec n (fun i => f (nth i p 0%nat)) -> forall i j, (i < j)%nat -> (j < n)%nat -> f (nth i p 0%nat) < f (nth j p 0%nat).
Proof.
  intros P D N i j Hij Hj. pose proof (Permutation_length P) as L. rewrite seq_length in L. destruct (N i j ltac:(lia) Hj) as [K|K]; auto. exfalso.
  assert (nth i p 0%nat = nth j p 0%nat) as E by (apply D; auto; eapply perm_in; try exact P; apply nth_In; lia).
  assert (NoDup p) as ND by (apply (Permutation_NoDup (Permutation_sym P)), seq_NoDup). rewrite NoDup_nth with (d := 0%nat) in ND. specialize (ND i j ltac:(lia) ltac:(lia) E). lia.
Qed.
Lemma sort_unique n o f o' f' g p q s : Permutation p (seq 0 n) -> Permutation q (seq 0 n) -> Permutation s (seq 0 n) -> distinct n f ->
  (forall i j, (i < n)%nat -> (j < n)%nat -> f i < f j -> g (f i) < g (f j)) ->
  (forall i, (i < n)%nat -> f' i = g (f (nth i s 0%nat)) /\ o' i = o (nth i s 0%nat)) ->
  nondec n (fun i => f (nth i p 0%nat)) -> nondec n (fun i => f' (nth i q 0%nat)) ->
  rlist n (fun i => g (f (nth i p 0%nat))) = rlist n (fun i => f' (nth i q 0%nat)) /\ rlist n (fun i => o (nth i p 0%nat)) = rlist n (fun i => o' (nth i q 0%nat)).
Proof.
  intros P Q S D G F N N'. pose proof (Permutation_length P) as Lp. pose proof (Permutation_length Q) as Lq. pose proof (Permutation_length S) as Ls. rewrite seq_length in Lp, Lq, Ls.
  assert (forall r, Permutation r (seq 0 n) -> forall k, (k < n)%nat -> (nth k r 0 < n)%nat) as B by (intros r Hr k Hk; pose proof (Permutation_length Hr) as Lr; rewrite seq_length in Lr; eapply perm_in; [exact Hr|]; apply nth_In; lia).
  assert (distinct n f') as D'.
  { intros i j Hi Hj E. rewrite (proj1 (F i Hi)), (proj1 (F j Hj)) in E. assert (f (nth i s 0%nat) = f (nth j s 0%nat)) as E2.
    { destruct (Rtotal_order (f (nth i s 0%nat)) (f (nth j s 0%nat))) as [K|[K|K]]; auto; apply G in K; auto; lra. }
    apply D in E2; auto. assert (NoDup s) as ND by (apply (Permutation_NoDup (Permutation_sym S)), seq_NoDup). rewrite NoDup_nth with (d := 0%nat) in ND. apply ND; lia. }
  apply pairs_unique.
  - intros i j Hi Hj. apply G; auto; try (apply B; auto; lia). now apply (sorted_strict n).
  - now apply (sorted_strict n).
  - rewrite <- (map_map (fun i => nth i p 0%nat) (fun k => (g (f k), o k))), <- (map_map (fun i => nth i q 0%nat) (fun k => (f' k, o' k))), !nth_map_seq by auto.
    rewrite (Permutation_map _ P), (Permutation_map _ Q). rewrite (map_ext_in (fun k => (f' k, o' k)) (fun k => (g (f (nth k s 0%nat)), o (nth k s 0%nat)))) by (intros k Hk; apply in_seq in Hk; destruct (F k ltac:(lia)) as [-> ->]; reflexivity).
    rewrite <- (map_map (fun i => nth i s 0%nat) (fun k => (g (f k), o k))), nth_map_seq by auto. now rewrite (Permutation_map _ S).
Qed.
