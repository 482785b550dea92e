(** Array methods of the torch and jax backends. *)
From Verif Require Export M_torch S_torch L_hyploop M_vario.
From Coq Require Import Psatz Lia.
Import ListNotations.
Open Scope nat_scope.

(** ** reshape *)
Lemma ravel_flat a i : inb (sh a) i -> nth (flat (sh a) i) (ravel a) NaN = at_ a i.
Proof. intros H. apply nth_error_nth. unfold ravel. apply (map_nth_error (at_ a)). now apply flat_idx. Qed.
Lemma ravel_len a : length (ravel a) = prodl (sh a).
Proof. unfold ravel. now rewrite map_length, all_idx_len. Qed.

(** ** expand_dims: axes counted from the last, [b] marks the new ones *)
Lemma keep_ext {A} b b' (l : list A) : (forall k, k < length l -> b k = b' k) -> without b l = without b' l.
Proof. revert b b'. induction l as [|x l IH]; intros b b' H; auto. simpl. rewrite <- (H 0) by (simpl; lia). rewrite (IH (fun k => b (S k)) (fun k => b' (S k))); auto. intros k Hk. apply H. simpl. lia. Qed.
Lemma keep_app {A} b (l l' : list A) : without b (l ++ l') = without b l ++ without (fun k => b (length l + k)) l'.
Proof. revert b. induction l as [|x l IH]; intros b; auto. simpl. rewrite IH. now destruct (b 0). Qed.
Lemma keep_rev {A} b (l : list A) : without b (rev l) = rev (without (fun k => b (length l - 1 - k)) l).
Proof.
  revert b. induction l as [|x l IH]; intros b; auto. cbn [rev]. rewrite keep_app, IH, rev_length. cbn [without length].
  replace (S (length l) - 1 - 0) with (length l) by lia. rewrite Nat.add_0_r.
  rewrite (keep_ext (fun k => b (length l - 1 - k)) (fun k => b (S (length l) - 1 - S k))) by (intros k Hk; f_equal; lia).
  destruct (b (length l)); [now rewrite app_nil_r|reflexivity].
Qed.
(** reshaping to a shape with extra axes of length one *)
Lemma flat_keep : forall s i b, inb s i -> (forall k, k < length s -> b k = true -> nth k s 0 = 1) -> inb (without b s) (without b i) /\ flat s i = flat (without b s) (without b i).
Proof.
  induction s as [|d s IH]; intros [|k i] b H U; simpl in H; try tauto. destruct H as [Hk Hi].
  destruct (IH i (fun k => b (S k)) Hi) as [I F]. { intros q Hq E. apply (U (S q)); [simpl; lia|exact E]. }
  cbn [without]. destruct (b 0) eqn:E.
  - assert (d = 1) by (apply (U 0); [simpl; lia|exact E]). subst d. split; [exact I|]. cbn [flat]. rewrite F. lia.
  - split; [split; auto|]. cbn [flat]. now rewrite F.
Qed.
Lemma prodl_keep : forall s b, (forall k, k < length s -> b k = true -> nth k s 0 = 1) -> prodl (without b s) = prodl s.
Proof.
  induction s as [|d s IH]; intros b U; auto. assert (prodl (without (fun k => b (S k)) s) = prodl s) as E by (apply IH; intros q Hq E; apply (U (S q)); [simpl; lia|exact E]).
  cbn [without]. destruct (b 0) eqn:B.
  - assert (d = 1) by (apply (U 0); [simpl; lia|exact B]). subst d. rewrite E. unfold prodl. simpl. lia.
  - unfold prodl in *. simpl. now rewrite E.
Qed.
Lemma treshape_keep x s b : sh x = without b s -> (forall k, k < length s -> b k = true -> nth k s 0 = 1) ->
  exists r, treshape x s = Ok r /\ sh r = s /\ dt r = dt x /\ forall i, inb s i -> at_ r i = at_ x (without b i).
Proof.
  intros S U. unfold treshape, asize. rewrite S. fold (prodl s) (prodl (without b s)). rewrite prodl_keep, Nat.eqb_refl by auto. eexists. repeat split.
  intros i Hi. cbn [at_]. destruct (flat_keep s i b Hi U) as [I ->]. rewrite <- S in *. now apply ravel_flat.
Qed.

(** the shape that the loop of expand_dims builds *)
Definition cnt (axis : list Z) (ax n : nat) : nat := length (filter (fun k => existsb (Z.eqb (Z.of_nat k)) axis) (seq ax n)).
Lemma flen {A} (f : A -> bool) l : length (filter f l) <= length l.
Proof. induction l as [|x l IH]; simpl; [lia|]. destruct (f x); simpl; lia. Qed.
Lemma expand_shape_ok axis : forall n ax it, n <= cnt axis ax n + length it ->
  exists l, expand_shape axis ax n it = Ok l /\ length l = n /\
    (forall k, k < n -> existsb (Z.eqb (Z.of_nat (ax + k))) axis = true -> nth k l 0 = 1) /\
    (n = cnt axis ax n + length it -> without (fun k => existsb (Z.eqb (Z.of_nat (ax + k))) axis) l = it).
Proof.
  induction n as [|n IH]; intros ax it L; cbn [expand_shape].
  - exists []. repeat split; try (simpl; lia). intros E. destruct it; [reflexivity|simpl in E; lia].
  - unfold cnt in L. cbn [seq filter] in L. fold (cnt axis (S ax) n) in L. destruct (existsb (Z.eqb (Z.of_nat ax)) axis) eqn:E.
    + destruct (IH (S ax) it) as (l & -> & Ll & O & K); [simpl in L; unfold cnt in *; lia|]. exists (1 :: l). cbn [bind]. repeat split; [simpl; lia| |].
      * intros [|k] Hk B; [reflexivity|]. cbn [nth]. apply O; [lia|]. replace (S ax + k) with (ax + S k) by lia. exact B.
      * intros Q. cbn [without]. rewrite Nat.add_0_r, E. rewrite <- K at 1.
        -- apply keep_ext. intros k _. do 3 f_equal. lia.
        -- unfold cnt in Q. cbn [seq filter] in Q. rewrite E in Q. simpl in Q. unfold cnt. lia.
    + destruct it as [|d it]; [exfalso|].
      { assert (cnt axis (S ax) n <= n). { unfold cnt. pose proof (flen (fun k => existsb (Z.eqb (Z.of_nat k)) axis) (seq (S ax) n)) as F. now rewrite seq_length in F. } unfold cnt in *. simpl in L. lia. }
      destruct (IH (S ax) it) as (l & -> & Ll & O & K); [simpl in L; unfold cnt in *; lia|]. exists (d :: l). cbn [bind]. repeat split; [simpl; lia| |].
      * intros [|k] Hk B; [rewrite Nat.add_0_r, E in B; discriminate|]. cbn [nth]. apply O; [lia|]. replace (S ax + k) with (ax + S k) by lia. exact B.
      * intros Q. cbn [without]. rewrite Nat.add_0_r, E. f_equal. rewrite <- K at 1.
        -- apply keep_ext. intros k _. do 3 f_equal. lia.
        -- unfold cnt in Q. cbn [seq filter] in Q. rewrite E in Q. simpl in Q. unfold cnt. lia.
Qed.
Lemma expand_shape_stop axis : forall n ax it, cnt axis ax n + length it < n -> expand_shape axis ax n it = Err StopIteration.
Proof.
  induction n as [|n IH]; intros ax it L; [simpl in L; lia|]. cbn [expand_shape]. unfold cnt in L. cbn [seq filter] in L. fold (cnt axis (S ax) n) in L.
  destruct (existsb (Z.eqb (Z.of_nat ax)) axis) eqn:E.
  - rewrite IH; [reflexivity|]. simpl in L. unfold cnt in *. lia.
  - destruct it as [|d it]; [reflexivity|]. rewrite IH; [reflexivity|]. simpl in L. unfold cnt in *. lia.
Qed.
(** counting the axes that occur *)
Definition good_axis (n : nat) (a : Z) : Prop := (0 <= a < Z.of_nat n)%Z.
Definition hits (axis : list Z) (n : nat) : list Z := map Z.of_nat (filter (fun k => existsb (Z.eqb (Z.of_nat k)) axis) (seq 0 n)).
Lemma hits_in axis n a : In a (hits axis n) <-> In a axis /\ good_axis n a.
Proof.
  unfold hits. rewrite in_map_iff. split.
  - intros (k & <- & H). apply filter_In in H as [H E]. apply in_seq in H. apply existsb_exists in E as (z & Hz & E). apply Z.eqb_eq in E. subst z. split; auto. unfold good_axis. lia.
  - intros [H G]. unfold good_axis in G. exists (Z.to_nat a). split; [lia|]. apply filter_In. split; [apply in_seq; lia|]. apply existsb_exists. exists a. split; auto. apply Z.eqb_eq. lia.
Qed.
Lemma hits_nodup axis n : NoDup (hits axis n).
Proof. unfold hits. apply FinFun.Injective_map_NoDup; [intros a b; lia|]. apply NoDup_filter, seq_NoDup. Qed.
Lemma hits_len axis n : length (hits axis n) = cnt axis 0 n.
Proof. unfold hits, cnt. apply map_length. Qed.
Lemma cnt_good axis n : NoDup axis -> Forall (good_axis n) axis -> cnt axis 0 n = length axis.
Proof.
  intros N F. rewrite <- hits_len. apply Nat.le_antisymm.
  - apply NoDup_incl_length; [apply hits_nodup|]. intros a H. now apply hits_in in H.
  - apply NoDup_incl_length; auto. intros a H. apply hits_in. split; auto. rewrite Forall_forall in F. auto.
Qed.
Lemma cnt_bad axis n : ~ (NoDup axis /\ Forall (good_axis n) axis) -> cnt axis 0 n < length axis.
Proof.
  intros H. rewrite <- hits_len. assert (incl (hits axis n) axis) as I by (intros a Ha; now apply hits_in in Ha).
  pose proof (NoDup_incl_length (hits_nodup axis n) I) as L. destruct (Nat.eq_dec (length (hits axis n)) (length axis)) as [E|E]; [|lia].
  exfalso. apply H. assert (incl axis (hits axis n)) as I' by (apply NoDup_length_incl; [apply hits_nodup|lia|exact I]). split.
  - apply (NoDup_incl_NoDup (hits_nodup axis n)); [lia|exact I].
  - rewrite Forall_forall. intros a Ha. apply I', hits_in in Ha. tauto.
Qed.
Lemma keep_len {A B} (l : list A) (l' : list B) b : length l = length l' -> length (without b l) = length (without b l').
Proof. revert l' b. induction l as [|x l IH]; intros [|y l'] b E; simpl in E; try lia; auto. simpl. destruct (b 0); simpl; rewrite (IH l') by lia; auto. Qed.
Lemma expand_axes_no n axes : expand_axes n axes = map (axis_no n) axes.
Proof. apply map_ext. intros a. unfold axis_no. destruct (a <? 0)%Z; lia. Qed.
Lemma is_axis_eq n axes k : existsb (Z.eqb (Z.of_nat k)) (map (axis_no n) axes) = is_axis n axes k.
Proof. unfold is_axis. induction axes as [|a l IH]; auto. simpl. rewrite IH, Z.eqb_sym. reflexivity. Qed.
Lemma axes_good n axes : axes_ok n axes <-> NoDup (map (axis_no n) axes) /\ Forall (good_axis n) (map (axis_no n) axes).
Proof. unfold axes_ok. rewrite Forall_map. unfold good_axis. tauto. Qed.

Lemma texpand_val x axes : let n := length axes + length (sh x) in axes_ok n axes ->
  exists r, texpand_dims x axes = Ok r /\ dt r = dt x /\ length (sh r) = n /\
    (forall k, k < n -> is_axis n axes k = true -> nth k (pyshape r) 0 = 1) /\
    without (is_axis n axes) (pyshape r) = pyshape x /\
    forall i, inb (sh r) i -> at_ r i = at_ x (rev (without (is_axis n axes) (rev i))).
Proof.
  intros n H. apply axes_good in H as [N F]. pose proof (cnt_good _ _ N F) as C. rewrite map_length in C.
  destruct (expand_shape_ok (map (axis_no n) axes) n 0 (pyshape x)) as (l & E & Ll & O & K). { rewrite C. unfold pyshape. rewrite rev_length. unfold n. lia. }
  rewrite C in K. unfold pyshape in K. rewrite rev_length in K. specialize (K eq_refl). cbn [Nat.add] in O, K.
  assert (without (is_axis n axes) l = rev (sh x)) as KL. { rewrite <- K. apply keep_ext. intros k _. now rewrite is_axis_eq. }
  assert (forall k, k < n -> is_axis n axes k = true -> nth k l 0 = 1) as O' by (intros k Hk B; apply O; auto; now rewrite is_axis_eq).
  destruct (treshape_keep x (rev l) (fun k => is_axis n axes (length l - 1 - k))) as (r & R & S & D & V).
  - assert (rev (rev (sh x)) = rev (without (is_axis n axes) l)) as Q by now rewrite KL. rewrite rev_involutive in Q. rewrite Q, keep_rev. f_equal. apply keep_ext. intros k Hk. f_equal. lia.
  - intros k Hk B. rewrite rev_length in Hk. rewrite rev_nth by auto. apply O'; [lia|]. replace (length l - S k) with (length l - 1 - k) by lia. exact B.
  - exists r. unfold texpand_dims. fold n. rewrite expand_axes_no, E. cbn [bind]. rewrite R, S. unfold pyshape. rewrite S, rev_involutive. repeat split; auto; [now rewrite rev_length|].
    intros i Hi. rewrite V by auto. f_equal. assert (length i = length l) as Li. { clear -Hi. rewrite <- (rev_length l). revert Hi. generalize (rev l). intros q. revert i. induction q as [|d q IH]; intros [|k i] Hi; simpl in *; try tauto. f_equal. apply IH. tauto. }
    rewrite keep_rev, rev_involutive. apply keep_ext. intros k Hk. f_equal. lia.
Qed.
Lemma texpand_stop x axes : ~ axes_ok (length axes + length (sh x)) axes -> texpand_dims x axes = Err StopIteration.
Proof.
  intros H. rewrite axes_good in H. apply cnt_bad in H. rewrite map_length in H. unfold texpand_dims. rewrite expand_axes_no, expand_shape_stop; [reflexivity|]. unfold pyshape. rewrite rev_length. lia.
Qed.
(** positions counted from the last axis *)
Lemma texpand_from_last x axes b : let n := length axes + length (sh x) in axes_ok n axes -> (forall k, k < n -> is_axis n axes (n - 1 - k) = b k) ->
  exists r, texpand_dims x axes = Ok r /\ dt r = dt x /\ length (sh r) = n /\ (forall k, k < n -> b k = true -> nth k (sh r) 0 = 1) /\ without b (sh r) = sh x /\ forall i, inb (sh r) i -> at_ r i = at_ x (without b i).
Proof.
  intros n H B. destruct (texpand_val x axes H) as (r & E & D & L & O & K & V). fold n in L, O, K, V. exists r. repeat split; auto.
  - intros k Hk Bk. specialize (O (n - 1 - k) ltac:(lia)). rewrite B in O by auto. specialize (O Bk). unfold pyshape in O. rewrite rev_nth in O by lia. rewrite <- O. f_equal. lia.
  - unfold pyshape in K. rewrite keep_rev in K. apply (f_equal (@rev nat)) in K. rewrite !rev_involutive in K. rewrite <- K. apply keep_ext. intros k Hk. rewrite L in *. symmetry. auto.
  - intros i Hi. rewrite V by auto. f_equal. assert (length i = n) as Li. { rewrite <- L. clear -Hi. revert Hi. generalize (sh r). intros q. revert i. induction q as [|d q IH]; intros [|k i] Hi; simpl in *; try tauto. f_equal. apply IH. tauto. }
    rewrite keep_rev, rev_involutive. apply keep_ext. intros k Hk. rewrite Li in *. auto.
Qed.
Lemma keep_skip {A} p (l : list A) : without (fun k => k <? p) l = skipn p l.
Proof. revert p. induction l as [|x l IH]; intros [|p]; auto. - simpl. f_equal. apply (IH 0). - cbn [without skipn]. simpl. rewrite <- IH. apply keep_ext. intros k _. reflexivity. Qed.
Lemma iter_expand p x : exists a, Nat.iter p (aexpand 0) (Ok x) = Ok a /\ dt a = dt x /\ sh a = repeat 1 p ++ sh x /\ forall i, at_ a i = at_ x (skipn p i).
Proof.
  induction p as [|p (a & E & D & S & V)]; [exists x; auto|]. cbn [Nat.iter nat_rect]. unfold Nat.iter in *. rewrite E. cbn [aexpand bind Nat.leb]. eexists. split; [reflexivity|]. cbn [dt sh at_ insert_at]. rewrite D, S. repeat split.
  intros i. rewrite V. f_equal. destruct i as [|k i]; simpl; auto. now destruct p.
Qed.
Lemma nodup_map_in {A B} (f : A -> B) l : (forall a b, In a l -> In b l -> f a = f b -> a = b) -> NoDup l -> NoDup (map f l).
Proof.
  induction l as [|x l IH]; intros I N; [constructor|]. inversion N as [|? ? Nx Nl]; subst. cbn [map]. constructor.
  - intros H. apply in_map_iff in H as (y & E & Hy). apply I in E; simpl; auto. now subst.
  - apply IH; auto. intros a b Ha Hb. apply I; simpl; auto.
Qed.
Lemma is_axis_iff n axes k : is_axis n axes k = true <-> exists a, In a axes /\ axis_no n a = Z.of_nat k.
Proof. unfold is_axis. rewrite existsb_exists. split; intros (a & H & E); exists a; split; auto; now apply Z.eqb_eq. Qed.
Lemma bool_iff a b : (a = true <-> b = true) -> a = b.
Proof. destruct a, b; intuition congruence. Qed.
(** tuple(range(-p, 0)) *)
Lemma texpand_range x p : same_array (texpand_dims x (map (fun j => (Z.of_nat j - Z.of_nat p)%Z) (seq 0 p))) (Nat.iter p (aexpand 0) (Ok x)).
Proof.
  set (axes := map (fun j => (Z.of_nat j - Z.of_nat p)%Z) (seq 0 p)). assert (length axes = p) as La by (unfold axes; now rewrite map_length, seq_length).
  destruct (texpand_from_last x axes (fun k => k <? p)) as (r & E & D & L & O & K & V).
  - rewrite La. split.
    + rewrite Forall_forall. intros a Ha. unfold axes in Ha. apply in_map_iff in Ha as (j & <- & Hj). apply in_seq in Hj. unfold axis_no. destruct (Z.ltb_spec (Z.of_nat j - Z.of_nat p) 0); lia.
    + unfold axes. rewrite map_map. apply nodup_map_in; [|apply seq_NoDup]. intros a b Ha Hb. apply in_seq in Ha, Hb. unfold axis_no. destruct (Z.ltb_spec (Z.of_nat a - Z.of_nat p) 0), (Z.ltb_spec (Z.of_nat b - Z.of_nat p) 0); lia.
  - rewrite La. intros k Hk. apply bool_iff. rewrite is_axis_iff, Nat.ltb_lt. split.
    + intros (a & Ha & Ea). unfold axes in Ha. apply in_map_iff in Ha as (j & <- & Hj). apply in_seq in Hj. unfold axis_no in Ea. destruct (Z.ltb_spec (Z.of_nat j - Z.of_nat p) 0); lia.
    + intros Hp. exists (Z.of_nat (p - 1 - k) - Z.of_nat p)%Z. split; [apply in_map_iff; exists (p - 1 - k); split; auto; apply in_seq; lia|]. unfold axis_no. destruct (Z.ltb_spec (Z.of_nat (p - 1 - k) - Z.of_nat p) 0); lia.
  - destruct (iter_expand p x) as (a & Ea & Da & Sa & Va). exists r, a. rewrite E, Ea. repeat split; [congruence| |].
    + rewrite Sa, <- K, keep_skip, <- (firstn_skipn p (sh r)) at 1. f_equal. rewrite La in *. assert (length (firstn p (sh r)) = p) as Lf by (rewrite firstn_length; lia).
      apply nth_ext with (d := 0) (d' := 0); [now rewrite Lf, repeat_length|]. intros q Hq. rewrite Lf in Hq.
      assert (nth q (repeat 1 p) 0 = 1) as R1. { apply (repeat_spec p 1). apply nth_In. now rewrite repeat_length. }
      rewrite <- (firstn_skipn p (sh r)) in O. specialize (O q ltac:(lia) ltac:(apply Nat.ltb_lt; lia)). rewrite app_nth1 in O by lia. congruence.
    + intros i Hi. rewrite V, Va by auto. now rewrite keep_skip.
Qed.
Lemma texpand_12 x : same_array (texpand_dims x [-1; -2]%Z) (expand12 x).
Proof.
  destruct (texpand_from_last x [-1; -2]%Z (fun k => k <? 2)) as (r & E & D & L & O & K & V); cbn [length Nat.add] in *.
  - split; [repeat constructor; cbn [axis_no Z.ltb]; unfold axis_no; cbn [Z.ltb Z.compare]; lia|]. cbn [map]. unfold axis_no. cbn [Z.ltb Z.compare]. constructor; [intros [Q|[]]; lia|]. constructor; [intros []|constructor].
  - intros k Hk. apply bool_iff. rewrite is_axis_iff, Nat.ltb_lt. unfold axis_no. split.
    + intros (a & [<-|[<-|[]]] & Ea); cbn [Z.ltb Z.compare] in Ea; lia.
    + intros Hp. exists (- Z.of_nat (S k))%Z. split; [destruct k as [|[|k]]; simpl; auto; lia|]. destruct (Z.ltb_spec (- Z.of_nat (S k)) 0); lia.
  - destruct (sh r) as [|d1 [|d2 s]] eqn:Sr; try (simpl in L; lia). exists r. eexists. split; [exact E|]. split; [reflexivity|]. cbn [dt sh at_]. rewrite Sr. cbn [insert_at].
    pose proof (O 0 ltac:(lia) eq_refl) as O0. pose proof (O 1 ltac:(lia) eq_refl) as O1. cbn [nth] in O0, O1. subst d1 d2. rewrite keep_skip in K. cbn [skipn] in K. repeat split; [auto|now rewrite K|]. intros [|i1 [|i2 i]] Hi; try (simpl in Hi; tauto). rewrite V by exact Hi. rewrite keep_skip. reflexivity.
Qed.
Lemma keep_none {A} b (l : list A) : (forall k, b k = false) -> without b l = l.
Proof. revert b. induction l as [|x l IH]; intros b H; auto. simpl. rewrite H, IH; auto. Qed.
Lemma texpand_34 x : 2 <= length (sh x) -> same_array (texpand_dims x [-3; -4]%Z) (expand34 x).
Proof.
  intros L2. set (b := fun k => (2 <=? k) && (k <? 4)). destruct (texpand_from_last x [-3; -4]%Z b) as (r & E & D & L & O & K & V); cbn [length Nat.add] in *.
  - split; [repeat constructor; unfold axis_no; cbn [Z.ltb Z.compare]; lia|]. cbn [map]. unfold axis_no. cbn [Z.ltb Z.compare]. constructor; [intros [Q|[]]; lia|]. constructor; [intros []|constructor].
  - intros k Hk. apply bool_iff. unfold b. rewrite is_axis_iff, andb_true_iff, Nat.ltb_lt, Nat.leb_le. unfold axis_no. split.
    + intros (a & [<-|[<-|[]]] & Ea); cbn [Z.ltb Z.compare] in Ea; lia.
    + intros Hp. exists (- Z.of_nat (S k))%Z. split; [destruct k as [|[|[|[|k]]]]; simpl; auto; lia|]. destruct (Z.ltb_spec (- Z.of_nat (S k)) 0); lia.
  - destruct (sh x) as [|e1 [|e2 t]] eqn:Sx; try (simpl in L2; lia).
    destruct (sh r) as [|d1 [|d2 [|d3 [|d4 s]]]] eqn:Sr; try (simpl in L; lia). exists r. eexists. split; [exact E|]. split. { unfold expand34, aexpand. cbn [bind]. rewrite Sx. cbn [length Nat.leb insert_at bind sh dt]. reflexivity. }
    cbn [dt sh at_]. rewrite Sr.
    pose proof (O 2 ltac:(simpl in L2 |- *; lia) eq_refl) as O0. pose proof (O 3 ltac:(simpl in L2 |- *; lia) eq_refl) as O1. cbn [nth] in O0, O1. subst d3 d4. cbn [without b Nat.leb Nat.ltb andb] in K. rewrite keep_none in K by (intros k; unfold b; simpl; auto).
    injection K as -> -> ->. repeat split; [auto|]. intros [|i1 [|i2 [|i3 [|i4 i]]]] Hi; try (simpl in Hi; tauto). rewrite V by exact Hi. cbn [without b Nat.leb Nat.ltb andb remove_at]. rewrite keep_none by (intros k; unfold b; simpl; auto). reflexivity.
Qed.

(** ** apply_along_axis *)
Lemma collect_ok {A B} (f : A -> res B) l P : (forall a, In a l -> exists b, f a = Ok b /\ P a b) -> exists r, collect (map f l) = Ok r /\ Forall2 P l r.
Proof.
  induction l as [|x l IH]; intros H; [exists []; split; [reflexivity|constructor]|]. destruct (H x (or_introl eq_refl)) as (b & E & Pb). destruct IH as (r & Er & F); [intros a Ha; apply H; simpl; auto|].
  exists (b :: r). cbn [map collect]. rewrite E. cbn [bind]. rewrite Er. cbn [bind]. split; [reflexivity|now constructor].
Qed.
Lemma forall2_nth {A B} (P : A -> B -> Prop) l r q a b : Forall2 P l r -> q < length l -> P (nth q l a) (nth q r b).
Proof. intros F. revert q. induction F as [|x y l r H F IH]; intros q Hq; [simpl in Hq; lia|]. destruct q; [exact H|]. apply IH. simpl in Hq. lia. Qed.
Lemma forall2_len {A B} (P : A -> B -> Prop) l r : Forall2 P l r -> length r = length l.
Proof. induction 1; simpl; auto. Qed.
(** stacking arrays without axes *)
Lemma tstack0 l n axis : (axis = 0 \/ axis = -1)%Z -> length l = n -> 0 < n -> (forall b, In b l -> sh b = []) -> exists c, tstack l axis = Ok c /\ sh c = (n :: nil)%list /\ forall k, k < n -> at_ c (k :: nil)%list = at_ (nth k l c) nil.
Proof.
  intros X L N H. destruct l as [|a l]; [simpl in L; lia|]. assert (sh a = []) as Sa by (apply H; simpl; auto). cbn [tstack].
  assert (forallb (fun b => shape_eqb (sh b) (sh a)) (a :: l) = true) as ->. { apply forallb_forall. intros b Hb. rewrite (H b Hb), Sa. reflexivity. }
  rewrite Sa. cbn [length]. assert (rev_axis axis 1 = Ok 0) as -> by (destruct X; subst; reflexivity). cbn [bind]. eexists. split; [reflexivity|]. cbn [sh insert_at]. split; [now f_equal|].
  intros k Hk. cbn [at_ nth remove_at]. f_equal. destruct k; [reflexivity|]. apply nth_indep. simpl in L. lia.
Qed.
Lemma prodl_pos s : existsb (fun k => k =? 0) s = false -> 0 < prodl s.
Proof. induction s as [|d s IH]; intros H; [simpl; lia|]. cbn [existsb] in H. apply orb_false_iff in H as [H1 H2]. apply Nat.eqb_neq in H1. specialize (IH H2). unfold prodl in *. simpl. nia. Qed.
Lemma remove_app {A} : forall (l l' : list A) x, remove_at (length l) (l ++ x :: l') = l ++ l'.
Proof. induction l as [|y l IH]; intros l' x; simpl; auto. now rewrite IH. Qed.
Lemma remove_rev {A} (l : list A) k : k < length l -> rev (remove_at k (rev l)) = remove_at (length l - 1 - k) l.
Proof.
  intros H. set (q := length l - 1 - k). destruct (nth_error l q) as [x|] eqn:E; [|apply nth_error_None in E; lia].
  apply nth_error_split in E as (l1 & l2 & -> & L1). rewrite rev_app_distr. cbn [rev]. rewrite <- app_assoc. cbn [app].
  assert (k = length (rev l2)) as -> by (rewrite rev_length; subst q; rewrite app_length in *; simpl in *; lia). rewrite remove_app, <- L1, remove_app, rev_app_distr, !rev_involutive. reflexivity.
Qed.
Lemma prodl_app l l' : prodl (l ++ l') = prodl l * prodl l'.
Proof. induction l as [|d l IH]; [simpl; lia|]. unfold prodl in *. simpl. rewrite IH. lia. Qed.
Lemma prodl_remove : forall s p, p < length s -> prodl s = prodl (remove_at p s) * nth p s 0.
Proof. induction s as [|d s IH]; intros p H; [simpl in H; lia|]. destruct p; cbn [remove_at nth]; [unfold prodl; simpl; lia|]. unfold prodl in *. cbn [fold_right]. rewrite (IH p) at 1 by (simpl in H; lia). lia. Qed.
Lemma rev_axis_ok axis n p : rev_axis axis n = Ok p -> exists k, norm_axis axis n = Ok k /\ k < n /\ p = n - 1 - k.
Proof.
  unfold rev_axis. destruct (norm_axis axis n) as [k|] eqn:E; [|discriminate]. cbn [bind]. intros H. injection H as <-. exists k. repeat split. unfold norm_axis in E. destruct (Z.leb_spec (- Z.of_nat n) axis), (Z.ltb_spec axis (Z.of_nat n)); cbn [andb] in E; try discriminate. injection E as <-. destruct (Z.ltb_spec axis 0); lia.
Qed.
Lemma apply_vmap_val f g x axis p : let d := nth p (sh x) 0 in let t := remove_at p (sh x) in
  rev_axis axis (length (sh x)) = Ok p -> existsb (fun k => k =? 0) (sh x) = false -> scalar_fun f g ->
  exists b, apply_vmap true f x axis = Ok b /\ sh b = t /\ forall r, inb t r -> at_ b r = g (map (fun k => nth (flat t r * d + k) (ravel x) NaN) (seq 0 d)).
Proof.
  intros d t A Z F. apply rev_axis_ok in A as (k & A & Hk & Ep). assert (p < length (sh x)) as Hp by lia.
  pose proof (prodl_pos _ Z) as Pp. pose proof (prodl_remove (sh x) p Hp) as Pr. fold d t in Pr. assert (0 < d /\ 0 < prodl t) as [Pd Pt] by nia.
  unfold apply_vmap, py_pop, pyshape. rewrite rev_length, A, rev_nth by auto. replace (length (sh x) - S k) with p by lia. fold d. cbn [bind]. rewrite remove_rev, <- Ep by auto. fold t.
  unfold rows_of. rewrite (proj2 (Nat.eqb_neq d 0)) by lia. cbn [bind]. unfold asize. fold (prodl (sh x)). rewrite Pr, Nat.div_mul by lia.
  set (rw := fun q => mkArr (dt x) (d :: nil) (fun i => nth (q * d + hd 0 i) (ravel x) NaN)).
  destruct (collect_ok f (map rw (seq 0 (prodl t))) (fun v b => sh b = nil /\ at_ b nil = g (map (fun k => at_ v (k :: nil)) (seq 0 d)))) as (l & El & F2).
  { intros v Hv. apply in_map_iff in Hv as (q & <- & Hq). destruct (F (rw q) d eq_refl) as (b & Eb & Sb & Vb). exists b. auto. }
  unfold vmap. unfold tensor in *. rewrite El. cbn [bind]. pose proof (forall2_len _ _ _ F2) as Ll. rewrite map_length, seq_length in Ll.
  destruct (tstack0 l (prodl t) 0 (or_introl eq_refl) Ll Pt) as (c & Ec & Sc & Vc).
  { intros b Hb. apply (In_nth _ _ x) in Hb as (q & Hq & <-). rewrite Ll in Hq. pose proof (forall2_nth _ _ _ q x x F2) as Q. rewrite map_length, seq_length in Q. apply Q. exact Hq. }
  cbn [Z.of_nat] in Ec. rewrite Ec. cbn [bind]. unfold treshape, asize. rewrite Sc. cbn [fold_right]. rewrite Nat.mul_1_r. fold (prodl t). rewrite Nat.eqb_refl. eexists. split; [reflexivity|]. split; [reflexivity|].
  intros r Hr. cbn [at_]. pose proof (flat_lt t r Hr) as Lr. assert (nth (flat t r) (ravel c) NaN = at_ c (flat t r :: nil)) as ->.
  { rewrite <- (ravel_flat c (flat t r :: nil)); rewrite Sc; [f_equal; simpl; lia|simpl; auto]. }
  rewrite Vc by auto. pose proof (forall2_nth _ _ _ (flat t r) (rw 0) c F2) as Q. rewrite map_length, seq_length in Q. destruct (Q Lr) as [_ ->]. f_equal. rewrite (map_nth rw), seq_nth by auto. reflexivity.
Qed.
Lemma apply_last_val f g x axis d s : sh x = (d :: s)%list -> (axis = -1 \/ axis = Z.of_nat (length s))%Z -> existsb (fun k => k =? 0) (d :: s) = false -> scalar_fun f g ->
  exists b, apply_vmap true f x axis = Ok b /\ sh b = s /\ forall r, inb s r -> at_ b r = g (row x d r).
Proof.
  intros Sx A Z F. rewrite <- Sx in Z. destruct (apply_vmap_val f g x axis 0) as (b & E & Sb & V); auto.
  - rewrite Sx. unfold rev_axis, norm_axis. cbn [length]. destruct A as [->| ->].
    + destruct (Z.leb_spec (- Z.of_nat (S (length s))) (-1)), (Z.ltb_spec (-1) (Z.of_nat (S (length s)))); try lia. cbn [andb Z.ltb Z.compare bind]. f_equal. lia.
    + destruct (Z.leb_spec (- Z.of_nat (S (length s))) (Z.of_nat (length s))), (Z.ltb_spec (Z.of_nat (length s)) (Z.of_nat (S (length s)))); try lia. cbn [andb bind]. destruct (Z.ltb_spec (Z.of_nat (length s)) 0); [lia|]. cbn [bind]. f_equal. lia.
  - rewrite Sx in *. cbn [remove_at nth] in *. exists b. repeat split; auto. intros r Hr. rewrite V by auto. unfold row. f_equal. apply map_ext_in. intros k Hk. apply in_seq in Hk. rewrite <- (ravel_flat x (k :: r)); rewrite Sx; [reflexivity|split; [lia|auto]].
Qed.
Lemma apply_square_val f g x n : sh x = (n :: n :: nil)%list -> 0 < n -> scalar_fun f g ->
  exists b, apply_vmap true f x 0 = Ok b /\ sh b = (n :: nil)%list /\ forall r, r < n -> at_ b (r :: nil)%list = g (row x n (r :: nil)).
Proof.
  intros S N F. destruct (apply_vmap_val f g x 0 1) as (b & E & Sb & V); auto.
  - rewrite S. reflexivity. - rewrite S. simpl. destruct n; [lia|reflexivity].
  - rewrite S in *. cbn [remove_at nth] in *. exists b. repeat split; auto. intros r Hr. rewrite V by (simpl; auto). unfold row. f_equal. apply map_ext_in. intros k Hk. apply in_seq in Hk. rewrite <- (ravel_flat x (k :: r :: nil)); rewrite S; [|simpl; repeat split; auto; lia]. f_equal. 
Qed.
Lemma torch_fallback_val f g x m d : sh x = (d :: m :: nil)%list -> 0 < d -> scalar_fun f g ->
  exists b, torch_apply_along_axis false f x (-1) = Ok b /\ sh b = (d :: nil)%list /\ forall j, j < d -> at_ b (j :: nil)%list = g (map (fun k => at_ x (j :: k :: nil)) (seq 0 m)).
Proof.
  intros S D F. unfold torch_apply_along_axis. assert (exists e, apply_vmap false f x (-1) = Err e) as [e ->].
  { unfold apply_vmap. destruct (py_pop (-1) (pyshape x)) as [[d' s']|e]; cbn [bind]; [|eexists; reflexivity]. destruct (rows_of x d'); eexists; reflexivity. }
  unfold tunbind. rewrite S. cbn [length]. replace (rev_axis (-1) 2) with (Ok 0) by reflexivity. cbn [bind remove_at nth insert_at].
  set (sl := fun k => mkArr (dt x) (m :: nil) (fun r => at_ x (k :: r))).
  destruct (collect_ok f (map sl (seq 0 d)) (fun v b => sh b = nil /\ at_ b nil = g (map (fun k => at_ v (k :: nil)) (seq 0 m)))) as (l & El & F2).
  { intros v Hv. apply in_map_iff in Hv as (q & <- & Hq). destruct (F (sl q) m eq_refl) as (b & Eb & Sb & Vb). exists b. auto. }
  unfold tensor in *. rewrite El. cbn [bind]. pose proof (forall2_len _ _ _ F2) as Ll. rewrite map_length, seq_length in Ll.
  destruct (tstack0 l d (-1) (or_intror eq_refl) Ll D) as (c & Ec & Sc & Vc).
  { intros b Hb. apply (In_nth _ _ x) in Hb as (q & Hq & <-). rewrite Ll in Hq. pose proof (forall2_nth _ _ _ q x x F2) as Q. rewrite map_length, seq_length in Q. apply Q. exact Hq. }
  exists c. repeat split; auto. intros j Hj. rewrite Vc by auto. pose proof (forall2_nth _ _ _ j (sl 0) c F2) as Q. rewrite map_length, seq_length in Q. destruct (Q Hj) as [_ ->]. f_equal. rewrite (map_nth sl), seq_nth by auto. reflexivity.
Qed.
Lemma vmap_untraced f x axis : exists e, apply_vmap false f x axis = Err e.
Proof. unfold apply_vmap. destruct (py_pop axis (pyshape x)) as [[d' s']|e]; cbn [bind]; [|eexists; reflexivity]. destruct (rows_of x d'); eexists; reflexivity. Qed.
(** the fallback along the first axis of a matrix *)
Lemma torch_fallback_val0 f g x m d : sh x = (d :: m :: nil)%list -> 0 < m -> scalar_fun f g ->
  exists b, torch_apply_along_axis false f x 0 = Ok b /\ sh b = (m :: nil)%list /\ forall j, j < m -> at_ b (j :: nil)%list = g (map (fun k => at_ x (k :: j :: nil)) (seq 0 d)).
Proof.
  intros S D F. unfold torch_apply_along_axis. destruct (vmap_untraced f x 0) as [e ->].
  unfold tunbind. rewrite S. cbn [length]. replace (rev_axis 0 2) with (Ok 1) by reflexivity. cbn [bind remove_at nth].
  set (sl := fun k => mkArr (dt x) (d :: nil) (fun r => at_ x (insert_at 1 k r))).
  destruct (collect_ok f (map sl (seq 0 m)) (fun v b => sh b = nil /\ at_ b nil = g (map (fun k => at_ v (k :: nil)) (seq 0 d)))) as (l & El & F2).
  { intros v Hv. apply in_map_iff in Hv as (q & <- & Hq). destruct (F (sl q) d eq_refl) as (b & Eb & Sb & Vb). exists b. auto. }
  unfold tensor in *. rewrite El. cbn [bind]. pose proof (forall2_len _ _ _ F2) as Ll. rewrite map_length, seq_length in Ll.
  destruct (tstack0 l m 0 (or_introl eq_refl) Ll D) as (c & Ec & Sc & Vc).
  { intros b Hb. apply (In_nth _ _ x) in Hb as (q & Hq & <-). rewrite Ll in Hq. pose proof (forall2_nth _ _ _ q x x F2) as Q. rewrite map_length, seq_length in Q. apply Q. exact Hq. }
  exists c. repeat split; auto. intros j Hj. rewrite Vc by auto. pose proof (forall2_nth _ _ _ j (sl 0) c F2) as Q. rewrite map_length, seq_length in Q. destruct (Q Hj) as [_ ->]. f_equal. rewrite (map_nth sl), seq_nth by auto. reflexivity.
Qed.
