(** The shape check of the univariate scores and the ensemble axis. *)
From Verif Require Export L_crps_roww.
Open Scope nat_scope.

Lemma rev_insert {A} p (x : A) l : p <= length l ->
  rev (insert_at p x l) = firstn (length l - p) (rev l) ++ [x] ++ skipn (length l - p) (rev l).
Proof.
  revert l; induction p; intros l H.
  - replace (insert_at 0 x l) with (x :: l) by (destruct l; auto).
    rewrite Nat.sub_0_r. rewrite <- (rev_length l). rewrite firstn_all, skipn_all. simpl. reflexivity.
  - destruct l as [|y l]; [simpl in H; lia|]. cbn [insert_at rev length].
    simpl in H. rewrite IHp by lia.
    replace (S (length l) - S p) with (length l - p) by lia.
    rewrite firstn_app, skipn_app, rev_length.
    replace (length l - p - length l) with 0 by lia. cbn [firstn skipn].
    rewrite app_nil_r, <- !app_assoc. reflexivity.
Qed.
Lemma norm_axis_shift ax n k : norm_axis ax n = Ok k ->
  k < n /\ (if (0 <=? ax)%Z then ax else (Z.of_nat n + ax)%Z) = Z.of_nat k.
Proof.
  unfold norm_axis. destruct (_ && _)%bool eqn:E; [|discriminate]. apply andb_prop in E.
  destruct E as [E1 E2]. apply Z.leb_le in E1. apply Z.ltb_lt in E2.
  intros H; injection H as <-.
  destruct (Z.ltb_spec ax 0), (Z.leb_spec 0 ax); try lia.
Qed.
Lemma py_pos_nat k n : k <= n -> py_pos (Z.of_nat k) n = k.
Proof. intros H. unfold py_pos. destruct (Z.ltb_spec (Z.of_nat k) 0); lia. Qed.
Lemma py_index_nat {A} k (l : list A) x : nth_error l k = Some x -> py_index (Z.of_nat k) l = Ok x.
Proof.
  intros H. assert (k < length l) by (apply nth_error_Some; congruence).
  unfold py_index. destruct (Z.ltb_spec (Z.of_nat k) 0); [lia|].
  replace ((0 <=? Z.of_nat k)%Z && (Z.of_nat k <? Z.of_nat (length l))%Z)%bool with true
    by (symmetry; apply andb_true_intro; split; [apply Z.leb_le|apply Z.ltb_lt]; lia).
  now rewrite Nat2Z.id, H.
Qed.
Lemma shape_eqb_refl s : shape_eqb s s = true.
Proof. unfold shape_eqb. destruct (list_eq_dec Nat.eq_dec s s); easy. Qed.
Lemma shape_eqb_true s t : shape_eqb s t = true <-> s = t.
Proof. unfold shape_eqb. destruct (list_eq_dec Nat.eq_dec s t); split; easy. Qed.
Lemma norm_axis_nat k n : k < n -> norm_axis (Z.of_nat k) n = Ok k.
Proof.
  intros H. unfold norm_axis.
  replace ((- Z.of_nat n <=? Z.of_nat k)%Z && (Z.of_nat k <? Z.of_nat n)%Z)%bool with true
    by (symmetry; apply andb_true_intro; split; [apply Z.leb_le|apply Z.ltb_lt]; lia).
  destruct (Z.ltb_spec (Z.of_nat k) 0); [lia|]. now rewrite Nat2Z.id.
Qed.

(** forecasts of shape s with an axis of length M inserted at distance p from the last *)
Lemma array_check_ok obs fct d1 d2 p M s y x ax :
  arr_is obs d1 s y -> arr_is fct d2 (insert_at p M s) x -> p <= length s ->
  norm_axis ax (S (length s)) = Ok (length s - p) ->
  exists fct', univariate_array_check obs fct ax = Ok (obs, fct') /\
    arr_is fct' d2 (M :: s) (fun i => x (insert_at p (hd 0 i) (tl i))).
Proof.
  intros Ho Hf Hp Hax. unfold univariate_array_check, shift_axis.
  pose proof Hf as (_ & Hs & _). pose proof Ho as (_ & Hso & _).
  rewrite Hs, insert_at_length. destruct (norm_axis_shift _ _ _ Hax) as [Hk E]. rewrite E.
  set (k := length s - p) in *.
  unfold shape_compatibility_check, pyshape. rewrite Hs, Hso, (rev_insert p M s Hp).
  fold k. rewrite (py_index_nat k _ M).
  2:{ rewrite nth_error_app2; rewrite firstn_length, rev_length; [|lia].
      replace (k - Nat.min k (length s)) with 0 by lia. reflexivity. }
  cbn [bind]. unfold py_take, py_drop. rewrite rev_length, py_pos_nat by lia.
  rewrite shape_eqb_refl. cbn [bind].
  destruct (ten_move_last (Z.of_nat k) (Ok fct) d2 p M s x (ten_Ok _ _ _ _ Hf) Hp) as (f' & E' & H').
  { apply norm_axis_nat; lia. }
  destruct (Z.eqb_spec (Z.of_nat k) (-1)); [lia|]. rewrite E'. cbn [bind].
  exists f'. auto.
Qed.

(** conversely the check only passes for such shapes: otherwise ValueError *)
Lemma array_check_bad obs fct ax k :
  norm_axis ax (length (sh fct)) = Ok k ->
  (forall p M, p <= length (sh obs) -> k = length (sh obs) - p -> sh fct <> insert_at p M (sh obs)) ->
  univariate_array_check obs fct ax = Err ValueError.
Proof.
  intros Hax Hbad. unfold univariate_array_check, shift_axis.
  destruct (norm_axis_shift _ _ _ Hax) as [Hk E]. rewrite E.
  unfold shape_compatibility_check, pyshape.
  assert (exists M, nth_error (rev (sh fct)) k = Some M) as [M HM].
  { destruct (nth_error (rev (sh fct)) k) eqn:En; eauto.
    apply nth_error_None in En. rewrite rev_length in En. lia. }
  rewrite (py_index_nat k _ M HM). cbn [bind].
  destruct (shape_eqb _ _) eqn:Es; [|reflexivity]. exfalso.
  apply shape_eqb_true in Es. unfold py_take, py_drop in Es. rewrite rev_length in Es.
  assert (Hlen : length (sh fct) = S (length (sh obs))).
  { rewrite <- (rev_length (sh fct)), <- Es. rewrite !app_length, firstn_length, skipn_length, rev_length.
    simpl. pose proof (Nat.le_min_l (py_pos (Z.of_nat k) (length (sh obs))) (length (sh obs))). lia. }
  rewrite py_pos_nat in Es by lia.
  apply (Hbad (length (sh obs) - k) M); [lia|lia|].
  rewrite <- (rev_involutive (insert_at _ _ _)), rev_insert by lia.
  replace (length (sh obs) - (length (sh obs) - k)) with k by lia.
  rewrite Es. now rewrite rev_involutive.
Qed.

(** the axis numbers that denote the same axis *)
Lemma norm_axis_neg k n : k < n -> norm_axis (Z.of_nat k - Z.of_nat n) n = Ok k.
Proof.
  intros H. unfold norm_axis.
  replace ((- Z.of_nat n <=? Z.of_nat k - Z.of_nat n)%Z && (Z.of_nat k - Z.of_nat n <? Z.of_nat n)%Z)%bool with true
    by (symmetry; apply andb_true_intro; split; [apply Z.leb_le|apply Z.ltb_lt]; lia).
  destruct (Z.ltb_spec (Z.of_nat k - Z.of_nat n) 0); [|lia]. f_equal; lia.
Qed.
