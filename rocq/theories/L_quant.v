(** Quantile and interval scores: lemmas. *)
From Coq Require Import Psatz.
From Verif Require Export S_quant L_crps_call L_crps_more M_prob.
Open Scope R_scope.

(** ** pinball loss *)
Lemma pinball_le al q y : pinball al q y = ind_le q y * al * (y - q) + ind_lt y q * (1 - al) * (q - y).
Proof.
  unfold pinball, ind_le, ind_lt. destruct (Rle_dec y q), (Rle_dec q y), (Rlt_dec y q); try lra.
Qed.
Lemma pinball_lt al q y : pinball al q y = ind_lt q y * al * (y - q) + ind_le y q * (1 - al) * (q - y).
Proof. unfold pinball, ind_le, ind_lt. destruct (Rle_dec y q), (Rlt_dec q y); try lra. Qed.
Lemma pinball_score al q y : pinball al q y = (ind_lt y q - al) * (q - y).
Proof.
  unfold pinball, ind_lt. destruct (Rle_dec y q), (Rlt_dec y q); try lra; try nra.
Qed.
Lemma pinball_nonneg al q y : 0 <= al <= 1 -> 0 <= pinball al q y.
Proof.
  intros H. unfold pinball. destruct (Rle_dec y q).
  - apply Rmult_le_pos; lra.
  - apply Rmult_le_pos; lra.
Qed.
Lemma pinball_zero al q y : 0 < al < 1 -> pinball al q y = 0 <-> q = y.
Proof.
  intros H. unfold pinball. split.
  - destruct (Rle_dec y q); intros E; apply Rmult_integral in E; lra.
  - intros ->. destruct (Rle_dec y y); lra.
Qed.
Lemma winkler_pinball al l u y : al <> 0 ->
  winkler al l u y = 2 / al * (pinball (al / 2) l y + pinball (1 - al / 2) u y).
Proof.
  intros H. unfold winkler, pinball.
  destruct (Rlt_dec y l), (Rlt_dec u y), (Rle_dec y l), (Rle_dec y u); try lra; try (field; lra).
  all: replace l with y by lra; field; lra.
Qed.

(** ** the quantile minimises the expected pinball loss *)
Lemma mean_ext n g f f' : (forall j, (j < n)%nat -> f j = f' j) -> mean_under n g f = mean_under n g f'.
Proof. intros H. apply sumn_ext. intros; now rewrite H. Qed.
(** subgradient: pinball at q' is above the supporting lines at q *)
Lemma pinball_sub_lt al q q' y : pinball al q y + (ind_lt y q - al) * (q' - q) <= pinball al q' y.
Proof.
  unfold pinball, ind_lt. destruct (Rle_dec y q), (Rle_dec y q'), (Rlt_dec y q); nra.
Qed.
Lemma pinball_sub_le al q q' y : pinball al q y + (ind_le y q - al) * (q' - q) <= pinball al q' y.
Proof.
  unfold pinball, ind_le. destruct (Rle_dec y q), (Rle_dec y q'); nra.
Qed.
Lemma mean_sub n g (v : nat -> R) (h : nat -> R) al q q' : masses n g ->
  (forall j, pinball al q (v j) + (h j - al) * (q' - q) <= pinball al q' (v j)) ->
  mean_under n g (fun j => pinball al q (v j)) + (sumn n (fun j => g j * h j) - al) * (q' - q)
  <= mean_under n g (fun j => pinball al q' (v j)).
Proof.
  intros [H0 H1] H. unfold mean_under.
  replace ((sumn n (fun j => g j * h j) - al) * (q' - q))
    with (sumn n (fun j => g j * ((h j - al) * (q' - q)))).
  - rewrite <- sumn_plus. apply sumn_le. intros j Hj. specialize (H j). specialize (H0 j Hj). nra.
  - rewrite (sumn_ext n _ (fun j => (q' - q) * (g j * h j) - (q' - q) * al * g j)) by (intros; ring).
    rewrite sumn_minus, !sumn_scal, H1. ring.
Qed.
Lemma quantile_optimal n g v al q q' : masses n g -> is_quantile n g v al q ->
  mean_under n g (fun j => pinball al q (v j)) <= mean_under n g (fun j => pinball al q' (v j)).
Proof.
  intros Hg [H1 H2]. destruct (Rle_or_lt q q').
  - pose proof (mean_sub n g v (fun j => ind_le (v j) q) al q q' Hg (fun j => pinball_sub_le al q q' (v j))) as E.
    cbv beta in E. nra.
  - pose proof (mean_sub n g v (fun j => ind_lt (v j) q) al q q' Hg (fun j => pinball_sub_lt al q q' (v j))) as E.
    cbv beta in E. nra.
Qed.
(** conversely *)
Lemma gap_above n (v : nat -> R) q : exists e, 0 < e /\ forall j, (j < n)%nat -> q < v j -> q + e <= v j.
Proof.
  induction n as [|n (e & He & IH)]; [exists 1; split; [lra|intros; lia]|].
  destruct (Rlt_dec q (v n)).
  - exists (Rmin e (v n - q)). split; [apply Rmin_glb_lt; lra|]. intros j Hj Hq.
    pose proof (Rmin_l e (v n - q)). pose proof (Rmin_r e (v n - q)).
    destruct (Nat.eq_dec j n) as [->|]; [lra|]. specialize (IH j ltac:(lia) Hq). lra.
  - exists e. split; auto. intros j Hj Hq. destruct (Nat.eq_dec j n) as [->|]; [lra|]. apply IH; auto; lia.
Qed.
Lemma gap_below n (v : nat -> R) q : exists e, 0 < e /\ forall j, (j < n)%nat -> v j < q -> v j <= q - e.
Proof.
  destruct (gap_above n (fun j => - v j) (- q)) as (e & He & H). exists e. split; auto.
  intros j Hj Hq. specialize (H j Hj ltac:(lra)). lra.
Qed.
Lemma mean_lin n g (v h : nat -> R) al q d : masses n g ->
  (forall j, (j < n)%nat -> pinball al (q + d) (v j) = pinball al q (v j) + (h j - al) * d) ->
  mean_under n g (fun j => pinball al (q + d) (v j))
  = mean_under n g (fun j => pinball al q (v j)) + (sumn n (fun j => g j * h j) - al) * d.
Proof.
  intros [H0 H1] H. unfold mean_under.
  rewrite (sumn_ext n _ (fun j => g j * pinball al q (v j) + (d * (g j * h j) - d * al * g j)))
    by (intros; rewrite H by auto; ring).
  rewrite sumn_plus, sumn_minus, !sumn_scal, H1. ring.
Qed.
Lemma optimal_quantile n g v al q : masses n g ->
  (forall q', mean_under n g (fun j => pinball al q (v j)) <= mean_under n g (fun j => pinball al q' (v j))) ->
  is_quantile n g v al q.
Proof.
  intros Hg Hmin. split; apply Rnot_lt_le; intros Hc.
  - destruct (gap_below n v q) as (e & He & Hgap).
    pose proof (mean_lin n g v (fun j => ind_lt (v j) q) al q (- e) Hg) as E. cbv beta in E.
    assert (H := Hmin (q + - e)). rewrite E in H; [nra|].
    intros j Hj. unfold pinball, ind_lt. specialize (Hgap j Hj).
    destruct (Rle_dec (v j) q), (Rle_dec (v j) (q + - e)), (Rlt_dec (v j) q); try lra; nra.
  - destruct (gap_above n v q) as (e & He & Hgap).
    pose proof (mean_lin n g v (fun j => ind_le (v j) q) al q e Hg) as E. cbv beta in E.
    assert (H := Hmin (q + e)). rewrite E in H; [nra|].
    intros j Hj. unfold pinball, ind_le. specialize (Hgap j Hj).
    destruct (Rle_dec (v j) q), (Rle_dec (v j) (q + e)); try lra; try nra.
Qed.

(** ** squeezing *)
Lemma squeeze_shape_is s : squeeze_shape s = squeezed s.
Proof. induction s as [|d s IH]; simpl; auto. destruct (d =? 1)%nat; simpl; now rewrite IH. Qed.
Lemma unsqueeze_keep s i : inb s i -> unsqueeze_idx s (keep s i) = i.
Proof.
  revert i; induction s as [|d s IH]; intros [|k i]; simpl; try easy. intros [H1 H2].
  destruct (Nat.eqb_spec d 1); simpl; rewrite IH by auto; auto. f_equal; lia.
Qed.
Lemma ten_squeeze T d s f : ten_is T d s f -> returns_squeezed (asqueeze T) s f.
Proof.
  intros (a & -> & Hd & Hs & H). unfold asqueeze. cbn [bind]. eexists; split; [reflexivity|].
  cbn [sh at_]. rewrite Hs, squeeze_shape_is. split; auto.
  intros i Hi. rewrite unsqueeze_keep by auto. auto.
Qed.

(** ** [any] of a comparison with a level *)
Lemma any_cmp (T : tensor) (cmp : num -> num -> bool) s f v : ten_is T DInt s (fun i => b2n (cmp (f i) v)) ->
  exists b, aany T = Ok b /\ (b = true <-> exists i, inb s i /\ cmp (f i) v = true).
Proof.
  intros H. destruct (aany_spec _ _ _ _ H) as (b & E & Hb).
  exists b; split; auto. rewrite Hb. split; intros (i & Hi & E'); exists i; split; auto.
  - rewrite neqb_b2n in E'. now destruct (cmp _ _).
  - now rewrite neqb_b2n, E'.
Qed.

(** ** crps_quantile *)
Lemma pinball_row M yn xn an y x a : (0 < M)%nat -> yn = Fin y -> (forall k, (k < M)%nat -> xn k = Fin (x k)) ->
  (forall k, (k < M)%nat -> an k = Fin (a k)) ->
  row_pinball M yn xn an = Fin (2 / INR M * sumn M (fun k => pinball (a k) (x k) y)).
Proof.
  intros HM Hy Hx Ha. assert (INR M <> 0) by (apply not_0_INR; lia).
  unfold row_pinball. fin; auto. simpl (INR 2). simpl (INR 1).
  rewrite (sumn_ext M _ (fun k => pinball (a k) (x k) y)); [field; auto|].
  intros k Hk. rewrite pinball_le. ring.
Qed.
Lemma pinball_gu M yn xn an y x a : (0 < M)%nat -> yn = Fin y -> (forall k, (k < M)%nat -> xn k = Fin (x k)) ->
  (forall k, (k < M)%nat -> an k = Fin (a k)) ->
  quantile_pinball_k yn (rw M xn) (rw M an) = Fin (2 / INR M * sumn M (fun k => pinball (a k) (x k) y)).
Proof.
  intros HM Hy Hx Ha. assert (INR M <> 0) by (apply not_0_INR; lia).
  unfold quantile_pinball_k. rewrite rw_length. unfold rw at 1 2. rewrite combine_rw, fold_left_map.
  rewrite (fold_left_nadd (fun k => b2n (nltb (xn k) yn) .* an k .* (yn .- xn k)
                     .+ b2n (nleb yn (xn k)) .* (n1 .- an k) .* (xn k .- yn))).
  change (nsum (map ?f (seq 0 M))) with (nsumn M f).
  unfold n0, n1, n2. fin; auto.
  rewrite (sumn_ext M _ (fun k => pinball (a k) (x k) y)); [field; auto|].
  intros k Hk. rewrite pinball_lt. ring.
Qed.

Lemma level_any al d s f : arr_is al d s f ->
  (exists b, aany (Ok al <=? sci 0)%A = Ok b /\ (b = true <-> exists i, inb s i /\ nleb (f i) (Fin 0) = true)) /\
  (exists b, aany (sci 1 <=? Ok al)%A = Ok b /\ (b = true <-> exists i, inb s i /\ nleb (Fin 1) (f i) = true)).
Proof.
  intros H. split.
  - apply (any_cmp _ (fun a v => nleb a v)). eapply ten_conv; [ten|reflexivity|].
    intros i Hi. bidx_simp. reflexivity.
  - apply (any_cmp _ (fun a v => nleb v a) s f (Fin 1)). eapply ten_conv; [ten|reflexivity|].
    intros i Hi. bidx_simp. reflexivity.
Qed.
Lemma level_any_s al d s f : arr_is al d s f ->
  (exists b, aany (Ok al <? sci 0)%A = Ok b /\ (b = true <-> exists i, inb s i /\ nltb (f i) (Fin 0) = true)) /\
  (exists b, aany (sci 1 <? Ok al)%A = Ok b /\ (b = true <-> exists i, inb s i /\ nltb (Fin 1) (f i) = true)).
Proof.
  intros H. split.
  - apply (any_cmp _ (fun a v => nltb a v)). eapply ten_conv; [ten|reflexivity|].
    intros i Hi. bidx_simp. reflexivity.
  - apply (any_cmp _ (fun a v => nltb v a) s f (Fin 1)). eapply ten_conv; [ten|reflexivity|].
    intros i Hi. bidx_simp. reflexivity.
Qed.
Lemma rleb_iff a b : nleb (Fin a) (Fin b) = true <-> a <= b.
Proof. apply rleb_true. Qed.
Lemma rltb_iff a b : nltb (Fin a) (Fin b) = true <-> a < b.
Proof. apply rltb_true. Qed.

Lemma quantile_value be obs fct al ax s p M y x a : ens_args obs fct ax s p M y x -> (0 < M)%nat ->
  real_arr al (M :: nil) a -> (forall k, (k < M)%nat -> 0 < a (k :: nil) < 1) -> (be = Numba -> dt obs = DFloat) ->
  returns (crps_quantile be obs fct al ax) s
    (fun r => Fin (2 / INR M * sumn M (fun k => pinball (a (k :: nil)) (member p x r k) (y r)))).
Proof.
  intros Ha HM Hal Hl Hd. pose proof (nums_inputs _ _ _ _ _ _ _ _ (args_nums _ _ _ _ _ _ _ _ Ha)) as Hin.
  destruct (check_in _ _ _ _ _ _ _ _ _ _ Hin) as (f' & E & Hf').
  pose proof (real_arr_is _ _ _ Hal) as Hal'.
  unfold crps_quantile. rewrite E. cbn [bind].
  destruct (level_any _ _ _ _ Hal') as ((b1 & E1 & H1) & (b2 & E2 & H2)). rewrite E1, E2. cbn [bind].
  assert (b1 = false) as ->.
  { destruct b1; auto. destruct H1 as [H1 _]. destruct (H1 eq_refl) as (i & Hi & Hc).
    apply rleb_iff in Hc. idx. specialize (Hl k Hk). lra. }
  assert (b2 = false) as ->.
  { destruct b2; auto. destruct H2 as [H2 _]. destruct (H2 eq_refl) as (i & Hi & Hc).
    apply rleb_iff in Hc. idx. specialize (Hl k Hk). lra. }
  cbn [orb]. unfold pyshape. destruct Hal' as (_ & Hs & _). rewrite Hs.
  change (py_index (-1) (rev (M :: nil))) with (@Ok nat M). cbn [bind].
  unfold lastdim. pose proof Hf' as (_ & Hsf & _). rewrite Hsf. cbn [hd]. rewrite Nat.eqb_refl. cbn [negb].
  pose proof (real_arr_is _ _ _ Hal) as Hal'. destruct Hin as (Ho & _).
  destruct be.
  - eexists. eapply ten_conv; [eapply pinball_arr; eauto|reflexivity|].
    intros r Hr. cbv beta. apply pinball_row; auto.
  - eexists. eapply ten_conv; [eapply gu_svv1_is; [apply outs_lazy|eauto..]|reflexivity|].
    intros r Hr. cbv beta. rewrite ncast_id by auto. apply pinball_gu; auto.
Qed.
Lemma quantile_level be obs fct al ax s p M y x sa a : ens_args obs fct ax s p M y x ->
  real_arr al sa a -> (exists i, inb sa i /\ (a i <= 0 \/ 1 <= a i)) ->
  raises (crps_quantile be obs fct al ax) ValueError.
Proof.
  intros Ha Hal (i & Hi & Hc). pose proof (nums_inputs _ _ _ _ _ _ _ _ (args_nums _ _ _ _ _ _ _ _ Ha)) as Hin.
  destruct (check_in _ _ _ _ _ _ _ _ _ _ Hin) as (f' & E & Hf').
  pose proof (real_arr_is _ _ _ Hal) as Hal'.
  unfold raises, crps_quantile. rewrite E. cbn [bind].
  destruct (level_any _ _ _ _ Hal') as ((b1 & E1 & H1) & (b2 & E2 & H2)). rewrite E1, E2. cbn [bind].
  replace (b1 || b2) with true; auto. symmetry. apply orb_true_intro.
  destruct Hc; [left; apply H1|right; apply H2]; exists i; split; auto; now apply rleb_iff.
Qed.
Lemma quantile_length be obs fct al ax s p M y x sa K a : ens_args obs fct ax s p M y x ->
  real_arr al (K :: sa) a -> K <> M -> raises (crps_quantile be obs fct al ax) ValueError.
Proof.
  intros Ha Hal HK. pose proof (nums_inputs _ _ _ _ _ _ _ _ (args_nums _ _ _ _ _ _ _ _ Ha)) as Hin.
  destruct (check_in _ _ _ _ _ _ _ _ _ _ Hin) as (f' & E & Hf').
  pose proof (real_arr_is _ _ _ Hal) as Hal'.
  unfold raises, crps_quantile. rewrite E. cbn [bind].
  destruct (level_any _ _ _ _ Hal') as ((b1 & E1 & H1) & (b2 & E2 & H2)). rewrite E1, E2. cbn [bind].
  destruct (b1 || b2); auto. unfold pyshape. destruct Hal' as (_ & Hs & _). rewrite Hs. cbn [rev].
  replace (py_index (-1) (rev sa ++ K :: nil)) with (@Ok nat K).
  - cbn [bind]. unfold lastdim. pose proof Hf' as (_ & Hsf & _). rewrite Hsf. cbn [hd].
    destruct (Nat.eqb_spec M K); [congruence|reflexivity].
  - unfold py_index. rewrite app_length, rev_length. cbn [length].
    replace (-1 <? 0)%Z with true by reflexivity.
    replace (Z.of_nat (length sa + 1) + -1)%Z with (Z.of_nat (length sa)) by lia.
    replace ((0 <=? Z.of_nat (length sa))%Z && (Z.of_nat (length sa) <? Z.of_nat (length sa + 1))%Z)%bool with true
      by (symmetry; apply andb_true_intro; split; [apply Z.leb_le|apply Z.ltb_lt]; lia).
    rewrite Nat2Z.id, nth_error_app2 by (rewrite rev_length; lia). now rewrite rev_length, Nat.sub_diag.
Qed.
Lemma pinball_midpoints M y x : (0 < M)%nat -> ascending M x ->
  2 / INR M * sumn M (fun k => pinball ((INR k + / 2) / INR M) (x k) y) = exact_crps M y x.
Proof.
  intros HM Ha. assert (INR M <> 0) by (apply not_0_INR; lia).
  apply Fin_inj. rewrite <- (row_qd_real M (Fin y) (fun k => Fin (x k)) y x HM eq_refl (fun k _ => eq_refl) Ha).
  symmetry. unfold row_qd. fin; [rewrite mult_INR; auto|].
  rewrite mult_INR. simpl (INR 2). unfold Rdiv. rewrite <- sumn_scal_r, <- !sumn_scal.
  apply sumn_ext. intros k Hk. rewrite pinball_le, plus_INR. simpl (INR 1). unfold half. field; auto.
Qed.
