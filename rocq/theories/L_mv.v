(** Lemmas for the multivariate scores: input checks, norms, gufunc calls. *)
From Verif Require Export M_mv S_mv L_crps_math L_crps_api L_crps_more.
From Verif Require Import L_fin.
Open Scope nat_scope.

(** ** array operations *)
Lemma ten_norm x d m s g : ten_is x d (m :: s) g ->
  ten_is (anorm x) DFloat s (fun r => nsqrt (nsumn m (fun k => nsq (g (k :: r))))).
Proof.
  intros H. eapply ten_ext; [apply (ten_reduce dfloat1 nnorm _ _ _ _ _ H)|].
  intros i Hi; unfold nnorm. now rewrite map_map.
Qed.
Lemma ten_expand2 x d m n s g : ten_is x d (m :: n :: s) g ->
  ten_is (aexpand 2 x) d (m :: n :: 1 :: s) (fun i => g (hd 0 i :: hd 0 (tl i) :: tl (tl (tl i)))).
Proof.
  intros H. eapply ten_ext; [apply (ten_expand 2 x d (m :: n :: s) g H); simpl; lia|].
  intros i Hi; simpl in Hi. idx. reflexivity.
Qed.
Lemma ten_roll2 n x d m k s g : ten_is x d (k :: m :: s) g ->
  ten_is (aroll2 n x) d (k :: m :: s)
    (fun i => g (hd 0 i :: (hd 0 (tl i) + m - n mod m) mod m :: tl (tl i))).
Proof.
  intros (a & -> & Hd & Hs & Hg). unfold aroll2; cbn [bind]. rewrite Hs.
  eexists; split; [reflexivity|]. repeat split; cbn [sh dt at_]; auto.
  intros i Hi. idx. cbn [hd tl]. apply Hg. repeat split; auto. apply Nat.mod_upper_bound; lia.
Qed.
Lemma ten_mean2 x d m n s g : ten_is x d (m :: n :: s) g ->
  ten_is (amean2 x) DFloat s
    (fun r => ndiv (nsumn n (fun i => nsumn m (fun j => g (j :: i :: r)))) (nofnat (m * n))).
Proof.
  intros H. pose proof H as (a & -> & Hd & Hs & Hg). unfold amean2; cbn [bind]. rewrite Hs.
  eapply ten_conv; [apply ten_bin_scr; eapply ten_sum2; exact H|dts|reflexivity].
Qed.

Ltac ten1 ::=
  match goal with
  | H : ten_is ?T _ _ _ |- ten_is ?T _ _ _ => exact H
  | |- ten_is (anorm _) _ _ _ => eapply ten_norm
  | |- ten_is (aexpand 2 _) _ _ _ => eapply ten_expand2
  | |- ten_is (aroll2 _ _) _ _ _ => eapply ten_roll2
  | |- ten_is (amean2 _) _ _ _ => eapply ten_mean2
  | |- ten_is (asum2 _) _ _ _ => eapply ten_sum2
  | |- ten_is (asum _) _ _ _ => eapply ten_sum
  | |- ten_is (amean _) _ _ _ => eapply ten_mean
  | |- ten_is (asum_keep _) _ _ _ => eapply ten_sum_keep
  | |- ten_is (amean_keep _) _ _ _ => eapply ten_mean_keep
  | |- ten_is (aexpand 0 _) _ _ _ => eapply ten_expand0
  | |- ten_is (aexpand 1 _) _ _ _ => eapply ten_expand1
  | |- ten_is (aroll _ _) _ _ _ => eapply ten_roll
  | |- ten_is (sci _) _ _ _ => eapply ten_sc
  | |- ten_is (sc _) _ _ _ => eapply ten_sc
  | |- ten_is (scn _) _ _ _ => eapply ten_sc
  | |- ten_is (amap _ _ _) _ _ _ => eapply ten_map
  | |- ten_is (aabs _) _ _ _ => eapply ten_map
  | |- ten_is (aneg _) _ _ _ => eapply ten_map
  | |- ten_is (asq _) _ _ _ => eapply ten_map
  | |- ten_is (aexp _) _ _ _ => eapply ten_map
  | |- ten_is (asqrt _) _ _ _ => eapply ten_map
  | |- ten_is (aadd _ _) _ _ _ => eapply ten_bin
  | |- ten_is (asub _ _) _ _ _ => eapply ten_bin
  | |- ten_is (amul _ _) _ _ _ => eapply ten_bin
  | |- ten_is (adiv _ _) _ _ _ => eapply ten_bin
  | |- ten_is (apow _ _) _ _ _ => eapply ten_bin
  | |- ten_is (alt _ _) _ _ _ => eapply ten_bin
  | |- ten_is (ainplace _ _ _) _ _ _ => eapply ten_inplace
  | H : arr_is ?a _ _ _ |- ten_is (Ok ?a) _ _ _ => exact (ten_Ok _ _ _ _ H)
  | |- bshape _ _ = Some _ => bsolve
  | |- djoin _ _ = _ => solve [reflexivity | dts]
  | |- forall i, inb _ i -> _ = ?g i =>
      is_evar g; intros; cbv beta; reflexivity
  end.

(** computed values, looking through the broadcast indices *)
Lemma fv_sqrt a r : a = Fin r -> (0 <= r)%R -> nsqrt a = Fin (sqrt r).
Proof. intros -> H. now apply nsqrt_Fin. Qed.
Ltac finv ::=
  lazymatch goal with
  | |- nadd _ _ = _ => eapply fv_add; finv
  | |- nsub _ _ = _ => eapply fv_sub; finv
  | |- nmul _ _ = _ => eapply fv_mul; finv
  | |- ndiv _ _ = _ => eapply fv_div; [finv|finv|]
  | |- nabs _ = _ => eapply fv_abs; finv
  | |- nopp _ = _ => eapply fv_opp; finv
  | |- nsq _ = _ => eapply fv_sq; finv
  | |- nsqrt _ = _ => eapply fv_sqrt; [finv|]
  | |- nexp _ = _ => eapply fv_exp; finv
  | |- nofnat _ = _ => apply fv_nat
  | |- Fin _ = _ => bidx_simp; cbn [hd tl]; apply fv_refl
  | |- nsumn _ _ = _ => eapply nsumn_Fin; let k := fresh "k" in let Hk := fresh "Hk" in intros k Hk; finv
  | |- upper _ _ _ = _ => eapply upper_Fin; let k := fresh "k" in let Hk := fresh "Hk" in intros k Hk; finv
  | H : forall k, (k < ?n)%nat -> ?f k = Fin (@?g k) |- ?f _ = _ => first [eapply H; lia | eapply H]
  | H : forall k, ?f k = Fin (@?g k) |- ?f _ = _ => eapply H
  | H : ?a = Fin _ |- ?a = Fin _ => exact H
  | _ => idtac
  end.

(** ** the axes *)
Lemma ens_axis_norm ax n p : ens_axis ax n p -> p <= n -> norm_axis ax (S n) = Ok (n - p).
Proof.
  intros [->| ->] H.
  - replace (- Z.of_nat p - 1)%Z with (Z.of_nat (n - p) - Z.of_nat (S n))%Z by lia.
    apply norm_axis_neg; lia.
  - replace (Z.of_nat n - Z.of_nat p)%Z with (Z.of_nat (n - p)) by lia. apply norm_axis_nat; lia.
Qed.
Lemma ens_axis_shift ax n p a : ens_axis ax n p -> p <= n -> length (sh a) = S n ->
  shift_axis ax a = Z.of_nat (n - p).
Proof.
  intros H Hp Hl. destruct (norm_axis_shift _ _ _ (ens_axis_norm _ _ _ H Hp)) as [_ E].
  unfold shift_axis. now rewrite Hl.
Qed.

Lemma shape_check_ok obs fct p M s : sh obs = s -> sh fct = insert_at p M s -> p <= length s ->
  shape_compatibility_check obs fct (Z.of_nat (length s - p)) = Ok tt.
Proof.
  intros Hso Hs Hp. set (k := length s - p).
  unfold shape_compatibility_check, pyshape. rewrite Hs, Hso, (rev_insert p M s Hp).
  fold k. rewrite (py_index_nat k _ M).
  2:{ rewrite nth_error_app2; rewrite firstn_length, rev_length; [|lia].
      replace (k - Nat.min k (length s)) with 0 by lia. reflexivity. }
  cbn [bind]. unfold py_take, py_drop. rewrite rev_length, py_pos_nat by lia.
  now rewrite shape_eqb_refl.
Qed.

Lemma mv_check_ok obs fct d1 d2 m v s p q M D y x :
  arr_is obs d1 (insert_at q D s) y -> arr_is fct d2 (insert_at p M (insert_at q D s)) x ->
  q <= length s -> p <= S (length s) ->
  ens_axis m (S (length s)) p -> ens_axis v (S (length s)) (vpos p q) ->
  exists obs' fct', multivariate_array_check obs fct m v = Ok (obs', fct') /\
    arr_is obs' d1 (D :: s) (fun i => y (insert_at q (hd 0 i) (tl i))) /\
    arr_is fct' d2 (D :: M :: s) (fun i => x (insert_at p (hd 0 (tl i)) (insert_at q (hd 0 i) (tl (tl i))))).
Proof.
  intros Ho Hf Hq Hp Hm Hv.
  assert (Hvp : vpos p q <= S (length s)) by (unfold vpos; destruct (Nat.ltb_spec q p); lia).
  pose proof Hf as (_ & Hs & _). pose proof Ho as (_ & Hso & _).
  assert (Hl : length (sh fct) = S (S (length s))) by now rewrite Hs, !insert_at_length.
  unfold multivariate_array_check.
  rewrite (ens_axis_shift _ _ _ fct Hm Hp Hl), (ens_axis_shift _ _ _ fct Hv Hvp Hl).
  pose proof (shape_check_ok obs fct p M (insert_at q D s) Hso Hs) as Hc.
  rewrite insert_at_length in Hc. rewrite (Hc Hp).
  cbn [bind]. unfold multivariate_shape_permute, amove_last2. cbn [bind]. rewrite Hl.
  rewrite !norm_axis_nat by lia. cbn [bind].
  assert (Hne : (S (length s) - p =? S (length s) - vpos p q) = false)
    by (apply Nat.eqb_neq; unfold vpos; destruct (Nat.ltb_spec q p); lia).
  rewrite Hne.
  assert (Hv' : (if S (length s) - p <? S (length s) - vpos p q
                 then S (length s) - vpos p q - 1 else S (length s) - vpos p q) = length s - q).
  { unfold vpos. destruct (Nat.ltb_spec q p).
    - destruct (Nat.ltb_spec (S (length s) - p) (S (length s) - q)); lia.
    - destruct (Nat.ltb_spec (S (length s) - p) (S (length s) - S q)); lia. }
  rewrite Hv'.
  pose proof (ten_move_last (Z.of_nat (S (length s) - p)) (Ok fct) d2 p M (insert_at q D s) x
    (ten_Ok _ _ _ _ Hf)) as H1.
  rewrite insert_at_length in H1. specialize (H1 Hp ltac:(apply norm_axis_nat; lia)).
  change (M :: insert_at q D s) with (insert_at (S q) D (M :: s)) in H1.
  pose proof (ten_move_last (Z.of_nat (length s - q)) _ d2 (S q) D (M :: s) _ H1) as H2.
  simpl length in H2. specialize (H2 ltac:(lia)).
  rewrite norm_axis_nat in H2 by lia. specialize (H2 ltac:(f_equal; lia)).
  destruct H2 as (f' & E' & H2). rewrite E'. cbn [bind].
  assert (Hvo : (if (Z.of_nat (S (length s) - p) <? Z.of_nat (S (length s) - vpos p q))%Z
                 then (Z.of_nat (S (length s) - vpos p q) - 1)%Z
                 else Z.of_nat (S (length s) - vpos p q)) = Z.of_nat (length s - q)).
  { unfold vpos. destruct (Nat.ltb_spec q p).
    - destruct (Z.ltb_spec (Z.of_nat (S (length s) - p)) (Z.of_nat (S (length s) - q))); lia.
    - destruct (Z.ltb_spec (Z.of_nat (S (length s) - p)) (Z.of_nat (S (length s) - S q))); lia. }
  rewrite Hvo.
  destruct (ten_move_last (Z.of_nat (length s - q)) (Ok obs) d1 q D s y (ten_Ok _ _ _ _ Ho) Hq
    ltac:(apply norm_axis_nat; lia)) as (o' & Eo & H3). rewrite Eo. cbn [bind].
  exists o', f'. split; [reflexivity|]. split; [exact H3|].
  eapply arr_is_ext; [exact H2|]. intros i Hi. idx. reflexivity.
Qed.

(** ** weights *)
Lemma mv_weight_ok wt fct d dw D M s p pw w m :
  sh fct = D :: M :: s -> arr_is wt dw (insert_at pw M s) (fun i => Fin (w i)) ->
  p = S pw -> p <= S (length s) ->
  ens_axis m (S (length s)) p ->
  (forall r k, inb s r -> k < M -> (0 <= member pw w r k)%R) ->
  (forall r, inb s r -> (0 < sumn M (member pw w r))%R) -> d = DFloat ->
  exists wt', multivariate_weight_check wt fct m = Ok wt' /\
    arr_is wt' d (M :: s) (fun i => Fin (nw M (member pw w (tl i)) (hd 0 i))).
Proof.
  intros Hs Hw Hqp Hp Hm Hnn Hpos ->. unfold multivariate_weight_check.
  rewrite (ens_axis_shift _ _ _ fct Hm Hp) by now rewrite Hs.
  assert (Hp' : pw <= length s) by lia.
  destruct (ten_move_last (Z.of_nat (S (length s) - p)) (Ok wt) dw pw M s _
    (ten_Ok _ _ _ _ Hw) Hp') as (w' & E' & H').
  { rewrite norm_axis_nat by lia. f_equal; lia. }
  rewrite E'. cbn [bind]. pose proof H' as (_ & Hs' & _). rewrite Hs', Hs. cbn [tl].
  rewrite shape_eqb_refl. cbn [negb].
  destruct (aany_spec (Ok w' <? sci 0)%A DInt (M :: s)
    (fun i => b2n (nltb (Fin (member pw w (tl i) (hd 0 i))) (Fin 0)))) as (b & Eb & Hb).
  { eapply ten_conv; [eapply ten_bin_scr; apply ten_Ok; exact H' | reflexivity |].
    intros i Hi. reflexivity. }
  rewrite Eb. cbn [bind].
  destruct b.
  { destruct Hb as [Hb _]. destruct (Hb eq_refl) as (i & Hi & E). idx. cbn [hd tl] in E.
    specialize (Hnn r k Hr Hk). rewrite neqb_b2n in E. unfold nltb in E.
    destruct (rltb (member pw w r k) 0) eqn:El; [|discriminate]. apply rltb_true in El. lra. }
  assert (T : ten_is (Ok w' / asum_keep (Ok w'))%A DFloat (M :: s)
     (fun i => Fin (nw M (member pw w (tl i)) (hd 0 i)))).
  { eapply ten_conv; [eapply ten_bin; [apply ten_Ok; exact H' | eapply ten_sum_keep; apply ten_Ok; exact H'
      | bsolve | intros; reflexivity] | reflexivity |].
    intros i Hi. idx. cbn [hd tl]. bidx_simp. cbn [hd tl]. specialize (Hpos r Hr).
    unfold nw. rewrite (nsumn_Fin M _ (member pw w r)) by reflexivity.
    rewrite ndiv_Fin by lra. reflexivity. }
  destruct T as (a & Ea & Ha). exists a. auto.
Qed.

(** ** gufunc calls *)
Definition mrw (M D : nat) (x : nat -> nat -> num) : list (list num) := map (fun j => rw D (x j)) (seq 0 M).
Lemma mrw_length M D x : length (mrw M D x) = M.
Proof. unfold mrw. now rewrite map_length, seq_length. Qed.
Lemma mrw_ith M D x i : i < M -> ithv (mrw M D x) i = rw D (x i).
Proof.
  intros H. unfold ithv, mrw. rewrite (nth_indep _ [] (rw D (x 0))) by (rewrite map_length, seq_length; lia).
  rewrite (map_nth (fun j => rw D (x j))), seq_nth by lia. reflexivity.
Qed.
Lemma gM_is a d D M s f r : arr_is a d (D :: M :: s) f -> inb s r ->
  gM a r = mrw M D (fun j k => f (k :: j :: r)).
Proof.
  intros (_ & Hs & H) Hr. unfold gM. rewrite Hs. cbn [tl hd]. rewrite (bidx_id _ _ Hr).
  apply map_ext_in. intros j Hj; apply in_seq in Hj.
  apply map_ext_in. intros k Hk; apply in_seq in Hk. apply H. repeat split; auto; lia.
Qed.
Definition outs_mv (out : arr -> list nat -> (list nat -> num) -> tensor) : Prop :=
  forall obs D s y f, 0 < D -> arr_is obs DFloat (D :: s) y ->
    ten_is (out obs s f) DFloat s f.
Lemma outs_lazy_mv : outs_mv out_lazy_mv.
Proof.
  intros obs D s y f HD (Hd & Hs & H). unfold out_lazy_mv, gout_like_mv. rewrite Hs, Hd.
  destruct D; [lia|]. destruct (list_eq_dec Nat.eq_dec s s); [|easy]. apply ten_Ok. repeat split.
Qed.
Lemma outs_float_mv : outs_mv out_float_mv.
Proof.
  intros obs D s y f HD (Hd & Hs & H). unfold out_float_mv. rewrite Hd. cbn [dtype_eqb].
  apply (outs_lazy_mv obs D s y f HD); repeat split; auto.
Qed.
Ltac gu_tac Ho H1 H2 :=
  pose proof H1 as (_ & Hs1 & _); rewrite Hs1; cbn [bind check andb];
  pose proof H2 as (_ & Hs2 & _); rewrite Hs2; cbn [bind check andb].
Lemma gu_vm_is out k obs fct d2 D M s y x : outs_mv out -> 0 < D ->
  arr_is obs DFloat (D :: s) y -> arr_is fct d2 (D :: M :: s) x ->
  ten_is (gu_vm out k obs fct) DFloat s
    (fun r => k (rw D (fun j => y (j :: r))) (mrw M D (fun i j => x (j :: i :: r)))).
Proof.
  intros Ho HD H1 H2. unfold gu_vm, gcore1, gcore2. gu_tac Ho H1 H2.
  rewrite Nat.eqb_refl; cbn [bind check andb]. rewrite (gloop_same s) by (repeat constructor; easy).
  cbn [bind]. eapply ten_ext; [apply (Ho obs D s y _ HD H1)|].
  intros r Hr; cbv beta. now rewrite (gV_is _ _ _ _ _ _ H1 Hr), (gM_is _ _ _ _ _ _ _ H2 Hr).
Qed.
Lemma gu_vmv_is out k obs fct w d2 d3 D M s y x wf : outs_mv out -> 0 < D ->
  arr_is obs DFloat (D :: s) y -> arr_is fct d2 (D :: M :: s) x -> arr_is w d3 (M :: s) wf ->
  ten_is (gu_vmv out k obs fct w) DFloat s
    (fun r => k (rw D (fun j => y (j :: r))) (mrw M D (fun i j => x (j :: i :: r)))
                (rw M (fun i => wf (i :: r)))).
Proof.
  intros Ho HD H1 H2 H3. unfold gu_vmv, gcore1, gcore2. gu_tac Ho H1 H2.
  pose proof H3 as (_ & Hs3 & _); rewrite Hs3; cbn [bind check andb].
  rewrite !Nat.eqb_refl; cbn [bind check andb]. rewrite (gloop_same s) by (repeat constructor; easy).
  cbn [bind]. eapply ten_ext; [apply (Ho obs D s y _ HD H1)|].
  intros r Hr; cbv beta.
  now rewrite (gV_is _ _ _ _ _ _ H1 Hr), (gM_is _ _ _ _ _ _ _ H2 Hr), (gV_is _ _ _ _ _ _ H3 Hr).
Qed.
Lemma gu_vmsv_is out k obs fct ow fw d2 d3 d4 D M s y x a w : outs_mv out -> 0 < D ->
  arr_is obs DFloat (D :: s) y -> arr_is fct d2 (D :: M :: s) x ->
  arr_is ow d3 s a -> arr_is fw d4 (M :: s) w ->
  ten_is (gu_vmsv out k obs fct ow fw) DFloat s
    (fun r => k (rw D (fun j => y (j :: r))) (mrw M D (fun i j => x (j :: i :: r)))
                (a r) (rw M (fun i => w (i :: r)))).
Proof.
  intros Ho HD H1 H2 H3 H4. unfold gu_vmsv, gcore1, gcore2. gu_tac Ho H1 H2.
  pose proof H4 as (_ & Hs4 & _); rewrite Hs4; cbn [bind check andb].
  pose proof H3 as (_ & Hs3 & _); rewrite Hs3.
  rewrite !Nat.eqb_refl; cbn [bind check andb]. rewrite (gloop_same s) by (repeat constructor; easy).
  cbn [bind]. eapply ten_ext; [apply (Ho obs D s y _ HD H1)|].
  intros r Hr; cbv beta.
  now rewrite (gV_is _ _ _ _ _ _ H1 Hr), (gM_is _ _ _ _ _ _ _ H2 Hr), (gS_is _ _ _ _ _ H3 Hr),
    (gV_is _ _ _ _ _ _ H4 Hr).
Qed.

(** ** norms *)
Open Scope R_scope.
Lemma fv_norm n f g : (forall k, (k < n)%nat -> f k = Fin (g k)) ->
  nsqrt (nsumn n (fun k => nsq (f k))) = Fin (sqrt (sumn n (fun k => g k * g k))).
Proof.
  intros H. rewrite (nsumn_Fin n _ (fun k => g k * g k)) by (intros k Hk; now rewrite H).
  apply nsqrt_Fin, sumn_nonneg. intros; nra.
Qed.
Lemma sq_pow2 n u v : sumn n (fun k => (u k - v k) * (u k - v k)) = sumn n (fun k => (u k - v k) ^ 2).
Proof. apply sumn_ext; intros; ring. Qed.
Lemma vsub_rw D u v : vsub (rw D u) (rw D v) = rw D (fun k => nsub (u k) (v k)).
Proof.
  unfold vsub, rw. rewrite <- (map_id (seq 0 D)) at 1 2. rewrite !map_map.
  generalize (seq 0 D). induction l; simpl; congruence.
Qed.
Lemma nnorm_rw D u : nnorm (rw D u) = nsqrt (nsumn D (fun k => nsq (u k))).
Proof. unfold nnorm, rw. now rewrite map_map. Qed.
Lemma nnorm_vsub D u v f g : (forall k, (k < D)%nat -> u k = Fin (f k)) ->
  (forall k, (k < D)%nat -> v k = Fin (g k)) -> nnorm (vsub (rw D u) (rw D v)) = Fin (eucl D f g).
Proof.
  intros H1 H2. rewrite vsub_rw, nnorm_rw. unfold eucl. rewrite <- sq_pow2.
  apply fv_norm. intros k Hk. now rewrite H1, H2.
Qed.
Lemma nnorm_real D u f : (forall k, (k < D)%nat -> u k = Fin (f k)) -> nnorm (rw D u) = Fin (enorm D f).
Proof.
  intros H. rewrite nnorm_rw. unfold enorm. erewrite fv_norm by exact H.
  do 2 f_equal. apply sumn_ext; intros; ring.
Qed.
Lemma eucl_sym D u v : eucl D u v = eucl D v u.
Proof. unfold eucl. f_equal. apply sumn_ext; intros; ring. Qed.
Lemma eucl_refl D u : eucl D u u = 0.
Proof.
  unfold eucl. rewrite (sumn_ext D _ (fun _ => 0)) by (intros; ring). rewrite sumn_zero. apply sqrt_0.
Qed.
Lemma eucl_nonneg D u v : 0 <= eucl D u v. Proof. apply sqrt_pos. Qed.
Lemma eucl_ext D u v u' v' : (forall k, (k < D)%nat -> u k = u' k) -> (forall k, (k < D)%nat -> v k = v' k) ->
  eucl D u v = eucl D u' v'.
Proof. intros H1 H2. unfold eucl. f_equal. apply sumn_ext; intros; now rewrite H1, H2. Qed.
Lemma eucl_1 u v : eucl 1 u v = Rabs (u 0%nat - v 0%nat).
Proof.
  unfold eucl, sumn, Rsum. simpl. rewrite <- sqrt_Rsqr_abs. f_equal. unfold Rsqr. ring.
Qed.
