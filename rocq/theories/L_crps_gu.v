(** The numba kernels of the CRPS, as sums over the row. *)
From Verif Require Export L_crps_arr.
Open Scope nat_scope.

(** ** gufunc calls *)
Lemma bshape_abs s : bshape s s = Some s.
Proof. apply bshape_refl. Qed.
Lemma gloop_same s l : Forall (fun t => t = s) l -> l <> [] -> gloop l = Ok s.
Proof.
  intros H Hl. destruct l as [|t l]; [easy|]. clear Hl. revert t H.
  induction l as [|u l IH]; intros t H.
  - inversion H; subst. unfold gloop; simpl. now rewrite bshape_nil_r.
  - inversion H; subst. pose proof (IH u H3) as E. unfold gloop in *. cbn [fold_right] in *.
    rewrite E. simpl. now rewrite bshape_refl.
Qed.
Lemma gS_is a d s f r : arr_is a d s f -> inb s r -> gS a r = f r.
Proof. intros (_ & Hs & H) Hr. unfold gS. rewrite Hs, (bidx_id _ _ Hr). auto. Qed.
Lemma gV_is a d m s f r : arr_is a d (m :: s) f -> inb s r ->
  gV a r = map (fun k => f (k :: r)) (seq 0 m).
Proof.
  intros (_ & Hs & H) Hr. unfold gV. rewrite Hs. cbn [tl hd]. rewrite (bidx_id _ _ Hr).
  apply map_ext_in. intros k Hk; apply in_seq in Hk. apply H. split; [lia|auto].
Qed.
(** a one-dimensional core argument shared by all loop positions *)
Lemma gV_is1 a d m f r : arr_is a d [m] f -> gV a r = map (fun k => f [k]) (seq 0 m).
Proof.
  intros (_ & Hs & H). unfold gV. rewrite Hs. cbn [tl hd bidx].
  apply map_ext_in. intros k Hk; apply in_seq in Hk. apply H. simpl; split; [lia|auto].
Qed.

(** what is stored: [out_own] keeps the value, [out_lazy] casts it to the dtype of obs *)
Definition outs (out : arr -> list nat -> (list nat -> num) -> tensor) (od : dtype -> dtype) : Prop :=
  forall obs d s y f, arr_is obs d s y ->
    ten_is (out obs s f) (od d) s (fun r => ncast (od d) (f r)).
Lemma outs_own : outs out_own dfloat1.
Proof. intros obs d s y f H. apply ten_Ok. repeat split. Qed.
Lemma outs_lazy : outs out_lazy (fun d => d).
Proof.
  intros obs d s y f (Hd & Hs & H). unfold out_lazy, gout_like. rewrite Hs.
  destruct (list_eq_dec Nat.eq_dec s s); [|easy]. rewrite Hd. apply ten_Ok. repeat split.
Qed.

Definition rw (M : nat) (x : nat -> num) : list num := map x (seq 0 M).
Lemma rw_ext M x x' : (forall k, k < M -> x k = x' k) -> rw M x = rw M x'.
Proof. intros H. apply map_ext_in. intros k Hk. apply in_seq in Hk. apply H; lia. Qed.
Lemma rw_length M x : length (rw M x) = M.
Proof. unfold rw. now rewrite map_length, seq_length. Qed.
Lemma rw_nth M x k d : k < M -> nth k (rw M x) d = x k.
Proof.
  intros H. unfold rw. rewrite (nth_indep _ d (x 0)) by (rewrite map_length, seq_length; lia).
  rewrite map_nth, seq_nth by lia. reflexivity.
Qed.
Lemma rw_ith M x k : k < M -> ith (rw M x) k = x k.
Proof. apply rw_nth. Qed.

Lemma gu_sv_is out od k obs fct d1 d2 M s y x : outs out od ->
  arr_is obs d1 s y -> arr_is fct d2 (M :: s) x ->
  ten_is (gu_sv out k obs fct) (od d1) s
    (fun r => ncast (od d1) (k (y r) (rw M (fun j => x (j :: r))))).
Proof.
  intros Ho H1 H2. unfold gu_sv, gcore1. pose proof H2 as (_ & Hs & _). rewrite Hs. cbn [bind check andb].
  pose proof H1 as (_ & Hs1 & _). rewrite Hs1. rewrite (gloop_same s) by (repeat constructor; easy).
  cbn [bind check andb]. eapply ten_ext; [apply (Ho obs d1 s y _ H1)|].
  intros r Hr; cbv beta. rewrite (gS_is _ _ _ _ _ H1 Hr), (gV_is _ _ _ _ _ _ H2 Hr). reflexivity.
Qed.
Lemma gu_svv_is out od k obs fct w d1 d2 d3 M s y x wf : outs out od ->
  arr_is obs d1 s y -> arr_is fct d2 (M :: s) x -> arr_is w d3 (M :: s) wf ->
  ten_is (gu_svv out k obs fct w) (od d1) s
    (fun r => ncast (od d1) (k (y r) (rw M (fun j => x (j :: r))) (rw M (fun j => wf (j :: r))))).
Proof.
  intros Ho H1 H2 H3. unfold gu_svv, gcore1. pose proof H2 as (_ & Hs & _). rewrite Hs. cbn [bind check andb].
  pose proof H3 as (_ & Hs3 & _). rewrite Hs3. cbn [bind check andb]. rewrite Nat.eqb_refl; cbn [bind check andb].
  pose proof H1 as (_ & Hs1 & _). rewrite Hs1. rewrite (gloop_same s) by (repeat constructor; easy).
  cbn [bind check andb]. eapply ten_ext; [apply (Ho obs d1 s y _ H1)|].
  intros r Hr; cbv beta.
  rewrite (gS_is _ _ _ _ _ H1 Hr), (gV_is _ _ _ _ _ _ H2 Hr), (gV_is _ _ _ _ _ _ H3 Hr). reflexivity.
Qed.
(** quantile levels: one-dimensional *)
Lemma gu_svv1_is out od k obs fct w d1 d2 d3 M s y x wf : outs out od ->
  arr_is obs d1 s y -> arr_is fct d2 (M :: s) x -> arr_is w d3 [M] wf ->
  ten_is (gu_svv out k obs fct w) (od d1) s
    (fun r => ncast (od d1) (k (y r) (rw M (fun j => x (j :: r))) (rw M (fun j => wf [j])))).
Proof.
  intros Ho H1 H2 H3. unfold gu_svv, gcore1. pose proof H2 as (_ & Hs & _). rewrite Hs. cbn [bind check andb].
  pose proof H3 as (_ & Hs3 & _). rewrite Hs3. cbn [bind check andb]. rewrite Nat.eqb_refl; cbn [bind check andb].
  pose proof H1 as (_ & Hs1 & _). rewrite Hs1.
  replace (gloop [s; s; []]) with (@Ok (list nat) s)
    by (unfold gloop; simpl; rewrite bshape_nil_r; simpl; now rewrite bshape_refl).
  cbn [bind check andb]. eapply ten_ext; [apply (Ho obs d1 s y _ H1)|].
  intros r Hr; cbv beta.
  rewrite (gS_is _ _ _ _ _ H1 Hr), (gV_is _ _ _ _ _ _ H2 Hr), (gV_is1 _ _ _ _ _ H3). reflexivity.
Qed.
Lemma gu_svsv_is out od k obs fct ow fw d1 d2 d3 d4 M s y x a w : outs out od ->
  arr_is obs d1 s y -> arr_is fct d2 (M :: s) x -> arr_is ow d3 s a -> arr_is fw d4 (M :: s) w ->
  ten_is (gu_svsv out k obs fct ow fw) (od d1) s
    (fun r => ncast (od d1) (k (y r) (rw M (fun j => x (j :: r))) (a r) (rw M (fun j => w (j :: r))))).
Proof.
  intros Ho H1 H2 H3 H4. unfold gu_svsv, gcore1. pose proof H2 as (_ & Hs & _). rewrite Hs. cbn [bind check andb].
  pose proof H4 as (_ & Hs4 & _). rewrite Hs4. cbn [bind check andb]. rewrite Nat.eqb_refl; cbn [bind check andb].
  pose proof H1 as (_ & Hs1 & _). rewrite Hs1. pose proof H3 as (_ & Hs3 & _). rewrite Hs3.
  rewrite (gloop_same s) by (repeat constructor; easy).
  cbn [bind check andb]. eapply ten_ext; [apply (Ho obs d1 s y _ H1)|].
  intros r Hr; cbv beta.
  rewrite (gS_is _ _ _ _ _ H1 Hr), (gV_is _ _ _ _ _ _ H2 Hr), (gS_is _ _ _ _ _ H3 Hr),
    (gV_is _ _ _ _ _ _ H4 Hr). reflexivity.
Qed.
Lemma gu_svsvv_is out od k obs fct ow fw ew d1 d2 d3 d4 d5 M s y x a w e : outs out od ->
  arr_is obs d1 s y -> arr_is fct d2 (M :: s) x -> arr_is ow d3 s a -> arr_is fw d4 (M :: s) w ->
  arr_is ew d5 (M :: s) e ->
  ten_is (gu_svsvv out k obs fct ow fw ew) (od d1) s
    (fun r => ncast (od d1) (k (y r) (rw M (fun j => x (j :: r))) (a r) (rw M (fun j => w (j :: r)))
                               (rw M (fun j => e (j :: r))))).
Proof.
  intros Ho H1 H2 H3 H4 H5. unfold gu_svsvv, gcore1. pose proof H2 as (_ & Hs & _). rewrite Hs. cbn [bind check andb].
  pose proof H4 as (_ & Hs4 & _). rewrite Hs4. cbn [bind check andb].
  pose proof H5 as (_ & Hs5 & _). rewrite Hs5. cbn [bind check andb]. rewrite !Nat.eqb_refl; cbn [bind check andb].
  pose proof H1 as (_ & Hs1 & _). rewrite Hs1. pose proof H3 as (_ & Hs3 & _). rewrite Hs3.
  rewrite (gloop_same s) by (repeat constructor; easy).
  cbn [bind check andb]. eapply ten_ext; [apply (Ho obs d1 s y _ H1)|].
  intros r Hr; cbv beta.
  rewrite (gS_is _ _ _ _ _ H1 Hr), (gV_is _ _ _ _ _ _ H2 Hr), (gS_is _ _ _ _ _ H3 Hr),
    (gV_is _ _ _ _ _ _ H4 Hr), (gV_is _ _ _ _ _ _ H5 Hr). reflexivity.
Qed.

(** ** loops *)
Lemma fold_left_ext_in {A B} (f g : A -> B -> A) l a :
  (forall a b, In b l -> f a b = g a b) -> fold_left f l a = fold_left g l a.
Proof.
  revert a; induction l as [|b l IH]; intros a H; simpl; auto.
  rewrite H by now left. apply IH. intros; apply H; now right.
Qed.
Lemma fold_left_map {A B C} (f : A -> B -> A) (h : C -> B) l a :
  fold_left f (map h l) a = fold_left (fun a c => f a (h c)) l a.
Proof. revert a; induction l; intros; simpl; auto. Qed.
Lemma combine_seq M (x : nat -> num) :
  combine (seq 0 M) (rw M x) = map (fun i => (i, x i)) (seq 0 M).
Proof. unfold rw. induction (seq 0 M); simpl; congruence. Qed.
Lemma combine_rw {A B} (x : nat -> A) (w : nat -> B) l :
  combine (map x l) (map w l) = map (fun i => (x i, w i)) l.
Proof. induction l; simpl; congruence. Qed.
Lemma fold2 {A} (f g : A -> num) l a b :
  fold_left (fun '(a, b) i => (a .+ f i, b .+ g i)) l (a, b)
  = (a .+ nsum (map f l), b .+ nsum (map g l)).
Proof.
  revert a b; induction l as [|i l IH]; intros a b; simpl.
  - now rewrite !nadd_0_r.
  - rewrite IH. unfold nsum; simpl. now rewrite !nadd_assoc.
Qed.
Lemma fold3 {A} (f g h : A -> num) l a b c :
  fold_left (fun '(a, b, c) i => (a .+ f i, b .+ g i, c .+ h i)) l (a, b, c)
  = (a .+ nsum (map f l), b .+ nsum (map g l), c .+ nsum (map h l)).
Proof.
  revert a b c; induction l as [|i l IH]; intros a b c; simpl.
  - now rewrite !nadd_0_r.
  - rewrite IH. unfold nsum; simpl. now rewrite !nadd_assoc.
Qed.
(** the double loop over pairs i < j *)
Definition upper (M i : nat) (h : nat -> num) : num := nsum (map h (seq (i + 1) (M - (i + 1)))).
Lemma fold_pairs M (f : nat -> num) (h : nat -> nat -> num) :
  fold_left (fun '(e_1, e_2) i =>
      (e_1 .+ f i, fold_left (fun e_2 j => e_2 .+ h i j) (seq (i + 1) (M - (i + 1))) e_2))
    (seq 0 M) (n0, n0)
  = (nsumn M f, nsumn M (fun i => upper M i (h i))).
Proof.
  transitivity (fold_left (fun '(e_1, e_2) i => (e_1 .+ f i, e_2 .+ upper M i (h i))) (seq 0 M) (n0, n0)).
  - apply fold_left_ext_in. intros [e1 e2] i Hi. now rewrite fold_left_nadd.
  - rewrite fold2. unfold n0. now rewrite !nadd_0_l.
Qed.
Lemma upper_Fin M i h g : (forall j, i < j < M -> h j = Fin (g j)) ->
  upper M i h = Fin (Rsum (map g (seq (i + 1) (M - (i + 1))))).
Proof.
  intros H. unfold upper. rewrite <- nsum_Fin. apply nsum_ext. intros j Hj. apply in_seq in Hj.
  apply H; lia.
Qed.
