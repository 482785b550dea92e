(** Lemmas on arrays: every operation is described by its shape and its entries. *)
From Verif Require Export L_num.
Open Scope nat_scope.

#[global] Arguments inb !s !i : simpl nomatch.

(** ** indices *)
Lemma inb_length s i : inb s i -> length i = length s.
Proof. revert i; induction s as [|d s IH]; intros [|k i]; simpl; try easy. intros [_ H]; now rewrite (IH _ H). Qed.
Lemma inb_cons_inv m s i : inb (m :: s) i -> exists k r, i = k :: r /\ k < m /\ inb s r.
Proof. destruct i as [|k r]; simpl; [easy|]. intros [H1 H2]; eauto. Qed.
Lemma inb_nil_inv i : inb [] i -> i = [].
Proof. destruct i; simpl; easy. Qed.
Lemma inb_all_idx s i : inb s i <-> In i (all_idx s).
Proof.
  revert i; induction s as [|d s IH]; intros i; simpl.
  - destruct i; simpl; split; intros H; auto; try easy. destruct H; easy.
  - rewrite in_flat_map. split.
    + intros H; destruct i as [|k r]; [easy|]. destruct H as [H1 H2].
      exists r. split; [now apply IH|]. apply in_map_iff. exists k; split; auto. apply in_seq; lia.
    + intros (r & H1 & H2). apply in_map_iff in H2. destruct H2 as (k & <- & H2).
      apply in_seq in H2. split; [lia|now apply IH].
Qed.

(** ** broadcasting *)
Lemma bdim_refl m : bdim m m = Some m.
Proof. unfold bdim; now rewrite Nat.eqb_refl. Qed.
Lemma bdim_1_l m : bdim 1 m = Some m.
Proof. unfold bdim. destruct (Nat.eqb_spec 1 m); subst; auto. Qed.
Lemma bdim_1_r m : bdim m 1 = Some m.
Proof. unfold bdim. destruct (Nat.eqb_spec m 1); subst; auto. Qed.
Lemma bshape_refl s : bshape s s = Some s.
Proof. induction s as [|d s IH]; simpl; auto. now rewrite bdim_refl, IH. Qed.
Lemma bshape_nil_r s : bshape s [] = Some s.
Proof. destruct s; auto. Qed.
Lemma bshape_nil_l s : bshape [] s = Some s.
Proof. destruct s; auto. Qed.
Lemma bidx_id s i : inb s i -> bidx s i = i.
Proof.
  revert i; induction s as [|d s IH]; intros [|k i]; simpl; try easy.
  intros [H1 H2]. rewrite (IH _ H2). destruct (Nat.eqb_spec d 1); f_equal; lia.
Qed.
Lemma bdim_lt a b c k : bdim a b = Some c -> k < c ->
  (if a =? 1 then 0 else k) < a /\ (if b =? 1 then 0 else k) < b.
Proof.
  unfold bdim. destruct (Nat.eqb_spec a b); intros H Hk.
  - subst b. injection H as H. destruct (Nat.eqb_spec a 1); lia.
  - destruct (Nat.eqb_spec a 1).
    + injection H as H. destruct (Nat.eqb_spec b 1); lia.
    + destruct (Nat.eqb_spec b 1); [|discriminate]. injection H as H. lia.
Qed.
Lemma bshape_inb s1 s2 s i : bshape s1 s2 = Some s -> inb s i ->
  inb s1 (bidx s1 i) /\ inb s2 (bidx s2 i).
Proof.
  revert s2 s i; induction s1 as [|a s1 IH]; intros [|b s2] s i H Hi; simpl in H.
  - injection H as <-. apply inb_nil_inv in Hi; subst; simpl; auto.
  - injection H as <-. split; [destruct i; simpl; auto|]. now rewrite (bidx_id _ _ Hi).
  - injection H as <-. split; [now rewrite (bidx_id _ _ Hi)|destruct i; simpl; auto].
  - destruct (bdim a b) as [c|] eqn:E; [|discriminate].
    destruct (bshape s1 s2) as [t|] eqn:E2; [|discriminate].
    injection H as <-. destruct i as [|k i]; [easy|]. destruct Hi as [Hk Hi].
    destruct (bdim_lt _ _ _ _ E Hk). destruct (IH _ _ _ E2 Hi). simpl. auto.
Qed.

#[export] Hint Rewrite bdim_refl bdim_1_l bdim_1_r bshape_refl bshape_nil_r bshape_nil_l : bc.

(** solve goals [bshape s1 s2 = Some ?s] *)
Ltac bsolve :=
  repeat first
    [ rewrite bshape_refl | rewrite bshape_nil_r | rewrite bshape_nil_l
    | progress cbn [bshape] | rewrite bdim_refl | rewrite bdim_1_l | rewrite bdim_1_r ];
  reflexivity.

(** simplify broadcast indices, given the bounds in the context *)
Ltac bidx_simp :=
  cbn [bidx Nat.eqb];
  repeat match goal with
  | H : inb ?s ?r |- context [bidx ?s ?r] => rewrite (bidx_id s r H)
  | |- context [if ?m =? 1 then 0 else ?k] =>
      replace (if m =? 1 then 0 else k) with k by (destruct (Nat.eqb_spec m 1); lia)
  end.
(** destruct an index of a cons shape *)
Ltac idx :=
  repeat match goal with
  | H : inb (?m :: ?s) ?i |- _ =>
      let k := fresh "k" in let r := fresh "r" in let E := fresh "E" in
      let Hk := fresh "Hk" in let Hr := fresh "Hr" in
      destruct (inb_cons_inv m s i H) as (k & r & E & Hk & Hr); subst i; clear H
  | H : inb [] ?i |- _ => pose proof (inb_nil_inv i H); subst i; clear H
  end.

(** ** results *)
Lemma ten_Ok a d s f : arr_is a d s f -> ten_is (Ok a) d s f.
Proof. intros H; exists a; auto. Qed.
Lemma ten_arr a d s f : ten_is (Ok a) d s f -> arr_is a d s f.
Proof. intros (b & E & H); injection E as <-; auto. Qed.
Lemma arr_is_ext a d s f g : arr_is a d s f -> (forall i, inb s i -> f i = g i) -> arr_is a d s g.
Proof. intros (H1 & H2 & H3) H; repeat split; auto. intros i Hi; rewrite H3; auto. Qed.
Lemma ten_ext T d s f g : ten_is T d s f -> (forall i, inb s i -> f i = g i) -> ten_is T d s g.
Proof. intros (a & E & H) Hx; exists a; split; auto. eapply arr_is_ext; eauto. Qed.
Lemma ten_bind_is {T : tensor} {B} {d s f} {k : arr -> res B} {R : res B -> Prop} :
  ten_is T d s f -> (forall a, arr_is a d s f -> R (k a)) -> R (bind T k).
Proof. intros (a & E & H) Hk; subst T; simpl; auto. Qed.
Lemma real_arr_is a s f : real_arr a s f -> arr_is a (dt a) s (fun i => Fin (f i)).
Proof. intros [H1 H2]; repeat split; auto. Qed.

(** ** element-wise *)
Lemma ten_map dd f x d s g : ten_is x d s g -> ten_is (amap dd f x) (dd d) s (fun i => f (g i)).
Proof.
  intros (a & -> & Hd & Hs & Hg). eexists; split; [reflexivity|]. repeat split; simpl; try congruence.
  intros i Hi; now rewrite Hg.
Qed.
Lemma ten_bin dd op x y d1 d2 s1 s2 s f1 f2 g :
  ten_is x d1 s1 f1 -> ten_is y d2 s2 f2 -> bshape s1 s2 = Some s ->
  (forall i, inb s i -> op (f1 (bidx s1 i)) (f2 (bidx s2 i)) = g i) ->
  ten_is (abin dd op x y) (dd d1 d2) s g.
Proof.
  intros (a & -> & Hd & Hs & Hf) (b & -> & Hd2 & Hs2 & Hf2) Hb Hg.
  unfold abin; simpl. rewrite Hs, Hs2, Hb. eexists; split; [reflexivity|].
  repeat split; simpl; try congruence. intros i Hi.
  destruct (bshape_inb _ _ _ _ Hb Hi). rewrite Hf, Hf2; auto.
Qed.
Lemma ten_bin_err dd op x y d1 d2 s1 s2 f1 f2 :
  ten_is x d1 s1 f1 -> ten_is y d2 s2 f2 -> bshape s1 s2 = None ->
  abin dd op x y = Err ValueError.
Proof.
  intros (a & -> & Hd & Hs & Hf) (b & -> & Hd2 & Hs2 & Hf2) Hb.
  unfold abin; simpl. now rewrite Hs, Hs2, Hb.
Qed.
Lemma ten_bin_same dd op x y d1 d2 s f1 f2 :
  ten_is x d1 s f1 -> ten_is y d2 s f2 ->
  ten_is (abin dd op x y) (dd d1 d2) s (fun i => op (f1 i) (f2 i)).
Proof.
  intros H1 H2. eapply ten_bin; eauto; [apply bshape_refl|].
  intros i Hi; simpl. now rewrite (bidx_id _ _ Hi).
Qed.
Lemma ten_bin_scr dd op x v d1 d2 s f1 :
  ten_is x d1 s f1 ->
  ten_is (abin dd op x (Ok (mkArr d2 [] (fun _ => v)))) (dd d1 d2) s (fun i => op (f1 i) v).
Proof.
  intros H1. eapply ten_bin; eauto; [apply ten_Ok; repeat split | apply bshape_nil_r | ].
  intros i Hi; simpl. now rewrite (bidx_id _ _ Hi).
Qed.
Lemma ten_bin_scl dd op x v d1 d2 s f1 :
  ten_is x d1 s f1 ->
  ten_is (abin dd op (Ok (mkArr d2 [] (fun _ => v))) x) (dd d2 d1) s (fun i => op v (f1 i)).
Proof.
  intros H1. eapply ten_bin; eauto; [apply ten_Ok; repeat split | apply bshape_nil_l | ].
  intros i Hi; simpl. now rewrite (bidx_id _ _ Hi).
Qed.
Lemma ten_inplace op x y d1 d2 s s2 f1 f2 g :
  ten_is x d1 s f1 -> ten_is y d2 s2 f2 -> bshape s s2 = Some s -> djoin d1 d2 = d1 ->
  (forall i, inb s i -> op (f1 i) (f2 (bidx s2 i)) = g i) ->
  ten_is (ainplace op x y) d1 s g.
Proof.
  intros (a & -> & Hd & Hs & Hf) (b & -> & Hd2 & Hs2 & Hf2) Hb Hj Hg.
  unfold ainplace; simpl. rewrite Hs, Hs2, Hb, Hd, Hd2, Hj.
  assert (Hi : forall i, inb s i -> op (at_ a (bidx s i)) (at_ b (bidx s2 i)) = g i).
  { intros i Hi. destruct (bshape_inb _ _ _ _ Hb Hi). rewrite Hf, Hf2, (bidx_id _ _ Hi); auto. }
  replace (dtype_eqb d1 d1) with true by (destruct d1; reflexivity). cbn [negb].
  destruct (list_eq_dec Nat.eq_dec s s); [|easy].
  destruct s; eexists; split; try reflexivity; repeat split; simpl; auto.
Qed.

Lemma ten_sc v d : ten_is (Ok (mkArr d [] (fun _ => v))) d [] (fun _ => v).
Proof. apply ten_Ok; repeat split. Qed.

(** ** reductions *)
Lemma row_is a d m s f r : arr_is a d (m :: s) f -> inb s r ->
  row a m r = map (fun k => f (k :: r)) (seq 0 m).
Proof.
  intros (_ & _ & H) Hr. unfold row. apply map_ext_in. intros k Hk; apply in_seq in Hk.
  apply H; simpl; split; auto; lia.
Qed.
Lemma ten_reduce dd f x d m s g :
  ten_is x d (m :: s) g ->
  ten_is (areduce dd f x) (dd d) s (fun r => f (map (fun k => g (k :: r)) (seq 0 m))).
Proof.
  intros (a & -> & H). destruct H as (Hd & Hs & Hg). unfold areduce; simpl; rewrite Hs.
  eexists; split; [reflexivity|]. repeat split; simpl; try congruence.
  intros r Hr. rewrite (row_is a (dt a) m s g); auto. repeat split; auto.
Qed.
Lemma ten_reduce_keep dd f x d m s g :
  ten_is x d (m :: s) g ->
  ten_is (areduce_keep dd f x) (dd d) (1 :: s)
    (fun i => f (map (fun k => g (k :: tl i)) (seq 0 m))).
Proof.
  intros (a & -> & H). destruct H as (Hd & Hs & Hg). unfold areduce_keep; simpl; rewrite Hs.
  eexists; split; [reflexivity|]. repeat split; simpl; try congruence.
  intros i Hi. idx. simpl. rewrite (row_is a (dt a) m s g); auto. repeat split; auto.
Qed.
Lemma ten_rowmap f x d m s g :
  ten_is x d (m :: s) g ->
  ten_is (arowmap f x) d (m :: s)
    (fun i => nth (hd 0 i) (f (map (fun k => g (k :: tl i)) (seq 0 m))) NaN).
Proof.
  intros (a & -> & H). destruct H as (Hd & Hs & Hg). unfold arowmap; simpl; rewrite Hs.
  eexists; split; [reflexivity|]. repeat split; simpl; try congruence.
  intros i Hi. idx. simpl. rewrite (row_is a (dt a) m s g); auto. repeat split; auto.
Qed.
Lemma ten_roll n x d m s g :
  ten_is x d (m :: s) g ->
  ten_is (aroll n x) d (m :: s) (fun i => g ((hd 0 i + m - n mod m) mod m :: tl i)).
Proof.
  intros (a & -> & H). destruct H as (Hd & Hs & Hg). unfold aroll; simpl; rewrite Hs.
  eexists; split; [reflexivity|]. repeat split; simpl; try congruence.
  intros i Hi. idx. simpl. apply Hg; simpl; split; auto. apply Nat.mod_upper_bound; lia.
Qed.
Lemma ten_take ind x d m s g :
  ten_is x d (m :: s) g -> (forall k, In k ind -> k < m) ->
  ten_is (atake ind x) d (length ind :: s) (fun i => g (nth (hd 0 i) ind 0 :: tl i)).
Proof.
  intros (a & -> & H) Hi. destruct H as (Hd & Hs & Hg). unfold atake; simpl; rewrite Hs.
  replace (forallb (fun k => k <? m) ind) with true
    by (symmetry; apply forallb_forall; intros k Hk; apply Nat.ltb_lt; auto).
  eexists; split; [reflexivity|]. repeat split; simpl; try congruence.
  intros i Hii. idx. simpl. apply Hg; simpl; split; auto. apply Hi, nth_In; auto.
Qed.
Lemma ten_slice lo hi x d m s g :
  ten_is x d (m :: s) g -> hi <= m -> lo <= hi ->
  ten_is (aslice lo hi x) d ((hi - lo) :: s) (fun i => g ((lo + hd 0 i) :: tl i)).
Proof.
  intros (a & -> & H) H1 H2. destruct H as (Hd & Hs & Hg). unfold aslice; simpl; rewrite Hs.
  replace (min hi m) with hi by lia.
  eexists; split; [reflexivity|]. repeat split; simpl; try congruence.
  intros i Hi. idx. simpl. apply Hg; simpl; split; auto; lia.
Qed.
Lemma ten_concat x y d1 d2 m1 m2 s g1 g2 :
  ten_is x d1 (m1 :: s) g1 -> ten_is y d2 (m2 :: s) g2 ->
  ten_is (aconcat x y) (djoin d1 d2) ((m1 + m2) :: s)
    (fun i => if hd 0 i <? m1 then g1 i else g2 ((hd 0 i - m1) :: tl i)).
Proof.
  intros (a & -> & Hd & Hs & Hg) (b & -> & Hd2 & Hs2 & Hg2).
  unfold aconcat; simpl. rewrite Hs, Hs2. destruct (list_eq_dec Nat.eq_dec s s); [|easy].
  eexists; split; [reflexivity|]. repeat split; simpl; try congruence.
  intros i Hi. idx. simpl. destruct (Nat.ltb_spec k m1); [apply Hg|apply Hg2]; simpl; split; auto; lia.
Qed.
Lemma ten_arange lo hi : ten_is (aarange lo hi) DInt [hi - lo] (fun i => nofnat (lo + hd 0 i)).
Proof. apply ten_Ok; repeat split. Qed.
Lemma ten_zeros s : ten_is (azeros s) DFloat s (fun _ => Fin 0).
Proof. apply ten_Ok; repeat split. Qed.
Lemma ten_cast dd x d s g : ten_is x d s g -> ten_is (acast dd x) dd s (fun i => ncast dd (g i)).
Proof.
  intros (a & -> & Hd & Hs & Hg). eexists; split; [reflexivity|]. repeat split; simpl; try congruence.
  intros i Hi; now rewrite Hg.
Qed.

(** ** axes *)
Lemma insert_at_length {A} p (x : A) l : length (insert_at p x l) = S (length l).
Proof. revert l; induction p; intros [|y l]; simpl; auto. Qed.
Lemma remove_insert {A} p (x : A) l : p <= length l -> remove_at p (insert_at p x l) = l.
Proof. revert l; induction p; intros [|y l] H; simpl in *; auto; try lia. rewrite IHp; auto; lia. Qed.
Lemma nth_insert {A} p (x : A) l d : p <= length l -> nth p (insert_at p x l) d = x.
Proof. revert l; induction p; intros [|y l] H; simpl in *; auto; try lia. apply IHp; lia. Qed.
Lemma insert_remove {A} p l (d : A) : p < length l -> insert_at p (nth p l d) (remove_at p l) = l.
Proof. revert l; induction p; intros [|y l] H; simpl in *; auto; try lia. rewrite IHp; auto; lia. Qed.
Lemma inb_insert_nil p d s : ~ inb (insert_at p d s) [].
Proof. destruct p, s; simpl; auto. Qed.
Lemma inb_insert p d s k r : p <= length s -> (inb (insert_at p d s) (insert_at p k r) <-> k < d /\ inb s r) .
Proof.
  revert s r; induction p; intros [|e s] [|j r] H; cbn [insert_at length] in *; try (cbn; tauto); try lia.
  - cbn. split; [intros [_ H1]; now apply inb_insert_nil in H1|tauto].
  - cbn [inb]. rewrite IHp by lia. tauto.
Qed.
Lemma inb_remove p d s i : p <= length s -> inb (insert_at p d s) i ->
  inb s (remove_at p i) /\ nth p i 0 < d.
Proof.
  revert s i; induction p; intros [|e s] [|j r] H Hi; simpl in *; try tauto; try lia.
  destruct Hi as [H1 H2]. destruct (IHp s r ltac:(lia) H2). auto.
Qed.
Lemma ten_expand p x d s g :
  ten_is x d s g -> p <= length s ->
  ten_is (aexpand p x) d (insert_at p 1 s) (fun i => g (remove_at p i)).
Proof.
  intros (a & -> & Hd & Hs & Hg) Hp. unfold aexpand; simpl. rewrite Hs.
  replace (p <=? length s) with true by (symmetry; now apply Nat.leb_le).
  eexists; split; [reflexivity|]. repeat split; simpl; try congruence.
  intros i Hi. apply Hg. now apply (inb_remove p 1 s i).
Qed.
Lemma ten_expand0 x d s g : ten_is x d s g -> ten_is (aexpand 0 x) d (1 :: s) (fun i => g (tl i)).
Proof.
  intros H. eapply ten_ext; [apply (ten_expand 0 x d s g H); lia|].
  intros i Hi; simpl. destruct i; auto.
Qed.
Lemma ten_expand1 x d m s g : ten_is x d (m :: s) g ->
  ten_is (aexpand 1 x) d (m :: 1 :: s) (fun i => g (hd 0 i :: tl (tl i))).
Proof.
  intros H. eapply ten_ext; [apply (ten_expand 1 x d (m :: s) g H); simpl; lia|].
  intros i Hi; simpl in Hi. idx. reflexivity.
Qed.

(** moving an axis to the last position.  The array has an axis of length [m] at
    (python) position [n - 1 - p] among [n = S (length s)] axes. *)
Lemma rev_axis_spec ax n k : norm_axis ax n = Ok k -> k < n /\ rev_axis ax n = Ok (n - 1 - k).
Proof.
  intros H. unfold rev_axis. rewrite H. simpl. split; auto. revert H. unfold norm_axis.
  destruct (_ && _)%bool eqn:E; [|discriminate]. apply andb_prop in E. destruct E as [E1 E2].
  apply Z.leb_le in E1. apply Z.ltb_lt in E2. intros H; injection H as <-.
  destruct (Z.ltb_spec ax 0); lia.
Qed.
Lemma ten_move_last ax x d p m s g :
  ten_is x d (insert_at p m s) g -> p <= length s ->
  norm_axis ax (S (length s)) = Ok (length s - p) ->
  ten_is (amove_last ax x) d (m :: s) (fun i => g (insert_at p (hd 0 i) (tl i))).
Proof.
  intros (a & -> & Hd & Hs & Hg) Hp Hax. unfold amove_last; simpl.
  rewrite Hs, insert_at_length.
  destruct (rev_axis_spec _ _ _ Hax) as [_ E]. rewrite E. simpl.
  replace (length s - 0 - (length s - p)) with p by lia.
  eexists; split; [reflexivity|]. repeat split; simpl; auto.
  - rewrite nth_insert, remove_insert; auto.
  - intros i Hi. idx. simpl. apply Hg. apply inb_insert; auto.
Qed.

(** ** any *)
Lemma aany_spec T d s f : ten_is T d s f ->
  exists b, aany T = Ok b /\ (b = true <-> exists i, inb s i /\ neqb (f i) (Fin 0) = false).
Proof.
  intros (a & -> & Hd & Hs & Hf). unfold aany; simpl. eexists; split; [reflexivity|].
  rewrite existsb_exists. rewrite Hs. split.
  - intros (i & Hi & H). apply inb_all_idx in Hi. exists i. split; auto.
    rewrite <- Hf by auto. now destruct (neqb (at_ a i) (Fin 0)).
  - intros (i & Hi & H). exists i. split; [now apply inb_all_idx|]. rewrite Hf, H; auto.
Qed.
Lemma neqb_b2n b : neqb (b2n b) (Fin 0) = negb b.
Proof. destruct b; simpl; unfold reqb; rdec; auto; lra. Qed.

(** where *)
Lemma ten_where c x y dc d1 d2 sc' s1 s2 s0 s fc f1 f2 g :
  ten_is c dc sc' fc -> ten_is x d1 s1 f1 -> ten_is y d2 s2 f2 ->
  bshape s1 s2 = Some s0 -> bshape sc' s0 = Some s ->
  (forall i, inb s i ->
    (if neqb (fc (bidx sc' i)) (Fin 0) then f2 (bidx s2 i) else f1 (bidx s1 i)) = g i) ->
  inb s1 = inb s1 ->
  (forall i, inb s i -> inb s1 (bidx s1 i) /\ inb s2 (bidx s2 i)) ->
  ten_is (awhere c x y) (djoin d1 d2) s g.
Proof.
  intros (a & -> & Hd & Hs & Hf) (b & -> & Hd2 & Hs2 & Hf2) (e & -> & Hd3 & Hs3 & Hf3) B1 B2 Hg _ Hin.
  unfold awhere; simpl. rewrite Hs2, Hs3, B1, Hs, B2. eexists; split; [reflexivity|].
  repeat split; simpl; try congruence. intros i Hi. rewrite <- Hg by auto.
  destruct (Hin i Hi). destruct (bshape_inb _ _ _ _ B2 Hi). rewrite Hf, Hf2, Hf3; auto.
Qed.
Lemma ten_where_scl c v y dc d1 d2 s fc f2 :
  ten_is c dc s fc -> ten_is y d2 s f2 ->
  ten_is (awhere c (Ok (mkArr d1 [] (fun _ => v))) y) (djoin d1 d2) s
    (fun i => if neqb (fc i) (Fin 0) then f2 i else v).
Proof.
  intros H1 H2. eapply ten_where; eauto using ten_sc; try bsolve.
  - intros i Hi; simpl. now rewrite (bidx_id _ _ Hi).
  - intros i Hi. rewrite (bidx_id _ _ Hi). destruct i; simpl; auto.
Qed.
Lemma ten_where_same c x y dc d1 d2 s fc f1 f2 :
  ten_is c dc s fc -> ten_is x d1 s f1 -> ten_is y d2 s f2 ->
  ten_is (awhere c x y) (djoin d1 d2) s (fun i => if neqb (fc i) (Fin 0) then f2 i else f1 i).
Proof.
  intros H1 H2 H3. eapply ten_where; eauto; try bsolve.
  - intros i Hi; simpl. now rewrite (bidx_id _ _ Hi).
  - intros i Hi. now rewrite (bidx_id _ _ Hi).
Qed.
