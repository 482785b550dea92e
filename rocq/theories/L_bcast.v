(** Element-wise operations on arrays that broadcast to a common shape. *)
From Verif Require Export L_arr L_fin S_param M_closed.
Open Scope nat_scope.

(** [bto t s]: an array of shape t broadcasts to shape s *)
Fixpoint bto (t s : list nat) : Prop :=
  match t, s with
  | [], _ => True
  | d :: t', e :: s' => (d = e \/ d = 1) /\ bto t' s'
  | _ :: _, [] => False
  end.
(** axis j of s comes from t *)
Definition pres (t s : list nat) (j : nat) : Prop := exists d, nth_error t j = Some d /\ nth_error s j = Some d.

Lemma bto_refl s : bto s s.
Proof. induction s; simpl; auto. Qed.
Lemma bshape_bto t1 t2 s : bto t1 s -> bto t2 s -> exists t, bshape t1 t2 = Some t /\ bto t s /\ bto t1 t /\ bto t2 t /\
  forall j, pres t1 s j \/ pres t2 s j -> pres t s j.
Proof.
  revert t2 s; induction t1 as [|a t1 IH]; intros t2 s H1 H2.
  - exists t2. rewrite bshape_nil_l. repeat split; simpl; auto using bto_refl.
    intros j [(d & E & _)|H]; auto. destruct j; discriminate.
  - destruct t2 as [|b t2].
    + exists (a :: t1). rewrite bshape_nil_r. repeat split; auto using bto_refl.
      intros j [H|(d & E & _)]; auto. destruct j; discriminate.
    + destruct s as [|e s]; [easy|]. destruct H1 as [E1 H1], H2 as [E2 H2].
      destruct (IH t2 s H1 H2) as (t & E & T0 & T1 & T2 & P). cbn [bshape]. rewrite E.
      assert (exists c, bdim a b = Some c /\ (c = e \/ c = 1) /\ (a = c \/ a = 1) /\ (b = c \/ b = 1) /\ (a = e \/ b = e -> c = e)) as (c & -> & C1 & C2 & C3 & C4).
      { unfold bdim. destruct E1 as [->| ->], E2 as [->| ->]; rewrite ?Nat.eqb_refl;
          repeat match goal with |- context [?x =? ?y] => destruct (Nat.eqb_spec x y) end; subst; eauto 10; try lia; eexists; repeat split; auto; intros; lia. }
      exists (c :: t). repeat split; simpl; auto. intros [|j] Hj.
      * exists e. split; auto. simpl. f_equal. apply C4. destruct Hj as [(d & X1 & X2)|(d & X1 & X2)]; simpl in *; [left|right]; congruence.
      * apply (P j). exact Hj.
Qed.
Lemma bidx_bidx t1 t s i : bto t1 t -> bto t s -> inb s i -> bidx t1 (bidx t i) = bidx t1 i.
Proof.
  revert t s i; induction t1 as [|a t1 IH]; intros t s i H1 H2 Hi; [now destruct (bidx t i), i|].
  destruct t as [|c t]; [easy|]. destruct s as [|e s]; [easy|]. destruct i as [|k i]; [easy|].
  destruct H1 as [E1 H1], H2 as [E2 H2], Hi as [Hk Hi]. cbn [bidx]. rewrite (IH t s i) by auto. f_equal.
  destruct (Nat.eqb_spec a 1); auto. destruct E1 as [->|?]; [|lia]. now destruct (Nat.eqb_spec c 1).
Qed.
Lemma bto_pres_eq t s : bto t s -> (forall j, j < length s -> pres t s j) -> t = s.
Proof.
  revert s; induction t as [|d t IH]; intros [|e s] H P; try easy.
  - destruct (P 0) as (x & X & _); simpl; [lia|]. discriminate.
  - destruct H as [_ H]. f_equal.
    + destruct (P 0) as (x & X & Y); simpl in *; [lia|congruence].
    + apply IH; auto. intros j Hj. apply (P (S j)). simpl; lia.
Qed.

(** [tb T s i x L]: the call returns an array that broadcasts to shape s, with entry x at index i of
    that shape, and that has all axes of the shapes in L *)
Definition tb (T : tensor) (s i : list nat) (x : num) (L : list (list nat)) : Prop :=
  exists a, T = Ok a /\ bto (sh a) s /\ (inb s i -> at_ a (bidx (sh a) i) = x) /\
    forall j t, In t L -> pres t s j -> pres (sh a) s j.
Lemma bto_trans x y z : bto x y -> bto y z -> bto x z.
Proof. revert y z; induction x as [|p x IH]; intros [|q y] [|r z]; simpl; try easy. intros [? ?] [? ?]. split; [lia|eauto]. Qed.
Lemma tb_eq T s i x y L : tb T s i x L -> (inb s i -> x = y) -> tb T s i y L.
Proof. intros (a & -> & H1 & H2 & H3) E. exists a. repeat split; auto. intros; rewrite <- E by auto; auto. Qed.
Lemma tb_scn x s i : tb (scn x) s i x [].
Proof. eexists; split; [reflexivity|]. simpl. repeat split; auto. easy. Qed.
Lemma tb_sc r s i : tb (sc r) s i (Fin r) [].
Proof. apply tb_scn. Qed.
Lemma tb_sci n s i : tb (sci n) s i (nofnat n) [].
Proof. eexists; split; [reflexivity|]. simpl. repeat split; auto. easy. Qed.
Lemma tb_map dd g T s i x L : tb T s i x L -> tb (amap dd g T) s i (g x) L.
Proof.
  intros (a & -> & H1 & H2 & H3). eexists; split; [reflexivity|]. simpl. repeat split; auto.
  intros; now rewrite H2.
Qed.
Lemma tb_bin dd g T1 T2 s i x1 x2 L1 L2 : tb T1 s i x1 L1 -> tb T2 s i x2 L2 ->
  tb (abin dd g T1 T2) s i (g x1 x2) (L1 ++ L2).
Proof.
  intros (a & -> & A1 & A2 & A3) (b & -> & B1 & B2 & B3).
  destruct (bshape_bto _ _ _ A1 B1) as (t & E & T0 & T1 & T2 & P).
  unfold abin. cbn [bind]. rewrite E. eexists; split; [reflexivity|]. cbn [sh at_]. repeat split; auto.
  - intros Hi. rewrite (bidx_bidx _ _ s), (bidx_bidx (sh b) _ s) by auto. now rewrite A2, B2.
  - intros j u Hu Hj. apply P. apply in_app_iff in Hu as [Hu|Hu]; [left; eapply A3|right; eapply B3]; eauto.
Qed.
Lemma tb_where T1 T2 T3 s i x1 x2 x3 L1 L2 L3 : tb T1 s i x1 L1 -> tb T2 s i x2 L2 -> tb T3 s i x3 L3 ->
  tb (awhere T1 T2 T3) s i (if neqb x1 (Fin 0) then x3 else x2) (L1 ++ L2 ++ L3).
Proof.
  intros (a & -> & A1 & A2 & A3) (b & -> & B1 & B2 & B3) (c & -> & C1 & C2 & C3).
  destruct (bshape_bto _ _ _ B1 C1) as (t & E & T0 & T1 & T2 & P).
  destruct (bshape_bto _ _ _ A1 T0) as (u & E' & U0 & U1 & U2 & P').
  unfold awhere. cbn [bind]. rewrite E, E'. eexists; split; [reflexivity|]. cbn [sh at_]. repeat split; auto.
  - intros Hi. assert (bto (sh b) u /\ bto (sh c) u) as [Bu Cu] by (split; eauto using bto_trans).
    rewrite (bidx_bidx _ _ s), (bidx_bidx (sh b) _ s), (bidx_bidx (sh c) _ s) by auto. now rewrite A2, B2, C2.
  - intros j v Hv Hj. apply P'. rewrite !in_app_iff in Hv. destruct Hv as [Hv|[Hv|Hv]]; [left; eapply A3|right; apply P; left; eapply B3|right; apply P; right; eapply C3]; eauto.
Qed.

(** arguments *)
Lemma common_bto l s : common_shape l = Some s -> (forall t, In t l -> bto t s) /\
  forall j, j < length s -> exists t, In t l /\ pres t s j.
Proof.
  revert s; induction l as [|u l IH]; simpl; intros s H.
  - injection H as <-. split; [easy|]. simpl; intros; lia.
  - destruct (common_shape l) as [t|] eqn:E; [|discriminate]. destruct (IH t eq_refl) as [I1 I2]. clear IH E.
    assert (bto u s /\ bto t s /\ forall j, j < length s -> pres u s j \/ pres t s j) as (H1 & H2 & H3).
    { clear I1 I2 l. revert t s H; induction u as [|a u IH]; intros [|b t] s H.
      - injection H as <-. simpl. repeat split; auto. intros; lia.
      - rewrite bshape_nil_l in H. injection H as <-. split; [exact I|]. split; [apply bto_refl|]. intros j Hj. right.
        destruct (nth_error (b :: t) j) as [d|] eqn:E; [exists d; auto|]. apply nth_error_None in E. lia.
      - rewrite bshape_nil_r in H. injection H as <-. split; [apply bto_refl|]. split; [exact I|]. intros j Hj. left.
        destruct (nth_error (a :: u) j) as [d|] eqn:E; [exists d; auto|]. apply nth_error_None in E. lia.
      - cbn [bshape] in H. destruct (bdim a b) as [c|] eqn:E; [|discriminate]. destruct (bshape u t) as [v|] eqn:E2; [|discriminate].
        injection H as <-. destruct (IH t v E2) as (J1 & J2 & J3).
        assert ((a = c \/ a = 1) /\ (b = c \/ b = 1) /\ (a = c \/ b = c)) as (X1 & X2 & X3).
        { unfold bdim in E. destruct (Nat.eqb_spec a b); [injection E; lia|]. destruct (Nat.eqb_spec a 1); [injection E; lia|].
          destruct (Nat.eqb_spec b 1); [injection E; lia|discriminate]. }
        simpl. repeat split; auto. intros [|j] Hj.
        + destruct X3 as [->| ->]; [left|right]; exists c; auto.
        + destruct (J3 j) as [J|J]; [lia|left|right]; exact J. }
    assert (tr : forall x y z, bto x y -> bto y z -> bto x z).
    { induction x as [|p x IHx]; intros [|q y] [|r z]; simpl; try easy. intros [? ?] [? ?]. split; [lia|eauto]. }
    split.
    + intros v [->|Hv]; auto. eapply tr; eauto.
    + intros j Hj. destruct (H3 j Hj) as [P|P]; [exists u; auto|]. 
      assert (j < length t) as Hjt by (destruct P as (d & P & _); apply nth_error_Some; congruence).
      destruct (I2 j Hjt) as (v & Hv & d & D1 & D2). exists v. split; auto. exists d. split; auto.
      destruct P as (d' & D3 & D4). congruence.
Qed.
Lemma params_tb s l a f i : params s l -> In (a, f) l -> tb (Ok a) s i (f i) (sh a :: nil).
Proof.
  intros [H1 H2] Hi. destruct (common_bto _ _ H1) as [B _]. exists a. split; [reflexivity|]. repeat split.
  - apply B. apply in_map_iff. exists (a, f); auto.
  - rewrite Forall_forall in H2. exact (H2 (a, f) Hi i).
  - intros j t [<-|[]]; auto.
Qed.
Lemma params_hd s a f l i : params s ((a, f) :: l) -> tb (Ok a) s i (f i) (sh a :: nil).
Proof. intros H. eapply params_tb; [exact H|now left]. Qed.
Lemma tb_returns T s f L l : (forall i, tb T s i (f i) L) -> params s l -> (forall a g, In (a, g) l -> In (sh a) L) -> returns T s f.
Proof.
  intros H [P _] HL. destruct (common_bto _ _ P) as [_ C]. destruct (H []) as (a & -> & H1 & _ & H3).
  assert (sh a = s) as E.
  { apply bto_pres_eq; auto. intros j Hj. destruct (C j Hj) as (t & Ht & Pt). apply in_map_iff in Ht as ([b g] & <- & Hb).
    eapply H3; eauto. }
  exists (dt a), a. split; [reflexivity|]. repeat split; auto. intros i Hi.
  destruct (H i) as (a' & E' & _ & H2 & _). injection E' as <-. rewrite <- (H2 Hi). now rewrite E, bidx_id.
Qed.
Lemma tb_betainc T1 T2 T3 s i x1 x2 x3 L1 L2 L3 : tb T1 s i x1 L1 -> tb T2 s i x2 L2 -> tb T3 s i x3 L3 ->
  tb (abetainc T1 T2 T3) s i (nbetainc x1 x2 x3) (L1 ++ L2 ++ L3).
Proof.
  intros (a & -> & A1 & A2 & A3) (b & -> & B1 & B2 & B3) (c & -> & C1 & C2 & C3).
  destruct (bshape_bto _ _ _ A1 B1) as (t & E & T0 & T1 & T2 & P).
  destruct (bshape_bto _ _ _ T0 C1) as (u & E' & U0 & U1 & U2 & P').
  unfold abetainc. cbn [bind]. rewrite E, E'. eexists; split; [reflexivity|]. cbn [sh at_]. repeat split; auto.
  - intros Hi. assert (bto (sh a) u /\ bto (sh b) u) as [Bu Cu] by (split; eauto using bto_trans).
    rewrite (bidx_bidx _ _ s), (bidx_bidx (sh b) _ s), (bidx_bidx (sh c) _ s) by auto. now rewrite A2, B2, C2.
  - intros j v Hv Hj. apply P'. rewrite !in_app_iff in Hv. destruct Hv as [Hv|[Hv|Hv]]; [left; apply P; left; eapply A3|left; apply P; right; eapply B3|right; eapply C3]; eauto.
Qed.
Lemma tb_let T (k : tensor -> tensor) s i x g L L' : tb T s i x L -> (forall t, tb t s i x L -> tb (k t) s i g L') -> tb (let t := T in k t) s i g L'.
Proof. intros H K. apply K. exact H. Qed.
Lemma tb_bind T (k : arr -> tensor) s i x g L L' : tb T s i x L -> (forall a, tb (Ok a) s i x L -> tb (k a) s i g L') -> tb (bind T k) s i g L'.
Proof. intros H K. pose proof H as (a & E & _). rewrite E in *. simpl. apply K. exact H. Qed.

Ltac head_of T := lazymatch T with ?f _ => head_of f | ?f => f end.
Ltac tbs :=
  lazymatch goal with
  | |- tb (let x := ?T in @?k x) ?s ?i _ _ => eapply (tb_let T k); [tbs|let t := fresh "t" in let Ht := fresh "Ht" in intros t Ht; cbv beta; tbs]
  | |- tb (sci _) _ _ _ _ => eapply tb_sci
  | |- tb (sc _) _ _ _ _ => eapply tb_sc
  | |- tb (scn _) _ _ _ _ => eapply tb_scn
  | |- tb (awhere _ _ _) _ _ _ _ => eapply tb_where; tbs
  | |- tb (abetainc _ _ _) _ _ _ _ => eapply tb_betainc; tbs
  | H : tb ?T ?s ?i _ _ |- tb ?T ?s ?i _ _ => exact H
  | |- tb (bind _ _) _ _ _ _ => eapply tb_bind; [tbs|let a := fresh "a" in let Ha := fresh "Ha" in intros a Ha; tbs]
  | |- tb (acast ?d _) _ _ _ _ => eapply (tb_map (fun _ => d) (ncast d)); tbs
  | |- tb (amap _ _ _) _ _ _ _ => eapply tb_map; tbs
  | |- tb (abin _ _ _ _) _ _ _ _ => eapply tb_bin; tbs
  | |- tb ?T _ _ _ _ => let h := head_of T in unfold h; tbs
  end.
(** facts about the arguments *)
Ltac tb_args H i :=
  lazymatch type of H with params ?s ?l =>
    let rec go l := lazymatch l with
      | cons (pair ?a ?f) ?l' => pose proof (params_tb s _ a f i H ltac:(simpl; tauto)); go l'
      | _ => idtac end in go l end.
(** [returns T s f]: leaves [inb s i -> e = f i] for the computed entry e *)
Ltac in_search := lazymatch goal with
  | |- In ?x (?x :: _) => left; reflexivity
  | |- In _ (_ ++ _) => apply in_or_app; first [left; in_search | right; in_search]
  end.
Ltac ret_in := intros ? ? Hin; simpl in Hin; decompose [or] Hin; try contradiction;
    match goal with E : (_, _) = (_, _) |- _ => injection E as <- <- end; in_search.
Ltac ret H := lazymatch goal with |- returns ?T ?s ?f =>
  let i := fresh "i" in let Hi := fresh "Hi" in
  eapply (tb_returns T s f); [intros i; eapply tb_eq; [tb_args H i; tbs|intros Hi; cbv beta]|exact H|ret_in] end.
Ltac tb_exists := eexists (fun i => _).
(** the entry used at index i of the common shape *)
Definition entry (a : arr) (i : list nat) : num := at_ a (bidx (sh a) i).
Lemma params_of l s : common_shape (map sh l) = Some s -> params s (map (fun a => (a, entry a)) l).
Proof.
  intros H. split.
  - rewrite map_map. exact H.
  - apply Forall_forall. intros p Hp. apply in_map_iff in Hp as (a & <- & _). reflexivity.
Qed.
Lemma bshape_full t s : bto t s -> bshape s t = Some s.
Proof.
  revert t; induction s as [|e s IH]; intros [|d t] H; simpl in *; try easy. destruct H as [H1 H2]. rewrite (IH t H2).
  unfold bdim. destruct (Nat.eqb_spec e d); [now subst|]. destruct (Nat.eqb_spec e 1); [lia|]. destruct (Nat.eqb_spec d 1); [reflexivity|lia].
Qed.
Lemma djoin_float d : djoin DFloat d = DFloat. Proof. destruct d; reflexivity. Qed.
(** in-place operators on a float array of the full shape *)
Lemma aset_full g a T s : dt a = DFloat -> sh a = s -> (exists x L, tb T s [] x L) -> exists b, aset g a T = Ok b /\ dt b = DFloat /\ sh b = s /\
  forall i x L, tb T s i x L -> inb s i -> at_ b i = g (at_ a i) x.
Proof.
  intros Hd Hs (x0 & L0 & b & -> & B1 & _). unfold aset. cbn [bind]. rewrite Hs, (bshape_full _ _ B1), Hd, djoin_float. cbn [dtype_eqb negb].
  destruct (list_eq_dec Nat.eq_dec s s) as [_|N]; [|congruence]. eexists; split; [reflexivity|]. cbn [dt sh at_]. repeat split; auto.
  intros i x L (c & E & _ & B2 & _) Hi. injection E as <-. rewrite bidx_id, B2 by auto. reflexivity.
Qed.
Lemma tb_inplace g T1 T2 a s i x1 x2 L2 : T1 = Ok a -> dt a = DFloat -> sh a = s -> (inb s i -> at_ a i = x1) -> tb T2 s i x2 L2 ->
  tb (ainplace g T1 T2) s i (g x1 x2) (s :: nil).
Proof.
  intros -> Hd Hs Ha (b & -> & B1 & B2 & B3). unfold ainplace. cbn [bind]. rewrite Hs, (bshape_full _ _ B1), Hd, djoin_float. cbn [dtype_eqb negb].
  assert (forall c : arr, sh c = s -> (inb s i -> at_ c i = g x1 x2) -> tb (Ok c) s i (g x1 x2) (s :: nil)) as K.
  { intros c Hc Hv. exists c. rewrite Hc. split; [reflexivity|]. split; [apply bto_refl|]. split.
    - intros Hi. rewrite bidx_id by auto. now apply Hv.
    - intros j t [<-|[]] Hp. exact Hp. }
  destruct s as [|e s'].
  - apply K; [reflexivity|]. intros Hi. cbn [at_]. rewrite (bidx_id [] i) by auto. rewrite Ha, B2 by auto. reflexivity.
  - destruct (list_eq_dec Nat.eq_dec (e :: s') (e :: s')) as [_|N]; [|congruence]. apply K; [reflexivity|].
    intros Hi. cbn [at_]. rewrite (bidx_id (e :: s') i) by auto. rewrite Ha, B2 by auto. reflexivity.
Qed.
Lemma bidx_inb t s i : bto t s -> inb s i -> inb t (bidx t i).
Proof. intros H Hi. eapply bshape_inb; [apply (bshape_full t s H)|exact Hi]. Qed.
(** a scalar value *)
Lemma scalar_value a v s i : _is_scalar_value a v = true -> bto (sh a) s -> inb s i -> at_ a (bidx (sh a) i) = Fin v.
Proof.
  unfold _is_scalar_value. intros H Hb Hi. apply andb_true_iff in H as [H1 H2]. apply Nat.eqb_eq in H1.
  assert (bidx (sh a) i = map (fun _ => 0%nat) (sh a)) as ->.
  { pose proof (bidx_inb _ _ _ Hb Hi) as Hj. revert Hj. generalize (bidx (sh a) i). revert H1. unfold asize. generalize (sh a).
    induction l as [|d l IH]; intros H1 [|k j]; simpl; try easy. intros [Hk Hj]. simpl in H1. apply Nat.eq_mul_1 in H1 as [H1 H3].
    f_equal; [lia|]. now apply IH. }
  destruct (at_ a _); try discriminate. simpl in H2. unfold reqb in H2. destruct (Req_EM_T r v); [congruence|discriminate].
Qed.
Lemma tb_returns_full T s f : (forall i, tb T s i (f i) (s :: nil)) -> returns T s f.
Proof.
  intros H. destruct (H []) as (a & -> & H1 & _ & H3).
  assert (sh a = s) as E.
  { apply bto_pres_eq; auto. intros j Hj. apply (H3 j s); [now left|].
    destruct (nth_error s j) as [d|] eqn:E; [exists d; auto|]. apply nth_error_None in E. lia. }
  exists (dt a), a. split; [reflexivity|]. repeat split; auto. intros i Hi.
  destruct (H i) as (a' & E' & _ & H2 & _). injection E' as <-. rewrite <- (H2 Hi). now rewrite E, bidx_id.
Qed.
Lemma tb_full a s i x : sh a = s -> (inb s i -> at_ a i = x) -> tb (Ok a) s i x (s :: nil).
Proof.
  intros Hs H. exists a. rewrite Hs. split; [reflexivity|]. split; [apply bto_refl|]. split; [intros Hi; rewrite bidx_id; auto|].
  intros j t [<-|[]] Hp; exact Hp.
Qed.
Lemma returns_eq T s f g : returns T s f -> (forall r, inb s r -> f r = g r) -> returns T s g.
Proof. intros (d & H) E. exists d. now apply (ten_ext _ _ _ f). Qed.
