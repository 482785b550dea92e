(** Proofs of the backend registry properties (statements in P_registry.v). *)
From Verif Require Export S_registry.
From Coq Require Import Lia.
Open Scope string_scope.
Lemma lookup_store {A} k k' (v : A) l : lookup k (store k' v l) = if String.eqb k k' then Some v else lookup k l.
Proof.
  induction l as [|[k2 v2] l IH]; simpl; [reflexivity|].
  destruct (String.eqb_spec k' k2); simpl; subst.
  - destruct (String.eqb_spec k k2); auto.
  - rewrite IH. destruct (String.eqb_spec k k2), (String.eqb_spec k k'); congruence.
Qed.
Lemma mem_avail m b : mem b (available_backends m) = true <-> usable m b.
Proof.
  unfold mem, available_backends. rewrite existsb_exists. split.
  - intros (x & Hx & E). apply String.eqb_eq in E as <-. apply filter_In in Hx as [Hx F]. split; auto.
    simpl in Hx. decompose [or] Hx; subst; try contradiction; eexists; constructor.
  - intros [(c & Hc) F]. exists b. split; [|apply String.eqb_refl]. apply filter_In. split; auto.
    destruct Hc; simpl; auto 10.
Qed.
Lemma map_class b c : lookup b _ALL_BACKENDS_MAP = Some c <-> backend_class b c.
Proof.
  unfold _ALL_BACKENDS_MAP; simpl. split.
  - repeat match goal with |- context [String.eqb b ?s] => destruct (String.eqb_spec b s) end; subst; intros H; inversion H; subst; constructor.
  - intros []; reflexivity.
Qed.
Lemma reg_ok m b r : usable m b -> exists c, backend_class b c /\ register_backend m b r =
  (Ok tt, mkReg (store b (mkInst (made r) c) (entries r)) (_active r) (S (made r))).
Proof.
  intros H. unfold register_backend. rewrite (proj2 (mem_avail m b) H). cbn [negb]. destruct H as [(c & Hc) _].
  rewrite (proj2 (map_class b c) Hc). eauto.
Qed.
Lemma reg_err m b r : ~ usable m b -> register_backend m b r = (Err BackendNotAvailable, r).
Proof.
  intros H. unfold register_backend. destruct (mem b (available_backends m)) eqn:E; [|reflexivity].
  apply mem_avail in E. contradiction.
Qed.
Lemma usable_dec m b : usable m b \/ ~ usable m b.
Proof. destruct (mem b (available_backends m)) eqn:E; [left|right; intros H; apply mem_avail in H]; [now apply mem_avail|congruence]. Qed.
(** a getitem is either a lookup, a registration or an error *)
Lemma get_cases m b r :
  (exists i, lookup b (entries r) = Some i /\ getitem m b r = (Ok i, r)) \/
  (lookup b (entries r) = None /\ usable m b /\ exists c, backend_class b c /\ getitem m b r =
     (Ok (mkInst (made r) c), mkReg (store b (mkInst (made r) c) (entries r)) (_active r) (S (made r)))) \/
  (lookup b (entries r) = None /\ ~ usable m b /\ getitem m b r = (Err BackendNotAvailable, r)).
Proof.
  unfold getitem. destruct (lookup b (entries r)) as [i|] eqn:E; [left; eauto|right].
  destruct (usable_dec m b) as [H|H]; [left|right].
  - destruct (reg_ok m b r H) as (c & Hc & ->). cbn [entries]. rewrite lookup_store, String.eqb_refl. eauto.
  - now rewrite (reg_err m b r H).
Qed.
(** invariant of the reachable registries *)
Definition inv (m : machine) (r : registry) : Prop :=
  (exists i, lookup "numpy" (entries r) = Some i) /\
  (forall b i, lookup b (entries r) = Some i -> usable m b /\ backend_class b (cls i) /\ (ident i < made r)%nat) /\
  (forall b b' i i', lookup b (entries r) = Some i -> lookup b' (entries r) = Some i' -> ident i = ident i' -> b = b').
Lemma inv_store m r b c : inv m r -> usable m b -> backend_class b c ->
  inv m (mkReg (store b (mkInst (made r) c) (entries r)) (_active r) (S (made r))).
Proof.
  intros ((i & I1) & I2 & I3) U C. unfold inv. cbn [entries made]. repeat split.
  - rewrite lookup_store. destruct (String.eqb "numpy" b); eauto.
  - rewrite lookup_store in H. destruct (String.eqb_spec b0 b); [subst|]; [apply U|]. apply (I2 _ _ H).
  - rewrite lookup_store in H. destruct (String.eqb_spec b0 b); [subst|]; [apply U|]. apply (I2 _ _ H).
  - rewrite lookup_store in H. destruct (String.eqb_spec b0 b); [subst; injection H as <-; exact C|]. apply (I2 _ _ H).
  - rewrite lookup_store in H. destruct (String.eqb_spec b0 b); [subst; injection H as <-; simpl; lia|]. destruct (I2 _ _ H) as (_ & _ & ?); lia.
  - intros b1 b2 i1 i2 H1 H2 E. rewrite lookup_store in H1, H2.
    destruct (String.eqb_spec b1 b), (String.eqb_spec b2 b); subst; auto.
    + injection H1 as <-. destruct (I2 _ _ H2) as (_ & _ & ?). simpl in E. lia.
    + injection H2 as <-. destruct (I2 _ _ H1) as (_ & _ & ?). simpl in E. lia.
    + eapply I3; eauto.
Qed.
Lemma inv_get m b r : inv m r -> inv m (snd (getitem m b r)).
Proof.
  intros I. destruct (get_cases m b r) as [(i & _ & ->)|[(_ & U & c & C & ->)|(_ & _ & ->)]]; simpl; auto using inv_store.
Qed.
Lemma inv_call m c r : inv m r -> inv m (do_call m c r).
Proof.
  intros I. destruct c as [b|b|b| |[b|]]; simpl; auto using inv_get.
  - destruct (usable_dec m b) as [U|U].
    + destruct (reg_ok m b r U) as (c & C & ->). simpl. auto using inv_store.
    + rewrite reg_err; auto.
  - unfold active. auto using inv_get.
  - unfold active. auto using inv_get.
Qed.
Lemma inv_after m h r : inv m r -> inv m (after m h r).
Proof. revert r; induction h as [|c h IH]; intros r I; simpl; auto using inv_call. Qed.
Lemma init_ok m : importable m -> exists r0, init m = (Ok tt, r0) /\ inv m r0 /\ _active r0 = default_backend m.
Proof.
  intros [F1 F2]. unfold init.
  assert (usable m "numpy") as U1 by (split; auto; eexists; constructor).
  destruct (reg_ok m "numpy" (mkReg [] "" 0) U1) as (c & C & ->). cbn [made entries _active].
  assert (inv m (mkReg (store "numpy" (mkInst 0 c) []) "" 1)) as I1.
  { unfold inv. cbn [entries made store lookup]. repeat split.
    - exists (mkInst 0 c). reflexivity.
    - destruct (String.eqb_spec b "numpy"); [subst; apply U1|discriminate].
    - destruct (String.eqb_spec b "numpy"); [subst; apply U1|discriminate].
    - destruct (String.eqb_spec b "numpy"); [subst; injection H as <-; exact C|discriminate].
    - destruct (String.eqb_spec b "numpy"); [subst; injection H as <-; simpl; lia|discriminate].
    - intros b b' i i'. destruct (String.eqb_spec b "numpy"), (String.eqb_spec b' "numpy"); try discriminate. congruence. }
  unfold default_backend. destruct (numba_imported m) eqn:E.
  - assert (usable m "numba") as U2 by (split; auto; eexists; constructor).
    destruct (reg_ok m "numba" (mkReg (store "numpy" (mkInst 0 c) []) "" 1) U2) as (c2 & C2 & ->).
    eexists; split; [reflexivity|]. split; [|reflexivity]. apply (inv_store m _ "numba" c2 I1 U2 C2).
  - eexists; split; [reflexivity|]. split; [|reflexivity]. exact I1.
Qed.
Lemma init_only m r0 : init m = (Ok tt, r0) -> importable m.
Proof.
  unfold init. destruct (usable_dec m "numpy") as [U|U]; [|now rewrite reg_err].
  destruct (reg_ok m "numpy" (mkReg [] "" 0) U) as (c & _ & ->). intros H. split; [apply U|]. intros E. rewrite E in H.
  destruct (usable_dec m "numba") as [V|V]; [apply V|]. rewrite reg_err in H by auto. discriminate.
Qed.
Lemma reached_inv m h r : reached m h r -> inv m r.
Proof.
  intros (r0 & E & ->). destruct (init_ok m (init_only _ _ E)) as (r1 & E1 & I & _). apply inv_after. congruence.
Qed.
Lemma get_active m b r : _active (snd (getitem m b r)) = _active r.
Proof. destruct (get_cases m b r) as [(i & _ & ->)|[(_ & U & c & C & ->)|(_ & _ & ->)]]; reflexivity. Qed.
Lemma reg_active m b r : _active (snd (register_backend m b r)) = _active r.
Proof. destruct (usable_dec m b) as [U|U]; [destruct (reg_ok m b r U) as (c & _ & ->)|rewrite reg_err by auto]; reflexivity. Qed.
Lemma after_active m h r : _active (after m h r) = last_set h (_active r).
Proof.
  revert r; induction h as [|c h IH]; intros r; [reflexivity|]. unfold after in *. simpl. rewrite IH.
  destruct c as [b|b|b| |[b|]]; simpl; f_equal; unfold active; auto using get_active, reg_active.
Qed.
Definition registers (b : string) (c : call) : Prop := c = Register b.
Lemma keep_get m b b' i r : lookup b (entries r) = Some i -> lookup b (entries (snd (getitem m b' r))) = Some i.
Proof.
  intros H. destruct (get_cases m b' r) as [(j & _ & ->)|[(N & U & c & C & ->)|(_ & _ & ->)]]; simpl; auto.
  rewrite lookup_store. destruct (String.eqb_spec b b'); auto. congruence.
Qed.
Lemma keep_after m b i h r : ~ In (Register b) h -> lookup b (entries r) = Some i -> lookup b (entries (after m h r)) = Some i.
Proof.
  revert r; induction h as [|c h IH]; intros r N H; [exact H|]. unfold after in *. simpl. apply IH; [intros X; apply N; now right|].
  destruct c as [b'|b'|b'| |[b'|]]; simpl; unfold active; auto using keep_get.
  destruct (usable_dec m b') as [U|U]; [|now rewrite reg_err]. destruct (reg_ok m b' r U) as (c & _ & ->). simpl.
  rewrite lookup_store. destruct (String.eqb_spec b b'); auto. subst. exfalso. apply N. now left.
Qed.
Lemma after_app m h h' r : after m (h ++ h') r = after m h' (after m h r).
Proof. apply fold_left_app. Qed.

Lemma C45_import_l :
forall m : machine, (exists r, init m = (Ok tt, r)) <-> importable m.
Proof.
intros m. split; [intros (r & H); eapply init_only; eauto|]. intros H. destruct (init_ok m H) as (r & E & _). eauto.
Qed.
Lemma C45_numpy_registered_l :
forall (m : machine) (h : list call) (r : registry), reached m h r ->
  exists i, cls i = "NumpyBackend" /\ getitem m "numpy" r = (Ok i, r).
Proof.
intros m h r H. apply reached_inv in H as ((i & I1) & I2 & _). exists i. split.
- destruct (I2 _ _ I1) as (_ & C & _). now inversion C.
- unfold getitem. now rewrite I1.
Qed.
Lemma C45_registered_usable_l :
forall (m : machine) (h : list call) (r : registry), reached m h r ->
  (forall b i, lookup b (entries r) = Some i -> usable m b /\ backend_class b (cls i)) /\
  (forall b b' i i', lookup b (entries r) = Some i -> lookup b' (entries r) = Some i' -> ident i = ident i' -> b = b').
Proof.
intros m h r H. apply reached_inv in H as (_ & I2 & I3). split; [|exact I3]. intros b i E. destruct (I2 _ _ E) as (? & ? & _). auto.
Qed.
Lemma C45_get_l :
forall (m : machine) (h : list call) (r : registry) (b : string), reached m h r ->
  (usable m b -> exists i r', getitem m b r = (Ok i, r') /\ backend_class b (cls i) /\
     lookup b (entries r') = Some i /\ _active r' = _active r /\
     forall b', b' <> b -> lookup b' (entries r') = lookup b' (entries r)) /\
  (~ usable m b -> getitem m b r = (Err BackendNotAvailable, r)).
Proof.
intros m h r b H. apply reached_inv in H as I. destruct I as (_ & I2 & I3). split; intros U.
- destruct (get_cases m b r) as [(i & L & ->)|[(_ & _ & c & C & ->)|(_ & N & _)]]; [| |contradiction].
  + exists i, r. destruct (I2 _ _ L) as (_ & C & _). auto.
  + do 2 eexists; split; [reflexivity|]. cbn [cls entries _active]. rewrite lookup_store, String.eqb_refl. repeat split; auto.
    intros b' Hb. rewrite lookup_store. destruct (String.eqb_spec b' b); congruence.
- destruct (get_cases m b r) as [(i & L & _)|[(_ & V & _)|(_ & _ & E)]]; [|contradiction|exact E].
  destruct (I2 _ _ L) as (V & _). contradiction.
Qed.
Lemma C45_get_stable_l :
forall (m : machine) (h h' : list call) (r r' : registry) (b : string) (i : instance),
  reached m h r -> getitem m b r = (Ok i, r') -> ~ In (Register b) h' ->
  getitem m b (after m h' r') = (Ok i, after m h' r').
Proof.
intros m h h' r r' b i H E N. apply reached_inv in H as I.
assert (lookup b (entries r') = Some i) as L.
{ destruct (get_cases m b r) as [(j & L & E2)|[(_ & _ & c & C & E2)|(_ & _ & E2)]]; rewrite E2 in E; [| |discriminate].
  - injection E as <- <-. exact L.
  - injection E as <- <-. cbn [entries]. now rewrite lookup_store, String.eqb_refl. }
unfold getitem. now rewrite (keep_after m b i h' r' N L).
Qed.
Lemma C45_register_again_refuted_l :
exists (m : machine) (h : list call) (r r' : registry) (i i' : instance),
  reached m h r /\ getitem m "numpy" r = (Ok i, r) /\ r' = after m [Register "numpy"] r /\
  getitem m "numpy" r' = (Ok i', r') /\ ident i <> ident i'.
Proof.
exists (mkMachine (fun b => String.eqb b "numpy") false), []. do 4 eexists.
split; [eexists; split; reflexivity|]. split; [reflexivity|]. split; [reflexivity|]. split; [reflexivity|]. simpl. discriminate.
Qed.
Lemma C45_active_l :
forall (m : machine) (h : list call) (r : registry), reached m h r ->
  _active r = last_set h (default_backend m) /\
  score_backend m None r = getitem m (last_set h (default_backend m)) r /\
  active m r = getitem m (last_set h (default_backend m)) r.
Proof.
intros m h r (r0 & E & ->). destruct (init_ok m (init_only _ _ E)) as (r1 & E1 & _ & A).
assert (r1 = r0) as -> by congruence.
assert (_active (after m h r0) = last_set h (default_backend m)) as X by now rewrite after_active, A.
unfold score_backend, active. rewrite X. auto.
Qed.
Lemma C45_active_usable_l :
forall (m : machine) (h : list call) (r : registry), reached m h r ->
  (forall b, In (SetActive b) h -> usable m b) ->
  exists b i r', score_backend m None r = (Ok i, r') /\ usable m b /\ backend_class b (cls i).
Proof.
intros m h r H U. pose proof (C45_active_l m h r H) as (_ & E & _). rewrite E.
assert (usable m (default_backend m)) as U0.
{ destruct H as (r0 & E0 & _). destruct (init_only _ _ E0) as [F1 F2]. unfold default_backend. destruct (numba_imported m).
  - split; auto. eexists; constructor.
  - split; auto. eexists; constructor. }
assert (usable m (last_set h (default_backend m))) as V.
{ clear E H. revert U U0. generalize (default_backend m). induction h as [|c h IH]; intros d U U0; simpl; auto.
  destruct c as [b|b|b| |b]; apply IH; try (intros b' Hb'; apply U; now right); auto. apply U. now left. }
destruct (C45_get_l m h r (last_set h (default_backend m)) H) as [G _]. destruct (G V) as (i & r' & E1 & C & _). eauto 8.
Qed.
Lemma C45_set_active_unchecked_refuted_l :
exists (m : machine) (b : string), ~ usable m b /\ importable m /\ forall h r,
  reached m h r -> fst (set_active b r) = Ok tt /\
  forall h', (forall b', ~ In (SetActive b') h') ->
  score_backend m None (after m h' (snd (set_active b r))) = (Err BackendNotAvailable, after m h' (snd (set_active b r))).
Proof.
exists (mkMachine (fun b => String.eqb b "numpy") false), "cupy".
assert (~ usable (mkMachine (fun b => String.eqb b "numpy") false) "cupy") as N by (intros [(c & C) _]; inversion C).
split; [exact N|]. split; [split; [reflexivity|discriminate]|].
intros h r H. split; [reflexivity|]. intros h' Hh.
assert (reached (mkMachine (fun b => String.eqb b "numpy") false) (h ++ SetActive "cupy" :: h')
  (after (mkMachine (fun b => String.eqb b "numpy") false) h' (snd (set_active "cupy" r)))) as R.
{ destruct H as (r0 & E & ->). exists r0. split; auto. rewrite after_app. reflexivity. }
destruct (C45_active_l _ _ _ R) as (_ & E & _). rewrite E.
assert (forall d l l', (forall b', ~ In (SetActive b') l') -> last_set (l ++ SetActive "cupy" :: l') d = "cupy") as X.
{ intros d l l' Hl. revert d. induction l as [|c l IH]; intros d; simpl.
  - clear - Hl. induction l' as [|c l' IH]; simpl; auto. destruct c as [x|x|x| |x]; try (apply IH; intros b' Hb'; apply (Hl b'); now right).
    exfalso. apply (Hl x). now left.
  - destruct c; apply IH. }
rewrite X by auto. apply (C45_get_l _ _ _ "cupy" R). exact N.
Qed.
Lemma C45_register_l :
forall (m : machine) (r : registry) (b : string),
  (usable m b -> exists r' i, register_backend m b r = (Ok tt, r') /\ lookup b (entries r') = Some i /\ backend_class b (cls i) /\
     forall b', b' <> b -> lookup b' (entries r') = lookup b' (entries r)) /\
  (~ usable m b -> register_backend m b r = (Err BackendNotAvailable, r)).
Proof.
intros m r b. split; [|apply reg_err]. intros U. destruct (reg_ok m b r U) as (c & C & ->). do 2 eexists; split; [reflexivity|].
cbn [entries]. rewrite lookup_store, String.eqb_refl. split; [reflexivity|]. split; [exact C|].
intros b' Hb. rewrite lookup_store. destruct (String.eqb_spec b' b); congruence.
Qed.
