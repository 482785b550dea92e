(** crps_binomial on arrays. *)
From Verif Require Export S_binom M_binom L_binom L_closed.
From Coq Require Import Psatz Lia.
Open Scope R_scope.

Definition eps36 : R := / 10 ^ 36.
Lemma eps36_pos : 0 < eps36.
Proof. unfold eps36. apply Rinv_0_lt_compat, pow_lt. lra. Qed.
Definition bt (y : R) (k N : nat) (p : R) : R := binomial_pmf N p k * (gt_ind y k - (Fe eps36 N p k - 1 / 2 * binomial_pmf N p k)) * (INR k - y).
Lemma bt_sum N p y : 2 * sumn (S N) (fun k => bt y k N p) = binom_s eps36 N p y.
Proof. reflexivity. Qed.

Definition nterm (y k N p : num) : num :=
  let w := (ncomb N k .* npow p k .* npow (nofnat 1 .- p) (N .- k)) in
  w .* (b2n (nltb y k) .- ((if neqb (b2n (nltb k (nofnat 0))) (Fin 0) then nbetainc (N .- nmin k N .+ Fin (/ 10 ^ 36)) (k .+ nofnat 1) (nofnat 1 .- p) else Fin 0) .- Fin (1 / 2) .* w)) .* (k .- y).
Lemma nterm_val y k N p : (k <= N)%nat -> 0 <= p <= 1 -> nterm (Fin y) (nofnat k) (nofnat N) (Fin p) = Fin (bt y k N p).
Proof.
  intros Hk Hp. unfold nterm. change (nofnat ?a) with (Fin (INR a)). assert (INR k <= INR N) as L by now apply le_INR. pose proof (pos_INR k) as P0.
  assert (Fin (INR N) .- Fin (INR k) = Fin (INR (N - k))) as E1 by (rewrite minus_INR by auto; reflexivity). rewrite E1. rewrite comb_nat, pow_nat by lra. replace (Fin (INR 1) .- Fin p) with (Fin (1 - p)) by reflexivity. rewrite pow_nat by lra.
  rewrite (ltb_f (INR k) (INR 0)) by (simpl; lra). replace (nmin (Fin (INR k)) (Fin (INR N))) with (Fin (INR k)) by (rewrite ev_min; f_equal; now rewrite Rmin_left). rewrite E1.
  replace (neqb (b2n false) (Fin 0)) with true by (simpl; unfold reqb; destruct (Req_EM_T 0 0); [auto|lra]).
  assert (Fin (INR (N - k)) .+ Fin (/ 10 ^ 36) = Fin (INR (N - k) + eps36)) as -> by reflexivity. assert (Fin (INR k) .+ Fin (INR 1) = Fin (INR k + 1)) as -> by reflexivity. pose proof (pos_INR (N - k)). pose proof eps36_pos. rewrite betainc_f1 by lra.
  fold (Fe eps36 N p k). unfold bt. unfold gt_ind. fold (binomial_pmf N p k).
  assert (Fin (INR (choose N k)) .* Fin (p ^ k) .* Fin ((1 - p) ^ (N - k)) = Fin (binomial_pmf N p k)) as -> by reflexivity.
  destruct (Rlt_dec y (INR k)) as [Q|Q]; [rewrite ltb_t by auto|rewrite ltb_f by lra]; cbn [b2n]; generalize (binomial_pmf N p k), (Fe eps36 N p k); intros; nev; f_equal; ring.
Qed.

Lemma tb_cover T s f L : (forall i, tb T s i (f i) L) -> (forall j, (j < length s)%nat -> exists t, In t L /\ pres t s j) -> returns T s f.
Proof.
  intros H C. destruct (H []) as (a & Ea & B & _ & Q). assert (sh a = s) as Es by (apply bto_pres_eq; auto; intros j Hj; destruct (C j Hj) as (t & Ht & Pt); eapply Q; eauto).
  exists (dt a). exists a. split; auto. split; auto. split; auto. intros i Hi. destruct (H i) as (a' & Ea' & _ & V & _). rewrite Ea in Ea'. injection Ea' as <-. specialize (V Hi). now rewrite Es, bidx_id in V.
Qed.
Lemma tb_term O X N P s i o x n p L1 L2 L3 L4 : tb O s i o L1 -> tb X s i x L2 -> tb N s i n L3 -> tb P s i p L4 ->
  exists L, tb (binom_term O X N P) s i (nterm o x n p) L /\ (forall t, In t L1 \/ In t L2 -> In t L).
Proof.
  intros HO HX HN HP. eexists. split.
  - eapply tb_eq; [unfold binom_term; tbs|intros _; reflexivity].
  - intros t Ht. rewrite !in_app_iff. tauto.
Qed.
Lemma term_returns O X N P s o x n p L1 L2 L3 L4 : (forall i, tb O s i (o i) L1) -> (forall i, tb X s i (x i) L2) -> (forall i, tb N s i (n i) L3) -> (forall i, tb P s i (p i) L4) ->
  (forall j, (j < length s)%nat -> exists t, In t (L1 ++ L2 ++ L4) /\ pres t s j) -> returns (binom_term O X N P) s (fun i => nterm (o i) (x i) (n i) (p i)).
Proof.
  intros HO HX HN HP C.
  assert (exists L, (forall i, tb (binom_term O X N P) s i (nterm (o i) (x i) (n i) (p i)) L) /\ (forall t, In t (L1 ++ L2 ++ L4) -> In t L)) as (L & T & I).
  { eexists. split.
    - intros i. specialize (HO i). specialize (HX i). specialize (HN i). specialize (HP i). eapply tb_eq; [unfold binom_term; tbs|intros _; reflexivity].
    - intros t Ht. rewrite !in_app_iff in *. tauto. }
  apply (tb_cover _ _ _ L T). intros j Hj. destruct (C j Hj) as (t & Ht & Pt). eauto.
Qed.
(** ** reductions *)
Lemma all_idx1 m : all_idx (m :: nil) = map (fun k => k :: nil) (seq 0 m).
Proof. simpl. now rewrite app_nil_r. Qed.
Lemma asum_all_ret T m g : returns T (m :: nil) (fun i => Fin (g (hd 0%nat i))) -> returns (sci 2 * asum_all T)%A [] (fun _ => Fin (2 * sumn m g)).
Proof.
  intros (d & a & -> & _ & S & V). unfold asum_all, sci. cbn [bind]. eexists. eexists. split; [reflexivity|]. split; [reflexivity|]. split; [reflexivity|]. intros i Hi. cbn [at_]. rewrite S, all_idx1, map_map. rewrite (nsum_sumn m _ g); [reflexivity|].
  intros k Hk. rewrite V; [reflexivity|]. simpl. auto.
Qed.
Lemma asum_ret T m s g : returns T (m :: s) (fun i => Fin (g (hd 0%nat i) (tl i))) -> returns (sci 2 * asum T)%A s (fun r => Fin (2 * sumn m (fun k => g k r))).
Proof.
  intros (d & a & -> & _ & S & V). unfold asum, areduce, sci. cbn [bind]. rewrite S. unfold amul, abin. cbn [bind sh bshape]. eexists. eexists. split; [reflexivity|]. split; [reflexivity|]. split; [reflexivity|]. intros r Hr. cbn [at_ sh bidx]. rewrite bidx_id by auto. unfold row.
  rewrite (nsum_sumn m _ (fun k => g k r)); [reflexivity|]. intros k Hk. rewrite V; [reflexivity|]. simpl. auto.
Qed.
(** ** arange *)
Lemma arange_len_nat N : arange_len (Fin (INR N) .+ Fin 1) = Ok (S N).
Proof.
  unfold arange_len. simpl. f_equal. assert ((- Z.of_nat (S N))%Z = Int_part (- (INR N + 1))) as <-; [|lia].
  rewrite <- S_INR, INR_IZR_INZ, <- opp_IZR. unfold Int_part. rewrite <- (up_tech (IZR (- Z.of_nat (S N))) (- Z.of_nat (S N))); [lia|lra|apply IZR_lt; lia].
Qed.
Definition xs (d : dtype) (N : nat) : arr := mkArr d (S N :: nil) (fun i => nofnat (hd 0%nat i)).
Lemma arange_val n N : asize n = 1%nat -> at_ n (map (fun _ => 0%nat) (sh n)) = nofnat N -> arange_n n = Ok (xs (dt n) N).
Proof. intros Hs Hv. unfold arange_n. rewrite Hs. cbn [Nat.eqb]. rewrite Hv. change (nofnat N) with (Fin (INR N)). rewrite arange_len_nat. reflexivity. Qed.
(** ** scalars *)
Lemma tb_scalar a s i v : sh a = [] -> at_ a [] = v -> tb (Ok a) s i v [].
Proof. intros Hs Hv. exists a. split; auto. rewrite Hs. split; [exact I|]. split; [intros _; exact Hv|]. intros j t []. Qed.
(** ** arguments of size one *)
Lemma params1 s a f : params s ((a, f) :: nil) -> sh a = s /\ forall i, inb s i -> at_ a i = f i.
Proof.
  intros [C F]. cbn [map common_shape fst] in C. assert (sh a = s) as E. { revert C. rewrite ?bshape_nil_r, ?bshape_nil_l. cbn. intros C. try (now inversion C); destruct (sh a); now inversion C. } split; auto.
  inversion F as [|? ? H _]; subst. cbn [fst snd] in H. intros i Hi. rewrite <- (H i Hi). now rewrite bidx_id.
Qed.
Lemma unit1_cases a v : unit1 a v -> (sh a = [] /\ at_ a [] = v) \/ (sh a = 1%nat :: nil /\ at_ a (0%nat :: nil) = v).
Proof. intros [H|H]; apply params1 in H as [S V]; [left|right]; (split; [exact S|]; apply V; simpl; auto). Qed.
Lemma unit1_size a v : unit1 a v -> asize a = 1%nat /\ at_ a (map (fun _ => 0%nat) (sh a)) = v.
Proof. intros H. apply unit1_cases in H as [[S V]|[S V]]; unfold asize; rewrite S; simpl; auto. Qed.
Lemma tb_unit a s i v : unit1 a v -> s <> [] -> tb (Ok a) s i v [].
Proof.
  intros H Hs. apply unit1_cases in H as [[S V]|[S V]]; exists a; rewrite S; split; auto.
  - split; [exact I|]. split; [intros _; exact V|]. intros j t [].
  - destruct s as [|d s]; [congruence|]. split; [simpl; auto|]. split; [|intros j t []]. intros Hi. destruct i as [|k i]; [easy|]. simpl. now destruct i.
Qed.
Lemma unit1_0 a v : sh a = [] -> at_ a [] = v -> unit1 a v.
Proof. intros S V. left. split; cbn [map fst common_shape]; [rewrite S; reflexivity|]. constructor; [|constructor]. intros i _. cbn [fst snd]. rewrite S. exact V. Qed.
Lemma unit_val obs n prob N y p : unit1 obs (Fin y) -> unit1 n (nofnat N) -> unit1 prob (Fin p) -> 0 <= p <= 1 ->
  returns (binom_inner obs n prob) [] (fun _ => Fin (binom_s eps36 N p y)) /\ returns (crps_binomial obs n prob) [] (fun _ => Fin (binom_s eps36 N p y)).
Proof.
  intros Uo Un Up Hp. destruct (unit1_size _ _ Uo) as [Zo Vo]. destruct (unit1_size _ _ Un) as [Zn Vn]. destruct (unit1_size _ _ Up) as [Zp Vp].
  pose proof (arange_val n N Zn Vn) as Ea.
  assert (returns (sci 2 * asum_all (binom_term (Ok obs) (Ok (xs (dt n) N)) (Ok n) (Ok prob)))%A [] (fun _ => Fin (binom_s eps36 N p y))) as K.
  { rewrite <- bt_sum. apply asum_all_ret. eapply returns_eq.
    - eapply (term_returns _ _ _ _ (S N :: nil) (fun _ => Fin y) (fun i => nofnat (hd 0%nat i)) (fun _ => nofnat N) (fun _ => Fin p) [] ((S N :: nil) :: nil) [] []).
      + intros i. now apply tb_unit. + intros i. now apply tb_full. + intros i. now apply tb_unit. + intros i. now apply tb_unit.
      + intros j Hj. exists (S N :: nil). split; [simpl; auto|]. exists (S N). destruct j; [auto|simpl in Hj; lia].
    - intros i Hi. cbv beta. destruct i as [|k [|? ?]]; simpl in Hi; try tauto. simpl hd. apply nterm_val; auto. lia. }
  split.
  - unfold binom_inner. rewrite Ea. exact K.
  - unfold crps_binomial. rewrite Zn, Zo, Zp. cbn [Nat.eqb andb negb]. rewrite Ea. exact K.
Qed.
(** ** a single n and vectors obs, prob *)
Lemma tb_all T s f L : (forall i, tb T s i (f i) L) -> exists a, T = Ok a /\ forall i, tb (Ok a) s i (f i) L.
Proof. intros H. destruct (H []) as (a & Ea & _). exists a. split; auto. intros i. rewrite <- Ea. apply H. Qed.
Lemma tb_wk T s i x L L' : tb T s i x L -> (forall t, In t L' -> In t L) -> tb T s i x L'.
Proof. intros (a & H1 & H2 & H3 & H4) W. exists a. eauto 6. Qed.
Lemma tb_ones n N s i : unit1 n (nofnat N) -> s <> [] -> tb (sc 0 * Ok n + sci 1)%A s i (Fin 1) [].
Proof. intros U Hs. pose proof (tb_unit n s i _ U Hs) as T. eapply tb_wk; [eapply tb_eq; [tbs|]|intros t []]. intros _. change (nofnat ?a) with (Fin (INR a)). cbv beta. simpl. f_equal. ring. Qed.
Lemma tb_expand a m M f : bto (sh a) (m :: nil) -> (2 <= m)%nat -> (forall r, inb (m :: nil) r -> at_ a (bidx (sh a) r) = f r) ->
  forall i, tb (binom_expand a) (M :: m :: nil) i (f (tl i)) ((1%nat :: sh a) :: nil).
Proof.
  intros B Hm V i. unfold binom_expand, asize. destruct (sh a) as [|d [|? ?]] eqn:E; try (simpl in B; tauto).
  - cbn [fold_right length Nat.ltb Nat.leb]. unfold aexpand. cbn [bind]. rewrite E. cbn. eexists. split; [reflexivity|]. cbn [sh at_]. split; [simpl; auto|]. split; [|intros j t [<-|[]]; auto].
    intros Hi. destruct i as [|k [|l [|? ?]]]; simpl in Hi; try tauto. simpl. assert (inb (m :: nil) (l :: nil)) as Hl by (simpl; tauto). apply (V _ Hl).
  - simpl in B. assert (d = m \/ d = 1%nat) as [->| ->] by tauto.
    + cbn [fold_right length]. rewrite Nat.mul_1_r. destruct (Nat.ltb_spec 1 m); [|lia]. unfold aexpand. cbn [bind]. rewrite E. cbn. eexists. split; [reflexivity|]. cbn [sh at_]. split; [simpl; auto|]. split; [|intros j t [<-|[]]; auto].
      intros Hi. destruct i as [|k [|l [|? ?]]]; simpl in Hi; try tauto. assert (inb (m :: nil) (l :: nil)) as Hl by (simpl; tauto). specialize (V _ Hl). simpl in V |- *. destruct (Nat.eqb_spec m 1); [lia|]. exact V.
    + cbn [fold_right length Nat.mul Nat.ltb Nat.leb]. unfold aexpand. cbn [bind]. rewrite E. cbn. eexists. split; [reflexivity|]. cbn [sh at_]. split; [simpl; auto|]. split; [|intros j t [<-|[]]; auto].
      intros Hi. destruct i as [|k [|l [|? ?]]]; simpl in Hi; try tauto. assert (inb (m :: nil) (l :: nil)) as Hl by (simpl; tauto). specialize (V _ Hl). simpl in V |- *. exact V.
Qed.
Lemma vec_val obs n prob N m y p : (2 <= m)%nat -> unit1 n (nofnat N) -> params (m :: nil) ((obs, fins y) :: (prob, fins p) :: nil) -> (forall i, inb (m :: nil) i -> 0 <= p i <= 1) ->
  returns (crps_binomial obs n prob) (m :: nil) (fun i => Fin (binom_s eps36 N (p i) (y i))).
Proof.
  intros Hm Un Pr Hp. destruct (unit1_size _ _ Un) as [Zn Vn]. pose proof (arange_val n N Zn Vn) as Ea. destruct Pr as [C F]. destruct (common_bto _ _ C) as [B CC]. cbn [map fst] in B, CC.
  pose proof (Forall_inv F) as Fo. pose proof (Forall_inv (Forall_inv_tail F)) as Fp. cbn [fst snd] in Fo, Fp.
  assert (bto (sh obs) (m :: nil)) as Bo by (apply B; simpl; auto). assert (bto (sh prob) (m :: nil)) as Bp by (apply B; simpl; auto).
  assert (forall a f, bto (sh a) (m :: nil) -> (forall i, inb (m :: nil) i -> at_ a (bidx (sh a) i) = fins f i) -> exists b, (binom_expand a * (sc 0 * Ok n + sci 1))%A = Ok b /\ forall i, tb (Ok b) (S N :: m :: nil) i (fins f (tl i)) ((1%nat :: sh a) :: nil)) as X.
  { intros a f Ba Fa. apply tb_all with (f := fun i => fins f (tl i)). intros i. pose proof (tb_expand a m (S N) (fins f) Ba Hm Fa i) as T1. pose proof (tb_ones n N (S N :: m :: nil) i Un ltac:(discriminate)) as T2.
    unfold amul. pose proof (tb_bin djoin nmul _ _ _ _ _ _ _ _ T1 T2) as T3. rewrite app_nil_r in T3. eapply tb_eq; [exact T3|]. intros _. unfold fins. simpl. f_equal. ring. }
  assert (exists b, (aexpand 1 (Ok (xs (dt n) N)) * (sc 0 * Ok n + sci 1))%A = Ok b /\ forall i, tb (Ok b) (S N :: m :: nil) i (nofnat (hd 0%nat i)) ((S N :: 1%nat :: nil) :: nil)) as (x & Ex & Tx).
  { apply tb_all with (f := fun i => nofnat (hd 0%nat i)). intros i. pose proof (tb_ones n N (S N :: m :: nil) i Un ltac:(discriminate)) as T2.
    assert (tb (aexpand 1 (Ok (xs (dt n) N))) (S N :: m :: nil) i (nofnat (hd 0%nat i)) ((S N :: 1%nat :: nil) :: nil)) as T1.
    { eexists. split; [reflexivity|]. cbn [sh at_ insert_at]. split; [simpl; auto|]. split; [|intros j t [<-|[]]; auto].
      intros Hi. destruct i as [|k [|l [|? ?]]]; simpl in Hi; try tauto. cbn. destruct N; [|reflexivity]. simpl. f_equal. lia. }
    unfold amul. pose proof (tb_bin djoin nmul _ _ _ _ _ _ _ _ T1 T2) as T3. rewrite app_nil_r in T3. eapply tb_eq; [exact T3|]. intros _. change (nofnat ?a) with (Fin (INR a)). simpl. f_equal. ring. }
  destruct (X obs y Bo Fo) as (o' & Eo & To). destruct (X prob p Bp Fp) as (p' & Ep & Tp).
  assert (pres (sh obs) (m :: nil) 0 \/ pres (sh prob) (m :: nil) 0) as Cv.
  { destruct (CC 0%nat ltac:(simpl; lia)) as (t & Ht & Pt). cbn [In] in Ht. destruct Ht as [<-|[<-|[]]]; auto. }
  assert ((asize obs =? 1)%nat && (asize prob =? 1)%nat = false) as Zb.
  { assert (forall a, pres (sh a) (m :: nil) 0 -> bto (sh a) (m :: nil) -> (asize a =? 1)%nat = false) as Y.
    { intros a (d & E1 & E2) Ba. simpl in E2. injection E2 as <-. unfold asize. destruct (sh a) as [|e [|? ?]]; simpl in E1, Ba; try discriminate; try tauto. injection E1 as ->. simpl. apply Nat.eqb_neq. lia. }
    destruct Cv as [H|H]; rewrite (Y _ H) by auto; [reflexivity|apply andb_false_r]. }
  unfold crps_binomial. cbv zeta. rewrite Zn, Zb. cbn [Nat.eqb negb]. rewrite Ea. cbn [bind]. rewrite Eo, Ep, Ex. cbn [bind].
  eapply returns_eq; [|intros r Hr; symmetry; rewrite <- bt_sum; reflexivity].
  apply (asum_ret _ (S N) (m :: nil) (fun k r => bt (y r) k N (p r))). eapply returns_eq.
  - eapply (term_returns _ _ _ _ (S N :: m :: nil) (fun i => fins y (tl i)) (fun i => nofnat (hd 0%nat i)) (fun _ => nofnat N) (fun i => fins p (tl i))); [exact To|exact Tx| |exact Tp|].
    + intros i. apply tb_unit; [exact Un|discriminate].
    + intros [|[|j]] Hj; [| |simpl in Hj; lia].
      * exists (S N :: 1%nat :: nil). split; [simpl; auto|]. exists (S N). auto.
      * destruct Cv as [(d & H1 & H2)|(d & H1 & H2)]; [exists (1%nat :: sh obs)|exists (1%nat :: sh prob)]; (split; [simpl; auto|exists d; split; [exact H1|exact H2]]).
  - intros i Hi. cbv beta. destruct i as [|k r]; simpl in Hi; try tauto. cbn [hd tl]. unfold fins. apply nterm_val; [lia|]. apply Hp. simpl. tauto.
Qed.
(** ** an array n *)
Lemma collect_map {A} (g : nat -> res A) (P : nat -> A -> Prop) : forall m st, (forall i, (st <= i < st + m)%nat -> exists a, g i = Ok a /\ P i a) ->
  exists l, collect (map g (seq st m)) = Ok l /\ length l = m /\ forall i, (i < m)%nat -> exists a, nth_error l i = Some a /\ P (st + i)%nat a.
Proof.
  induction m as [|m IH]; intros st H; [exists nil; split; [reflexivity|]; split; [reflexivity|intros; lia]|].
  destruct (H st ltac:(lia)) as (a & Ea & Pa). destruct (IH (S st)) as (l & El & Hl & Q); [intros i Hi; apply H; lia|].
  exists (a :: l). cbn [seq map collect]. rewrite Ea. cbn [bind]. rewrite El. split; [reflexivity|]. split; [simpl; lia|]. intros [|i] Hi.
  - exists a. rewrite Nat.add_0_r. auto.
  - destruct (Q i ltac:(lia)) as (b & Eb & Pb). exists b. split; auto. now rewrite Nat.add_succ_r.
Qed.
Lemma stack_val (g : nat -> tensor) m v : (1 <= m)%nat -> (forall i, (i < m)%nat -> returns (g i) [] (fun _ => v i)) ->
  exists l, collect (map g (seq 0 m)) = Ok l /\ returns (astack0 l) (m :: nil) (fun i => v (hd 0%nat i)).
Proof.
  intros Hm H. destruct (collect_map g (fun i a => at_ a [] = v i) m 0) as (l & El & Hl & Q).
  { intros i Hi. destruct (H i ltac:(lia)) as (d & a & Ea & _ & S & V). exists a. split; auto. apply V. rewrite <- S. rewrite S. exact I. }
  exists l. split; auto. destruct l as [|b l]; [simpl in Hl; lia|]. unfold astack0. eexists. eexists. split; [reflexivity|]. split; [reflexivity|]. split; [cbn [sh]; now rewrite Hl|]. intros i Hi. destruct i as [|k [|? ?]]; simpl in Hi; try tauto. cbn [at_ hd].
  destruct (Q k ltac:(lia)) as (c & -> & Vc). exact Vc.
Qed.
Lemma asize1 a m : sh a = m :: nil -> asize a = m.
Proof. intros E. unfold asize. rewrite E. simpl. lia. Qed.
Lemma tb_onesn n m N i : sh n = m :: nil -> (forall r, inb (m :: nil) r -> at_ n r = nofnat (N r)) -> tb (sc 0 * Ok n + sci 1)%A (m :: nil) i (Fin 1) ((m :: nil) :: nil).
Proof. intros S V. pose proof (tb_full n (m :: nil) i (nofnat (N i)) S ltac:(auto)) as T. eapply tb_wk; [eapply tb_eq; [tbs|]|simpl; tauto]. intros _. change (nofnat ?a) with (Fin (INR a)). cbv beta. simpl. f_equal. ring. Qed.
Lemma spread a n m N f : (2 <= m)%nat -> sh n = m :: nil -> (forall r, inb (m :: nil) r -> at_ n r = nofnat (N r)) -> bto (sh a) (m :: nil) -> (forall i, inb (m :: nil) i -> at_ a (bidx (sh a) i) = fins f i) ->
  exists b, (if (asize a =? 1)%nat then Ok a * (sc 0 * Ok n + sci 1) else Ok a)%A = Ok b /\ sh b = m :: nil /\ forall i, inb (m :: nil) i -> at_ b i = fins f i.
Proof.
  intros Hm Sn Vn Ba Fa. destruct (Nat.eqb_spec (asize a) 1) as [Z|Z].
  - assert (returns (Ok a * (sc 0 * Ok n + sci 1))%A (m :: nil) (fins f)) as (d & b & E & _ & S & V); [|exists b; auto].
    apply tb_returns_full. intros i. assert (tb (Ok a) (m :: nil) i (fins f i) []) as T1 by (exists a; split; auto; split; auto; split; [auto|intros j t []]).
    pose proof (tb_onesn n m N i Sn Vn) as T2. pose proof (tb_bin djoin nmul _ _ _ _ _ _ _ _ T1 T2) as T3. eapply tb_eq; [exact T3|]. intros _. unfold fins. simpl. f_equal. ring.
  - exists a. split; auto. assert (sh a = m :: nil) as E. { unfold asize in Z. destruct (sh a) as [|d [|? ?]]; simpl in Z, Ba; try tauto; try lia. destruct Ba as [[->| ->] _]; auto. simpl in Z. lia. } split; auto. intros i Hi. rewrite <- Fa by auto. now rewrite E, bidx_id.
Qed.
Lemma afirst_unit a m v k : sh a = m :: nil -> (forall i, inb (m :: nil) i -> at_ a i = v i) -> (k < m)%nat -> unit1 (afirst a k) (v (k :: nil)).
Proof. intros S V Hk. apply unit1_0; unfold afirst; cbn [sh at_]; [now rewrite S|]. apply V. simpl. auto. Qed.
Lemma arr_val obs n prob N m y p : (2 <= m)%nat -> sh n = m :: nil -> params (m :: nil) ((obs, fins y) :: (n, fun i => nofnat (N i)) :: (prob, fins p) :: nil) -> (forall i, inb (m :: nil) i -> 0 <= p i <= 1) ->
  returns (crps_binomial obs n prob) (m :: nil) (fun i => Fin (binom_s eps36 (N i) (p i) (y i))).
Proof.
  intros Hm Sn Pr Hp. destruct Pr as [C F]. destruct (common_bto _ _ C) as [B _]. cbn [map fst] in B.
  pose proof (Forall_inv F) as Fo. pose proof (Forall_inv (Forall_inv_tail F)) as Fn. pose proof (Forall_inv (Forall_inv_tail (Forall_inv_tail F))) as Fp. cbn [fst snd] in Fo, Fn, Fp.
  assert (forall r, inb (m :: nil) r -> at_ n r = nofnat (N r)) as Vn. { intros r Hr. rewrite <- Fn by auto. now rewrite Sn, bidx_id. }
  destruct (spread obs n m N y Hm Sn Vn) as (o' & Eo & So & Vo); [apply B; simpl; auto|exact Fo|]. destruct (spread prob n m N p Hm Sn Vn) as (p' & Ep & Sp & Vp); [apply B; simpl; auto|exact Fp|].
  unfold crps_binomial. cbv zeta. rewrite (asize1 n m Sn). destruct (Nat.eqb_spec m 1); [lia|]. unfold tensor in *. rewrite Eo, Ep. cbn [bind]. unfold alen. rewrite So, Sn, Sp. cbn [rev app bind]. rewrite !Nat.min_id, Nat.eqb_refl. cbn [andb].
  destruct (stack_val (fun i => binom_inner (afirst o' i) (afirst n i) (afirst p' i)) m (fun k => Fin (binom_s eps36 (N (k :: nil)) (p (k :: nil)) (y (k :: nil)))) ltac:(lia)) as (l & El & R).
  { intros i Hi. apply unit_val.
    - apply (afirst_unit o' m (fins y) i So Vo Hi). - apply (afirst_unit n m _ i Sn Vn Hi). - apply (afirst_unit p' m (fins p) i Sp Vp Hi). - apply Hp. simpl. auto. }
  match goal with |- context [collect ?x] => replace (collect x) with (@Ok (list arr) l) by (symmetry; exact El) end. cbn [bind]. eapply returns_eq; [exact R|]. intros r Hr. destruct r as [|k [|? ?]]; simpl in Hr; try tauto.
Qed.
(** ** lengths that differ *)
Lemma arr_lengths obs n prob N m m' y p : (2 <= m)%nat -> (2 <= m')%nat -> m' <> m -> real_arr obs (m' :: nil) y -> sh n = m :: nil ->
  params (m :: nil) ((n, fun i => nofnat (N i)) :: (prob, fins p) :: nil) -> (forall i, inb (m :: nil) i -> 0 <= p i <= 1) -> raises (crps_binomial obs n prob) ValueError.
Proof.
  intros Hm Hm' Hne [So Vo] Sn Pr Hp. destruct Pr as [C F]. destruct (common_bto _ _ C) as [B _]. cbn [map fst] in B.
  pose proof (Forall_inv F) as Fn. pose proof (Forall_inv (Forall_inv_tail F)) as Fp. cbn [fst snd] in Fn, Fp.
  assert (forall r, inb (m :: nil) r -> at_ n r = nofnat (N r)) as Vn. { intros r Hr. rewrite <- Fn by auto. now rewrite Sn, bidx_id. }
  destruct (spread prob n m N p Hm Sn Vn) as (p' & Ep & Sp & Vp); [apply B; simpl; auto|exact Fp|].
  unfold crps_binomial, raises. cbv zeta. rewrite (asize1 n m Sn), (asize1 obs m' So). destruct (Nat.eqb_spec m 1); [lia|]. destruct (Nat.eqb_spec m' 1); [lia|]. unfold tensor in *. cbn [bind]. rewrite Ep. cbn [bind]. unfold alen. rewrite So, Sn, Sp. cbn [rev app bind]. rewrite Nat.min_id.
  destruct (stack_val (fun i => binom_inner (afirst obs i) (afirst n i) (afirst p' i)) (Nat.min m' m) (fun k => Fin (binom_s eps36 (N (k :: nil)) (p (k :: nil)) (y (k :: nil)))) ltac:(lia)) as (l & El & R).
  { intros i Hi. apply unit_val.
    - apply (afirst_unit obs m' (fins y) i So Vo). lia. - apply (afirst_unit n m _ i Sn Vn). lia. - apply (afirst_unit p' m (fins p) i Sp Vp). lia. - apply Hp. simpl. split; [lia|auto]. }
  match goal with |- context [collect ?x] => replace (collect x) with (@Ok (list arr) l) by (symmetry; exact El) end. cbn [bind]. destruct (Nat.eqb_spec m' m); [lia|]. reflexivity.
Qed.
(** no n at all *)
Lemma arr_empty obs n prob y p : sh n = 0%nat :: nil -> unit1 obs (Fin y) -> unit1 prob (Fin p) -> raises (crps_binomial obs n prob) ValueError.
Proof.
  intros Sn Uo Up. destruct (unit1_size _ _ Uo) as [Zo _]. destruct (unit1_size _ _ Up) as [Zp _]. unfold crps_binomial, raises. cbv zeta. rewrite (asize1 n _ Sn), Zo, Zp. cbn [Nat.eqb].
  assert (forall a v, unit1 a v -> exists b, (Ok a * (sc 0 * Ok n + sci 1))%A = Ok b /\ sh b = 0%nat :: nil) as X.
  { intros a v U. assert (returns (Ok a * (sc 0 * Ok n + sci 1))%A (0%nat :: nil) (fun _ => v .* Fin 1)) as (d & b & E & _ & S & V); [|exists b; auto].
    apply tb_returns_full. intros i. pose proof (tb_unit a (0%nat :: nil) i v U ltac:(discriminate)) as T1. assert (tb (sc 0 * Ok n + sci 1)%A (0%nat :: nil) i (Fin 1) ((0%nat :: nil) :: nil)) as T2 by (apply (tb_onesn n 0 (fun _ => 0%nat)); auto; intros [|k [|? ?]] Hr; simpl in Hr; lia). exact (tb_bin djoin nmul _ _ _ _ _ _ _ _ T1 T2). }
  destruct (X _ _ Uo) as (o' & Eo & So). destruct (X _ _ Up) as (p' & Ep & Sp). rewrite Eo, Ep. cbn [bind]. unfold alen. rewrite So, Sp, Sn. reflexivity.
Qed.
(** ** matrices of observations *)
Lemma expand_mat obs n N a b : unit1 n (nofnat N) -> (2 <= a * b)%nat -> sh obs = b :: a :: nil -> exists o', (binom_expand obs * (sc 0 * Ok n + sci 1))%A = Ok o' /\ sh o' = b :: 1%nat :: a :: nil /\
  forall k r, (k < b)%nat -> (r < a)%nat -> at_ o' (k :: 0%nat :: r :: nil) = at_ obs (k :: r :: nil) .* Fin 1.
Proof.
  intros Un Hab So. assert (returns (binom_expand obs * (sc 0 * Ok n + sci 1))%A (b :: 1%nat :: a :: nil) (fun i => at_ obs (remove_at 1 i) .* Fin 1)) as (d & o' & E & _ & S & V).
  { apply tb_returns_full. intros i. assert (tb (binom_expand obs) (b :: 1%nat :: a :: nil) i (at_ obs (remove_at 1 i)) ((b :: 1%nat :: a :: nil) :: nil)) as T1.
    { unfold binom_expand, asize. rewrite So. cbn [fold_right length]. destruct (Nat.ltb_spec 1 (b * (a * 1))); [|lia]. unfold aexpand. cbn [bind]. rewrite So. cbn. apply tb_full; auto. }
    pose proof (tb_ones n N (b :: 1%nat :: a :: nil) i Un ltac:(discriminate)) as T2. pose proof (tb_bin djoin nmul _ _ _ _ _ _ _ _ T1 T2) as T3. exact T3. }
  exists o'. split; auto. split; auto. intros k r Hk Hr. rewrite V; [reflexivity|]. simpl. auto.
Qed.
Lemma expand_x n N : unit1 n (nofnat N) -> exists x, (aexpand 1 (Ok (xs (dt n) N)) * (sc 0 * Ok n + sci 1))%A = Ok x /\ sh x = S N :: 1%nat :: nil /\ forall k, (k <= N)%nat -> at_ x (k :: 0%nat :: nil) = nofnat k.
Proof.
  intros Un. assert (returns (aexpand 1 (Ok (xs (dt n) N)) * (sc 0 * Ok n + sci 1))%A (S N :: 1%nat :: nil) (fun i => nofnat (hd 0%nat i))) as (d & x & E & _ & S & V).
  { apply tb_returns_full. intros i. pose proof (tb_ones n N (S N :: 1%nat :: nil) i Un ltac:(discriminate)) as T2.
    assert (tb (aexpand 1 (Ok (xs (dt n) N))) (S N :: 1%nat :: nil) i (nofnat (hd 0%nat i)) ((S N :: 1%nat :: nil) :: nil)) as T1.
    { unfold aexpand. cbn. apply tb_full; [reflexivity|]. intros Hi. destruct i as [|k [|l [|? ?]]]; simpl in Hi; try tauto. }
    pose proof (tb_bin djoin nmul _ _ _ _ _ _ _ _ T1 T2) as T3. rewrite app_nil_r in T3. eapply tb_eq; [exact T3|]. intros _. change (nofnat ?a) with (Fin (INR a)). simpl. f_equal. ring. }
  exists x. split; auto. split; auto. intros k Hk. rewrite V; [reflexivity|]. simpl. split; [lia|auto].
Qed.
Lemma expand_unit n N prob p : unit1 n (nofnat N) -> unit1 prob (Fin p) -> exists q, (binom_expand prob * (sc 0 * Ok n + sci 1))%A = Ok q /\ forall s i, (2 <= length s)%nat -> tb (Ok q) s i (Fin p) [].
Proof.
  intros Un Up. assert (forall s i, (2 <= length s)%nat -> tb (binom_expand prob * (sc 0 * Ok n + sci 1))%A s i (Fin p) []) as T.
  { intros s i Hs. destruct s as [|d1 [|d2 s]]; simpl in Hs; try lia. pose proof (tb_ones n N (d1 :: d2 :: s) i Un ltac:(discriminate)) as T2.
    assert (tb (binom_expand prob) (d1 :: d2 :: s) i (Fin p) []) as T1.
    { unfold binom_expand, asize. apply unit1_cases in Up as [[E V]|[E V]]; rewrite E; cbn [fold_right length Nat.mul Nat.ltb Nat.leb]; unfold aexpand; cbn [bind]; rewrite E; cbn; eexists; (split; [reflexivity|]); cbn [sh at_]; (split; [simpl; auto|]); (split; [|intros j t []]); intros Hi; (destruct i as [|k1 [|k2 i]]; simpl in Hi; try tauto); simpl; destruct i; exact V. }
    pose proof (tb_bin djoin nmul _ _ _ _ _ _ _ _ T1 T2) as T3. eapply tb_eq; [exact T3|]. intros _. simpl. f_equal. ring. }
  destruct (T (0%nat :: 0%nat :: nil) nil ltac:(simpl; lia)) as (q & E & _). exists q. split; auto. intros s i Hs. rewrite <- E. now apply T.
Qed.
Lemma mat_raises obs n prob N p a b : unit1 n (nofnat N) -> unit1 prob (Fin p) -> sh obs = b :: a :: nil -> (2 <= a * b)%nat -> (1 <= N)%nat -> b <> 1%nat -> b <> S N -> raises (crps_binomial obs n prob) ValueError.
Proof.
  intros Un Up So Hab HN Hb1 HbN. destruct (unit1_size _ _ Un) as [Zn Vn]. pose proof (arange_val n N Zn Vn) as Ea.
  destruct (expand_mat obs n N a b Un Hab So) as (o' & Eo & So' & _). destruct (expand_x n N Un) as (x & Ex & Sx & Vx). destruct (expand_unit n N prob p Un Up) as (q & Eq & Tq).
  unfold crps_binomial, raises. cbv zeta. assert (asize obs = (b * a)%nat) as Zo by (unfold asize; rewrite So; simpl; lia). rewrite Zn, Zo, Ea. destruct (Nat.eqb_spec (b * a) 1); [lia|]. cbn [Nat.eqb negb andb bind]. rewrite Eo, Eq, Ex. cbn [bind]. unfold binom_term.
  assert (exists w, _binom_pdf (Ok x) (Ok n) (Ok q) = Ok w) as [w Ew].
  { assert (tb (Ok x) (S N :: 1%nat :: nil) nil (Fin 0) ((S N :: 1%nat :: nil) :: nil)) as T1 by (apply tb_full; [auto|simpl; tauto]). pose proof (tb_unit n (S N :: 1%nat :: nil) nil _ Un ltac:(discriminate)) as T2. pose proof (Tq (S N :: 1%nat :: nil) nil ltac:(simpl; lia)) as T3.
    assert (exists v L, tb (_binom_pdf (Ok x) (Ok n) (Ok q)) (S N :: 1%nat :: nil) nil v L) as (v & L & (w & E & _)); [|exists w; exact E]. eexists. eexists. tbs. }
  rewrite Ew.
  assert (bshape (b :: 1%nat :: a :: nil) (S N :: 1%nat :: nil) = None) as EB. { cbn [bshape]. unfold bdim. destruct (Nat.eqb_spec b (S N)); [lia|]. destruct (Nat.eqb_spec b 1); [lia|]. destruct (Nat.eqb_spec (S N) 1); [lia|]. reflexivity. }
  assert ((Ok o' <? Ok x)%A = Err ValueError) as -> by (unfold alt, abin; cbn [bind]; rewrite So', Sx, EB; reflexivity). reflexivity.
Qed.
Lemma mat_wrong obs n prob N p a y : unit1 n (nofnat N) -> unit1 prob (Fin p) -> real_arr obs (S N :: a :: nil) y -> (1 <= N)%nat -> (1 <= a)%nat -> 0 <= p <= 1 ->
  returns (crps_binomial obs n prob) (1%nat :: a :: nil) (fun r => Fin (2 * sumn (S N) (fun k => bt (y (k :: tl r)) k N p))).
Proof.
  intros Un Up [So Vo] HN Ha Hp. destruct (unit1_size _ _ Un) as [Zn Vn]. pose proof (arange_val n N Zn Vn) as Ea. assert (2 <= a * S N)%nat as Hab by nia.
  destruct (expand_mat obs n N a (S N) Un Hab So) as (o' & Eo & So' & Vo'). destruct (expand_x n N Un) as (x & Ex & Sx & Vx). destruct (expand_unit n N prob p Un Up) as (q & Eq & Tq).
  unfold crps_binomial. cbv zeta. assert (asize obs = (S N * a)%nat) as Zo by (unfold asize; rewrite So; simpl; lia). rewrite Zn, Zo, Ea. destruct (Nat.eqb_spec (S N * a) 1); [nia|]. cbn [Nat.eqb negb andb bind]. rewrite Eo, Eq, Ex. cbn [bind].
  apply (asum_ret _ (S N) (1%nat :: a :: nil) (fun k r => bt (y (k :: tl r)) k N p)). eapply returns_eq.
  - eapply (term_returns _ _ _ _ (S N :: 1%nat :: a :: nil) (fun i => Fin (y (hd 0%nat i :: tl (tl i)))) (fun i => nofnat (hd 0%nat i)) (fun _ => nofnat N) (fun _ => Fin p) ((S N :: 1%nat :: a :: nil) :: nil) [] [] []).
    + intros i. apply tb_full; auto. intros Hi. destruct i as [|k [|l [|r [|? ?]]]]; simpl in Hi; try tauto. assert (l = 0%nat) as -> by lia. rewrite Vo' by tauto. rewrite Vo by (simpl; tauto). simpl. f_equal. ring.
    + intros i. exists x. split; auto. rewrite Sx. split; [simpl; auto|]. split; [|intros j t []]. intros Hi. destruct i as [|k [|l [|r [|? ?]]]]; simpl in Hi; try tauto. cbn [bidx Nat.eqb hd]. destruct N; [lia|]. apply Vx. lia.
    + intros i. apply tb_unit; [exact Un|discriminate].
    + intros i. apply Tq. simpl. lia.
    + intros j Hj. exists (S N :: 1%nat :: a :: nil). split; [simpl; auto|]. simpl in Hj. destruct j as [|[|[|j]]]; [exists (S N)|exists 1%nat|exists a|lia]; auto.
  - intros i Hi. cbv beta. destruct i as [|k [|l r]]; simpl in Hi; try tauto. cbn [hd tl]. apply nterm_val; [lia|auto].
Qed.
(** ** a column or a matrix of numbers of trials *)
Lemma unit1_1 a v : sh a = 1%nat :: nil -> at_ a (0%nat :: nil) = v -> unit1 a v.
Proof. intros S V. right. split; cbn [map fst common_shape]; [rewrite S; reflexivity|]. constructor; [|constructor]. cbn [fst snd]. intros [|k [|? ?]] Hi; simpl in Hi; try tauto. rewrite S. destruct k; [exact V|lia]. Qed.
Lemma afirst_col a m v k : sh a = 1%nat :: m :: nil -> (forall i, inb (1%nat :: m :: nil) i -> at_ a i = v i) -> (k < m)%nat -> unit1 (afirst a k) (v (0%nat :: k :: nil)).
Proof. intros S V Hk. apply unit1_1; unfold afirst; cbn [sh at_]; [now rewrite S|]. apply V. simpl. auto. Qed.
Lemma col_val obs n prob N m y p : (2 <= m)%nat -> real_arr obs (1%nat :: m :: nil) y -> sh n = 1%nat :: m :: nil -> (forall i, inb (1%nat :: m :: nil) i -> at_ n i = nofnat (N i)) ->
  real_arr prob (1%nat :: m :: nil) p -> (forall i, inb (1%nat :: m :: nil) i -> 0 <= p i <= 1) ->
  returns (crps_binomial obs n prob) (m :: nil) (fun i => Fin (binom_s eps36 (N (0%nat :: i)) (p (0%nat :: i)) (y (0%nat :: i)))).
Proof.
  intros Hm [So Vo] Sn Vn [Sp Vp] Hp. unfold crps_binomial. cbv zeta. unfold asize. rewrite So, Sn, Sp. cbn [fold_right]. replace (1 * (m * 1))%nat with m by lia. destruct (Nat.eqb_spec m 1); [lia|]. cbn [bind]. unfold alen. rewrite So, Sn, Sp. cbn [rev app bind]. rewrite !Nat.min_id, Nat.eqb_refl. cbn [andb].
  destruct (stack_val (fun i => binom_inner (afirst obs i) (afirst n i) (afirst prob i)) m (fun k => Fin (binom_s eps36 (N (0%nat :: k :: nil)) (p (0%nat :: k :: nil)) (y (0%nat :: k :: nil)))) ltac:(lia)) as (l & El & R).
  { intros i Hi. apply unit_val.
    - apply (afirst_col obs m (fins y) i So Vo Hi). - apply (afirst_col n m _ i Sn Vn Hi). - apply (afirst_col prob m (fins p) i Sp Vp Hi). - apply Hp. simpl. auto. }
  match goal with |- context [collect ?x] => replace (collect x) with (@Ok (list arr) l) by (symmetry; exact El) end. cbn [bind]. eapply returns_eq; [exact R|]. intros r Hr. destruct r as [|k [|? ?]]; simpl in Hr; try tauto.
Qed.
Lemma mat_n_raises obs n prob a b : (2 <= b)%nat -> (1 <= a)%nat -> sh n = b :: a :: nil -> sh obs = b :: a :: nil -> sh prob = b :: a :: nil -> raises (crps_binomial obs n prob) TypeError.
Proof.
  intros Hb Ha Sn So Sp. unfold crps_binomial, raises. cbv zeta. unfold asize. rewrite So, Sn, Sp. cbn [fold_right]. destruct (Nat.eqb_spec (b * (a * 1)) 1); [nia|]. cbn [bind]. unfold alen. rewrite So, Sn, Sp. cbn [rev app bind]. rewrite !Nat.min_id, Nat.eqb_refl. cbn [andb].
  destruct a as [|a]; [lia|]. cbn [seq map collect]. unfold binom_inner at 1. unfold arange_n, afirst at 1. unfold asize. cbn [sh]. rewrite Sn. cbn [removelast fold_right]. destruct (Nat.eqb_spec (b * 1) 1); [lia|]. reflexivity.
Qed.
