(** Entries of the closed-form scores. *)
From Verif Require Export L_bcast M_logs.
From Coq Require Import Psatz.
Open Scope R_scope.

Lemma nsub_0_r r : nsub (Fin r) (Fin 0) = Fin r. Proof. simpl. f_equal. ring. Qed.
(** the caller's array after crps_exponentialM *)
Lemma exponentialM_after obs mass location scale s y l m c :
  params s [(obs, fins y); (mass, m); (location, fins l); (scale, c)]%list -> dt obs = DFloat -> sh obs = s ->
  exists o, snd (crps_exponentialM_mem obs mass location scale) = o /\ dt o = DFloat /\ sh o = s /\
    (forall i, inb s i -> at_ o i = Fin (y i - l i)) /\
    fst (crps_exponentialM_mem obs mass location scale) =
      (let a := if _is_scalar_value mass 0 then sc 1 else (sci 1 - Ok mass)%A in
       let t := aabs (Ok o) in
       if _is_scalar_value scale 1
       then ainplace nsub t (a * (sci 2 * _exp_cdf (Ok o) (sc 1) - sc (1 / 2) * a))%A
       else ainplace nsub t (Ok scale * a * (sci 2 * _exp_cdf (Ok o) (sci 1 / Ok scale) - sc (1 / 2) * a))%A).
Proof.
  intros P Hd Hs. unfold crps_exponentialM_mem. pose proof (common_bto _ _ (proj1 P)) as [B _]. cbn [map fst] in B.
  assert (forall i, inb s i -> at_ obs i = Fin (y i)) as Ho.
  { intros i Hi. destruct (params_tb s _ obs (fins y) i P ltac:(simpl; tauto)) as (a & E & _ & H & _). injection E as <-.
    rewrite Hs, bidx_id in H by auto. apply H; auto. }
  destruct (_is_scalar_value location 0) eqn:E0.
  - exists obs. cbn [fst snd]. repeat split; auto. intros i Hi.
    pose proof (scalar_value location 0 s i E0 (B (sh location) ltac:(simpl; tauto)) Hi) as E.
    destruct (params_tb s _ location (fins l) i P ltac:(simpl; tauto)) as (a & E' & _ & H & _). injection E' as <-. rewrite H in E by auto.
    injection E as ->. rewrite Ho by auto. f_equal. ring.
  - destruct (aset_full nsub obs (Ok location) s Hd Hs) as (o & -> & O1 & O2 & O3).
    { exists (fins l []), (sh location :: nil)%list. apply (params_tb s _ location (fins l) [] P). simpl; tauto. }
    exists o. cbn [fst snd]. repeat split; auto. intros i Hi.
    rewrite (O3 i _ _ (params_tb s _ location (fins l) i P ltac:(simpl; tauto)) Hi), Ho by auto. reflexivity.
Qed.
Lemma nmax_cdf e : nmax (nsub (nofnat 1) (Fin e)) (Fin 0) = Fin (Rmax (1 - e) 0).
Proof. change (nsub (nofnat 1) (Fin e)) with (Fin (1 + - e)). rewrite nmax_Fin. reflexivity. Qed.
(** the value of crps_exponentialM *)
Lemma exponentialM_value obs mass location scale s y l m c :
  params s [(obs, fins y); (mass, fins m); (location, fins l); (scale, fins c)]%list -> dt obs = DFloat -> sh obs = s -> (forall i, inb s i -> c i <> 0) ->
  returns (crps_exponentialM obs mass location scale) s (fun i => Fin (let w := y i - l i in let a := 1 - m i in
    Rabs w - c i * a * (2 * Rmax (1 - exp (- (w / c i))) 0 - 1 / 2 * a))).
Proof.
  intros P Hd Hs Hc. destruct (exponentialM_after _ _ _ _ _ _ _ _ _ P Hd Hs) as (o & _ & O1 & O2 & O3 & E).
  pose proof (common_bto _ _ (proj1 P)) as [B _]. cbn [map fst] in B.
  unfold crps_exponentialM. rewrite E. clear E. apply tb_returns_full. intros i. cbv beta zeta.
  assert (tb (Ok o) s i (Fin (y i - l i)) (s :: nil)) as To by (apply tb_full; auto).
  assert (exists L, tb (if _is_scalar_value mass 0 then sc 1 else (sci 1 - Ok mass)%A) s i (Fin (1 - m i)) L) as (La & Ta).
  { pose proof (params_tb s _ mass (fins m) i P ltac:(simpl; tauto)) as T.
    destruct (_is_scalar_value mass 0) eqn:E0.
    - exists nil. eapply tb_eq; [apply tb_sc|]. intros Hi.
      pose proof (scalar_value mass 0 s i E0 (B (sh mass) ltac:(simpl; tauto)) Hi) as E. destruct T as (b & E' & _ & H & _). injection E' as <-.
      rewrite E in H. specialize (H Hi). injection H as <-. f_equal. ring.
    - eexists. eapply tb_eq; [tbs|]. intros _. reflexivity. }
  pose proof (params_tb s _ scale (fins c) i P ltac:(simpl; tauto)) as Tc.
  revert Ta. generalize (if _is_scalar_value mass 0 then sc 1 else (sci 1 - Ok mass)%A). intros A Ta.
  destruct (_is_scalar_value scale 1) eqn:E1.
  - eapply tb_eq; [eapply tb_inplace; [reflexivity|exact O1|exact O2| |tbs]|].
    + intros Hi. cbn [at_]. rewrite O3 by auto. reflexivity.
    + intros Hi. pose proof (scalar_value scale 1 s i E1 (B (sh scale) ltac:(simpl; tauto)) Hi) as E. destruct Tc as (b & E' & _ & H & _). injection E' as <-.
      rewrite E in H. specialize (H Hi). injection H as H. fin. rewrite <- H. replace (- (1) * (y i - l i)) with (- ((y i - l i) / 1)) by field.
      replace (INR 2) with 2 by (simpl; ring). replace (INR 1) with 1 by reflexivity. ring.
  - eapply tb_eq; [eapply tb_inplace; [reflexivity|exact O1|exact O2| |tbs]|].
    + intros Hi. cbn [at_]. rewrite O3 by auto. reflexivity.
    + intros Hi. pose proof (Hc i Hi) as Hci. unfold fins. fin; [exact Hci|]. replace (INR 2) with 2 by (simpl; ring). replace (INR 1) with 1 by reflexivity.
      replace (- (1 / c i) * (y i - l i)) with (- ((y i - l i) / c i)) by (field; auto). ring.
Qed.
(** logs_exponential2 *)
Lemma exponential2_after obs location scale s y l c :
  params s [(obs, fins y); (location, fins l); (scale, c)]%list -> dt obs = DFloat -> sh obs = s ->
  exists o, snd (logs_exponential2_mem obs location scale) = o /\ dt o = DFloat /\ sh o = s /\
    (forall i, inb s i -> at_ o i = Fin (y i - l i)) /\
    fst (logs_exponential2_mem obs location scale) =
      (let rate := (sci 1 / Ok scale)%A in
      let zind := (Ok o <? sc 0)%A in
      let obs := awhere zind nan (Ok o) in
      let prob := _exp_pdf obs rate in
      awhere zind inf (aneg (alog prob))).
Proof.
  intros P Hd Hs. unfold logs_exponential2_mem.
  assert (forall i, inb s i -> at_ obs i = Fin (y i)) as Ho.
  { intros i Hi. destruct (params_tb s _ obs (fins y) i P ltac:(simpl; tauto)) as (a & E & _ & H & _). injection E as <-.
    rewrite Hs, bidx_id in H by auto. apply H; auto. }
  destruct (aset_full nsub obs (Ok location) s Hd Hs) as (o & -> & O1 & O2 & O3).
  { exists (fins l []), (sh location :: nil)%list. apply (params_tb s _ location (fins l) [] P). simpl; tauto. }
  exists o. cbn [fst snd]. repeat split; auto. intros i Hi.
  rewrite (O3 i _ _ (params_tb s _ location (fins l) i P ltac:(simpl; tauto)) Hi), Ho by auto. reflexivity.
Qed.
Lemma broadcast3_params a b c s f g h : params s [(a, f); (b, g); (c, h)]%list -> exists a' b' c',
  broadcast3 a b c = Ok (a', b', c') /\ sh a' = s /\ params s [(a', f); (b', g); (c', h)]%list.
Proof.
  intros P. destruct (common_bto _ _ (proj1 P)) as [B C]. cbn [map fst] in B, C.
  assert (bto (sh a) s) as Ba by (apply B; simpl; tauto). assert (bto (sh b) s) as Bb by (apply B; simpl; tauto). assert (bto (sh c) s) as Bc by (apply B; simpl; tauto).
  destruct (bshape_bto _ _ _ Ba Bb) as (t & E & T0 & T1 & T2 & Q).
  destruct (bshape_bto _ _ _ T0 Bc) as (u & E' & U0 & U1 & U2 & Q').
  assert (u = s) as ->.
  { apply bto_pres_eq; auto. intros j Hj. destruct (C j Hj) as (v & Hv & Pv). apply Q'. simpl in Hv. destruct Hv as [<-|[<-|[<-|[]]]]; auto. }
  unfold broadcast3. rewrite E, E'. do 3 eexists; split; [reflexivity|]. split; [reflexivity|]. split.
  - cbn [map fst sh common_shape]. rewrite bshape_nil_r, bshape_refl. apply bshape_refl.
  - destruct P as [_ P]. inversion P as [|? ? P1 P']; inversion P' as [|? ? P2 P'']; inversion P'' as [|? ? P3 _]; subst. cbn [fst snd] in *.
    repeat constructor; cbn [fst snd sh at_]; intros i Hi; rewrite (bidx_id s i) by auto; auto.
Qed.
Lemma nsub_Fin0 x : nsub x (Fin 0) = x. Proof. destruct x; simpl; try reflexivity. f_equal. ring. Qed.
Lemma ndiv_Fin1 x : ndiv x (Fin 1) = x.
Proof.
  destruct x; simpl; try reflexivity.
  - destruct (Req_EM_T 1 0); [lra|]. f_equal. field.
  - destruct (Rlt_dec 1 0); [lra|reflexivity].
  - destruct (Rlt_dec 1 0); [lra|reflexivity].
Qed.
Lemma nmul_Fin1 x : nmul x (Fin 1) = x.
Proof. destruct x; simpl; try reflexivity; try (f_equal; ring); unfold infsgn; destruct (Rlt_dec 0 1); try reflexivity; lra. Qed.
(** crps_beta on [0, 1] *)
Definition beta_core (obs a b : num) : num :=
  let F x := nmin (nmax x (nofnat 0)) (nofnat 1) in
  let rat := ndiv (nmul (nofnat 2) (nbeta (nmul (nofnat 2) a) (nmul (nofnat 2) b))) (nmul a (nsq (nbeta a b))) in
  nadd (nmul obs (nsub (nmul (nofnat 2) (F (nbetainc a b obs))) (nofnat 1)))
       (nmul (ndiv a (nadd a b))
          (nsub (nsub (nofnat 1) (nmul (nofnat 2) (F (nbetainc (nadd a (nofnat 1)) b obs)))) rat)).
Lemma beta_entry obs a b lower upper s t y p q l u l' u' :
  params s [(obs, y); (a, p); (b, q)]%list ->
  params s [(obs, y); (a, p); (b, q); (lower, fins l); (upper, fins u)]%list ->
  params t [(lower, fins l'); (upper, fins u')]%list -> (forall i, inb t i -> l' i < u' i) ->
  returns (crps_beta obs a b lower upper) s (fun i =>
    nmul (beta_core (ndiv (nsub (y i) (Fin (l i))) (Fin (u i - l i))) (p i) (q i)) (Fin (u i - l i))).
Proof.
  intros P0 P Pt Hlt. pose proof (common_bto _ _ (proj1 P)) as [B _]. cbn [map fst] in B. unfold crps_beta.
  destruct (_is_scalar_value lower 0 && _is_scalar_value upper 1) eqn:E.
  - cbn [bind]. apply andb_true_iff in E as [E1 E2].
    assert (forall i, inb s i -> l i = 0 /\ u i = 1) as LU.
    { intros i Hi. pose proof (scalar_value _ _ s i E1 (B (sh lower) ltac:(simpl; tauto)) Hi) as X1. pose proof (scalar_value _ _ s i E2 (B (sh upper) ltac:(simpl; tauto)) Hi) as X2.
      destruct (params_tb s _ lower (fins l) i P ltac:(simpl; tauto)) as (c & Ec & _ & Hc & _). injection Ec as <-.
      destruct (params_tb s _ upper (fins u) i P ltac:(simpl; tauto)) as (d & Ed & _ & Hd & _). injection Ed as <-.
      rewrite Hc in X1 by auto. rewrite Hd in X2 by auto. injection X1; injection X2; auto. }
    ret P0. destruct (LU i Hi) as [-> ->]. replace (1 - 0) with 1 by ring. rewrite nmul_Fin1, ndiv_Fin1, nsub_Fin0. reflexivity.
  - assert (returns (age (Ok lower) (Ok upper)) t (fun i => b2n (nleb (fins u' i) (fins l' i)))) as (dd & c & Ec & _ & Sc & Vc).
    { ret Pt. reflexivity. }
    rewrite Ec. unfold aany. cbn [bind]. rewrite Sc.
    destruct (existsb (fun i => negb (neqb (at_ c i) (Fin 0))) (all_idx t)) eqn:X.
    + exfalso. apply existsb_exists in X as (i & Hi & C). apply inb_all_idx in Hi. rewrite Vc in C by auto. specialize (Hlt i Hi).
      unfold fins in C. simpl in C. unfold rleb in C. destruct (Rle_dec (u' i) (l' i)); [lra|]. simpl in C. unfold reqb in C. destruct (Req_EM_T 0 0); [discriminate|lra].
    + ret P. reflexivity.
Qed.
