(** Deleting NaN members: rows of weighted calls, with every degenerate case. *)
From Coq Require Import FunctionalExtensionality.
From Verif Require Export L_crps_more L_crps_omit S_nan.
Open Scope R_scope.

(** value of a weighted row for the four estimators that allow omit *)
Definition wval (b : impl) (e : est) (M : nat) (w : nat -> R) (y : R) (x : nat -> R) : num :=
  if Rlt_dec 0 (sumn M w) then
    if need2 e then if Req_EM_T (fairc M (nw M w)) 0 then NaN else Fin (real_w b e M (nw M w) y x)
    else Fin (real_w b e M (nw M w) y x)
  else NaN.
Lemma row_full srt b e M yn xn wn y x w : argsort_ok srt -> omit_est e -> (0 < M)%nat -> yn = Fin y ->
  (forall k, (k < M)%nat -> xn k = Fin (x k)) -> (forall k, (k < M)%nat -> wn k = Fin (w k)) ->
  (forall k, (k < M)%nat -> 0 <= w k) ->
  row_w b e M yn (fun k => xn (ord srt e false M xn k)) (effw srt e false M xn wn) = wval b e M w y x.
Proof.
  intros Hs He HM Hy Hx Hw Hw0. unfold wval. destruct (Rlt_dec 0 (sumn M w)) as [Ht|Ht].
  - assert (G : need2 e = true -> fairc M (nw M w) = 0 -> 
       row_w b e M yn (fun k => xn (ord srt e false M xn k)) (effw srt e false M xn wn) = NaN).
    { intros E Hc. assert (P := ord_permutes srt Hs e false M xn).
      assert (S1 : sumn M (fun k => nw M w (ord srt e false M xn k)) = 1).
      { rewrite (sumn_permutes M _ (nw M w) P). apply nw_sum1; lra. }
      apply (row_w_one b e M yn _ _ y (fun k => x (ord srt e false M xn k)) (fun k => nw M w (ord srt e false M xn k))); auto.
      - intros k Hk. apply Hx. now apply ord_lt.
      - intros k Hk. unfold effw.
        rewrite (normn_real M _ (fun k => nw M w (ord srt e false M xn k))); auto.
        + unfold nw at 1. rewrite S1. f_equal. field.
        + intros j Hj. apply normn_real; auto; [lra|now apply ord_lt].
        + rewrite S1; lra.
      - intros k Hk. apply nw_nonneg; auto. now apply ord_lt.
      - unfold fairc in *. now rewrite sumsq_permutes. }
    destruct (need2 e) eqn:E; [destruct (Req_EM_T (fairc M (nw M w)) 0) as [Z|Z]|].
    + now apply G.
    + apply row_ord_w; auto; easy.
    + apply row_ord_w; auto; try easy. congruence.
  - apply (row_w_NaNw b e M _ _ _ 0%nat); auto.
    assert (Z : sumn M w = 0).
    { pose proof (sumn_nonneg M w Hw0). lra. }
    assert (A : forall k, (k < M)%nat -> normn M wn k = NaN).
    { intros k Hk. unfold normn. rewrite (nsumn_Fin M wn w Hw), Z, (Hw k Hk), (sumn_zero_inv M w Hw0 Z k Hk).
      simpl. destruct (Req_EM_T 0 0); [|easy]. unfold infsgn. rdec; auto; lra. }
    unfold effw, normn at 1. rewrite A by (now apply ord_lt). reflexivity.
Qed.

Lemma covers_wval b e M w keep y x : covers M w keep -> omit_est e -> (0 < length keep)%nat ->
  wval b e M w y x = wval b e (length keep) (kept w keep) y (kept x keep).
Proof.
  intros Hc He Hk. unfold wval. rewrite (sum_covers1 M w keep Hc).
  assert (E1 : fairc M (nw M w) = fairc (length keep) (nw (length keep) (kept w keep))).
  { rewrite (fairc_covers M (nw M w) keep) by now apply covers_nw. unfold fairc. f_equal.
    apply sumn_ext; intros j Hj. now rewrite nw_kept. }
  assert (E2 : real_w b e M (nw M w) y x = real_w b e (length keep) (nw (length keep) (kept w keep)) y (kept x keep)).
  { rewrite (real_w_covers b e M (nw M w) keep y x); [|now apply covers_nw| |].
    - apply real_w_ext. intros j Hj. now apply nw_kept.
    - intros ->; destruct He as [|[|[|]]]; discriminate.
    - intros ->; destruct He as [|[|[|]]]; discriminate. }
  now rewrite E1, E2.
Qed.
Lemma wval_zero b e M w y x : (forall k, (k < M)%nat -> w k = 0) -> wval b e M w y x = NaN.
Proof.
  intros H. unfold wval. rewrite (sumn_ext M w (fun _ => 0)) by auto. rewrite sumn_zero.
  destruct (Rlt_dec 0 0); auto; lra.
Qed.
(** value of an unweighted row *)
Definition uval (e : est) (M : nat) (y : R) (x : nat -> R) : num :=
  if (need2 e && (M =? 1)%nat)%bool then NaN else Fin (real_un e M y x).
Lemma row_un_full srt b e M yn xn y x : argsort_ok srt -> (0 < M)%nat -> yn = Fin y ->
  (forall k, (k < M)%nat -> xn k = Fin (x k)) ->
  row_un b e M yn (fun k => xn (ord srt e false M xn k)) = uval e M y x.
Proof.
  intros Hs HM Hy Hx. unfold uval. destruct (need2 e) eqn:E; cbn [andb].
  - destruct (M =? 1)%nat eqn:E1.
    + apply Nat.eqb_eq in E1. subst M. apply (row_un_one b e yn _ y (x (ord srt e false 1 xn 0))); auto.
      apply Hx. now apply ord_lt.
    + apply Nat.eqb_neq in E1. apply row_ord; auto; try easy. intros; lia.
  - apply row_ord; auto; try easy; congruence.
Qed.
Lemma wval_uniform b e M w y x : omit_est e -> (0 < M)%nat -> (forall k, (k < M)%nat -> w k = 1) ->
  wval b e M w y x = uval e M y x.
Proof.
  intros He HM Hw. pose proof (lt_0_INR M HM) as P. unfold wval, uval.
  assert (T : sumn M w = INR M) by (rewrite (sumn_ext M w (fun _ => 1)) by auto; rewrite sumn_const; ring).
  rewrite T. destruct (Rlt_dec 0 (INR M)); [|lra].
  assert (N : forall k, (k < M)%nat -> nw M w k = / INR M) by (intros k Hk; unfold nw; rewrite T, Hw by auto; field; lra).
  assert (F : fairc M (nw M w) = 1 - / INR M).
  { unfold fairc. rewrite (sumn_ext M _ (fun _ => / INR M * / INR M)) by (intros; now rewrite N).
    rewrite sumn_const. field. lra. }
  assert (E2 : need2 e = false \/ (1 < M)%nat -> real_w b e M (nw M w) y x = real_un e M y x).
  { intros D. rewrite (real_w_ext b e M _ (fun _ => / INR M)) by auto. apply real_w_uniform; auto.
    - intros E; destruct D; auto; congruence.
    - intros ->; destruct He as [|[|[|]]]; discriminate. }
  destruct (need2 e) eqn:E; cbn [andb]; [|now rewrite E2 by auto].
  rewrite F. destruct (M =? 1)%nat eqn:E1.
  - apply Nat.eqb_eq in E1. subst M. simpl. destruct (Req_EM_T (1 - / 1) 0); auto. exfalso; apply n; field.
  - apply Nat.eqb_neq in E1. pose proof (INR_ge2 M ltac:(lia)) as G.
    destruct (Req_EM_T (1 - / INR M) 0) as [Z|Z]; [|now rewrite E2 by (right; lia)].
    exfalso. assert (INR M = 1); [|lra]. apply (Rmult_eq_reg_l (/ INR M)); [|apply Rinv_neq_0_compat; lra].
    rewrite Rinv_l by lra. lra.
Qed.

(** kept positions *)
Definition keeps (M : nat) (q : nat -> bool) : list nat := filter q (seq 0 M).
Lemma keeps_covers M q w : (forall k, (k < M)%nat -> q k = false -> w k = 0) -> covers M w (keeps M q).
Proof.
  intros H. unfold keeps. split; [apply NoDup_filter, seq_NoDup|]. split.
  - intros k Hk. apply filter_In in Hk as [Hk _]. apply in_seq in Hk. lia.
  - intros k Hk Hn. apply H; auto. destruct (q k) eqn:E; auto. exfalso. apply Hn. apply filter_In. split; auto.
    apply in_seq; lia.
Qed.
Lemma keeps_nth M q j : (j < length (keeps M q))%nat -> (nth j (keeps M q) O < M)%nat /\ q (nth j (keeps M q) O) = true.
Proof.
  intros Hj. assert (I : In (nth j (keeps M q) O) (keeps M q)) by now apply nth_In.
  unfold keeps in I at 2. apply filter_In in I as [I1 I2]. apply in_seq in I1. split; auto; lia.
Qed.
Lemma filter_map_comm {A B} (f : A -> B) q l : filter q (map f l) = map f (filter (fun a => q (f a)) l).
Proof. induction l; simpl; auto. destruct (q (f a)); simpl; now rewrite IHl. Qed.

(** ** the calls *)
Section Del.
Variables (srt : list num -> list nat) (b : impl) (obs fct : arr) (ax : Z) (s : list nat) (p M : nat) (y x : list nat -> num).
Hypothesis Hs : argsort_ok srt.
Hypothesis Ha : ens_nums obs fct ax s p M y x.
Hypothesis HM : (0 < M)%nat.
Hypothesis Hd : b = Numba -> dt obs = DFloat.
Hypothesis Hy : forall r, inb s r -> fin_or_nan (y r).
Hypothesis Hx : forall r k, inb s r -> (k < M)%nat -> fin_or_nan (member p x r k).

Definition valn (v : num) : R := match v with Fin a => a | _ => 0 end.
Lemma valn_fin v : fin_or_nan v -> nisnan v = false -> v = Fin (valn v).
Proof. intros [->|(a & ->)]; simpl; easy. Qed.
Lemma num1_inputs n (yv : num) (xs : nat -> num) : inputs (num0 yv) (num1 n xs) (-1) DFloat DFloat [] 0 n (fun _ => yv) (fun i => xs (hd 0%nat i)).
Proof. repeat split; auto. Qed.

(** a single unweighted row *)
Lemma single_un e n yv xs : (0 < n)%nat -> fin_or_nan yv ->
  returns (crps_ensemble srt b (num0 yv) (num1 n (fun k => Fin (xs k))) (-1) None (ename e) false "propagate") []
    (fun _ => match yv with Fin y => uval e n y xs | _ => NaN end).
Proof.
  intros Hn Hyv. pose proof (api_un srt Hs b _ _ _ _ _ _ _ _ _ _ (num1_inputs n yv (fun k => Fin (xs k))) e false) as H.
  eapply returns_ext; [eapply returns_is, H|]. intros r Hr. cbv beta.
  rewrite (odt_float b e DFloat) by auto. cbn [ncast].
  replace (fun k => Fin (xs (hd 0%nat (insert_at 0 (ord srt e false n (fun k0 => Fin (xs (hd 0%nat (insert_at 0 k0 r)))) k) r))))
    with (fun k => (fun k => Fin (xs k)) (ord srt e false n (fun k => Fin (xs k)) k)) by (destruct r; reflexivity).
  destruct Hyv as [->|(a & ->)].
  - apply row_un_NaN. left; auto.
  - apply (row_un_full srt b e n (Fin a) (fun k => Fin (xs k))); auto.
Qed.
(** a single weighted row *)
Lemma single_w e n yv xs ws : (0 < n)%nat -> fin_or_nan yv -> omit_est e -> (forall k, (k < n)%nat -> 0 <= ws k) ->
  returns (crps_ensemble srt b (num0 yv) (num1 n (fun k => Fin (xs k))) (-1) (Some (num1 n (fun k => Fin (ws k)))) (ename e) false "propagate") []
    (fun _ => match yv with Fin y => wval b e n ws y xs | _ => NaN end).
Proof.
  intros Hn Hyv He Hw. 
  assert (HW : arr_is (num1 n (fun k => Fin (ws k))) DFloat (insert_at 0 n []) (fun i => Fin (ws (hd 0%nat i)))) by (repeat split; auto).
  pose proof (api_w srt Hs b _ _ _ _ _ _ _ _ _ _ (num1_inputs n yv (fun k => Fin (xs k))) _ _ _ HW e false) as H.
  eapply returns_ext; [eapply returns_is, H|].
  - intros r k Hr Hk. destruct r; [|easy]. simpl. apply rltb_false. auto.
  - intros r Hr. cbv beta. rewrite (odt_w_float b DFloat) by auto. cbn [ncast].
    destruct r; [|easy]. cbn [insert_at hd]. destruct Hyv as [->|(a & ->)].
    + apply row_w_NaN. left; auto.
    + apply (row_full srt b e n _ (fun k => Fin (xs k)) (fun k => Fin (ws k))); auto.
Qed.

Lemma omit_un_value e : omit_est e ->
  returns (crps_ensemble srt b obs fct ax None (ename e) false "omit") s
    (fun r => match y r with
      | Fin yr => wval b e M (fun k => if nisnan (member p x r k) then 0 else 1) yr (fun k => valn (member p x r k))
      | _ => NaN end).
Proof.
  intros He. pose proof (nums_inputs _ _ _ _ _ _ _ _ Ha) as Hin.
  pose proof (api_omit srt Hs b _ _ _ _ _ _ _ _ _ _ Hin None e false I He) as H. cbn [the_w] in H.
  eapply returns_ext; [eapply returns_is, H|].
  - intros r k Hr Hk. simpl. apply rltb_false. lra.
  - intros r Hr. cbv beta. rewrite (odt_w_float b) by auto. cbn [ncast].
    destruct (Hy r Hr) as [->|(a & ->)].
    + apply row_w_NaN. left; auto.
    + apply row_full; auto.
      * intros k Hk. unfold omx, valn, member. destruct (Hx r k Hr Hk) as [E|(c & E)]; unfold member in E; rewrite E; reflexivity.
      * intros k Hk. unfold omw, member. destruct (nisnan _); reflexivity.
      * intros k Hk. cbv beta. destruct (nisnan _); lra.
Qed.
Lemma omit_w_value wt w e : omit_est e -> dt fct = DFloat ->
  sh wt = insert_at p M s -> (forall i, inb (insert_at p M s) i -> at_ wt i = w i) ->
  (forall r k, inb s r -> (k < M)%nat -> member p w r k = NaN \/ exists c, member p w r k = Fin c /\ 0 <= c) ->
  returns (crps_ensemble srt b obs fct ax (Some wt) (ename e) false "omit") s
    (fun r => match y r with
      | Fin yr => wval b e M (fun k => if nisnan (member p x r k) || nisnan (member p w r k) then 0 else valn (member p w r k))
          yr (fun k => valn (member p x r k))
      | _ => NaN end).
Proof.
  intros He Hdf Hws Hwa Hw. pose proof (nums_inputs _ _ _ _ _ _ _ _ Ha) as Hin. rewrite Hdf in Hin.
  pose proof (api_omit srt Hs b _ _ _ _ _ _ _ _ _ _ Hin (Some (wt, dt wt, w)) e false) as H. cbn [the_w] in H.
  eapply returns_ext; [eapply returns_is, H|].
  - repeat split; auto.
  - exact He.
  - intros r k Hr Hk. cbn [ncast]. destruct (Hw r k Hr Hk) as [E|(c & E & Hc)]; unfold member in E; rewrite E; simpl; auto.
    now apply rltb_false.
  - intros r Hr. cbv beta. rewrite (odt_w_float b) by auto. cbn [ncast].
    destruct (Hy r Hr) as [->|(a & ->)].
    + apply row_w_NaN. left; auto.
    + apply row_full; auto.
      * intros k Hk. unfold omx, valn, member. destruct (Hx r k Hr Hk) as [E|(c & E)]; unfold member in E; rewrite E; reflexivity.
      * intros k Hk. unfold omw, member. cbn [ncast]. destruct (nisnan (x _)); cbn [orb]; auto.
        destruct (Hw r k Hr Hk) as [E|(c & E & Hc)]; unfold member in E; rewrite E; reflexivity.
      * intros k Hk. cbv beta. destruct (_ || _)%bool eqn:E; [lra|].
        destruct (Hw r k Hr Hk) as [E'|(c & -> & Hc)]; auto. rewrite E' in E. destruct (nisnan _); discriminate.
Qed.
End Del.

(** wval on the kept members *)
Lemma wval_kept b e M q w y x xs ws : omit_est e -> (forall k, (k < M)%nat -> q k = false -> w k = 0) ->
  length (keeps M q) = length xs -> xs <> [] ->
  (forall j, (j < length xs)%nat -> x (nth j (keeps M q) O) = nth j xs 0 /\ w (nth j (keeps M q) O) = nth j ws 0) ->
  wval b e M w y x = wval b e (length xs) (fun k => nth k ws 0) y (fun k => nth k xs 0).
Proof.
  intros He Hq HL Hne Hk. assert (Hpos : (0 < length xs)%nat) by (destruct xs; [easy|simpl; lia]).
  rewrite (covers_wval b e M w (keeps M q)); [|now apply keeps_covers|auto|lia]. rewrite HL.
  assert (T : forall j, (j < length xs)%nat -> kept w (keeps M q) j = nth j ws 0) by (intros j Hj; now apply Hk).
  assert (N : forall j, (j < length xs)%nat -> nw (length xs) (kept w (keeps M q)) j = nw (length xs) (fun k => nth k ws 0) j).
  { intros j Hj. unfold nw. rewrite T by auto. f_equal. now apply sumn_ext. }
  unfold wval. rewrite (sumn_ext (length xs) (kept w (keeps M q)) (fun k => nth k ws 0)) by auto.
  assert (F : fairc (length xs) (nw (length xs) (kept w (keeps M q))) = fairc (length xs) (nw (length xs) (fun k => nth k ws 0))).
  { unfold fairc. f_equal. apply sumn_ext; intros; now rewrite N. }
  rewrite F, (real_w_ext2 b e (length xs) _ (nw (length xs) (fun k => nth k ws 0)) y _ (fun k => nth k xs 0)); auto.
  intros k Hk'. split; auto. now apply Hk.
Qed.
