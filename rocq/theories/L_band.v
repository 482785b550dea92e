(** The bootstrap band of the reliability diagram. *)
From Verif Require Export M_band S_band L_corp L_sort.
From Coq Require Import Psatz Lia Permutation Sorted.
Import ListNotations.
Open Scope R_scope.

(** ** interpolation *)
Lemma count_le n : forall a t, nondec n a -> exists c, (c <= n)%nat /\ length (filter (fun v => nleb v (Fin t)) (rlist n a)) = c /\
  (forall i, (i < c)%nat -> a i <= t) /\ forall i, (c <= i < n)%nat -> t < a i.
Proof.
  induction n as [|n IH]; intros a t N; [exists 0%nat; repeat split; intros; try lia|].
  destruct (IH (fun i => a (S i)) t) as (c & Hc & E & A & B). { intros i j Hij Hj. apply N; lia. }
  unfold rlist in *. cbn [seq map filter]. rewrite <- seq_shift, map_map. assert (nleb (Fin (a 0%nat)) (Fin t) = true <-> a 0%nat <= t) as Q by (simpl; unfold rleb; destruct (Rle_dec (a 0%nat) t); split; intros; auto; try discriminate; lra). destruct (nleb (Fin (a 0%nat)) (Fin t)); [assert (a 0%nat <= t) as L by now apply Q|assert (~ a 0%nat <= t) as L by (intros X; apply Q in X; discriminate)]; clear Q.
  - exists (S c). cbn [length]. rewrite E. repeat split; [lia| |].
    + intros [|i] Hi; [exact L|apply A; lia]. + intros [|i] Hi; [lia|apply B; lia].
  - assert (c = 0%nat) as ->. { destruct c; auto. exfalso. apply L. apply Rle_trans with (a 1%nat); [apply N; lia|apply A; lia]. }
    exists 0%nat. rewrite E. repeat split; [lia|lia|]. intros i Hi. apply Rlt_le_trans with (a 0%nat); [lra|apply N; lia].
Qed.
Lemma interp_curve n a z t : (1 <= n)%nat -> nondec n a -> on_curve n a z t (ninterp (rlist n a) (rlist n z) (Fin t)).
Proof.
  intros Hn N. destruct (count_le n a t N) as (c & Hc & E & A & B). unfold ninterp. rewrite E, rlist_len. destruct (Nat.eqb_spec c 0) as [C|C].
  - left. split; auto. left. apply B. lia.
  - rewrite !ith_rlist by lia. cbn [neqb]. unfold reqb. destruct (Req_EM_T (a (c - 1)%nat) t) as [Q|Q].
    + destruct (Nat.eq_dec c n) as [->|D]; [right; left; auto|]. right. right. exists (c - 1)%nat. repeat split; [lia|lra|apply B; lia|]. f_equal. rewrite Q. replace (t - t) with 0 by ring. unfold Rdiv. ring.
    + destruct (Nat.eqb_spec c n) as [->|D].
      * left. split; auto. right. specialize (A (n - 1)%nat ltac:(lia)). lra.
      * right. right. exists (c - 1)%nat. replace (S (c - 1)) with c by lia. rewrite !ith_rlist by lia. specialize (A (c - 1)%nat ltac:(lia)). specialize (B c ltac:(lia)). repeat split; [lia|lra|lra|]. simpl. match goal with |- context [Req_EM_T ?b 0] => destruct (Req_EM_T b 0); [lra|] end. simpl. f_equal. field. lra.
Qed.
Lemma curve_range n a z t v lo hi : (1 <= n)%nat -> (forall i, (i < n)%nat -> lo <= z i <= hi) -> on_curve n a z t v -> v = NaN \/ exists r, v = Fin r /\ lo <= r <= hi.
Proof.
  intros Hn Z [[_ ->]|[[_ ->]|(j & Hj & A & ->)]]; auto; right; eexists; split; try reflexivity; [apply Z; lia|].
  pose proof (Z j ltac:(lia)) as Z1. pose proof (Z (S j) Hj) as Z2. assert (0 <= (t - a j) / (a (S j) - a j) <= 1) as L. { split; [apply Rmult_le_pos; [lra|left; apply Rinv_0_lt_compat; lra]|]. apply (Rmult_le_reg_r (a (S j) - a j)); [lra|]. unfold Rdiv. rewrite Rmult_assoc, Rinv_l by lra. lra. }
  set (u := (t - a j) / (a (S j) - a j)) in *. nra.
Qed.
Lemma curve_nan n a z t v : (1 <= n)%nat -> nondec n a -> on_curve n a z t v -> (v = NaN <-> t < a 0%nat \/ a (n - 1)%nat < t).
Proof.
  intros Hn N [[H ->]|[[-> ->]|(j & Hj & A & ->)]]; split; try discriminate; auto.
  - intros [H|H]; [|lra]. exfalso. pose proof (N 0%nat (n - 1)%nat ltac:(lia) ltac:(lia)). lra.
  - intros H. exfalso. pose proof (N 0%nat j ltac:(lia) ltac:(lia)). pose proof (N (S j) (n - 1)%nat ltac:(lia) ltac:(lia)). lra.
Qed.
Lemma curve_mono n a z t t' r r' : (1 <= n)%nat -> nondec n a -> nondec n z -> on_curve n a z t (Fin r) -> on_curve n a z t' (Fin r') -> t <= t' -> r <= r'.
Proof.
  intros Hn N Z H H' T.
  assert (U : forall j t, (S j < n)%nat -> a j <= t < a (S j) -> 0 <= (t - a j) / (a (S j) - a j) < 1).
  { intros j s Hj A. split; [apply Rmult_le_pos; [lra|left; apply Rinv_0_lt_compat; lra]|]. apply (Rmult_lt_reg_r (a (S j) - a j)); [lra|]. unfold Rdiv. rewrite Rmult_assoc, Rinv_l by lra. lra. }
  destruct H as [[_ E]|[[A E]|(j & Hj & A & E)]]; [discriminate| |]; injection E as ->; (destruct H' as [[_ E]|[[A' E]|(k & Hk & A' & E)]]; [discriminate| |]; injection E as ->).
  - lra.
  - exfalso. pose proof (N (S k) (n - 1)%nat ltac:(lia) ltac:(lia)). lra.
  - specialize (U j t Hj A). pose proof (Z j (S j) ltac:(lia) Hj). pose proof (Z (S j) (n - 1)%nat ltac:(lia) ltac:(lia)). set (u := (t - a j) / (a (S j) - a j)) in *. nra.
  - pose proof (U j t Hj A) as U1. pose proof (U k t' Hk A') as U2. destruct (Nat.lt_trichotomy j k) as [L|[->|L]].
    + pose proof (Z j (S j) ltac:(lia) Hj). pose proof (Z (S j) k ltac:(lia) ltac:(lia)). pose proof (Z k (S k) ltac:(lia) Hk). set (u := (t - a j) / (a (S j) - a j)) in *. set (u' := (t' - a k) / (a (S k) - a k)) in *. nra.
    + pose proof (Z k (S k) ltac:(lia) Hk). assert ((t - a k) / (a (S k) - a k) <= (t' - a k) / (a (S k) - a k)) by (apply Rmult_le_compat_r; [left; apply Rinv_0_lt_compat; lra|lra]). nra.
    + exfalso. pose proof (N (S k) j ltac:(lia) ltac:(lia)). lra.
Qed.

(** ** percentiles *)
Definition plin (l : list R) (h : R) : R := let k := Z.to_nat (Int_part h) in nth k l 0 + (h - INR k) * (nth (Nat.min (S k) (length l - 1)) l 0 - nth k l 0).
Lemma floor_nat h : 0 <= h -> INR (Z.to_nat (Int_part h)) <= h < INR (Z.to_nat (Int_part h)) + 1.
Proof.
  intros H. destruct (base_Int_part h) as [H1 H2]. assert (0 <= Int_part h)%Z as P. { apply le_IZR. destruct (Z_lt_le_dec (Int_part h) 0) as [L|L]; [|now apply IZR_le]. assert (Int_part h <= -1)%Z as L' by lia. apply IZR_le in L'. lra. }
  rewrite INR_IZR_INZ, Z2Nat.id by exact P. lra.
Qed.
Lemma split_nan col : (forall v, In v col -> v = NaN \/ exists r, v = Fin r) -> exists l, filter (fun a => negb (nisnan a)) col = map Fin l /\ Permutation (map Fin l ++ repeat NaN (length col - length l)) col /\ (length l <= length col)%nat /\
  (forall r, In r l <-> In (Fin r) col).
Proof.
  induction col as [|v col IH]; intros H; [exists []; simpl; split; auto; split; [constructor|split; [lia|tauto]]|]. destruct IH as (l & E & P & L & I); [intros; apply H; simpl; auto|].
  destruct (H v (or_introl eq_refl)) as [->|[r ->]]; cbn [filter nisnan negb].
  - exists l. split; auto. split; [|split; [simpl; lia|]]. + cbn [length]. replace (S (length col) - length l)%nat with (S (length col - length l)) by lia. cbn [repeat]. eapply perm_trans; [symmetry; apply Permutation_middle|]. now constructor.
    + intros r. rewrite I. simpl. split; auto. intros [Q|Q]; [discriminate|auto].
  - exists (r :: l). rewrite E. split; auto. split; [|split; [simpl; lia|]]. + cbn [map length app Nat.sub]. now constructor. + intros q. simpl. rewrite I. split; intros [Q|Q]; auto; [left; now f_equal|left; congruence].
Qed.
Lemma perc_val col : (forall v, In v col -> v = NaN \/ exists r, v = Fin r) -> exists l, Permutation (map Fin l ++ repeat NaN (length col - length l)) col /\ StronglySorted Rle l /\
  (forall r, In r l <-> In (Fin r) col) /\ Permutation (map Fin l) (filter (fun a => negb (nisnan a)) col) /\ forall q, 0 <= q <= 1 -> npercentile q col = if Nat.eqb (length l) 0 then NaN else Fin (plin l (q * INR (length l - 1))).
Proof.
  intros H. destruct (split_nan col H) as (l & E & P & L & I). destruct (nsort_Fin_ex l) as (l' & S & SS). pose proof (nsort_perm (map Fin l)) as Q. rewrite S in Q.
  assert (Permutation l' l) as PL. { apply (Permutation_map (fun v => match v with Fin r => r | _ => 0 end)) in Q. rewrite !map_map in Q. now rewrite !map_id in Q. }
  pose proof (Permutation_length PL) as LL. exists l'. split; [|split; [exact SS|split; [|split]]].
  - rewrite LL. eapply perm_trans; [|exact P]. now apply Permutation_app_tail.
  - intros r. rewrite <- I. split; apply Permutation_in; [exact PL|now symmetry].
  - now rewrite E.
  - intros q Hq. unfold npercentile. rewrite E, S, map_length. destruct l' as [|r0 l']; [reflexivity|]. cbn [map Nat.eqb length]. set (n := length l'). replace (Datatypes.S n - 1)%nat with n by lia.
    assert (0 <= q * INR n) as Hh by (apply Rmult_le_pos; [lra|apply pos_INR]). pose proof (floor_nat _ Hh) as F. set (k := Z.to_nat (Int_part (q * INR n))) in *.
    assert (k <= n)%nat as Hk. { apply INR_le. apply Rle_trans with (q * INR n); [lra|]. pose proof (pos_INR n). nra. }
    assert (forall i, (i <= n)%nat -> ith (Fin r0 :: map Fin l') i = Fin (nth i (r0 :: l') 0)) as V. { intros i Hi. unfold ith. change (Fin r0 :: map Fin l') with (map Fin (r0 :: l')). rewrite (nth_indep _ NaN (Fin 0)) by (rewrite map_length; simpl; unfold n in Hi; lia). apply (map_nth Fin). }
    unfold plin. fold k. cbn [length]. fold n. replace (Datatypes.S n - 1)%nat with n by lia. rewrite !V by lia. reflexivity.
Qed.
Lemma plin_between l h lo hi : l <> [] -> 0 <= h <= INR (length l - 1) -> (forall r, In r l -> lo <= r <= hi) -> lo <= plin l h <= hi.
Proof.
  intros N H B. pose proof (floor_nat h ltac:(lra)) as F. unfold plin. set (k := Z.to_nat (Int_part h)) in *. assert (k < length l)%nat as Hk. { destruct l; [congruence|]. assert (k <= length (r :: l) - 1)%nat; [apply INR_le; lra|simpl in *; lia]. }
  pose proof (B _ (nth_In l 0 Hk)) as B1. assert (Nat.min (S k) (length l - 1) < length l)%nat as Hk2 by lia. pose proof (B _ (nth_In l 0 Hk2)) as B2. nra.
Qed.
Lemma ss_nth l : StronglySorted Rle l -> forall i j, (i <= j < length l)%nat -> nth i l 0 <= nth j l 0.
Proof.
  induction 1 as [|x l S IH F]; intros i j H; [simpl in H; lia|]. destruct i, j; simpl in H |- *; try lra; try lia.
  - rewrite Forall_forall in F. apply F, nth_In. lia. - apply IH. lia.
Qed.
Lemma plin_mono l h h' : StronglySorted Rle l -> 0 <= h <= h' -> h' <= INR (length l - 1) -> l <> [] -> plin l h <= plin l h'.
Proof.
  intros S H L N. pose proof (floor_nat h ltac:(lra)) as F. pose proof (floor_nat h' ltac:(lra)) as F'. unfold plin. set (k := Z.to_nat (Int_part h)) in *. set (k' := Z.to_nat (Int_part h')) in *. pose proof (ss_nth l S) as M.
  assert (1 <= length l)%nat as Hl by (destruct l; [congruence|simpl; lia]). assert (k' <= length l - 1)%nat as Hk' by (apply INR_le; lra).
  assert (k <= k')%nat as Hkk. { destruct (Nat.le_gt_cases k k') as [Q|Q]; auto. assert (INR (Datatypes.S k') <= INR k) as Q' by (apply le_INR; lia). rewrite S_INR in Q'. lra. }
  pose proof (M k (Nat.min (Datatypes.S k) (length l - 1)) ltac:(lia)) as M1. pose proof (M k' (Nat.min (Datatypes.S k') (length l - 1)) ltac:(lia)) as M2.
  destruct (Nat.eq_dec k k') as [E|E]; [rewrite <- E in *; nra|]. pose proof (M (Nat.min (Datatypes.S k) (length l - 1)) k' ltac:(lia)) as M3. nra.
Qed.

(** ** the rounds *)
Lemma fin_choice {T : Type} (t0 : T) (P : nat -> T -> Prop) n : (forall m, (m < n)%nat -> exists t, P m t) -> exists F, forall m, (m < n)%nat -> P m (F m).
Proof.
  induction n as [|n IH]; intros H; [exists (fun _ => t0); intros; lia|]. destruct IH as [F HF]; [intros; apply H; lia|]. destruct (H n ltac:(lia)) as [t Ht].
  exists (fun m => if Nat.eqb m n then t else F m). intros m Hm. destruct (Nat.eqb_spec m n) as [->|D]; [exact Ht|apply HF; lia].
Qed.
Lemma fit_bounds n y z lo hi : isotonic_fit n y z -> (forall i, (i < n)%nat -> lo <= y i <= hi) -> forall i, (i < n)%nat -> lo <= z i <= hi.
Proof.
  intros [Nz Oz] H. destruct (iso_fun n y) as (w & _ & N & O & _ & B). intros i Hi. specialize (B lo hi H i Hi). specialize (O z Nz). specialize (Oz w N). pose proof (sse_nonneg n w z).
  rewrite <- (sse_zero n w z); auto. lra.
Qed.
Lemma resample_ith n f idx : resample n idx -> map (ith (rlist n f)) idx = rlist n (fun i => f (nth i idx 0%nat)).
Proof.
  intros [L F]. transitivity (map (fun i => Fin (f i)) idx).
  - apply map_ext_in. intros i Hi. apply ith_rlist. rewrite Forall_forall in F. auto.
  - unfold rlist. rewrite <- (map_map (fun i => nth i idx 0%nat) (fun k => Fin (f k))). now rewrite nth_map_seq.
Qed.
Lemma outcomes_fun n p y : outcomes (rlist n p) y -> exists o, y = rlist n o /\ forall i, (i < n)%nat -> o i = 0 \/ o i = 1.
Proof.
  intros [L F]. rewrite rlist_len in L. exists (fun i => match ith y i with Fin r => r | _ => 0 end). assert (forall i, (i < n)%nat -> ith y i = Fin 0 \/ ith y i = Fin 1) as V. { intros i Hi. rewrite Forall_forall in F. apply F. unfold ith. apply nth_In. lia. }
  split.
  - apply nth_ext with NaN NaN; [now rewrite rlist_len|]. intros i Hi. change (nth i ?l NaN) with (ith l i). rewrite L in Hi. rewrite ith_rlist by auto. destruct (V i Hi) as [->| ->]; reflexivity.
  - intros i Hi. destruct (V i Hi) as [->| ->]; auto.
Qed.
Lemma rvs_ok n p rvs : (forall i, (i < n)%nat -> 0 <= p i <= 1) -> bernoulli_rvs rvs (rlist n p) = Ok (rvs (rlist n p)).
Proof.
  intros H. unfold bernoulli_rvs. assert (forallb (fun q => nleb (Fin 0) q && nleb q (Fin 1)) (rlist n p) = true) as ->; auto. apply forallb_forall. intros v Hv. unfold rlist in Hv. apply in_map_iff in Hv. destruct Hv as (i & <- & Hi). apply in_seq in Hi. specialize (H i ltac:(lia)).
  cbn [nleb]. unfold rleb. destruct (Rle_dec 0 (p i)), (Rle_dec (p i) 1); auto; lra.
Qed.
Lemma rvs_bad n p rvs i : (i < n)%nat -> p i < 0 \/ 1 < p i -> bernoulli_rvs rvs (rlist n p) = Err ValueError.
Proof.
  intros Hi H. unfold bernoulli_rvs. destruct (forallb _ _) eqn:E; auto. exfalso. rewrite forallb_forall in E. specialize (E (Fin (p i))). cbn [nleb] in E. unfold rleb in E.
  assert (In (Fin (p i)) (rlist n p)) as I by (unfold rlist; apply in_map_iff; exists i; split; auto; apply in_seq; lia). specialize (E I). destruct (Rle_dec 0 (p i)), (Rle_dec (p i) 1); try discriminate; lra.
Qed.
Lemma round_ok srt n f c idx rvs b : argsort_ok srt -> (b = "consistency" \/ b = "confidence")%string -> resample n idx ->
  (forall i, (i < n)%nat -> 0 <= probs b f c (nth i idx 0%nat) <= 1) -> outcomes (rlist n (fun i => probs b f c (nth i idx 0%nat))) (rvs (rlist n (fun i => probs b f c (nth i idx 0%nat)))) ->
  exists y a z, rvs (rlist n (fun i => probs b f c (nth i idx 0%nat))) = rlist n y /\ (forall i, (i < n)%nat -> y i = 0 \/ y i = 1) /\ round_fit n f idx y a z /\
    band_round srt idx rvs b (rlist n f) (rlist n c) = Ok (map (ninterp (rlist n a) (rlist n z)) (rlist n f)).
Proof.
  intros Hs Hb Hr Hp Ho. destruct (outcomes_fun _ _ _ Ho) as (y & Ey & Hy).
  pose proof (corp_perm srt n (fun i => f (nth i idx 0%nat)) Hs) as [P N]. set (s := srt (rlist n (fun i => f (nth i idx 0%nat)))) in *. destruct (iso_fun n (fun i => y (nth i s 0%nat))) as (z & Ez & Nz & Oz & _ & _).
  pose proof (Permutation_length P) as L. rewrite seq_length in L. exists y, (fun i => f (nth (nth i s 0%nat) idx 0%nat)), z. split; [exact Ey|]. split; [exact Hy|]. split.
  - exists (fun i => nth i s 0%nat). split; [unfold reorders; now rewrite nth_map_seq|]. split; [auto|]. split; [exact N|]. split; [exact Nz|]. intros w Hw. specialize (Oz w Hw). pose proof (sse_nonneg n z w). lra.
  - unfold band_round. rewrite !resample_ith by auto.
    assert ((if String.eqb b "consistency" then bernoulli_rvs rvs (rlist n (fun i => f (nth i idx 0%nat))) else if String.eqb b "confidence" then bernoulli_rvs rvs (rlist n (fun i => c (nth i idx 0%nat))) else Err UnboundLocalError) = Ok (rlist n y)) as ->.
    { rewrite <- Ey. unfold probs in *. destruct Hb as [-> | ->]; cbn [String.eqb Ascii.eqb Bool.eqb] in *; now apply rvs_ok. }
    cbn [bind]. rewrite (rel_value srt n y _ n Hs (le_n n)). fold s. cbn [bind]. rewrite Ez. reflexivity.
Qed.
Lemma rounds_ok round M row : (forall m, (m < M)%nat -> round m = Ok (row m)) -> band_rounds round (seq 0 M) = Ok (map row (seq 0 M)).
Proof.
  intros H. assert (forall ms, (forall m, In m ms -> (m < M)%nat) -> band_rounds round ms = Ok (map row ms)) as G; [|apply G; intros m Hm; apply in_seq in Hm; lia].
  induction ms as [|m ms IH]; intros Hm; [reflexivity|]. cbn [band_rounds map]. rewrite H by (apply Hm; simpl; auto). cbn [bind]. rewrite IH by (intros; apply Hm; simpl; auto). reflexivity.
Qed.
Lemma rounds_first round M e : (1 <= M)%nat -> round 0%nat = Err e -> band_rounds round (seq 0 M) = Err e.
Proof. intros H E. destruct M; [lia|]. cbn [seq band_rounds]. now rewrite E. Qed.

(** ** the band *)
Lemma band_rows srt N f c M b choice rvs : band_args srt N f c M b choice rvs ->
  exists y a z : nat -> nat -> R, (forall m, (m < M)%nat -> rvs m (rlist N (fun i => probs b f c (nth i (choice m) 0%nat))) = rlist N (y m) /\ round_fit N f (choice m) (y m) (a m) (z m) /\ nondec N (a m) /\ nondec N (z m) /\ forall i, (i < N)%nat -> 0 <= z m i <= 1) /\
    band_rounds (fun m => band_round srt (choice m) (rvs m) b (rlist N f) (rlist N c)) (seq 0 M) = Ok (map (fun m => map (ninterp (rlist N (a m)) (rlist N (z m))) (rlist N f)) (seq 0 M)).
Proof.
  intros (Hs & HN & HM & Hb & Hc & Ho & Hp).
  destruct (fin_choice ((fun _ => 0, fun _ => 0, fun _ => 0) : (nat -> R) * (nat -> R) * (nat -> R)) (fun m t => let '(y, a, z) := t in rvs m (rlist N (fun i => probs b f c (nth i (choice m) 0%nat))) = rlist N y /\ (forall i, (i < N)%nat -> y i = 0 \/ y i = 1) /\ round_fit N f (choice m) y a z /\
    band_round srt (choice m) (rvs m) b (rlist N f) (rlist N c) = Ok (map (ninterp (rlist N a) (rlist N z)) (rlist N f))) M) as [F HF].
  { intros m Hm. destruct (round_ok srt N f c (choice m) (rvs m) b Hs Hb (Hc m Hm)) as (y & a & z & H); [|apply Ho; auto|exists (y, a, z); exact H]. intros i Hi. apply Hp. destruct (Hc m Hm) as [L R]. rewrite Forall_forall in R. apply R, nth_In. lia. }
  exists (fun m => fst (fst (F m))), (fun m => snd (fst (F m))), (fun m => snd (F m)). split.
  - intros m Hm. specialize (HF m Hm). destruct (F m) as [[y a] z]. cbn [fst snd]. destruct HF as (E & Y & RF & _). split; [exact E|]. split; [exact RF|]. destruct RF as (g & Hg & _ & Na & If). split; [exact Na|]. split; [apply If|].
    apply (fit_bounds _ _ _ 0 1 If). intros i Hi. assert (g i < N)%nat as Gi. { apply (perm_in N (map g (seq 0 N))); [exact Hg|]. apply in_map_iff. exists i. split; auto. apply in_seq. lia. } destruct (Y _ Gi) as [-> | ->]; lra.
  - apply rounds_ok. intros m Hm. specialize (HF m Hm). destruct (F m) as [[y a] z]. cbn [fst snd]. apply HF.
Qed.
Definition bcol (N M : nat) (f : nat -> R) (a z : nat -> nat -> R) (i : nat) : list num := map (fun m => ninterp (rlist N (a m)) (rlist N (z m)) (Fin (f i))) (seq 0 M).
Lemma nth_mapseq {A} (h : nat -> A) n i d : (i < n)%nat -> nth i (map h (seq 0 n)) d = h i.
Proof. intros H. rewrite (nth_indep _ d (h 0%nat)) by now rewrite map_length, seq_length. rewrite (map_nth h). now rewrite seq_nth. Qed.
Lemma band_value srt N f c M b choice rvs alpha a z : 0 <= alpha <= 1 ->
  band_rounds (fun m => band_round srt (choice m) (rvs m) b (rlist N f) (rlist N c)) (seq 0 M) = Ok (map (fun m => map (ninterp (rlist N (a m)) (rlist N (z m))) (rlist N f)) (seq 0 M)) ->
  _uncertainty_band srt choice rvs (rlist N f) (rlist N c) M b (Fin alpha) =
    Ok (map (fun i => npercentile alpha (bcol N M f a z i)) (seq 0 N), map (fun i => npercentile (1 - alpha) (bcol N M f a z i)) (seq 0 N)).
Proof.
  intros Ha E. unfold _uncertainty_band. rewrite E, rlist_len. cbn [bind nsub nadd nopp nanpercentile].
  assert (forall q, map (fun i => npercentile q (map (fun r => ith r i) (map (fun m => map (ninterp (rlist N (a m)) (rlist N (z m))) (rlist N f)) (seq 0 M)))) (seq 0 N) = map (fun i => npercentile q (bcol N M f a z i)) (seq 0 N)) as Q.
  { intros q. apply map_ext_in. intros i Hi. apply in_seq in Hi. f_equal. unfold bcol. rewrite map_map. apply map_ext. intros m. unfold rlist at 3, ith. rewrite map_map. rewrite nth_mapseq by lia. reflexivity. }
  rewrite !Q. replace (1 + - alpha) with (1 - alpha) by ring. destruct (Rle_dec 0 alpha), (Rle_dec alpha 1), (Rle_dec 0 (1 - alpha)), (Rle_dec (1 - alpha) 1); try lra. reflexivity.
Qed.
Lemma perc_spec q col v : 0 <= q <= 1 -> (forall v, In v col -> v = NaN \/ exists r, v = Fin r) -> v = npercentile q col -> percentile_of q col v.
Proof.
  intros Hq H ->. destruct (perc_val col H) as (l & P & SS & _ & _ & V). rewrite V by auto. exists l. split; [exact P|]. split; [exact SS|]. destruct (Nat.eqb_spec (length l) 0) as [E|E]; [left; split; auto; now apply length_zero_iff_nil|]. right.
  assert (0 <= q * INR (length l - 1) <= INR (length l - 1)) as B by (pose proof (pos_INR (length l - 1)); nra). pose proof (floor_nat _ (proj1 B)) as F. exists (Z.to_nat (Int_part (q * INR (length l - 1)))). split; [|split; [exact F|reflexivity]].
  assert (Z.to_nat (Int_part (q * INR (length l - 1))) <= length l - 1)%nat; [apply INR_le; lra|lia].
Qed.
Lemma bcol_curve N M f a z i : (1 <= N)%nat -> (forall m, (m < M)%nat -> nondec N (a m)) -> forall m, (m < M)%nat -> on_curve N (a m) (z m) (f i) (nth m (bcol N M f a z i) NaN).
Proof. intros HN Na m Hm. unfold bcol. rewrite nth_mapseq by auto. apply interp_curve; auto. Qed.
Lemma bcol_in N M f a z i v : (1 <= N)%nat -> (forall m, (m < M)%nat -> nondec N (a m) /\ forall i, (i < N)%nat -> 0 <= z m i <= 1) -> In v (bcol N M f a z i) -> v = NaN \/ exists r, v = Fin r /\ 0 <= r <= 1.
Proof.
  intros HN H I. unfold bcol in I. apply in_map_iff in I. destruct I as (m & <- & Hm). apply in_seq in Hm. destruct (H m ltac:(lia)) as [Na Bz]. eapply curve_range; [exact HN|exact Bz|]. apply interp_curve; auto.
Qed.
Lemma in_reorders N g k : reorders N g -> (k < N)%nat -> exists i, (i < N)%nat /\ g i = k.
Proof.
  intros H Hk. assert (In k (map g (seq 0 N))) as I. { apply (Permutation_in _ (Permutation_sym H)). apply in_seq. lia. } apply in_map_iff in I. destruct I as (i & E & Hi). apply in_seq in Hi. exists i. split; [lia|auto].
Qed.
Lemma fit_covers N f idx y a z t : (1 <= N)%nat -> round_fit N f idx y a z -> (resample_covers N f idx t <-> ~ (t < a 0%nat \/ a (N - 1)%nat < t)).
Proof.
  intros HN (g & Hg & Ha & Na & _). split.
  - intros (i & j & Hi & Hj & B). destruct (in_reorders N g i Hg Hi) as (i' & Hi' & <-). destruct (in_reorders N g j Hg Hj) as (j' & Hj' & <-). rewrite <- !Ha in B by auto. pose proof (Na 0%nat i' ltac:(lia) Hi'). pose proof (Na j' (N - 1)%nat ltac:(lia) ltac:(lia)). lra.
  - intros B. exists (g 0%nat), (g (N - 1)%nat). assert (forall k, (k < N)%nat -> (g k < N)%nat) as G. { intros k Hk. apply (perm_in N (map g (seq 0 N))); [exact Hg|]. apply in_map_iff. exists k. split; auto. apply in_seq. lia. }
    split; [apply G; lia|]. split; [apply G; lia|]. rewrite <- !Ha by lia. lra.
Qed.
Lemma perc_bounds al col : 0 <= al <= 1 / 2 -> (forall v, In v col -> v = NaN \/ exists r, v = Fin r /\ 0 <= r <= 1) ->
  (forall v, In v col -> v = NaN) /\ npercentile al col = NaN /\ npercentile (1 - al) col = NaN \/
  (exists r, In (Fin r) col) /\ exists l u, npercentile al col = Fin l /\ npercentile (1 - al) col = Fin u /\ 0 <= l <= u /\ u <= 1.
Proof.
  intros Ha H. assert (forall v, In v col -> v = NaN \/ exists r, v = Fin r) as H' by (intros v Hv; destruct (H v Hv) as [->|(r & -> & _)]; eauto). assert (0 <= al <= 1) as A1 by lra. assert (0 <= 1 - al <= 1) as A2 by lra.
  destruct (perc_val col H') as (l' & _ & SS & I & _ & V).
  rewrite !V by auto. destruct (Nat.eqb_spec (length l') 0) as [Z|Z].
  - left. split; [|auto]. intros v Hv. destruct (H' v Hv) as [->|[r ->]]; auto. exfalso. apply I in Hv. apply length_zero_iff_nil in Z. now rewrite Z in Hv.
  - right. assert (l' <> []) as NE by (intros ->; now apply Z). split. { destruct l' as [|r l']; [congruence|]. exists r. apply I. now left. }
    do 2 eexists. split; [reflexivity|]. split; [reflexivity|]. pose proof (pos_INR (length l' - 1)) as Pn. assert (forall r, In r l' -> 0 <= r <= 1) as B. { intros r Hr. apply I in Hr. destruct (H _ Hr) as [X|(r' & X & B)]; [discriminate|]. injection X as ->. exact B. }
    pose proof (plin_between l' (al * INR (length l' - 1)) 0 1 NE ltac:(nra) B). pose proof (plin_between l' ((1 - al) * INR (length l' - 1)) 0 1 NE ltac:(nra) B).
    pose proof (plin_mono l' (al * INR (length l' - 1)) ((1 - al) * INR (length l' - 1)) SS ltac:(nra) ltac:(nra) NE). lra.
Qed.
(** ** order statistics are monotone *)
Lemma filter_perm {A} (p : A -> bool) l m : Permutation l m -> Permutation (filter p l) (filter p m).
Proof. induction 1; simpl; auto. - destruct (p x); auto. - destruct (p x), (p y); auto. constructor. - eapply perm_trans; eauto. Qed.
Definition cle (t : R) (l : list R) : nat := length (filter (fun r => rleb r t) l).
Lemma cle_dom t u u' : Forall2 Rle u u' -> (cle t u' <= cle t u)%nat.
Proof. unfold cle, rleb. induction 1 as [|r r' u u' H F IH]; simpl; auto. destruct (Rle_dec r' t), (Rle_dec r t); simpl; try lia. lra. Qed.
Lemma cle_low l t k : StronglySorted Rle l -> (k < length l)%nat -> t < nth k l 0 -> (cle t l <= k)%nat.
Proof.
  intros SS. revert k. induction SS as [|r l SS IH F]; intros k Hk Ht; [simpl in Hk; lia|]. unfold cle, rleb in *. simpl. destruct k as [|k].
  - simpl in Ht. destruct (Rle_dec r t); [lra|]. assert (filter (fun q => if Rle_dec q t then true else false) l = []) as ->; auto. rewrite Forall_forall in F. clear -F Ht. induction l as [|q l IH]; auto. simpl. destruct (Rle_dec q t) as [Q|Q]; [specialize (F q (or_introl eq_refl)); lra|]. apply IH. intros; apply F; simpl; auto.
  - simpl in Hk, Ht. specialize (IH k ltac:(lia) Ht). destruct (Rle_dec r t); simpl; lia.
Qed.
Lemma cle_high l t k : StronglySorted Rle l -> (k < length l)%nat -> nth k l 0 <= t -> (k < cle t l)%nat.
Proof.
  intros SS. revert k. induction SS as [|r l SS IH F]; intros k Hk Ht; [simpl in Hk; lia|]. unfold cle, rleb in *. simpl. destruct k as [|k].
  - simpl in Ht. destruct (Rle_dec r t); simpl; [lia|lra].
  - simpl in Hk, Ht. specialize (IH k ltac:(lia) Ht). rewrite Forall_forall in F. assert (k < length l)%nat as Hk' by lia. specialize (F (nth k l 0) (nth_In l 0 Hk')). destruct (Rle_dec r t); simpl; [lia|lra].
Qed.
Lemma f2_len (u u' : list R) : Forall2 Rle u u' -> length u = length u'.
Proof. induction 1; simpl; auto. Qed.
Lemma ord_dom l l' u u' k : StronglySorted Rle l -> StronglySorted Rle l' -> Permutation l u -> Permutation l' u' -> Forall2 Rle u u' -> (k < length l)%nat -> nth k l 0 <= nth k l' 0.
Proof.
  intros SS SS' P P' F Hk. destruct (Rle_lt_dec (nth k l 0) (nth k l' 0)) as [|L]; auto. exfalso. pose proof (Permutation_length P) as L1. pose proof (Permutation_length P') as L2. pose proof (f2_len _ _ F) as L3.
  pose proof (cle_low l _ k SS Hk L) as C1. pose proof (cle_high l' (nth k l' 0) k SS' ltac:(lia) (Rle_refl _)) as C2. pose proof (cle_dom (nth k l' 0) u u' F) as C3.
  assert (cle (nth k l' 0) l = cle (nth k l' 0) u) as E1 by (apply Permutation_length, filter_perm; auto). assert (cle (nth k l' 0) l' = cle (nth k l' 0) u') as E2 by (apply Permutation_length, filter_perm; auto). lia.
Qed.
Lemma convex_le t x w x' w' : 0 <= t <= 1 -> x <= x' -> w <= w' -> x + t * (w - x) <= x' + t * (w' - x').
Proof. intros Ht H1 H2. assert (0 <= (1 - t) * (x' - x)) by (apply Rmult_le_pos; lra). assert (0 <= t * (w' - w)) by (apply Rmult_le_pos; lra). lra. Qed.
Lemma plin_dom l l' h : length l = length l' -> 0 <= h <= INR (length l - 1) -> l <> [] -> (forall k, (k < length l)%nat -> nth k l 0 <= nth k l' 0) -> plin l h <= plin l' h.
Proof.
  intros EL Hh NE D. pose proof (floor_nat h ltac:(lra)) as F. unfold plin. rewrite <- EL. set (k := Z.to_nat (Int_part h)) in *. assert (k < length l)%nat as Hk. { destruct l; [congruence|]. assert (k <= length (r :: l) - 1)%nat; [apply INR_le; lra|simpl in *; lia]. }
  pose proof (D k Hk) as D1. pose proof (D (Nat.min (S k) (length l - 1)) ltac:(lia)) as D2. apply convex_le; auto; lra.
Qed.
Definition vle (v v' : num) : Prop := v = NaN /\ v' = NaN \/ exists r r', v = Fin r /\ v' = Fin r' /\ r <= r'.
Lemma unmap_perm l m : Permutation (map Fin l) (map Fin m) -> Permutation l m.
Proof. intros P. apply (Permutation_map (fun v => match v with Fin r => r | _ => 0 end)) in P. rewrite !map_map in P. now rewrite !map_id in P. Qed.
Lemma perc_dom q col col' : 0 <= q <= 1 -> Forall2 vle col col' -> vle (npercentile q col) (npercentile q col').
Proof.
  intros Hq F. assert (exists u u', filter (fun a => negb (nisnan a)) col = map Fin u /\ filter (fun a => negb (nisnan a)) col' = map Fin u' /\ Forall2 Rle u u') as (u & u' & E & E' & D).
  { induction F as [|v v' c c' V F (u & u' & E & E' & D)]; [exists [], []; auto|]. destruct V as [[-> ->]|(r & r' & -> & -> & L)]; simpl; [exists u, u'; auto|]. exists (r :: u), (r' :: u'). simpl. rewrite E, E'. auto. }
  assert (forall v, In v col -> v = NaN \/ exists r, v = Fin r) as H. { clear -F. induction F as [|v v' c c' V F IH]; intros w; [intros []|]. intros [<-|I]; auto. destruct V as [[-> _]|(r & r' & -> & _)]; eauto. }
  assert (forall v, In v col' -> v = NaN \/ exists r, v = Fin r) as H'. { clear -F. induction F as [|v v' c c' V F IH]; intros w; [intros []|]. intros [<-|I]; auto. destruct V as [[_ ->]|(r & r' & _ & -> & _)]; eauto. }
  destruct (perc_val col H) as (l & _ & SS & _ & P & V). destruct (perc_val col' H') as (l' & _ & SS' & _ & P' & V'). rewrite V, V' by auto. rewrite E in P. rewrite E' in P'. apply unmap_perm in P. apply unmap_perm in P'.
  pose proof (Permutation_length P) as L1. pose proof (Permutation_length P') as L2. pose proof (f2_len _ _ D) as L3. replace (length l') with (length l) by lia. destruct (Nat.eqb_spec (length l) 0) as [Z|Z]; [left; auto|]. right. do 2 eexists. split; [reflexivity|]. split; [reflexivity|].
  apply plin_dom; [lia| | |]. - pose proof (pos_INR (length l - 1)). nra. - intros ->. now apply Z. - intros k Hk. apply (ord_dom l l' u u'); auto.
Qed.
Lemma vle_nan v v' : vle v v' -> (v = NaN <-> v' = NaN).
Proof. intros [[-> ->]|(r & r' & -> & -> & _)]; split; auto; discriminate. Qed.
Lemma bcol_dom N M f a z i j : (1 <= N)%nat -> (forall m, (m < M)%nat -> nondec N (a m) /\ nondec N (z m)) -> f i <= f j ->
  (forall m, (m < M)%nat -> (f i < a m 0%nat \/ a m (N - 1)%nat < f i) <-> (f j < a m 0%nat \/ a m (N - 1)%nat < f j)) -> Forall2 vle (bcol N M f a z i) (bcol N M f a z j).
Proof.
  intros HN H L C. unfold bcol. assert (forall ms, (forall m, In m ms -> (m < M)%nat) -> Forall2 vle (map (fun m => ninterp (rlist N (a m)) (rlist N (z m)) (Fin (f i))) ms) (map (fun m => ninterp (rlist N (a m)) (rlist N (z m)) (Fin (f j))) ms)) as G; [|apply G; intros m Hm; apply in_seq in Hm; lia].
  induction ms as [|m ms IH]; intros Hm; simpl; constructor; [|apply IH; intros; apply Hm; simpl; auto]. specialize (Hm m (or_introl eq_refl)). destruct (H m Hm) as [Na Nz]. specialize (C m Hm).
  pose proof (interp_curve N (a m) (z m) (f i) HN Na) as Ci. pose proof (interp_curve N (a m) (z m) (f j) HN Na) as Cj. pose proof (curve_nan _ _ _ _ _ HN Na Ci) as Qi. pose proof (curve_nan _ _ _ _ _ HN Na Cj) as Qj.
  set (v := ninterp _ _ _) in *. set (v' := ninterp _ _ (Fin (f j))) in *. assert (forall n a z t v, on_curve n a z t v -> v = NaN \/ exists r, v = Fin r) as W by (intros ? ? ? ? ? [[_ ->]|[[_ ->]|(? & _ & _ & ->)]]; eauto).
  destruct (W _ _ _ _ _ Ci) as [Ei|[r Ei]].
  - left. split; auto. apply Qj, C, Qi. exact Ei.
  - destruct (W _ _ _ _ _ Cj) as [Ej|[r' Ej]]; [exfalso; rewrite Ei in Qi; apply Qj, C, Qi in Ej; discriminate|]. right. exists r, r'. split; auto. split; auto. rewrite Ei in Ci. rewrite Ej in Cj. apply (curve_mono N (a m) (z m) (f i) (f j)); auto.
Qed.
(** ** errors *)
Lemma rounds_bad round M e : (forall m, (m < M)%nat -> (exists r, round m = Ok r) \/ round m = Err e) -> (exists m, (m < M)%nat /\ round m = Err e) -> band_rounds round (seq 0 M) = Err e.
Proof.
  intros H (m & Hm & E). assert (forall ms, (forall k, In k ms -> (k < M)%nat) -> In m ms -> band_rounds round ms = Err e) as G; [|apply G; [intros k Hk; apply in_seq in Hk; lia|apply in_seq; lia]].
  induction ms as [|k ms IH]; intros Hk I; [destruct I|]. cbn [band_rounds]. destruct (H k (Hk k (or_introl eq_refl))) as [[r Er]|Er]; rewrite Er; [|reflexivity]. cbn [bind]. destruct I as [->|I]; [congruence|]. rewrite IH; auto. intros; apply Hk; simpl; auto.
Qed.
Lemma unit_dec (p : nat -> R) n : (exists j, (j < n)%nat /\ (p j < 0 \/ 1 < p j)) \/ forall j, (j < n)%nat -> 0 <= p j <= 1.
Proof.
  induction n as [|n [(j & Hj & Q)|IH]]; [right; intros; lia|left; exists j; split; [lia|auto]|]. destruct (Rlt_dec (p n) 0); [left; exists n; split; [lia|auto]|]. destruct (Rlt_dec 1 (p n)); [left; exists n; split; [lia|auto]|].
  right. intros j Hj. destruct (Nat.eq_dec j n) as [->|D]; [lra|apply IH; lia].
Qed.
