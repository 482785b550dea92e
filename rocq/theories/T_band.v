(** Proofs about the bootstrap band of the reliability diagram (statements in P_band.v). *)
From Coq Require Import String.
From Verif Require Export L_band L_crps_call.
From Coq Require Import List Psatz Lia Permutation Sorted.
Import ListNotations.
Open Scope R_scope.
(** an instance: the forecasts 0 and 1, one round that draws both, outcomes 1 *)
Definition ex_choice (m : nat) : list nat := (0 :: 1 :: nil)%nat%list.
Definition ex_rvs (m : nat) (p : list num) : list num := map (fun _ => Fin 1) p.
Lemma ex_band_args M b : (1 <= M)%nat -> (b = "consistency" \/ b = "confidence")%string -> band_args asort 2 INR INR M b ex_choice ex_rvs.
Proof.
  intros HM Hb. split; [apply asort_ok|]. split; [lia|]. split; [exact HM|]. split; [exact Hb|]. split; [|split].
  - intros m _. split; [reflexivity|]. repeat constructor.
  - intros m p _. split; [apply map_length|]. apply Forall_forall. intros v Hv. apply in_map_iff in Hv. destruct Hv as (_ & <- & _). auto.
  - intros i Hi. unfold probs. destruct (String.eqb b "consistency"); (destruct i as [|[|i]]; [simpl; lra|simpl; lra|lia]).
Qed.
Lemma C78_interp_l :
forall n (a z : nat -> R), (1 <= n)%nat -> nondec n a ->
  (forall t, on_curve n a z t (ninterp (rlist n a) (rlist n z) (Fin t))) /\
  (forall t, ninterp (rlist n a) (rlist n z) (Fin t) = NaN <-> t < a 0%nat \/ a (n - 1)%nat < t) /\
  (nondec n z -> forall t t' r r', t <= t' -> ninterp (rlist n a) (rlist n z) (Fin t) = Fin r ->
    ninterp (rlist n a) (rlist n z) (Fin t') = Fin r' -> r <= r').
Proof.
intros n a z Hn N. split; [intros t; now apply interp_curve|]. split.
  - intros t. apply (curve_nan n a z); auto. now apply interp_curve.
  - intros Z t t' r r' L E E'. apply (curve_mono n a z t t'); auto; [rewrite <- E|rewrite <- E']; now apply interp_curve.
Qed.
Lemma C78_percentile_l :
forall q (col : list num), 0 <= q <= 1 -> (forall v, In v col -> v = NaN \/ exists r, v = Fin r) -> percentile_of q col (npercentile q col).
Proof.
intros q col Hq H. now apply perc_spec.
Qed.
Lemma C78_band_l :
forall srt N f c M bandtype choice rvs alpha, band_args srt N f c M bandtype choice rvs -> 0 <= alpha <= 1 ->
  exists (ql qu : nat -> num) (y a z : nat -> nat -> R),
    _uncertainty_band srt choice rvs (rlist N f) (rlist N c) M bandtype (Fin alpha) = Ok (map ql (seq 0 N), map qu (seq 0 N)) /\
    (forall m, (m < M)%nat -> rvs m (rlist N (fun i => probs bandtype f c (nth i (choice m) 0%nat))) = rlist N (y m) /\
      round_fit N f (choice m) (y m) (a m) (z m)) /\
    forall i, (i < N)%nat -> exists col, length col = M /\
      (forall m, (m < M)%nat -> on_curve N (a m) (z m) (f i) (nth m col NaN)) /\
      percentile_of alpha col (ql i) /\ percentile_of (1 - alpha) col (qu i).
Proof.
intros srt N f c M b choice rvs alpha A Ha. destruct (band_rows srt N f c M b choice rvs A) as (y & a & z & R & E). pose proof A as (_ & HN & _).
  exists (fun i => npercentile alpha (bcol N M f a z i)), (fun i => npercentile (1 - alpha) (bcol N M f a z i)), y, a, z. split; [now apply band_value|]. split; [intros m Hm; destruct (R m Hm) as (? & ? & _); auto|].
  intros i Hi. exists (bcol N M f a z i). split; [unfold bcol; now rewrite map_length, seq_length|]. split; [apply bcol_curve; auto; intros m Hm; apply (R m Hm)|].
  assert (forall v, In v (bcol N M f a z i) -> v = NaN \/ exists r, v = Fin r) as H. { intros v Hv. apply bcol_in in Hv; auto; [destruct Hv as [->|(r & -> & _)]; eauto|]. intros m Hm. destruct (R m Hm) as (_ & _ & ? & _ & ?). auto. }
  split; apply perc_spec; auto; lra.
Qed.
Lemma C78_bounds_l :
forall srt N f c M bandtype choice rvs alpha, band_args srt N f c M bandtype choice rvs -> 0 <= alpha <= 1 / 2 ->
  exists ql qu : nat -> num,
    _uncertainty_band srt choice rvs (rlist N f) (rlist N c) M bandtype (Fin alpha) = Ok (map ql (seq 0 N), map qu (seq 0 N)) /\
    forall i, (i < N)%nat ->
      (forall m, (m < M)%nat -> ~ resample_covers N f (choice m) (f i)) /\ ql i = NaN /\ qu i = NaN \/
      (exists m, (m < M)%nat /\ resample_covers N f (choice m) (f i)) /\ exists l u, ql i = Fin l /\ qu i = Fin u /\ 0 <= l <= u /\ u <= 1.
Proof.
intros srt N f c M b choice rvs alpha A Ha. destruct (band_rows srt N f c M b choice rvs A) as (y & a & z & R & E). pose proof A as (_ & HN & _).
  exists (fun i => npercentile alpha (bcol N M f a z i)), (fun i => npercentile (1 - alpha) (bcol N M f a z i)). split; [apply band_value; auto; lra|]. intros i Hi.
  assert (forall v, In v (bcol N M f a z i) -> v = NaN \/ exists r, v = Fin r /\ 0 <= r <= 1) as H. { intros v Hv. eapply bcol_in; eauto. intros m Hm. destruct (R m Hm) as (_ & _ & ? & _ & ?). auto. }
  assert (forall m, (m < M)%nat -> (resample_covers N f (choice m) (f i) <-> ninterp (rlist N (a m)) (rlist N (z m)) (Fin (f i)) <> NaN)) as C. { intros m Hm. destruct (R m Hm) as (_ & F & Na & _). rewrite (fit_covers _ _ _ _ _ _ _ HN F). rewrite (curve_nan N (a m) (z m) (f i)); auto; [reflexivity|now apply interp_curve]. }
  destruct (perc_bounds alpha _ Ha H) as [(Z & V1 & V2)|((r & I) & l & u & V)].
  - left. split; auto. intros m Hm Q. apply C in Q; auto. apply Q, Z. unfold bcol. apply in_map_iff. exists m. split; auto. apply in_seq. lia.
  - right. split; [|exists l, u; exact V]. unfold bcol in I. apply in_map_iff in I. destruct I as (m & Em & Hm). apply in_seq in Hm. exists m. split; [lia|]. apply C; [lia|]. rewrite Em. discriminate.
Qed.
Lemma C78_monotone_l :
forall srt N f c M bandtype choice rvs alpha, band_args srt N f c M bandtype choice rvs -> 0 <= alpha <= 1 ->
  exists ql qu : nat -> num,
    _uncertainty_band srt choice rvs (rlist N f) (rlist N c) M bandtype (Fin alpha) = Ok (map ql (seq 0 N), map qu (seq 0 N)) /\
    forall i j, f i <= f j ->
      (forall m, (m < M)%nat -> resample_covers N f (choice m) (f i) <-> resample_covers N f (choice m) (f j)) ->
      ql i = NaN /\ ql j = NaN /\ qu i = NaN /\ qu j = NaN \/
      exists l u l' u', ql i = Fin l /\ ql j = Fin l' /\ qu i = Fin u /\ qu j = Fin u' /\ l <= l' /\ u <= u'.
Proof.
intros srt N f c M b choice rvs alpha A Ha. destruct (band_rows srt N f c M b choice rvs A) as (y & a & z & R & E). pose proof A as (_ & HN & _).
  exists (fun i => npercentile alpha (bcol N M f a z i)), (fun i => npercentile (1 - alpha) (bcol N M f a z i)). split; [now apply band_value|]. intros i j L C.
  assert (Forall2 vle (bcol N M f a z i) (bcol N M f a z j)) as D. { apply bcol_dom; auto; [intros m Hm; destruct (R m Hm) as (_ & _ & ? & ? & _); auto|]. intros m Hm. destruct (R m Hm) as (_ & F & _). specialize (C m Hm). rewrite !(fit_covers _ _ _ _ _ _ _ HN F) in C. destruct (Rlt_dec (f i) (a m 0%nat)), (Rlt_dec (a m (N - 1)%nat) (f i)), (Rlt_dec (f j) (a m 0%nat)), (Rlt_dec (a m (N - 1)%nat) (f j)); tauto. }
  assert (0 <= 1 - alpha <= 1) as Ha' by lra. pose proof (perc_dom alpha _ _ Ha D) as P1. pose proof (perc_dom (1 - alpha) _ _ Ha' D) as P2. assert (npercentile alpha (bcol N M f a z i) = NaN <-> npercentile (1 - alpha) (bcol N M f a z i) = NaN) as Q.
  { destruct (perc_val (bcol N M f a z i)) as (l & _ & _ & _ & _ & V). { intros v Hv. apply bcol_in in Hv; auto; [destruct Hv as [->|(r & -> & _)]; eauto|]. intros m Hm. destruct (R m Hm) as (_ & _ & ? & _ & ?). auto. } rewrite !V by auto. destruct (Nat.eqb (length l) 0); split; auto; discriminate. }
  cbv beta. destruct P1 as [[N1 N2]|(l & l' & E1 & E2 & Ll)]; destruct P2 as [[N3 N4]|(u & u' & E3 & E4 & Lu)].
  - left. auto. - exfalso. apply Q in N1. congruence. - exfalso. apply Q in N3. congruence. - right. exists l, u, l', u'. auto 7.
Qed.
Lemma C78_swap_l :
forall srt choice rvs x cep M bandtype alpha lo up,
  _uncertainty_band srt choice rvs x cep M bandtype (Fin alpha) = Ok (lo, up) ->
  _uncertainty_band srt choice rvs x cep M bandtype (Fin (1 - alpha)) = Ok (up, lo) /\ (alpha = 1 / 2 -> lo = up).
Proof.
intros srt choice rvs x cep M b alpha lo up. unfold _uncertainty_band. destruct (band_rounds _ _) as [rows|e]; [|discriminate]. cbn [bind nsub nadd nopp]. replace (1 + - (1 - alpha)) with alpha by ring. change (1 + - alpha) with (1 - alpha).
  destruct (nanpercentile (Fin alpha) _ rows) as [l|e] eqn:E1; [|discriminate]. cbn [bind]. destruct (nanpercentile (Fin (1 - alpha)) _ rows) as [u|e] eqn:E2; [|discriminate]. cbn [bind]. intros E. injection E as <- <-. split; [reflexivity|]. intros ->. replace (1 - 1 / 2) with (1 / 2) in E2 by field. congruence.
Qed.
Lemma C78_alpha_l :
forall srt N f c M bandtype choice rvs alpha, band_args srt N f c M bandtype choice rvs ->
  (forall r, alpha = Fin r -> r < 0 \/ 1 < r) -> _uncertainty_band srt choice rvs (rlist N f) (rlist N c) M bandtype alpha = Err ValueError.
Proof.
intros srt N f c M b choice rvs alpha A H. destruct (band_rows srt N f c M b choice rvs A) as (y & a & z & R & E). unfold _uncertainty_band. rewrite E. cbn [bind]. destruct alpha as [r| | |]; try reflexivity. specialize (H r eq_refl). unfold nanpercentile at 1. destruct (Rle_dec 0 r), (Rle_dec r 1); try reflexivity. lra.
Qed.
Lemma C78_domain_l :
forall srt N f c M bandtype choice rvs alpha, argsort_ok srt -> (bandtype = "consistency" \/ bandtype = "confidence")%string ->
  (forall m, (m < M)%nat -> resample N (choice m)) -> (forall m p, (m < M)%nat -> outcomes p (rvs m p)) ->
  (exists m i, (m < M)%nat /\ (i < N)%nat /\ (probs bandtype f c (nth i (choice m) 0%nat) < 0 \/ 1 < probs bandtype f c (nth i (choice m) 0%nat))) ->
  _uncertainty_band srt choice rvs (rlist N f) (rlist N c) M bandtype alpha = Err ValueError.
Proof.
intros srt N f c M b choice rvs alpha Hs Hb Hc Ho (m & i & Hm & Hi & B). unfold _uncertainty_band.
  assert (forall k j, (k < M)%nat -> (j < N)%nat -> (probs b f c (nth j (choice k) 0%nat) < 0 \/ 1 < probs b f c (nth j (choice k) 0%nat)) -> band_round srt (choice k) (rvs k) b (rlist N f) (rlist N c) = Err ValueError) as F.
  { intros k j Hk Hj Bk. unfold band_round. rewrite !resample_ith by auto. unfold probs in Bk. destruct Hb as [-> | ->]; cbn [String.eqb Ascii.eqb Bool.eqb] in *; erewrite rvs_bad by eauto; reflexivity. }
  rewrite (rounds_bad _ M ValueError); [reflexivity| |exists m; split; eauto]. intros k Hk.
  destruct (unit_dec (fun j => probs b f c (nth j (choice k) 0%nat)) N) as [(j & Hj & Q)|Q].
  - right. eapply F; eauto. - left. destruct (round_ok srt N f c (choice k) (rvs k) b Hs Hb (Hc k Hk) Q) as (y & a & z & _ & _ & _ & E); [apply Ho; auto|]. eauto.
Qed.
Lemma C78_bandtype_l :
forall srt N f c M bandtype choice rvs alpha, (1 <= M)%nat -> (bandtype <> "consistency")%string -> (bandtype <> "confidence")%string ->
  _uncertainty_band srt choice rvs (rlist N f) (rlist N c) M bandtype alpha = Err UnboundLocalError.
Proof.
intros srt N f c M b choice rvs alpha HM H1 H2. unfold _uncertainty_band. rewrite (rounds_first _ M UnboundLocalError HM); [reflexivity|]. unfold band_round. destruct (String.eqb_spec b "consistency"); [contradiction|]. destruct (String.eqb_spec b "confidence"); [contradiction|]. reflexivity.
Qed.
