(** Property C78: the bootstrap band of the reliability diagram, for arbitrary random draws. *)
From Coq Require Import String.
From Verif Require Import T_band.
From Coq Require Import List Psatz Lia Permutation.
Import ListNotations.
Open Scope R_scope.

(** C78.  np.interp with NaN on both sides: on nondecreasing points it returns the piecewise linear curve through them, NaN outside of their range, and it is nondecreasing when the values are. *)
Theorem C78_interp :
forall n (a z : nat -> R), (1 <= n)%nat -> nondec n a ->
  (forall t, on_curve n a z t (ninterp (rlist n a) (rlist n z) (Fin t))) /\
  (forall t, ninterp (rlist n a) (rlist n z) (Fin t) = NaN <-> t < a 0%nat \/ a (n - 1)%nat < t) /\
  (nondec n z -> forall t t' r r', t <= t' -> ninterp (rlist n a) (rlist n z) (Fin t) = Fin r ->
    ninterp (rlist n a) (rlist n z) (Fin t') = Fin r' -> r <= r').
Proof. exact C78_interp_l. Qed.
Print Assumptions C78_interp.
Example C78_interp_ex : nondec 2 INR /\ ninterp (rlist 2 INR) (rlist 2 INR) (Fin (1 / 2)) = Fin (1 / 2).
Proof.
  assert (nondec 2 INR) as N by (intros i j Hij Hj; now apply le_INR). split; [exact N|]. destruct (C78_interp 2 INR INR ltac:(lia) N) as (C & _). destruct (C (1 / 2)) as [[H _]|[[H _]|(j & Hj & A & E)]]; [simpl in H; lra|simpl in H; lra|].
  rewrite E. assert (j = 0%nat) as -> by lia. simpl. f_equal. field.
Qed.

(** C78.  np.nanpercentile of a column of finite numbers and NaN: the linearly interpolated quantile of the finite numbers, NaN when there are none. *)
Theorem C78_percentile :
forall q (col : list num), 0 <= q <= 1 -> (forall v, In v col -> v = NaN \/ exists r, v = Fin r) -> percentile_of q col (npercentile q col).
Proof. exact C78_percentile_l. Qed.
Print Assumptions C78_percentile.
(** the median of 3, NaN, 1, 2 *)
Example C78_percentile_ex : percentile_of (1 / 2) [Fin 3; NaN; Fin 1; Fin 2] (Fin 2).
Proof.
  exists [1; 2; 3]. split; [|split].
  - simpl. apply perm_trans with [Fin 3; Fin 1; Fin 2; NaN]; [apply perm_trans with [Fin 1; Fin 3; Fin 2; NaN]; constructor; constructor|]. constructor. apply perm_trans with [Fin 1; NaN; Fin 2]; constructor. constructor.
  - repeat constructor; lra.
  - right. exists 1%nat. split; [simpl; lia|]. split; [simpl; lra|]. simpl. f_equal. lra.
Qed.

(** C78.  For any valid draws the band consists of the alpha and (1 - alpha) quantiles, over the rounds, of the curves through the resampled forecasts and the isotonic fits of their outcomes, evaluated at the forecasts. *)
Theorem C78_band :
forall srt N f c M bandtype choice rvs alpha, band_args srt N f c M bandtype choice rvs -> 0 <= alpha <= 1 ->
  exists (ql qu : nat -> num) (y a z : nat -> nat -> R),
    _uncertainty_band srt choice rvs (rlist N f) (rlist N c) M bandtype (Fin alpha) = Ok (map ql (seq 0 N), map qu (seq 0 N)) /\
    (forall m, (m < M)%nat -> rvs m (rlist N (fun i => probs bandtype f c (nth i (choice m) 0%nat))) = rlist N (y m) /\
      round_fit N f (choice m) (y m) (a m) (z m)) /\
    forall i, (i < N)%nat -> exists col, length col = M /\
      (forall m, (m < M)%nat -> on_curve N (a m) (z m) (f i) (nth m col NaN)) /\
      percentile_of alpha col (ql i) /\ percentile_of (1 - alpha) col (qu i).
Proof. exact C78_band_l. Qed.
Print Assumptions C78_band.
Example C78_band_ex : band_args asort 2 INR INR 1 "consistency" ex_choice ex_rvs /\ 0 <= 5 / 100 <= 1.
Proof. split; [apply ex_band_args; auto|lra]. Qed.

(** C78.  alpha <= 1/2: both ends of the band at a forecast are NaN when no resample covers the forecast, and otherwise 0 <= lower end <= upper end <= 1. *)
Theorem C78_bounds :
forall srt N f c M bandtype choice rvs alpha, band_args srt N f c M bandtype choice rvs -> 0 <= alpha <= 1 / 2 ->
  exists ql qu : nat -> num,
    _uncertainty_band srt choice rvs (rlist N f) (rlist N c) M bandtype (Fin alpha) = Ok (map ql (seq 0 N), map qu (seq 0 N)) /\
    forall i, (i < N)%nat ->
      (forall m, (m < M)%nat -> ~ resample_covers N f (choice m) (f i)) /\ ql i = NaN /\ qu i = NaN \/
      (exists m, (m < M)%nat /\ resample_covers N f (choice m) (f i)) /\ exists l u, ql i = Fin l /\ qu i = Fin u /\ 0 <= l <= u /\ u <= 1.
Proof. exact C78_bounds_l. Qed.
Print Assumptions C78_bounds.
(** both forecasts of the instance are covered *)
Example C78_bounds_ex : band_args asort 2 INR INR 1 "confidence" ex_choice ex_rvs /\ forall i, (i < 2)%nat -> resample_covers 2 INR (ex_choice 0) (INR i).
Proof. split; [apply ex_band_args; auto|]. intros i Hi. exists i, i. destruct i as [|[|i]]; [| |lia]; repeat split; auto; simpl; lra. Qed.

(** C78.  Between forecasts that are covered by the same resamples, both ends of the band are nondecreasing in the forecast; equal forecasts have equal ends. *)
Theorem C78_monotone :
forall srt N f c M bandtype choice rvs alpha, band_args srt N f c M bandtype choice rvs -> 0 <= alpha <= 1 ->
  exists ql qu : nat -> num,
    _uncertainty_band srt choice rvs (rlist N f) (rlist N c) M bandtype (Fin alpha) = Ok (map ql (seq 0 N), map qu (seq 0 N)) /\
    forall i j, f i <= f j ->
      (forall m, (m < M)%nat -> resample_covers N f (choice m) (f i) <-> resample_covers N f (choice m) (f j)) ->
      ql i = NaN /\ ql j = NaN /\ qu i = NaN /\ qu j = NaN \/
      exists l u l' u', ql i = Fin l /\ ql j = Fin l' /\ qu i = Fin u /\ qu j = Fin u' /\ l <= l' /\ u <= u'.
Proof. exact C78_monotone_l. Qed.
Print Assumptions C78_monotone.
Example C78_monotone_ex : band_args asort 2 INR INR 3 "consistency" ex_choice ex_rvs /\ INR 0 <= INR 1 /\ forall m, (m < 3)%nat -> resample_covers 2 INR (ex_choice m) (INR 0) <-> resample_covers 2 INR (ex_choice m) (INR 1).
Proof.
  split; [apply ex_band_args; auto|]. split; [simpl; lra|]. intros m _. split; intros _; [exists 1%nat, 1%nat|exists 0%nat, 0%nat]; repeat split; auto; simpl; lra.
Qed.

(** C78.  Replacing alpha by 1 - alpha swaps the ends of the band, for all inputs; so at alpha = 1/2 they coincide. *)
Theorem C78_swap :
forall srt choice rvs x cep M bandtype alpha lo up,
  _uncertainty_band srt choice rvs x cep M bandtype (Fin alpha) = Ok (lo, up) ->
  _uncertainty_band srt choice rvs x cep M bandtype (Fin (1 - alpha)) = Ok (up, lo) /\ (alpha = 1 / 2 -> lo = up).
Proof. exact C78_swap_l. Qed.
Print Assumptions C78_swap.
Example C78_swap_ex : exists lo up, _uncertainty_band asort ex_choice ex_rvs (rlist 2 INR) (rlist 2 INR) 1 "consistency" (Fin (5 / 100)) = Ok (lo, up).
Proof. destruct (C78_band asort 2 INR INR 1 "consistency" ex_choice ex_rvs (5 / 100)) as (ql & qu & _ & _ & _ & E & _); [apply ex_band_args; auto|lra|]. eauto. Qed.

(** C78.  alpha outside [0, 1], infinite or NaN: ValueError. *)
Theorem C78_alpha :
forall srt N f c M bandtype choice rvs alpha, band_args srt N f c M bandtype choice rvs ->
  (forall r, alpha = Fin r -> r < 0 \/ 1 < r) -> _uncertainty_band srt choice rvs (rlist N f) (rlist N c) M bandtype alpha = Err ValueError.
Proof. exact C78_alpha_l. Qed.
Print Assumptions C78_alpha.
(** a percentage in place of a level *)
Example C78_alpha_ex : _uncertainty_band asort ex_choice ex_rvs (rlist 2 INR) (rlist 2 INR) 1 "consistency" (Fin 5) = Err ValueError.
Proof. apply C78_alpha; [apply ex_band_args; auto|]. intros r E. injection E as <-. lra. Qed.

(** C78.  A round that draws an outcome probability outside [0, 1] (a forecast for the consistency band, a recalibrated value for the confidence band) makes the call fail with ValueError. *)
Theorem C78_domain :
forall srt N f c M bandtype choice rvs alpha, argsort_ok srt -> (bandtype = "consistency" \/ bandtype = "confidence")%string ->
  (forall m, (m < M)%nat -> resample N (choice m)) -> (forall m p, (m < M)%nat -> outcomes p (rvs m p)) ->
  (exists m i, (m < M)%nat /\ (i < N)%nat /\ (probs bandtype f c (nth i (choice m) 0%nat) < 0 \/ 1 < probs bandtype f c (nth i (choice m) 0%nat))) ->
  _uncertainty_band srt choice rvs (rlist N f) (rlist N c) M bandtype alpha = Err ValueError.
Proof. exact C78_domain_l. Qed.
Print Assumptions C78_domain.
(** forecasts in percent *)
Example C78_domain_ex : _uncertainty_band asort ex_choice ex_rvs (rlist 2 (fun i => 100 * INR i)) (rlist 2 INR) 1 "consistency" (Fin (5 / 100)) = Err ValueError.
Proof.
  destruct (ex_band_args 1 "consistency" ltac:(lia) ltac:(auto)) as (A1 & _ & _ & A4 & A5 & A6 & _). apply C78_domain; auto. exists 0%nat, 1%nat. split; [lia|]. split; [lia|]. right. unfold probs. simpl. lra.
Qed.

(** C78.  Any other band type leaves the outcomes unassigned: UnboundLocalError. *)
Theorem C78_bandtype :
forall srt N f c M bandtype choice rvs alpha, (1 <= M)%nat -> (bandtype <> "consistency")%string -> (bandtype <> "confidence")%string ->
  _uncertainty_band srt choice rvs (rlist N f) (rlist N c) M bandtype alpha = Err UnboundLocalError.
Proof. exact C78_bandtype_l. Qed.
Print Assumptions C78_bandtype.
Example C78_bandtype_ex : _uncertainty_band asort ex_choice ex_rvs (rlist 2 INR) (rlist 2 INR) 100 "prediction" (Fin (5 / 100)) = Err UnboundLocalError.
Proof. apply C78_bandtype; [lia|discriminate|discriminate]. Qed.
