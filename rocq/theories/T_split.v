(** Proofs of the splitting properties of the threshold-weighted CRPS (statements in P_split.v). *)
From Coq Require Import Psatz Lia.
From Verif Require Export L_split T_crps_inv.
Open Scope R_scope.
Lemma need2_fp e M : (In (ename e) ["fair"; "pwm"]%string -> (1 < M)%nat) -> need2 e = true -> (1 < M)%nat.
Proof. intros H E. apply H. destruct e; try discriminate; simpl; auto. Qed.
Lemma need2_fpw e (P : Prop) : (In (ename e) ["fair"; "pwm"]%string -> P) -> need2 e = true -> P.
Proof. intros H E. apply H. destruct e; try discriminate; simpl; auto. Qed.
Lemma wts_one M s p w r : (forall r k, inb s r -> (k < M)%nat -> 0 <= member p w r k) -> (forall r, inb s r -> 0 < sumn M (member p w r)) -> inb s r -> sumn M (nw M (member p w r)) = 1 /\ (forall k, (k < M)%nat -> 0 <= nw M (member p w r) k).
Proof. intros W3 W4 Hr. specialize (W4 r Hr). split; [apply nw_sum1; lra|]. intros k Hk. apply nw_nonneg; auto. Qed.
Lemma C86_split_l :
forall srt be obs fct a b c ax s p M y x e sf pol,
  argsort_ok srt -> ens_args obs fct ax s p M y x -> (0 < M)%nat -> thresholds a b -> thresholds b c ->
  In e ["nrg"; "fair"; "pwm"; "qd"; "int"; "akr"; "akr_circperm"]%string -> (In e ["fair"; "pwm"]%string -> (1 < M)%nat) ->
  In pol ["propagate"; "raise"]%string -> sorted_if sf s p M x ->
  exists u v w, returns (twcrps_ensemble srt be obs fct a b ax None None e sf pol) s (fun r => Fin (u r)) /\
    returns (twcrps_ensemble srt be obs fct b c ax None None e sf pol) s (fun r => Fin (v r)) /\
    returns (twcrps_ensemble srt be obs fct a c ax None None e sf pol) s (fun r => Fin (w r)) /\
    forall r, inb s r -> w r = u r + v r.
Proof.
intros srt be obs fct a b c ax s p M y x e sf pol Hs Ha HM T1 T2 He H2 Hp Hsf. destruct (name_est e He) as (e' & ->).
  assert (exists b', b = Fin b') as (b' & ->) by (destruct b as [b'| | |]; [now exists b'| | |]; destruct a, c; easy).
  assert (thresholds a c) as T3 by (destruct a, c; simpl in *; try easy; lra).
  do 3 eexists. split; [apply (tw_un srt be obs fct a (Fin b') ax s p M y x e' sf pol); auto; now apply need2_fp|].
  split; [apply (tw_un srt be obs fct (Fin b') c ax s p M y x e' sf pol); auto; now apply need2_fp|].
  split; [apply (tw_un srt be obs fct a c ax s p M y x e' sf pol); auto; now apply need2_fp|].
  intros r Hr. now apply real_un_split.
Qed.
Lemma C86_split_weighted_l :
forall srt be obs fct wt a b c ax s p M y x g e sf pol,
  argsort_ok srt -> ens_args obs fct ax s p M y x -> wts_args wt fct s p M g -> (0 < M)%nat -> thresholds a b -> thresholds b c ->
  In e ["nrg"; "fair"; "pwm"; "qd"; "int"; "akr"; "akr_circperm"]%string -> (In e ["fair"; "pwm"]%string -> forall r, inb s r -> two_positive M (member p g r)) ->
  In pol ["propagate"; "raise"]%string -> sorted_if sf s p M x ->
  exists u v w, returns (twcrps_ensemble srt be obs fct a b ax (Some wt) None e sf pol) s (fun r => Fin (u r)) /\
    returns (twcrps_ensemble srt be obs fct b c ax (Some wt) None e sf pol) s (fun r => Fin (v r)) /\
    returns (twcrps_ensemble srt be obs fct a c ax (Some wt) None e sf pol) s (fun r => Fin (w r)) /\
    forall r, inb s r -> w r = u r + v r.
Proof.
intros srt be obs fct wt a b c ax s p M y x g e sf pol Hs Ha Hw HM T1 T2 He H2 Hp Hsf. destruct (name_est e He) as (e' & ->).
  assert (exists b', b = Fin b') as (b' & ->) by (destruct b as [b'| | |]; [now exists b'| | |]; destruct a, c; easy).
  assert (thresholds a c) as T3 by (destruct a, c; simpl in *; try easy; lra).
  do 3 eexists. split; [apply (tw_w srt be obs fct wt a (Fin b') ax s p M y x g e' sf pol); auto; exact (need2_fpw e' _ H2)|].
  split; [apply (tw_w srt be obs fct wt (Fin b') c ax s p M y x g e' sf pol); auto; exact (need2_fpw e' _ H2)|].
  split; [apply (tw_w srt be obs fct wt a c ax s p M y x g e' sf pol); auto; exact (need2_fpw e' _ H2)|].
  intros r Hr. destruct Hw as (_ & _ & W3 & W4). destruct (wts_one M s p g r W3 W4 Hr) as [S1 _]. apply real_w_split; auto.
  intros E. apply two_positive_fairc; [intros; now apply W3|now apply W4|]. apply H2; [rewrite E; simpl; auto|exact Hr].
Qed.
Lemma C86_halves_l :
forall srt be obs fct t ax s p M y x e sf pol,
  argsort_ok srt -> ens_args obs fct ax s p M y x -> (0 < M)%nat -> (be = Numba -> dt obs = DFloat) ->
  In e ["nrg"; "fair"; "pwm"; "qd"; "int"; "akr"; "akr_circperm"]%string -> In pol ["propagate"; "raise"]%string -> sorted_if sf s p M x ->
  ((In e ["fair"; "pwm"]%string -> (1 < M)%nat) ->
   exists u v w, returns (twcrps_ensemble srt be obs fct NInf (Fin t) ax None None e sf pol) s (fun r => Fin (u r)) /\
    returns (twcrps_ensemble srt be obs fct (Fin t) PInf ax None None e sf pol) s (fun r => Fin (v r)) /\
    returns (crps_ensemble srt be obs fct ax None e sf pol) s (fun r => Fin (w r)) /\ forall r, inb s r -> w r = u r + v r) /\
  forall wt g, wts_args wt fct s p M g -> (In e ["fair"; "pwm"]%string -> forall r, inb s r -> two_positive M (member p g r)) ->
   exists u v w, returns (twcrps_ensemble srt be obs fct NInf (Fin t) ax (Some wt) None e sf pol) s (fun r => Fin (u r)) /\
    returns (twcrps_ensemble srt be obs fct (Fin t) PInf ax (Some wt) None e sf pol) s (fun r => Fin (v r)) /\
    returns (crps_ensemble srt be obs fct ax (Some wt) e sf pol) s (fun r => Fin (w r)) /\ forall r, inb s r -> w r = u r + v r.
Proof.
intros srt be obs fct t ax s p M y x e sf pol Hs Ha HM Hd He Hp Hsf. destruct (name_est e He) as (e' & ->). split.
  - intros H2. do 3 eexists. split; [apply (tw_un srt be obs fct NInf (Fin t) ax s p M y x e' sf pol); simpl; auto; now apply need2_fp|].
    split; [apply (tw_un srt be obs fct (Fin t) PInf ax s p M y x e' sf pol); simpl; auto; now apply need2_fp|].
    split; [eapply returns_is, (call_un srt be obs fct ax s p M y x e' sf pol); auto; now apply need2_fp|].
    intros r Hr. exact (real_un_split NInf PInf t I I M (y r) (member p x r) e').
  - intros wt g Hw H2. do 3 eexists. split; [apply (tw_w srt be obs fct wt NInf (Fin t) ax s p M y x g e' sf pol); simpl; auto; exact (need2_fpw e' _ H2)|].
    split; [apply (tw_w srt be obs fct wt (Fin t) PInf ax s p M y x g e' sf pol); simpl; auto; exact (need2_fpw e' _ H2)|].
    split; [eapply returns_is, (call_w srt be obs fct wt ax s p M y x g e' sf pol); auto; exact (need2_fpw e' _ H2)|].
    intros r Hr. destruct Hw as (_ & _ & W3 & W4). destruct (wts_one M s p g r W3 W4 Hr) as [S1 _]. refine (real_w_split NInf PInf t I I M (y r) (member p x r) _ be e' S1 _).
    intros E. apply two_positive_fairc; [intros; now apply W3|now apply W4|]. apply H2; [rewrite E; simpl; auto|exact Hr].
Qed.
Lemma C86_monotone_l :
forall srt be obs fct a b a' b' ax s p M y x e sf pol,
  argsort_ok srt -> ens_args obs fct ax s p M y x -> (0 < M)%nat -> inside a b a' b' -> In pol ["propagate"; "raise"]%string -> sorted_if sf s p M x ->
  (In e ["nrg"; "fair"; "pwm"; "qd"; "int"; "akr"; "akr_circperm"]%string -> (In e ["fair"; "pwm"]%string -> (1 < M)%nat) ->
   exists u v, returns (twcrps_ensemble srt be obs fct a b ax None None e sf pol) s (fun r => Fin (u r)) /\
    returns (twcrps_ensemble srt be obs fct a' b' ax None None e sf pol) s (fun r => Fin (v r)) /\ forall r, inb s r -> u r <= v r) /\
  forall wt g, In e ["nrg"; "qd"; "int"]%string -> wts_args wt fct s p M g ->
   exists u v, returns (twcrps_ensemble srt be obs fct a b ax (Some wt) None e sf pol) s (fun r => Fin (u r)) /\
    returns (twcrps_ensemble srt be obs fct a' b' ax (Some wt) None e sf pol) s (fun r => Fin (v r)) /\ forall r, inb s r -> u r <= v r.
Proof.
intros srt be obs fct a b a' b' ax s p M y x e sf pol Hs Ha HM Hi Hp Hsf. assert (thresholds a b /\ thresholds a' b') as [T1 T2] by (split; apply Hi). split.
  - intros He H2. destruct (name_est e He) as (e' & ->). do 2 eexists. split; [apply (tw_un srt be obs fct a b ax s p M y x e' sf pol); auto; now apply need2_fp|].
    split; [apply (tw_un srt be obs fct a' b' ax s p M y x e' sf pol); auto; now apply need2_fp|]. intros r Hr. apply inside_un; auto. now apply need2_fp.
  - intros wt g He Hw. assert (exists e', e = ename e' /\ (forall w y x, real_w be e' M w y x = wexact_crps M w y x) /\ need2 e' = false) as (e' & -> & E1 & E3).
    { names He; [exists Nrg|exists Qd|exists EInt]; repeat split; reflexivity. }
    do 2 eexists. split; [apply (tw_w srt be obs fct wt a b ax s p M y x g e' sf pol); auto; congruence|].
    split; [apply (tw_w srt be obs fct wt a' b' ax s p M y x g e' sf pol); auto; congruence|]. intros r Hr. cbv beta. rewrite !E1.
    destruct Hw as (_ & _ & W3 & W4). destruct (wts_one M s p g r W3 W4 Hr) as [S1 S0]. now apply inside_w.
Qed.
Lemma C86_monotone_refuted_l :
exists y x w v, v < 0 /\ (forall k, 0 < w k) /\ inside (Fin 0) (Fin 0) (Fin 0) (Fin 1) /\ forall srt b, argsort_ok srt ->
    returns (twcrps_ensemble srt b (farr [] (fun _ => y)) (real1 2 x) (Fin 0) (Fin 0) (-1) (Some (real1 2 w)) None "fair" false "propagate") [] (fun _ => Fin 0) /\
    returns (twcrps_ensemble srt b (farr [] (fun _ => y)) (real1 2 x) (Fin 0) (Fin 1) (-1) (Some (real1 2 w)) None "fair" false "propagate") [] (fun _ => Fin v).
Proof.
exists 0, (fun k => nth k [0; 1] 0), (fun k => nth k [3; 1] 1), (-(1/4)).
  assert (W : forall k, 0 < nth k [3; 1] 1) by (intros [|[|[|k]]]; simpl; lra).
  split; [lra|]. split; auto. split; [unfold inside; simpl; repeat split; try lra; right; do 2 eexists; (split; [reflexivity|split; [reflexivity|lra]])|]. intros srt b Hs.
  pose proof (real0_wts 2 (fun k => nth k [0; 1] 0) (fun k => nth k [3; 1] 1) ltac:(intros; left; apply W) ltac:(unfold sumn, Rsum; simpl; lra)) as HW.
  assert (forall t, 0 <= t -> returns (twcrps_ensemble srt b (farr [] (fun _ => 0)) (real1 2 (fun k => nth k [0; 1] 0)) (Fin 0) (Fin t) (-1) (Some (real1 2 (fun k => nth k [3; 1] 1))) None "fair" false "propagate") []
    (fun _ => Fin (wfair_crps 2 (nw 2 (fun k => nth k [3; 1] 1)) (clampR (Fin 0) (Fin t) 0) (fun k => clampR (Fin 0) (Fin t) (nth k [0; 1] 0))))) as K.
  { intros t Ht. eapply returns_ext; [apply (tw_w srt b _ _ _ (Fin 0) (Fin t) _ _ _ _ _ _ _ Fair false "propagate" Hs (real0_args 0 2 (fun k => nth k [0; 1] 0)) ltac:(lia) Ht HW); try easy; [now left|]|].
    - intros _ r Hr. exists 0%nat, 1%nat. repeat split; auto; apply W.
    - intros [|? ?] Hr; [|easy]. reflexivity. }
  assert (forall t v, 0 <= t -> clampR (Fin 0) (Fin t) v = Rmin (Rmax v 0) t) as E by reflexivity.
  split; (eapply returns_ext; [apply K; lra|]); intros r Hr; cbv beta; f_equal; unfold wfair_crps, wmae, wpairsum, nw, sumn, Rsum, clampR; simpl.
  - rewrite (Rmax_left 0 0), (Rmax_left 1 0) by lra. rewrite (Rmin_left 0 0), (Rmin_right 1 0) by lra. rcalc.
  - rewrite (Rmax_left 0 0), (Rmax_left 1 0) by lra. rewrite (Rmin_left 0 1), (Rmin_left 1 1) by lra. rcalc.
Qed.
Lemma C86_bounded_l :
forall srt be obs fct a b ax s p M y x e sf pol,
  argsort_ok srt -> ens_args obs fct ax s p M y x -> (0 < M)%nat -> a <= b ->
  In e ["nrg"; "fair"; "pwm"; "qd"; "int"; "akr"; "akr_circperm"]%string -> (In e ["fair"; "pwm"]%string -> (1 < M)%nat) ->
  In pol ["propagate"; "raise"]%string -> sorted_if sf s p M x ->
  exists v, returns (twcrps_ensemble srt be obs fct (Fin a) (Fin b) ax None None e sf pol) s (fun r => Fin (v r)) /\ forall r, inb s r -> 0 <= v r <= b - a.
Proof.
intros srt be obs fct a b ax s p M y x e sf pol Hs Ha HM L He H2 Hp Hsf. destruct (name_est e He) as (e' & ->).
  eexists. split; [apply (tw_un srt be obs fct (Fin a) (Fin b) ax s p M y x e' sf pol); auto; now apply need2_fp|]. intros r Hr. apply bounded_un; auto. now apply need2_fp.
Qed.
