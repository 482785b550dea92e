(** Property C66: corp_reliability, corp_score_decomposition and the numbers printed by reliability_diagram.
    [srt] is any algorithm that sorts. *)
From Verif Require Import T_corp.
From Coq Require Import Psatz Lia.
Open Scope R_scope.

(** C66.  The conditional event probabilities are the nondecreasing sequence closest to the outcomes in the sense of
    least squares, and the only one; they have the same mean as the outcomes and stay between their bounds. *)
Theorem C66_isotonic :
forall n y, exists z,
  isotonic_regression (rlist n y) = rlist n z /\ isotonic_fit n y z /\
  (forall w, isotonic_fit n y w -> forall i, (i < n)%nat -> w i = z i) /\ sumn n z = sumn n y /\
  (forall lo hi, (forall i, (i < n)%nat -> lo <= y i <= hi) -> forall i, (i < n)%nat -> lo <= z i <= hi).
Proof. exact C66_isotonic_l. Qed.
Print Assumptions C66_isotonic.
(** outcomes 1, 0: both probabilities are 1/2 *)
Example C66_isotonic_case : isotonic_fit 2 (fun i => if Nat.eqb i 0 then 1 else 0) (fun _ => 1 / 2) /\
  isotonic_regression (rlist 2 (fun i => if Nat.eqb i 0 then 1 else 0)) = rlist 2 (fun _ => 1 / 2).
Proof.
  assert (isotonic_fit 2 (fun i => if Nat.eqb i 0 then 1 else 0) (fun _ => 1 / 2)) as F.
  { split; [apply nondec_const|]. intros w Hw. eapply Rle_trans; [|exact (sc10 (fun i => if Nat.eqb i 0 then 1 else 0) w Hw eq_refl eq_refl)]. unfold sse. rewrite sumn2. simpl. lra. }
  split; [exact F|]. destruct (C66_isotonic 2 (fun i => if Nat.eqb i 0 then 1 else 0)) as (z & E & _ & U & _). rewrite E. apply rlist_ext. intros i Hi. symmetry. now apply (U _ F).
Qed.

(** C66.  corp_reliability returns the forecasts in increasing order, the outcomes in the order of their forecasts, and the
    isotonic fit of the reordered outcomes. *)
Theorem C66_reliability :
forall srt n o f, argsort_ok srt ->
  exists g x y z, corp_reliability srt (rlist n o) (rlist n f) = Ok (rlist n x, rlist n y, rlist n z) /\
    reorders n g /\ (forall i, (i < n)%nat -> x i = f (g i) /\ y i = o (g i)) /\ nondec n x /\ isotonic_fit n y z.
Proof. exact C66_reliability_l. Qed.
Print Assumptions C66_reliability.
Example C66_reliability_case : argsort_ok asort /\
  exists g : nat -> nat, reorders 2 g /\ g 0%nat = 1%nat /\ nondec 2 (fun i => if Nat.eqb (g i) 0 then 3 / 4 else 1 / 4).
Proof.
  split; [exact asort_ok|]. exists (fun i => (1 - i)%nat). split; [unfold reorders; simpl; apply perm_swap|]. split; [reflexivity|]. intros i j Hi Hj. destruct i as [|[|?]], j as [|[|?]]; simpl; lra || lia.
Qed.

(** C66.  Fewer outcomes than forecasts raise IndexError; but outcomes beyond the number of forecasts are ignored silently. *)
Theorem C66_lengths :
forall srt n m o f, argsort_ok srt ->
  ((m < n)%nat -> corp_reliability srt (rlist m o) (rlist n f) = Err IndexError) /\
  ((n <= m)%nat -> corp_reliability srt (rlist m o) (rlist n f) = corp_reliability srt (rlist n o) (rlist n f)).
Proof. exact C66_lengths_l. Qed.
Print Assumptions C66_lengths.
Example C66_lengths_case : exists srt, argsort_ok srt /\ corp_reliability srt (rlist 1 (fun _ => 1)) (rlist 2 (fun _ => 1 / 2)) = Err IndexError.
Proof. exists asort. split; [exact asort_ok|]. apply (C66_lengths asort 2 1); [exact asort_ok|lia]. Qed.

(** C66.  The numbers in the diagram: UNC is the variance of the outcomes, MCB >= 0, 0 <= DSC <= UNC, and the mean Brier
    score of the forecasts is MCB - DSC + UNC. *)
Theorem C66_decomposition :
forall srt n o f, argsort_ok srt -> (1 <= n)%nat ->
  exists mcb dsc unc, diagram_scores srt (rlist n o) (rlist n f) = Ok (Fin mcb, Fin dsc, Fin unc) /\
    0 <= mcb /\ 0 <= dsc <= unc /\ mean n (fun i => (f i - o i) ^ 2) = mcb - dsc + unc /\
    unc = mean n (fun i => (o i - mean n o) ^ 2) /\
    ((forall i, (i < n)%nat -> o i = 0 \/ o i = 1) -> unc = mean n o * (1 - mean n o)).
Proof. exact C66_decomposition_l. Qed.
Print Assumptions C66_decomposition.
(** forecasts 1/4, 3/4 with outcomes 0, 1: fit 0, 1; MCB 1/16, DSC and UNC 1/4 *)
Example C66_decomposition_case :
  diagram_scores asort (rlist 2 (fun i => if Nat.eqb i 0 then 0 else 1)) (rlist 2 (fun i => if Nat.eqb i 0 then 1 / 4 else 3 / 4)) = Ok (Fin (1 / 16), Fin (1 / 4), Fin (1 / 4)).
Proof.
  destruct (diag_value asort 2 (fun i => if Nat.eqb i 0 then 0 else 1) (fun i => if Nat.eqb i 0 then 1 / 4 else 3 / 4) asort_ok ltac:(lia)) as (p & z & P & N & _ & Nz & Oz & _ & E). rewrite E.
  destruct (perm2 p P) as [-> | ->].
  - rewrite (sc01 _ z Nz Oz eq_refl eq_refl). unfold sse, mean. rewrite !sumn2. simpl. match goal with |- Ok (Fin ?a, Fin ?b, Fin ?c) = _ => replace a with (1 / 16) by field; replace b with (1 / 4) by field; replace c with (1 / 4) by field end. reflexivity.
  - exfalso. specialize (N 0%nat 1%nat ltac:(lia) ltac:(lia)). simpl in N. lra.
Qed.

(** C66.  MCB is 0 exactly when the sorted forecasts are the fitted probabilities; DSC is 0 exactly when the fitted
    probabilities are all the mean outcome. *)
Theorem C66_zero :
forall srt n o f x y z mcb dsc unc, argsort_ok srt -> (1 <= n)%nat ->
  corp_reliability srt (rlist n o) (rlist n f) = Ok (rlist n x, rlist n y, rlist n z) ->
  diagram_scores srt (rlist n o) (rlist n f) = Ok (Fin mcb, Fin dsc, Fin unc) ->
  (mcb = 0 <-> forall i, (i < n)%nat -> x i = z i) /\ (dsc = 0 <-> forall i, (i < n)%nat -> z i = mean n o).
Proof. exact C66_zero_l. Qed.
Print Assumptions C66_zero.
(** the perfect forecasts 0, 1: MCB is 0 *)
Example C66_zero_case : let o := fun i => if Nat.eqb i 0 then 0 else 1 in
  exists x y z mcb dsc unc, corp_reliability asort (rlist 2 o) (rlist 2 o) = Ok (rlist 2 x, rlist 2 y, rlist 2 z) /\
  diagram_scores asort (rlist 2 o) (rlist 2 o) = Ok (Fin mcb, Fin dsc, Fin unc) /\ mcb = 0 /\ dsc <> 0.
Proof.
  cbv zeta. destruct (diag_value asort 2 (fun i => if Nat.eqb i 0 then 0 else 1) (fun i => if Nat.eqb i 0 then 0 else 1) asort_ok ltac:(lia)) as (p & z & P & N & Er & Nz & Oz & _ & E). do 6 eexists. split; [exact Er|]. split; [exact E|].
  destruct (perm2 p P) as [-> | ->].
  - rewrite (sc01 _ z Nz Oz eq_refl eq_refl). rewrite sse_self. unfold sse, mean. rewrite !sumn2. simpl. split; lra.
  - exfalso. specialize (N 0%nat 1%nat ltac:(lia) ltac:(lia)). simpl in N. lra.
Qed.

(** C66.  With distinct forecasts neither the order of the cases nor the sorting algorithm matters, and a strictly
    increasing transformation of the forecasts only moves the first output. *)
Theorem C66_order :
forall srt srt' n o f g h, argsort_ok srt -> argsort_ok srt' -> distinct n f -> reorders n g ->
  (forall i j, (i < n)%nat -> (j < n)%nat -> f i < f j -> h (f i) < h (f j)) ->
  exists x y z, corp_reliability srt (rlist n o) (rlist n f) = Ok (rlist n x, y, z) /\
    corp_reliability srt' (rlist n (fun i => o (g i))) (rlist n (fun i => f (g i))) = Ok (rlist n x, y, z) /\
    corp_reliability srt' (rlist n (fun i => o (g i))) (rlist n (fun i => h (f (g i)))) = Ok (rlist n (fun i => h (x i)), y, z).
Proof. exact C66_order_l. Qed.
Print Assumptions C66_order.
Example C66_order_case : distinct 2 (fun i => if Nat.eqb i 0 then 3 / 4 else 1 / 4) /\ reorders 2 (fun i => (1 - i)%nat) /\ argsort_ok asort.
Proof.
  split; [|split; [unfold reorders; simpl; apply perm_swap|exact asort_ok]]. intros i j Hi Hj E. destruct i as [|[|?]], j as [|[|?]]; simpl in E; lra || lia.
Qed.

(** C66.  With equal forecasts it does: two cases with forecast 1/2 and outcomes 0, 1, listed in one order or the other,
    get different miscalibration and discrimination, whatever the sorting algorithm.  (The CORP approach treats equal
    forecasts as one case; the code does not pool them.) *)
Theorem C66_ties_refuted :
exists n o f g, reorders n g /\ (forall i, (i < n)%nat -> f (g i) = f i) /\
  forall srt, argsort_ok srt -> exists mcb dsc unc mcb' dsc' unc',
    diagram_scores srt (rlist n o) (rlist n f) = Ok (Fin mcb, Fin dsc, Fin unc) /\
    diagram_scores srt (rlist n (fun i => o (g i))) (rlist n (fun i => f (g i))) = Ok (Fin mcb', Fin dsc', Fin unc') /\
    mcb <> mcb' /\ dsc <> dsc' /\ unc = unc'.
Proof. exact C66_ties_refuted_l. Qed.
Print Assumptions C66_ties_refuted.
