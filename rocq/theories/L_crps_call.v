(** The calls of [crps_ensemble] in the vocabulary of the property statements. *)
From Coq Require Import FunctionalExtensionality.
From Verif Require Export L_crps_omit.
Open Scope R_scope.

(** a concrete argsort *)
Fixpoint ainsert (key : nat -> num) (k : nat) (l : list nat) : list nat :=
  match l with
  | [] => [k]
  | j :: l' => if nle_sort (key k) (key j) then k :: l else j :: ainsert key k l'
  end.
Definition asort (l : list num) : list nat :=
  fold_right (ainsert (fun k => nth k l NaN)) [] (seq 0 (length l)).
Lemma ainsert_perm key k l : Permutation (ainsert key k l) (k :: l).
Proof. induction l as [|j l IH]; simpl; auto. destruct (nle_sort _ _); auto. rewrite IH. apply perm_swap. Qed.
Lemma nle_sort_total a b : nle_sort a b = true \/ nle_sort b a = true.
Proof.
  unfold nle_sort. destruct a as [a| | |], b as [b| | |]; simpl; auto. unfold rleb.
  destruct (Rle_dec a b), (Rle_dec b a); auto. lra.
Qed.
Lemma nle_sort_trans a b c : nle_sort a b = true -> nle_sort b c = true -> nle_sort a c = true.
Proof.
  unfold nle_sort. destruct a as [a| | |], b as [b| | |], c as [c| | |]; simpl; auto; try easy. unfold rleb.
  destruct (Rle_dec a b), (Rle_dec b c), (Rle_dec a c); auto. lra.
Qed.
Lemma nle_sort_refl a : nle_sort a a = true.
Proof. destruct (nle_sort_total a a); auto. Qed.
Lemma ainsert_sorted key k l : StronglySorted (fun i j => nle_sort (key i) (key j) = true) l ->
  StronglySorted (fun i j => nle_sort (key i) (key j) = true) (ainsert key k l).
Proof.
  induction 1 as [|j l S IH F]; simpl; [repeat constructor|].
  destruct (nle_sort (key k) (key j)) eqn:E.
  - constructor; [constructor; auto|]. constructor; auto. eapply Forall_impl; [|exact F].
    intros a Ha. eapply nle_sort_trans; eauto.
  - constructor; auto. apply (Permutation_Forall (Permutation_sym (ainsert_perm key k l))).
    constructor; auto. destruct (nle_sort_total (key k) (key j)); congruence.
Qed.
Lemma sorted_nth {A} (Rr : A -> A -> Prop) l d i j : StronglySorted Rr l -> (i < j < length l)%nat ->
  Rr (nth i l d) (nth j l d).
Proof.
  intros S; revert i j; induction S as [|a l S IH F]; simpl; intros i j H; [lia|].
  destruct j; [lia|]. destruct i.
  - rewrite Forall_forall in F. apply F, nth_In. lia.
  - apply IH; lia.
Qed.
Lemma asort_ok : argsort_ok asort.
Proof.
  intros l. split.
  - unfold asort. induction (seq 0 (length l)) as [|k ks IH]; simpl; auto. rewrite ainsert_perm. now constructor.
  - intros i j H. 
    assert (L : length (asort l) = length l).
    { unfold asort. transitivity (length (seq 0 (length l))); [|apply seq_length].
      induction (seq 0 (length l)) as [|k ks IH]; simpl; auto.
      rewrite (Permutation_length (ainsert_perm _ _ _)). simpl. congruence. }
    assert (S : StronglySorted (fun i j => nle_sort (nth i l NaN) (nth j l NaN) = true) (asort l)).
    { unfold asort. set (key := fun k => nth k l NaN).
      change (StronglySorted (fun i j => nle_sort (key i) (key j) = true)
        (fold_right (ainsert key) [] (seq 0 (length l)))).
      induction (seq 0 (length l)); simpl; [constructor|]. now apply ainsert_sorted. }
    apply (sorted_nth _ _ 0%nat i j S). lia.
Qed.

(** bridge to the hypotheses of the api lemmas *)
Lemma ens_axis_ok ax rank p : ens_axis ax rank p -> (p <= rank)%nat -> norm_axis ax (S rank) = Ok (rank - p)%nat.
Proof.
  intros [->| ->] Hp.
  - replace (- Z.of_nat p - 1)%Z with (Z.of_nat (rank - p) - Z.of_nat (S rank))%Z by lia. apply norm_axis_neg; lia.
  - replace (Z.of_nat rank - Z.of_nat p)%Z with (Z.of_nat (rank - p)) by lia. apply norm_axis_nat; lia.
Qed.
Lemma insert_inb p k (M : nat) s r : (p <= length s)%nat -> inb s r -> (k < M)%nat -> inb (insert_at p M s) (insert_at p k r).
Proof.
  revert s r; induction p; intros s r Hp Hr Hk.
  - destruct s, r; simpl in *; auto; try easy. 
  - destruct s as [|m s]; [simpl in Hp; lia|]. destruct r as [|i r]; [easy|]. simpl in *. destruct Hr. split; auto.
    apply IHp; auto; lia.
Qed.
Lemma nums_inputs obs fct ax s p M y x : ens_nums obs fct ax s p M y x ->
  inputs obs fct ax (dt obs) (dt fct) s p M y x.
Proof. intros ((H1 & H2) & (H3 & H4) & Hp & Hax). repeat split; auto. now apply ens_axis_ok. Qed.
Lemma args_nums obs fct ax s p M y x : ens_args obs fct ax s p M y x ->
  ens_nums obs fct ax s p M (fun r => Fin (y r)) (fun i => Fin (x i)).
Proof. intros ((H1 & H2) & (H3 & H4) & Hp & Hax). repeat split; auto. Qed.
Lemma ncast_id d v : d = DFloat -> ncast d v = v. Proof. intros ->; reflexivity. Qed.
Lemma odt_float b e d : (b = Numba -> d = DFloat) -> odt b e d = DFloat.
Proof. intros H. destruct b, e; simpl; auto. Qed.
Lemma odt_w_float b d : (b = Numba -> d = DFloat) -> odt_w b d = DFloat.
Proof. intros H. destruct b; simpl; auto. Qed.

Lemma two_positive_fairc M w : (forall k, (k < M)%nat -> 0 <= w k) -> 0 < sumn M w -> two_positive M w ->
  fairc M (nw M w) <> 0.
Proof.
  intros H0 Ht (i & j & Hi & Hj & N & Pi & Pj) Hc.
  assert (Z := one_prod M (nw M w) (fun k Hk => nw_nonneg M w k H0 Ht Hk)
       (nw_sum1 M w (Rgt_not_eq _ _ Ht)) Hc i j Hi Hj N). unfold nw in Z.
  assert (0 < w i / sumn M w * (w j / sumn M w)).
  { apply Rmult_lt_0_compat; apply Rdiv_lt_0_compat; auto. }
  lra.
Qed.
Definition pol_std (pol : string) : Prop := In pol ["propagate"; "raise"]%string.
Lemma call_un srt b obs fct ax s p M y x e sf pol : argsort_ok srt -> ens_args obs fct ax s p M y x ->
  (0 < M)%nat -> (b = Numba -> dt obs = DFloat) -> pol_std pol -> sorted_if sf s p M x ->
  (need2 e = true -> (1 < M)%nat) ->
  ten_is (crps_ensemble srt b obs fct ax None (ename e) sf pol) DFloat s
    (fun r => Fin (real_un e M (y r) (member p x r))).
Proof.
  intros Hs Ha HM Hd Hp Hsf H2. pose proof (nums_inputs _ _ _ _ _ _ _ _ (args_nums _ _ _ _ _ _ _ _ Ha)) as Hin.
  eapply ten_conv; [eapply (ens_real srt Hs b obs fct ax _ _ s p M _ _ y x Hin HM)|now apply odt_float|]; auto.
  - destruct Hp as [<-|[<-|[]]]; auto.
  - intros E _ r Hr. intros i j Hij. now apply Hsf.
  - intros r Hr. cbv beta. rewrite odt_float by auto. reflexivity.
Qed.
Lemma call_w srt b obs fct wt ax s p M y x w e sf pol : argsort_ok srt -> ens_args obs fct ax s p M y x ->
  wts_args wt fct s p M w -> (b = Numba -> dt obs = DFloat) -> pol_std pol -> sorted_if sf s p M x ->
  (need2 e = true -> forall r, inb s r -> two_positive M (member p w r)) ->
  (0 < M)%nat ->
  ten_is (crps_ensemble srt b obs fct ax (Some wt) (ename e) sf pol) DFloat s
    (fun r => Fin (real_w b e M (nw M (member p w r)) (y r) (member p x r))).
Proof.
  intros Hs Ha Hw Hd Hp Hsf H2 HM. pose proof (nums_inputs _ _ _ _ _ _ _ _ (args_nums _ _ _ _ _ _ _ _ Ha)) as Hin.
  destruct Hw as ((Hw1 & Hw2) & Hdf & Hw3 & Hw4). destruct Ha as (_ & _ & Hpl & _).
  eapply ten_conv; [eapply (ens_w_real srt Hs b obs fct ax _ _ s p M _ _ y x Hin) with (wt := wt) (d3 := dt wt)
     (wn := fun i => Fin (w i)) (w := w)|now apply odt_w_float|]; auto.
  - destruct Hp as [<-|[<-|[]]]; auto.
  - repeat split; auto.
  - intros r k Hr Hk. split; [now rewrite ncast_id|]. now apply Hw3.
  - intros E r Hr. apply two_positive_fairc; [intros k Hk; now apply Hw3|now apply Hw4|now apply H2].
  - intros E _ r Hr. intros i j Hij. now apply Hsf.
  - intros r Hr. cbv beta. rewrite odt_w_float by auto. reflexivity.
Qed.

(** ** tactics and small lemmas for the statement files *)
Ltac rcalc := repeat match goal with
  | |- context [Rabs ?e] => first [rewrite (Rabs_right e) by lra | rewrite (Rabs_left e) by lra]
  | |- context [Rmax ?a ?b] => first [rewrite (Rmax_left a b) by lra | rewrite (Rmax_right a b) by lra] end;
  try lra; try (field; lra).
Lemma returns_is T d s f : ten_is T d s f -> returns T s f.
Proof. intros H; now exists d. Qed.
Lemma returns_ext T s f g : returns T s f -> (forall r, inb s r -> f r = g r) -> returns T s g.
Proof. intros (d & H) E. exists d. now apply (ten_ext _ _ _ f). Qed.
Ltac names H := repeat match type of H with
  | In _ (_ :: _) => destruct H as [<-|H]
  | In _ [] => destruct H end.
(** the seven names, as [est] *)
Lemma name_est e : In e ["nrg"; "fair"; "pwm"; "qd"; "int"; "akr"; "akr_circperm"]%string ->
  exists e', e = ename e'.
Proof.
  intros H; names H; [exists Nrg|exists Fair|exists Pwm|exists Qd|exists EInt|exists Akr|exists Circ]; reflexivity.
Qed.
Lemma name_need2 e e' : e = ename e' -> need2 e' = true -> In e ["fair"; "pwm"]%string.
Proof. intros -> H. destruct e'; try discriminate; simpl; auto. Qed.
Lemma ename_inj e e' : ename e = ename e' -> e = e'.
Proof. destruct e, e'; cbn; intros H; try reflexivity; discriminate. Qed.
