(** Sorting of rows: finite rows, rows with NaN, argsort. *)
From Verif Require Export L_crps_gu L_crps_real.
From Coq Require Export Sorted.
Open Scope nat_scope.

(** ** finite rows *)
Lemma StronglySorted_perm_eq (l1 l2 : list R) :
  StronglySorted Rle l1 -> StronglySorted Rle l2 -> Permutation l1 l2 -> l1 = l2.
Proof.
  revert l2; induction l1 as [|a l1 IH]; intros [|b l2] H1 H2 HP; auto.
  - now apply Permutation_nil_cons in HP.
  - symmetry in HP. now apply Permutation_nil_cons in HP.
  - inversion H1 as [|? ? S1 F1]; inversion H2 as [|? ? S2 F2]; subst.
    assert (a = b).
    { assert (In a (b :: l2)) as [E|E] by (eapply Permutation_in; [exact HP|now left]); auto.
      assert (In b (a :: l1)) as [E'|E'] by (eapply Permutation_in; [symmetry; exact HP|now left]); auto.
      rewrite Forall_forall in F1, F2. apply F1 in E'. apply F2 in E. lra. }
    subst b. f_equal. apply IH; auto. eapply Permutation_cons_inv; eauto.
Qed.
Lemma ninsert_perm x l : Permutation (ninsert x l) (x :: l).
Proof.
  induction l as [|y l IH]; simpl; auto. destruct (nle_sort x y); auto.
  rewrite IH. apply perm_swap.
Qed.
Lemma nsort_perm l : Permutation (nsort l) l.
Proof. induction l as [|x l IH]; simpl; auto. rewrite ninsert_perm. now constructor. Qed.
Lemma nsort_length l : length (nsort l) = length l.
Proof. apply Permutation_length, nsort_perm. Qed.
Fixpoint rinsert (x : R) (l : list R) : list R :=
  match l with nil => x :: nil | y :: l' => if Rle_dec x y then x :: l else y :: rinsert x l' end.
Lemma ninsert_Fin x l : ninsert (Fin x) (map Fin l) = map Fin (rinsert x l).
Proof.
  induction l as [|y l IH]; simpl; auto. unfold nle_sort; simpl. unfold rleb.
  destruct (Rle_dec x y); simpl; auto. now rewrite IH.
Qed.
Lemma rinsert_sorted x l : StronglySorted Rle l -> StronglySorted Rle (rinsert x l).
Proof.
  assert (P : forall l, Forall (fun z => x <= z \/ In z l)%R (rinsert x l) ).
  { induction l0 as [|y l0 IH]; simpl; [constructor; auto; left; lra|].
    destruct (Rle_dec x y).
    - constructor; [left; lra|]. constructor; [auto|]. apply Forall_forall; auto.
    - constructor; [auto|]. eapply Forall_impl; [|exact IH]. simpl; intros; tauto. }
  induction 1 as [|y l S IH F]; simpl; [repeat constructor|].
  destruct (Rle_dec x y).
  - constructor; [constructor; auto|]. constructor; auto. eapply Forall_impl; [|exact F]. intros; lra.
  - constructor; auto. specialize (P l). rewrite Forall_forall in *. intros z Hz.
    destruct (P z Hz); [lra|]. auto.
Qed.
Lemma nsort_Fin_ex l : exists l', nsort (map Fin l) = map Fin l' /\ StronglySorted Rle l'.
Proof.
  induction l as [|x l (l' & E & S)]; simpl; [exists []; split; auto; constructor|].
  exists (rinsert x l'). rewrite E. split; [apply ninsert_Fin|now apply rinsert_sorted].
Qed.
Lemma map_Fin_inj l l' : map Fin l = map Fin l' -> l = l'.
Proof.
  revert l'; induction l; intros [|b l'] H; try easy. injection H as -> H. f_equal; auto.
Qed.
Lemma Permutation_map_Fin l l' : Permutation (map Fin l) (map Fin l') -> Permutation l l'.
Proof.
  intros H. apply Permutation_map_inv in H. destruct H as (l3 & E & P).
  apply map_Fin_inj in E. subst. symmetry; auto.
Qed.
(** the sorted row is the only sorted permutation *)
Lemma nsort_unique l l' : StronglySorted Rle l' -> Permutation l l' ->
  nsort (map Fin l) = map Fin l'.
Proof.
  intros S P. destruct (nsort_Fin_ex l) as (l2 & E & S2). rewrite E. f_equal.
  apply StronglySorted_perm_eq; auto. rewrite <- P. apply Permutation_map_Fin.
  rewrite <- E. apply nsort_perm.
Qed.
Lemma ascending_SS M x : ascending M x -> StronglySorted Rle (map x (seq 0 M)).
Proof.
  intros H.
  assert (G : forall n a, a + n <= M -> StronglySorted Rle (map x (seq a n))).
  { induction n; intros a Ha; simpl; constructor; auto.
    - apply IHn; lia.
    - apply Forall_forall. intros z Hz. apply in_map_iff in Hz. destruct Hz as (k & <- & Hk).
      apply in_seq in Hk. apply H; lia. }
  apply G; lia.
Qed.

(** ** rows with NaN *)
Definition nleP (x y : num) : Prop := nle_sort x y = true.
Lemma nle_total x y : nle_sort x y = false -> nleP y x.
Proof.
  unfold nleP, nle_sort. destruct x, y; simpl; unfold rleb; rdec; auto; try easy; lra.
Qed.
Lemma nle_trans x y z : nleP x y -> nleP y z -> nleP x z.
Proof.
  unfold nleP, nle_sort. destruct x, y, z; simpl; unfold rleb; rdec; auto; try easy; lra.
Qed.
Lemma nle_refl x : nleP x x.
Proof. unfold nleP, nle_sort. destruct x; simpl; unfold rleb; rdec; auto; lra. Qed.
Lemma ninsert_SS x l : StronglySorted nleP l -> StronglySorted nleP (ninsert x l).
Proof.
  induction 1 as [|y l S IH F]; simpl; [repeat constructor|].
  destruct (nle_sort x y) eqn:E.
  - constructor; [constructor; auto|]. constructor; auto.
    eapply Forall_impl; [|exact F]. intros; eapply nle_trans; eauto.
  - constructor; auto. rewrite Forall_forall in *. intros z Hz.
    eapply Permutation_in in Hz; [|apply ninsert_perm]. destruct Hz as [<-|Hz]; [now apply nle_total|auto].
Qed.
Lemma nsort_SS l : StronglySorted nleP (nsort l).
Proof. induction l; simpl; [constructor|now apply ninsert_SS]. Qed.
Lemma SS_nth {A} (P : A -> A -> Prop) l d i j : StronglySorted P l -> i < j < length l ->
  P (nth i l d) (nth j l d).
Proof.
  intros S; revert i j; induction S as [|a l S IH F]; intros i j H; simpl in *; [lia|].
  destruct i, j; try lia.
  - rewrite Forall_forall in F. apply F, nth_In; lia.
  - apply IH; lia.
Qed.
Lemma nsort_NaN_last l d : In NaN l -> nth (length l - 1) (nsort l) d = NaN.
Proof.
  intros H. assert (H' : In NaN (nsort l)) by (eapply Permutation_in; [symmetry; apply nsort_perm|auto]).
  destruct (In_nth _ _ d H') as (i & Hi & E). rewrite nsort_length in Hi.
  destruct (Nat.eq_dec i (length l - 1)) as [->|]; auto.
  pose proof (SS_nth nleP (nsort l) d i (length l - 1) (nsort_SS l) ltac:(rewrite nsort_length; lia)) as P.
  rewrite E in P. unfold nleP, nle_sort in P. destruct (nth (length l - 1) (nsort l) d); auto; discriminate.
Qed.

(** ** argsort *)
Definition sorted_by (srt : list num -> list nat) (M : nat) (x : nat -> num) (k : nat) : nat :=
  nth k (srt (rw M x)) 0.
Section Argsort.
Variable srt : list num -> list nat.
Hypothesis Hsrt : argsort_ok srt.
Lemma srt_perm M x : Permutation (srt (rw M x)) (seq 0 M).
Proof. destruct (Hsrt (rw M x)) as [H _]. now rewrite rw_length in H. Qed.
Lemma srt_length M x : length (srt (rw M x)) = M.
Proof. rewrite (Permutation_length (srt_perm M x)). apply seq_length. Qed.
Lemma sorted_by_lt M x k : k < M -> sorted_by srt M x k < M.
Proof.
  intros H. assert (In (sorted_by srt M x k) (seq 0 M)).
  { eapply Permutation_in; [apply srt_perm|]. apply nth_In. now rewrite srt_length. }
  apply in_seq in H0; lia.
Qed.
Lemma map_sorted_by M x : map (sorted_by srt M x) (seq 0 M) = srt (rw M x).
Proof.
  apply (nth_ext _ _ 0 0).
  - now rewrite map_length, seq_length, srt_length.
  - intros k Hk. rewrite map_length, seq_length in Hk.
    rewrite (nth_indep _ 0 (sorted_by srt M x 0)) by (rewrite map_length, seq_length; lia).
    rewrite map_nth, seq_nth by lia. reflexivity.
Qed.
Lemma sorted_by_perm M x : Permutation (map (sorted_by srt M x) (seq 0 M)) (seq 0 M).
Proof. rewrite map_sorted_by. apply srt_perm. Qed.
Lemma sorted_by_sorted M x i j : i < j < M ->
  nle_sort (x (sorted_by srt M x i)) (x (sorted_by srt M x j)) = true.
Proof.
  intros H. destruct (Hsrt (rw M x)) as [_ Hs]. specialize (Hs i j).
  rewrite rw_length in Hs. specialize (Hs H). fold (sorted_by srt M x i) (sorted_by srt M x j) in Hs.
  rewrite !rw_nth in Hs; auto; apply sorted_by_lt; lia.
Qed.
Lemma sorted_by_ascending M x xr : (forall k, k < M -> x k = Fin (xr k)) ->
  ascending M (fun k => xr (sorted_by srt M x k)).
Proof.
  intros Hx i j Hij. destruct (Nat.eq_dec i j) as [->|]; [lra|].
  pose proof (sorted_by_sorted M x i j ltac:(lia)) as H.
  rewrite !Hx in H by (apply sorted_by_lt; lia). unfold nle_sort in H; simpl in H.
  now apply rleb_true in H.
Qed.
(** reindexing a sum *)
Lemma sumn_sorted_by M x f : sumn M (fun k => f (sorted_by srt M x k)) = sumn M f.
Proof.
  unfold sumn at 1. rewrite <- (map_map (sorted_by srt M x) f). apply sumn_perm, sorted_by_perm.
Qed.
Lemma sorted_by_onto M x j : j < M -> exists k, k < M /\ sorted_by srt M x k = j.
Proof.
  intros H. assert (In j (map (sorted_by srt M x) (seq 0 M))).
  { eapply Permutation_in; [symmetry; apply sorted_by_perm|]. apply in_seq; lia. }
  apply in_map_iff in H0. destruct H0 as (k & E & Hk). apply in_seq in Hk. exists k; split; auto; lia.
Qed.
End Argsort.
