(** crps_hypergeometric with an array of numbers of failures. *)
From Verif Require Export L_binom_api L_crpshyp.
From Coq Require Import Psatz Lia.
Open Scope R_scope.

Definition prodl (s : list nat) : nat := fold_right Nat.mul 1%nat s.
Lemma flat_map_len {A B} (f : A -> list B) d l : (forall x, In x l -> length (f x) = d) -> length (flat_map f l) = (length l * d)%nat.
Proof. induction l as [|x l IH]; intros H; simpl; auto. rewrite app_length, IH, H; simpl; auto. intros; apply H; simpl; auto. Qed.
Lemma all_idx_len s : length (all_idx s) = prodl s.
Proof. induction s as [|d s IH]; auto. cbn [all_idx]. rewrite (flat_map_len _ d), IH; [simpl; lia|]. intros x _. now rewrite map_length, seq_length. Qed.
Lemma flat_map_nth {A} (f : A -> list A) d : forall l q k x, (forall y, In y l -> length (f y) = d) -> nth_error l q = Some x -> (k < d)%nat -> nth_error (flat_map f l) (q * d + k) = nth_error (f x) k.
Proof.
  induction l as [|y l IH]; intros q k x H E Hk; [destruct q; discriminate|]. cbn [flat_map]. destruct q as [|q].
  - injection E as ->. rewrite nth_error_app1; [reflexivity|]. rewrite H by (simpl; auto). lia.
  - assert (length (f y) = d) as Ly by (apply H; simpl; auto). rewrite nth_error_app2 by (rewrite Ly; simpl; lia). rewrite Ly. replace (S q * d + k - d)%nat with (q * d + k)%nat by (simpl; lia). apply IH; auto. intros; apply H; simpl; auto.
Qed.
Lemma flat_idx : forall s i, inb s i -> nth_error (all_idx s) (flat s i) = Some i.
Proof.
  induction s as [|d s IH]; intros [|k i] H; simpl in H; try tauto. destruct H as [Hk Hi]. cbn [all_idx flat]. rewrite (flat_map_nth _ d _ _ _ i).
  - apply (map_nth_error (fun q => q :: i)). rewrite (nth_error_nth' _ 0%nat) by (rewrite seq_length; auto). now rewrite seq_nth.
  - intros y _. now rewrite map_length, seq_length. - now apply IH. - exact Hk.
Qed.
Lemma all_idx_inb' s i : In i (all_idx s) -> inb s i.
Proof.
  revert i. induction s as [|d s IH]; intros i H; cbn [all_idx] in H; [destruct H as [<-|[]]; exact I|]. apply in_flat_map in H as (j & Hj & H). apply in_map_iff in H as (k & <- & Hk). apply in_seq in Hk. split; [lia|auto].
Qed.
Lemma idx_at s q : (q < prodl s)%nat -> exists i, nth_error (all_idx s) q = Some i /\ inb s i.
Proof. intros H. destruct (nth_error (all_idx s) q) as [i|] eqn:E; [|apply nth_error_None in E; rewrite all_idx_len in E; lia]. exists i. split; auto. apply all_idx_inb'. eapply nth_error_In; eauto. Qed.
Lemma flat_lt s i : inb s i -> (flat s i < prodl s)%nat.
Proof. intros H. rewrite <- all_idx_len. apply nth_error_Some. rewrite flat_idx by auto. discriminate. Qed.
Lemma lookup_at a s i q : sh a = s -> nth_error (all_idx s) q = Some i -> lookup (ravel a) q = Ok (at_ a i).
Proof. intros S E. unfold lookup, ravel. rewrite S. now rewrite (map_nth_error (at_ a) _ _ E). Qed.

Definition on (s : list nat) (x : arr) : arr := mkArr (dt x) s (fun i => at_ x (bidx (sh x) i)).
Lemma broadcast4_val a b c d s : bto (sh a) s -> bto (sh b) s -> bto (sh c) s -> bto (sh d) s -> (forall j, (j < length s)%nat -> pres (sh a) s j \/ pres (sh b) s j \/ pres (sh c) s j \/ pres (sh d) s j) ->
  broadcast4 a b c d = Ok (on s a, on s b, on s c, on s d).
Proof.
  intros Ba Bb Bc Bd C. unfold broadcast4. destruct (bshape_bto _ _ _ Ba Bb) as (t1 & -> & B1 & _ & _ & P1). destruct (bshape_bto _ _ _ B1 Bc) as (t2 & -> & B2 & _ & _ & P2). destruct (bshape_bto _ _ _ B2 Bd) as (t3 & -> & B3 & _ & _ & P3).
  assert (t3 = s) as ->; [|reflexivity]. apply bto_pres_eq; auto. intros j Hj. apply P3. destruct (C j Hj) as [H|[H|[H|H]]]; [left; apply P2; left; apply P1; auto|left; apply P2; left; apply P1; auto|left; apply P2; auto|auto].
Qed.
Lemma hyper_sum_val b y a c : (c <= a + b)%nat -> hyper_sum (S b) (Fin y) (Fin (INR a) .+ Fin (INR b)) (Fin (INR a)) (Fin (INR c)) = hyper_score b (Fin y) (Fin (INR a)) (Fin (INR c)).
Proof. reflexivity. Qed.
Lemma collect_err {A} (g : nat -> res A) e st m : g st = Err e -> collect (map g (seq st (S m))) = Err e.
Proof. intros E. cbn [seq map collect]. now rewrite E. Qed.

Section Loop.
Context (obs m n k : arr) (s : list nat) (y : list nat -> R) (a b c : list nat -> nat).
Hypothesis P : params s ((obs, fins y) :: (m, fins (fun i => INR (a i))) :: (n, fins (fun i => INR (b i))) :: (k, fins (fun i => INR (c i))) :: nil).
Let item M (i : nat) : res num :=
  (let* n := lookup (ravel n) i in
   let* len := arange_len (nadd n (Fin 1)) in
   let* M := lookup (ravel M) i in
   let* m := lookup (ravel (on s m)) i in
   let* N := lookup (ravel (on s k)) i in
   let* obs := lookup (ravel (on s obs)) i in
   Ok (hyper_sum len obs M m N)).
Lemma loop_unfold : exists M, crps_hypergeometric_loop obs m n k = (let* l := collect (map (item (on s M)) (seq 0 (asize n))) in areshape l s) /\
  (forall i, inb s i -> at_ (on s M) i = Fin (INR (a i)) .+ Fin (INR (b i)) /\ at_ (on s m) i = Fin (INR (a i)) /\ at_ (on s k) i = Fin (INR (c i)) /\ at_ (on s obs) i = Fin (y i)).
Proof.
  assert (forall i, tb (Ok m + Ok n)%A s i (fins (fun i => INR (a i)) i .+ fins (fun i => INR (b i)) i) (sh m :: sh n :: nil)) as T.
  { intros i. assert (tb (Ok m) s i (fins (fun i => INR (a i)) i) (sh m :: nil)) as T1 by (eapply params_tb; [exact P|simpl; auto]). assert (tb (Ok n) s i (fins (fun i => INR (b i)) i) (sh n :: nil)) as T2 by (eapply params_tb; [exact P|simpl; auto]). exact (tb_bin djoin nadd _ _ _ _ _ _ _ _ T1 T2). }
  destruct (tb_all _ _ _ _ T) as (M & EM & TM). destruct (TM nil) as (M' & E' & BM & _ & CM). injection E' as <-. destruct P as [C F]. destruct (common_bto _ _ C) as [B CC]. cbn [map fst] in B, CC.
  exists M. split.
  - unfold crps_hypergeometric_loop. rewrite EM. cbn [bind]. rewrite (broadcast4_val obs M m k s); [reflexivity|apply B; simpl; auto|exact BM|apply B; simpl; auto|apply B; simpl; auto|].
    intros j Hj. destruct (CC j Hj) as (t & Ht & Pt). cbn [In] in Ht. destruct Ht as [<-|[<-|[<-|[<-|[]]]]]; auto. right. left. eapply CM; [|exact Pt]. simpl. auto.
  - intros i Hi. destruct (TM i) as (M' & E' & _ & V & _). injection E' as <-. split; [exact (V Hi)|].
    pose proof (Forall_inv F) as Fo. pose proof (Forall_inv (Forall_inv_tail F)) as Fm. pose proof (Forall_inv (Forall_inv_tail (Forall_inv_tail (Forall_inv_tail F)))) as Fk. cbn [fst snd] in Fo, Fm, Fk. split; [exact (Fm i Hi)|]. split; [exact (Fk i Hi)|exact (Fo i Hi)].
Qed.
Lemma loop_val : sh n = s -> (forall i, inb s i -> (c i <= a i + b i)%nat) ->
  returns (crps_hypergeometric_loop obs m n k) s (fun i => hyper_score (b i) (Fin (y i)) (Fin (INR (a i))) (Fin (INR (c i)))).
Proof.
  intros Sn Hc. destruct loop_unfold as (M & -> & V). assert (asize n = prodl s) as Z by (unfold asize, prodl; now rewrite Sn). rewrite Z.
  assert (forall i, inb s i -> at_ n i = Fin (INR (b i))) as Vn. { destruct P as [_ F]. pose proof (Forall_inv (Forall_inv_tail (Forall_inv_tail F))) as Fn. cbn [fst snd] in Fn. intros i Hi. specialize (Fn i Hi). rewrite Sn, (bidx_id s i Hi) in Fn. exact Fn. }
  destruct (collect_map (item (on s M)) (fun q v => forall i, nth_error (all_idx s) q = Some i -> v = hyper_score (b i) (Fin (y i)) (Fin (INR (a i))) (Fin (INR (c i)))) (prodl s) 0) as (l & El & Hl & Q).
  { intros q Hq. destruct (idx_at s q ltac:(lia)) as (i & Ei & Hi). destruct (V i Hi) as (V1 & V2 & V3 & V4). unfold item. rewrite (lookup_at n s i q Sn Ei), Vn by auto. cbn [bind]. rewrite arange_len_nat. cbn [bind].
    rewrite !(lookup_at (on s _) s i q eq_refl Ei). cbn [bind]. rewrite V1, V2, V3, V4. eexists. split; [reflexivity|]. intros i' Ei'. rewrite Ei in Ei'. injection Ei' as <-. apply hyper_sum_val. auto. }
  rewrite El. cbn [bind]. unfold areshape. rewrite Hl. fold (prodl s). rewrite Nat.eqb_refl. eexists. eexists. split; [reflexivity|]. split; [reflexivity|]. split; [reflexivity|]. intros i Hi. cbn [at_].
  destruct (Q (flat s i) (flat_lt s i Hi)) as (v & Ev & Pv). rewrite (nth_error_nth _ _ _ Ev). apply Pv. now apply flat_idx.
Qed.
Lemma loop_raises : (asize n < prodl s)%nat -> raises (crps_hypergeometric_loop obs m n k) ValueError.
Proof.
  intros L. destruct loop_unfold as (M & -> & V). unfold raises.
  assert (forall r, inb (sh n) r -> exists b0, at_ n r = nofnat b0) as Vn.
  { destruct P as [C F]. pose proof (Forall_inv (Forall_inv_tail (Forall_inv_tail F))) as Fn. cbn [fst snd] in Fn. destruct (common_bto _ _ C) as [B _]. assert (bto (sh n) s) as Bn by (apply B; simpl; auto).
    assert (forall i, inb (sh n) i -> exists i', inb s i' /\ bidx (sh n) i' = i) as Lift.
    { assert (forall d, In d s -> d <> 0%nat) as NZ. { intros d Hd ->. assert (prodl s = 0%nat); [|lia]. clear - Hd. induction s as [|e t IH]; [easy|]. destruct Hd as [->|Hd]; simpl; auto. rewrite IH by auto. lia. }
      clear - Bn NZ. revert NZ Bn. generalize (sh n) as t. induction s as [|e s' IH]; intros [|d t] NZ Bn i Hi; simpl in Bn; try tauto.
      - destruct i; [|easy]. exists nil. auto.
      - destruct i; [|easy]. destruct (IH nil ltac:(intros; apply NZ; simpl; auto) I nil I) as (i' & Hi' & _). exists (0%nat :: i'). split; [split; [|auto]|reflexivity]. specialize (NZ e ltac:(simpl; auto)). lia.
      - destruct i as [|q i]; [easy|]. destruct Hi as [Hq Hi]. destruct (IH t ltac:(intros; apply NZ; simpl; auto) ltac:(tauto) i Hi) as (i' & Hi' & E'). specialize (NZ e ltac:(simpl; auto)). destruct Bn as [Bd _]. exists ((if (d =? 1)%nat then 0%nat else q) :: i'). destruct (Nat.eqb_spec d 1) as [->|D].
        + split; [split; [lia|auto]|]. cbn [bidx]. simpl. rewrite E'. f_equal. lia.
        + split; [split; [lia|auto]|]. cbn [bidx]. destruct (Nat.eqb_spec d 1); [lia|]. now rewrite E'. }
    intros r Hr. destruct (Lift r Hr) as (i' & Hi' & E). exists (b i'). rewrite <- E. exact (Fn i' Hi'). }
  destruct (collect_map (item (on s M)) (fun _ _ => True) (asize n) 0) as (l & El & Hl & _).
  { intros q Hq. destruct (idx_at (sh n) q) as (r & Er & Hr); [exact (proj2 Hq)|]. destruct (idx_at s q ltac:(lia)) as (i & Ei & Hi). destruct (Vn r Hr) as (b0 & Eb). unfold item. rewrite (lookup_at n _ r q eq_refl Er), Eb. cbn [bind]. change (nofnat b0) with (Fin (INR b0)). rewrite arange_len_nat. cbn [bind].
    rewrite !(lookup_at (on s _) s i q eq_refl Ei). cbn [bind]. eauto. }
  rewrite El. cbn [bind]. unfold areshape. rewrite Hl. fold (prodl s). destruct (Nat.eqb_spec (asize n) (prodl s)); [lia|]. reflexivity.
Qed.
End Loop.
