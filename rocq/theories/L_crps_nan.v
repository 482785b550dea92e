(** NaN in, NaN out: every row score of crps_ensemble. *)
From Verif Require Export L_crps_ens.
Open Scope nat_scope.

Create HintDb nan.
#[export] Hint Rewrite nadd_NaN_l nadd_NaN_r nsub_NaN_l nsub_NaN_r nmul_NaN_l nmul_NaN_r ndiv_NaN_l ndiv_NaN_r : nan.
Lemma nabs_NaN : nabs NaN = NaN. Proof. reflexivity. Qed.
#[export] Hint Rewrite nabs_NaN : nan.
Ltac nan := autorewrite with nan; try reflexivity.

(** observation or some member is NaN *)
Definition has_nan (M : nat) (y : num) (x : nat -> num) : Prop :=
  (0 < M /\ y = NaN) \/ exists k, k < M /\ x k = NaN.
Lemma has_nan_term M y x : has_nan M y x -> exists k, k < M /\ (y = NaN \/ x k = NaN).
Proof. intros [[H1 H2]|(k & H1 & H2)]; [exists 0|exists k]; auto. Qed.
Lemma has_nan_pos M y x : has_nan M y x -> 0 < M.
Proof. intros [[H1 H2]|(k & H1 & H2)]; lia. Qed.

Section Nan.
Variables (M : nat) (y : num) (x : nat -> num).
Hypothesis H : has_nan M y x.
Ltac term := let k := fresh "k" in let Hk := fresh "Hk" in let E := fresh "E" in
  destruct (has_nan_term M y x H) as (k & Hk & E);
  rewrite (nsumn_NaN M _ k Hk) by (destruct E as [E|E]; rewrite E; cbv zeta; nan); nan.
Lemma e1n_NaN : e1n M y x = NaN. Proof. unfold e1n. term. Qed.
Lemma e1wn_NaN w : e1wn M y x w = NaN. Proof. unfold e1wn. term. Qed.
Lemma row_int_NaN c q : row_int M c q y x = NaN.
Proof.
  unfold row_int. set (E := map (fun k => if k <? M then x k else y) (seq 0 (M + 1))).
  assert (L : length E = M + 1) by (unfold E; now rewrite map_length, seq_length).
  assert (I : In NaN E).
  { unfold E. apply in_map_iff. destruct H as [[H1 H2]|(k & H1 & H2)].
    - exists M. rewrite Nat.ltb_irrefl. split; auto. apply in_seq; lia.
    - exists k. destruct (Nat.ltb_spec k M); [|lia]. split; auto. apply in_seq; lia. }
  pose proof (nsort_NaN_last E NaN I) as HL. rewrite L in HL.
  pose proof (has_nan_pos M y x H).
  apply (nsumn_NaN M _ (M - 1)); [lia|].
  replace (1 + (M - 1)) with (M + 1 - 1) by lia. rewrite HL. nan.
Qed.
Lemma row_arr_NaN e : row_arr e M y x = NaN.
Proof.
  destruct e; cbn [row_arr]; unfold row_nrg, row_fair, row_pwm, row_lag; rewrite ?e1n_NaN; nan.
  - unfold row_qd. term.
  - apply row_int_NaN.
Qed.
Lemma row_arr_w_NaN e w : row_arr_w e M y x w = NaN.
Proof.
  destruct e; cbn [row_arr_w]; unfold row_nrg_w, row_fair_w, row_pwm_w, row_lag_w; rewrite ?e1wn_NaN; nan.
  - unfold row_qd_w. term.
  - apply row_int_NaN.
Qed.

Lemma fold_None {A B} (f : option A -> B -> option A) l : (forall b, f None b = None) -> fold_left f l None = None.
Proof. intros Hf; induction l; simpl; auto. now rewrite Hf. Qed.
Lemma fold_hit {A B} (f : option A -> B -> option A) (P : B -> Prop) l a0 : (forall b, f None b = None) ->
  (forall a b, P b -> f a b = None) -> (exists b, In b l /\ P b) -> fold_left f l a0 = None.
Proof.
  intros Hf HP. revert a0; induction l as [|b l IH]; intros a0 (c & Hc & Pc); [easy|].
  simpl. destruct Hc as [->|Hc].
  - rewrite (HP a0 c Pc). now apply fold_None.
  - apply IH. eauto.
Qed.
Lemma sums_term f : (forall k, k < M -> y = NaN \/ x k = NaN -> f k = NaN) -> nsumn M f = NaN.
Proof. intros Hf. destruct (has_nan_term M y x H) as (k & Hk & E). apply (nsumn_NaN M _ k Hk). auto. Qed.
Lemma nisnan_cases : nisnan y = true \/ (nisnan y = false /\ exists k, k < M /\ x k = NaN).
Proof. destruct H as [[_ ->]|E]; [now left|]. destruct (nisnan y); auto. Qed.
Ltac trm := intros ? ? [E|E]; rewrite ?rw_ith by auto; rewrite E; nan.
Lemma e1e2_NaN : fst (crps_e1e2 y (rw M x)) = NaN.
Proof.
  unfold crps_e1e2. rewrite rw_length.
  rewrite (fold_pairs M (fun i => nabs (ith (rw M x) i .- y))
     (fun i j => n2 .* nabs (ith (rw M x) j .- ith (rw M x) i))). cbn [fst].
  rewrite sums_term; [nan|]. trm.
Qed.
Lemma e1e2_w_NaN w : fst (crps_e1e2_w y (rw M x) (rw M w)) = NaN.
Proof.
  unfold crps_e1e2_w. rewrite rw_length.
  rewrite (fold_pairs M (fun i => nabs (ith (rw M x) i .- y) .* ith (rw M w) i)
     (fun i j => nabs (ith (rw M x) j .- ith (rw M x) i) .* ith (rw M w) j .* ith (rw M w) i)). cbn [fst].
  rewrite sums_term; [nan|]. trm.
Qed.
Lemma row_gu_NaN e : row_gu e y (rw M x) = NaN.
Proof.
  destruct e; cbn [row_gu].
  - unfold crps_nrg_k. destruct (nisnan y); auto. pose proof e1e2_NaN as E.
    destruct (crps_e1e2 y (rw M x)). cbn [fst] in E. subst. nan.
  - unfold crps_fair_k. destruct (nisnan y); auto. pose proof e1e2_NaN as E.
    destruct (crps_e1e2 y (rw M x)). cbn [fst] in E. subst. nan.
  - unfold crps_pwm_k. destruct (nisnan y); auto. rewrite rw_length, combine_seq, fold_left_map.
    rewrite (fold3n _ (fun i => nabs (x i .- y)) x (fun i => x i .* nofnat i)) by reflexivity.
    rewrite (sums_term (fun i => nabs (x i .- y))) by trm. nan.
  - unfold crps_qd_k. destruct nisnan_cases as [->|[-> (k & Hk & E)]]; auto.
    rewrite rw_length, combine_seq.
    rewrite (fold_hit _ (fun p => snd p = NaN)); auto.
    + intros [[a c]|] [i f] Hf; cbn [snd] in Hf; subst; reflexivity.
    + exists (k, x k). split; auto. apply in_map_iff. exists k; split; auto. apply in_seq; lia.
  - unfold crps_akr_k. rewrite rw_length, combine_seq, fold_left_map.
    rewrite (fold2n _ (fun i => nabs (x i .- y))
      (fun i => nabs (x i .- ith (rw M x) ((if i =? 0 then M else i) - 1)))) by reflexivity.
    rewrite (sums_term (fun i => nabs (x i .- y))) by trm. nan.
  - unfold crps_akr_circperm_k. rewrite rw_length, combine_seq, fold_left_map.
    rewrite (fold2n _ (fun i => nabs (x i .- y))
      (fun i => nabs (x i .- ith (rw M x) (circperm_idx M i)))) by reflexivity.
    rewrite (sums_term (fun i => nabs (x i .- y))) by trm. nan.
  - unfold crps_int_k. destruct nisnan_cases as [->|[-> (k & Hk & E)]]; auto.
    rewrite (fold_hit _ (fun f => f = NaN)); auto.
    + intros [[[[? ?] ?] ?]|] f ->; reflexivity.
    + exists (x k). split; auto. apply in_map, in_seq; lia.
Qed.
Lemma row_gu_w_NaN e w : row_gu_w e y (rw M x) (rw M w) = NaN.
Proof.
  destruct e; cbn [row_gu_w].
  - unfold crps_nrg_w_k. destruct (nisnan y); auto. pose proof (e1e2_w_NaN w) as E.
    destruct (crps_e1e2_w y (rw M x) (rw M w)). cbn [fst] in E. subst. nan.
  - unfold crps_fair_w_k. destruct (nisnan y); auto. pose proof (e1e2_w_NaN w) as E.
    destruct (crps_e1e2_w y (rw M x) (rw M w)). cbn [fst] in E. subst. destruct (neqb _ _); nan.
  - unfold crps_pwm_w_k. destruct (nisnan y); auto. rewrite rw_length, combine_seq, fold_left_map.
    rewrite (fold3n _ (fun i => nabs (x i .- y) .* ith (rw M w) i) (fun i => x i .* ith (rw M w) i)
      (fun i => x i .* ith (rw M w) i .* (ith (ncumsum (rw M w)) i .- ith (rw M w) i))) by reflexivity.
    rewrite (sums_term (fun i => nabs (x i .- y) .* ith (rw M w) i)) by trm. nan.
  - unfold crps_qd_w_k. destruct nisnan_cases as [->|[-> (k & Hk & E)]]; auto.
    rewrite rw_length, combine_seq.
    rewrite (fold_hit _ (fun p => snd p = NaN)); auto.
    + intros [[a c]|] [i f] Hf; cbn [snd] in Hf; subst; reflexivity.
    + exists (k, x k). split; auto. apply in_map_iff. exists k; split; auto. apply in_seq; lia.
  - unfold crps_akr_w_k. rewrite rw_length, combine_seq, fold_left_map.
    rewrite (fold2n _ (fun i => nabs (x i .- y) .* ith (rw M w) i)
      (fun i => nabs (x i .- ith (rw M x) (if 0 <? i then i - 1 else M - 1)) .* ith (rw M w) i)) by reflexivity.
    rewrite (sums_term (fun i => nabs (x i .- y) .* ith (rw M w) i)) by trm. nan.
  - unfold crps_akr_circperm_w_k. rewrite rw_length, combine_seq, fold_left_map.
    rewrite (fold2n _ (fun i => nabs (x i .- y) .* ith (rw M w) i)
      (fun i => nabs (x i .- ith (rw M x) (circperm_idx M i)) .* ith (rw M w) i)) by reflexivity.
    rewrite (sums_term (fun i => nabs (x i .- y) .* ith (rw M w) i)) by trm. nan.
  - unfold crps_int_w_k. destruct nisnan_cases as [->|[-> (k & Hk & E)]]; auto.
    rewrite rw_length, combine_seq.
    rewrite (fold_hit _ (fun p => snd p = NaN)); auto.
    + intros [i f]; reflexivity.
    + intros [[[[? ?] ?] ?]|] [i f] Hf; cbn [snd] in Hf; subst; reflexivity.
    + exists (k, x k). split; auto. apply in_map_iff. exists k; split; auto. apply in_seq; lia.
Qed.
Lemma row_un_NaN b e : row_un b e M y x = NaN.
Proof. destruct b; [apply row_arr_NaN|apply row_gu_NaN]. Qed.
Lemma row_w_NaN b e w : row_w b e M y x w = NaN.
Proof. destruct b; [apply row_arr_w_NaN|apply row_gu_w_NaN]. Qed.
End Nan.

(** a NaN weight *)
Definition omit_est (e : est) : Prop := e = Nrg \/ e = Fair \/ e = Pwm \/ e = Qd.
Lemma row_w_NaNw b e M y x w k : omit_est e -> k < M -> w k = NaN -> row_w b e M y x w = NaN.
Proof.
  intros He Hk E.
  assert (S : forall f, f k = NaN -> nsumn M f = NaN) by (intros; now apply (nsumn_NaN M _ k)).
  destruct b; cbn [row_w].
  - destruct He as [->|[->|[->| ->]]]; cbn [row_arr_w]; unfold row_nrg_w, row_fair_w, row_pwm_w, row_qd_w, e1wn;
      rewrite S by (rewrite E; cbv zeta; nan); nan.
  - destruct He as [->|[->|[->| ->]]]; cbn [row_gu_w].
    + unfold crps_nrg_w_k. destruct (nisnan y); auto. unfold crps_e1e2_w. rewrite rw_length.
      rewrite (fold_pairs M (fun i => nabs (ith (rw M x) i .- y) .* ith (rw M w) i)
       (fun i j => nabs (ith (rw M x) j .- ith (rw M x) i) .* ith (rw M w) j .* ith (rw M w) i)).
      rewrite S by (rewrite !rw_ith, E by auto; nan). nan.
    + unfold crps_fair_w_k. destruct (nisnan y); auto. unfold crps_e1e2_w. rewrite rw_length.
      rewrite (fold_pairs M (fun i => nabs (ith (rw M x) i .- y) .* ith (rw M w) i)
       (fun i j => nabs (ith (rw M x) j .- ith (rw M x) i) .* ith (rw M w) j .* ith (rw M w) i)).
      rewrite S by (rewrite !rw_ith, E by auto; nan). destruct (neqb _ _); nan.
    + unfold crps_pwm_w_k. destruct (nisnan y); auto. rewrite rw_length, combine_seq, fold_left_map.
      rewrite (fold3n _ (fun i => nabs (x i .- y) .* ith (rw M w) i) (fun i => x i .* ith (rw M w) i)
        (fun i => x i .* ith (rw M w) i .* (ith (ncumsum (rw M w)) i .- ith (rw M w) i))) by reflexivity.
      rewrite S by (rewrite !rw_ith, E by auto; nan). nan.
    + unfold crps_qd_w_k. destruct (nisnan y); auto. rewrite rw_length, combine_seq. set (a := map _ (combine _ _)).
      assert (A : forall l ob I, (In k l \/ I = NaN) ->
         match fold_left (crps_qd_w_step y (rw M w) a) (map (fun i => (i, x i)) l) (Some (ob, I)) with
         | None => True | Some (_, J) => J = NaN end).
      { induction l as [|i l IH]; intros ob J HJ; simpl; [destruct HJ; easy|].
        destruct (nisnan (x i)) eqn:Ni; simpl.
        - rewrite fold_None; auto. 
        - apply IH. destruct HJ as [[->|HJ]| ->]; auto; right.
          rewrite !rw_ith, E by auto. nan. }
      specialize (A (seq 0 M) n0 n0). destruct (fold_left _ _ _) as [[? J]|]; auto.
      rewrite A; [nan|]. left. apply in_seq; lia.
Qed.

Section Api.
Variable srt : list num -> list nat.
Hypothesis Hsrt : argsort_ok srt.
Lemma has_nan_ord e sf M y x : has_nan M y x -> has_nan M y (fun k => x (ord srt e sf M x k)).
Proof.
  intros [[H1 H2]|(k & H1 & H2)]; [left; auto|right].
  destruct (permutes_onto M _ k (ord_permutes srt Hsrt e sf M x) H1) as (j & Hj & E).
  exists j. split; auto. now rewrite E.
Qed.
End Api.
