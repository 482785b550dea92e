(** Brier, ranked probability and logarithmic scores. *)
From Coq Require Import Classical_Prop.
From Verif Require Export M_prob L_interval S_prob.
Open Scope R_scope.

Lemma EPS : 1 + EPSILON = 1 + / 100000. Proof. unfold EPSILON. lra. Qed.
Lemma below_nltb v b : nltb v (Fin b) = true <-> below v b.
Proof. destruct v; simpl; try easy. apply rltb_true. Qed.
Lemma above_nltb v b : nltb (Fin b) v = true <-> above v b.
Proof. destruct v; simpl; try easy. apply rltb_true. Qed.

Lemma prob_any fct d s f : arr_is fct d s f ->
  (exists b, aany (Ok fct <? sc 0)%A = Ok b /\ (b = true <-> exists i, inb s i /\ nltb (f i) (Fin 0) = true)) /\
  (exists b, aany (sc (1 + EPSILON) <? Ok fct)%A = Ok b /\
     (b = true <-> exists i, inb s i /\ nltb (Fin (1 + EPSILON)) (f i) = true)).
Proof.
  intros H. split.
  - apply (any_cmp _ (fun a v => nltb a v)). eapply ten_conv; [ten|reflexivity|].
    intros i Hi. bidx_simp. reflexivity.
  - apply (any_cmp _ (fun a v => nltb v a) s f (Fin (1 + EPSILON))). eapply ten_conv; [ten|reflexivity|].
    intros i Hi. bidx_simp. reflexivity.
Qed.
(** the range check *)
Lemma prob_check {A} fct d s f (X Y : res A) : arr_is fct d s f ->
  ((forall i, inb s i -> ~ bad_prob (f i)) ->
   (let* b1 := aany (Ok fct <? sc 0)%A in let* b2 := aany (sc (1 + EPSILON) <? Ok fct)%A in
    if (b1 || b2)%bool then X else Y) = Y) /\
  ((exists i, inb s i /\ bad_prob (f i)) ->
   (let* b1 := aany (Ok fct <? sc 0)%A in let* b2 := aany (sc (1 + EPSILON) <? Ok fct)%A in
    if (b1 || b2)%bool then X else Y) = X).
Proof.
  intros H. destruct (prob_any _ _ _ _ H) as ((b1 & E1 & H1) & (b2 & E2 & H2)). rewrite E1, E2. cbn [bind].
  rewrite EPS in H2. split.
  - intros Hg. destruct b1.
    { destruct (proj1 H1 eq_refl) as (i & Hi & C). exfalso; apply (Hg i Hi). left. now apply below_nltb. }
    destruct b2; auto. destruct (proj1 H2 eq_refl) as (i & Hi & C). exfalso; apply (Hg i Hi). right. now apply above_nltb.
  - intros (i & Hi & [C|C]).
    + rewrite (proj2 H1); auto. exists i; split; auto. now apply below_nltb.
    + rewrite (proj2 H2); [now rewrite orb_true_r|]. exists i; split; auto. now apply above_nltb.
Qed.
Lemma outcome_check v : (neqb v (Fin 0) || neqb v (Fin 1))%bool = true <-> ~ bad_outcome v.
Proof.
  unfold bad_outcome. destruct v; simpl; unfold reqb.
  - destruct (Req_EM_T r 0) as [->|N0]; [|destruct (Req_EM_T r 1) as [->|N1]]; simpl.
    + split; auto. intros _ [C _]; now apply C.
    + split; auto. intros _ [_ C]; now apply C.
    + split; [easy|]. intros H. exfalso; apply H; split; congruence.
  - split; [easy|]. intros H; exfalso; apply H; split; discriminate.
  - split; [easy|]. intros H; exfalso; apply H; split; discriminate.
  - split; [easy|]. intros H; exfalso; apply H; split; discriminate.
Qed.

Section Binary.
Variables (obs fct : arr) (s so : list nat) (d1 d2 : dtype) (yn xn : list nat -> num).
Hypotheses (Ho : arr_is obs d1 so yn) (Hf : arr_is fct d2 s xn).
Lemma bin_ok : (forall i, inb s i -> ~ bad_prob (xn i)) -> (forall i, inb so i -> ~ bad_outcome (yn i)) ->
  binary_array_check obs fct = Ok (obs, fct).
Proof.
  intros H1 H2. unfold binary_array_check. destruct (prob_check fct d2 s xn (Err ValueError)
    (if negb (forallb (fun i => neqb (at_ obs i) (Fin 0) || neqb (at_ obs i) (Fin 1)) (all_idx (sh obs)))
     then Err ValueError else Ok (obs, fct)) Hf) as [E _]. rewrite E by auto.
  replace (forallb _ _) with true; auto. symmetry. apply forallb_forall. intros i Hi.
  destruct Ho as (_ & Hs & Hv). rewrite Hs in Hi. apply inb_all_idx in Hi. rewrite Hv by auto. now apply outcome_check, H2.
Qed.
Lemma bin_bad : (exists i, inb s i /\ bad_prob (xn i)) \/ (exists i, inb so i /\ bad_outcome (yn i)) ->
  binary_array_check obs fct = Err ValueError.
Proof.
  intros H. unfold binary_array_check. destruct (prob_check fct d2 s xn (Err ValueError)
    (if negb (forallb (fun i => neqb (at_ obs i) (Fin 0) || neqb (at_ obs i) (Fin 1)) (all_idx (sh obs)))
     then Err ValueError else Ok (obs, fct)) Hf) as [E1 E2].
  destruct (classic (exists i, inb s i /\ bad_prob (xn i))) as [C|C]; [now rewrite E2|].
  destruct H as [H|(i & Hi & H)]; [easy|]. rewrite E1 by (intros j Hj B; apply C; now exists j).
  destruct (forallb _ _) eqn:F; auto. exfalso. rewrite forallb_forall in F. destruct Ho as (_ & Hs & Hv).
  rewrite Hs in F. specialize (F i (proj1 (inb_all_idx _ _) Hi)). rewrite Hv in F by auto. now apply outcome_check in F.
Qed.
End Binary.

Lemma good_prob x : 0 <= x <= 1 -> ~ bad_prob (Fin x).
Proof. intros H [C|C]; simpl in C; lra. Qed.
Lemma good_out y : y = 0 \/ y = 1 -> ~ bad_outcome (Fin y).
Proof. intros [->| ->] [C1 C2]; auto. Qed.

Lemma brier_value obs fct s y x : real_arr obs s y -> real_arr fct s x -> 
  (forall i, inb s i -> y i = 0 \/ y i = 1) -> (forall i, inb s i -> 0 <= x i <= 1) ->
  returns (brier_score obs fct) s (fun r => Fin ((x r - y r) ^ 2)).
Proof.
  intros Ho Hf Hy Hx. pose proof (real_arr_is _ _ _ Ho) as Ho'. pose proof (real_arr_is _ _ _ Hf) as Hf'.
  unfold brier_score. rewrite (bin_ok _ _ _ _ _ _ _ _ Ho' Hf').
  2:{ intros. now apply good_prob, Hx. } 2:{ intros. now apply good_out, Hy. }
  cbn [bind]. eexists. eapply ten_conv; [tenq|reflexivity|]. intros r Hr. bidx_simp. fin. ring.
Qed.
Lemma brier_bad obs fct s y x : arr_is obs (dt obs) s y -> arr_is fct (dt fct) s x ->
  (exists i, inb s i /\ (bad_prob (x i) \/ bad_outcome (y i))) ->
  raises (brier_score obs fct) ValueError /\ raises (log_score obs fct) ValueError.
Proof.
  intros Ho Hf (i & Hi & H). unfold raises, brier_score, log_score. rewrite (bin_bad _ _ _ _ _ _ _ _ Ho Hf); auto.
  destruct H; [left|right]; eauto.
Qed.
Lemma brier_good obs fct s y x : arr_is obs (dt obs) s y -> arr_is fct (dt fct) s x ->
  (forall i, inb s i -> ~ bad_prob (x i) /\ ~ bad_outcome (y i)) ->
  (exists v, returns (brier_score obs fct) s v) /\ (exists v, returns (log_score obs fct) s v).
Proof.
  intros Ho Hf H. unfold brier_score, log_score. rewrite (bin_ok _ _ _ _ _ _ _ _ Ho Hf); [|intros; now apply H..].
  cbn [bind]. split; eexists; eexists; tenq.
Qed.
Lemma brier_gap q p : bern_mean q (fun y => (p - y) ^ 2) - bern_mean q (fun y => (q - y) ^ 2) = (p - q) ^ 2.
Proof. unfold bern_mean. ring. Qed.

(** ** log score *)
Lemma ln_le x : 0 < x -> ln x <= x - 1.
Proof.
  intros Hx. destruct (Req_dec (ln x) 0) as [E|E].
  - assert (x = 1) by (apply ln_inv; [lra|lra|now rewrite ln_1]). subst. lra.
  - pose proof (exp_ineq1 (ln x) E). rewrite exp_ln in H by auto. lra.
Qed.
Lemma ln_lt x : 0 < x -> x <> 1 -> ln x < x - 1.
Proof.
  intros Hx H1. assert (E : ln x <> 0) by (intros E; apply H1, ln_inv; [lra|lra|now rewrite ln_1]).
  pose proof (exp_ineq1 (ln x) E). rewrite exp_ln in H by auto. lra.
Qed.
Lemma gibbs_term q p : 0 <= q -> 0 < p -> - (p - q) <= q * ln q - q * ln p.
Proof.
  intros Hq Hp. destruct (Req_dec q 0) as [->|N]; [lra|].
  assert (0 < q) by lra. replace (q * ln q - q * ln p) with (- (q * ln (p / q))).
  - apply Ropp_le_contravar. pose proof (ln_le (p / q) (Rdiv_lt_0_compat _ _ Hp H)).
    apply (Rmult_le_compat_l q) in H0; [|lra]. replace (q * (p / q - 1)) with (p - q) in H0 by (field; lra). lra.
  - unfold Rdiv. rewrite ln_mult, ln_Rinv; auto; [ring|]. now apply Rinv_0_lt_compat.
Qed.
Lemma gibbs_term_lt q p : 0 <= q -> 0 < p -> p <> q -> - (p - q) < q * ln q - q * ln p.
Proof.
  intros Hq Hp Hn. destruct (Req_dec q 0) as [->|N]; [lra|].
  assert (0 < q) by lra. replace (q * ln q - q * ln p) with (- (q * ln (p / q))).
  - apply Ropp_lt_contravar. assert (N1 : p / q <> 1).
    { intros C. apply Hn. apply (Rmult_eq_compat_r q) in C. unfold Rdiv in C. rewrite Rmult_assoc, Rinv_l in C; lra. }
    pose proof (ln_lt (p / q) (Rdiv_lt_0_compat _ _ Hp H) N1).
    apply (Rmult_lt_compat_l q) in H0; [|lra]. replace (q * (p / q - 1)) with (p - q) in H0 by (field; lra). lra.
  - unfold Rdiv. rewrite ln_mult, ln_Rinv; auto; [ring|]. now apply Rinv_0_lt_compat.
Qed.
Lemma logsc_bern q p : bern_mean q (logsc p) = - (q * ln p) - (1 - q) * ln (1 - p).
Proof. unfold bern_mean, logsc. destruct (Req_EM_T 1 1), (Req_EM_T 0 1); try lra. Qed.
Lemma logsc_le q p : 0 <= q <= 1 -> 0 < p < 1 -> bern_mean q (logsc q) <= bern_mean q (logsc p).
Proof.
  intros Hq Hp. rewrite !logsc_bern. pose proof (gibbs_term q p ltac:(lra) ltac:(lra)).
  pose proof (gibbs_term (1 - q) (1 - p) ltac:(lra) ltac:(lra)). lra.
Qed.
Lemma logsc_lt q p : 0 <= q <= 1 -> 0 < p < 1 -> p <> q -> bern_mean q (logsc q) < bern_mean q (logsc p).
Proof.
  intros Hq Hp Hn. rewrite !logsc_bern. pose proof (gibbs_term_lt q p ltac:(lra) ltac:(lra) Hn).
  pose proof (gibbs_term (1 - q) (1 - p) ltac:(lra) ltac:(lra)). lra.
Qed.
Lemma log_value obs fct s y x : real_arr obs s y -> real_arr fct s x ->
  (forall i, inb s i -> y i = 0 \/ y i = 1) -> (forall i, inb s i -> 0 <= x i <= 1) ->
  returns (log_score obs fct) s (fun r => nopp (nlog (Fin (if Req_EM_T (y r) 1 then x r else 1 - x r)))).
Proof.
  intros Ho Hf Hy Hx. pose proof (real_arr_is _ _ _ Ho) as Ho'. pose proof (real_arr_is _ _ _ Hf) as Hf'.
  unfold log_score. rewrite (bin_ok _ _ _ _ _ _ _ _ Ho' Hf').
  2:{ intros. now apply good_prob, Hx. } 2:{ intros. now apply good_out, Hy. }
  cbn [bind]. eexists. eapply ten_conv; [tenq|reflexivity|]. intros r Hr. bidx_simp. do 2 f_equal.
  fin. specialize (Hx r Hr). destruct (Hy r Hr) as [E|E]; rewrite E; destruct (Req_EM_T _ _); try lra.
  - rewrite Rabs_left1; lra.
  - rewrite Rabs_pos_eq; lra.
Qed.

(** ** categories *)
Lemma onehot_le c k : (0 < c)%nat -> sumn (S k) (onehot c) = ind_cat c k.
Proof.
  intros Hc. unfold ind_cat. induction k.
  - unfold sumn, Rsum, onehot; simpl. destruct c as [|[|c]]; simpl; try lia; lra.
  - rewrite sumn_S, IHk. unfold onehot. destruct (Nat.eqb_spec (S k + 1) c), (Nat.leb_spec c (k + 1)), (Nat.leb_spec c (S k + 1)); lia || lra.
Qed.
Lemma onehot_out K c k : (K < c \/ c = 0)%nat -> (k < K)%nat -> sumn (S k) (onehot c) = 0.
Proof.
  intros Hc Hk. rewrite (sumn_ext _ _ (fun _ => 0)); [apply sumn_zero|]. intros j Hj. unfold onehot.
  destruct (Nat.eqb_spec (j + 1) c); auto; lia.
Qed.

Lemma py_take_last (K : nat) s : py_take (-1) (rev (K :: s)) = rev s.
Proof.
  unfold py_take. cbn [rev]. rewrite app_length, rev_length. cbn [length].
  replace (py_pos (-1) (length s + 1)) with (length (rev s)) by (rewrite rev_length; unfold py_pos; cbn [Z.ltb Z.compare]; lia).
  rewrite firstn_app, Nat.sub_diag, firstn_all. simpl. now rewrite app_nil_r.
Qed.
Section Cat.
Variables (fct : arr) (ax : Z) (s : list nat) (p K : nat) (x : list nat -> R).
Hypotheses (Hf : real_arr fct (insert_at p K s) x) (Hp : (p <= length s)%nat) (Hax : ens_axis ax (length s) p).
Hypothesis (Hx : probs s p K x).

Lemma axis_m1 : ax = (-1)%Z -> p = 0%nat.
Proof. destruct Hax as [E|E]; intros ->; lia. Qed.
Lemma cat_move (a : arr) d f : arr_is a d (insert_at p K s) f ->
  ten_is (if (ax =? -1)%Z then Ok a else amove_last ax (Ok a)) d (K :: s) (fun i => f (insert_at p (hd 0%nat i) (tl i))).
Proof.
  intros H. destruct (Z.eqb_spec ax (-1)) as [E|E].
  - pose proof (axis_m1 E). subst p. eapply ten_ext; [exact (ten_Ok _ _ _ _ H)|]. intros i Hi. destruct s; simpl in Hi; destruct i; easy.
  - apply (ten_move_last ax (Ok a) d p K s f); auto. + now exists a. + now apply ens_axis_ok.
Qed.
Lemma probs_good i : inb (insert_at p K s) i -> ~ bad_prob (Fin (x i)).
Proof.
  intros Hi. apply good_prob. destruct (inb_remove p K s i Hp Hi) as (H1 & H2).
  pose proof (Hx (remove_at p i) (nth p i 0%nat)) as H. unfold member in H.
  rewrite insert_remove in H; [|rewrite (inb_length _ _ Hi), insert_at_length; lia]. now apply H.
Qed.

(** the arrays on which the scores are computed *)
Definition cat_ready (P : res (arr * arr)) (c : list nat -> nat) : Prop :=
  exists obs' fct' d1 d2, P = Ok (obs', fct') /\
    arr_is obs' d1 (K :: s) (fun i => Fin (onehot (c (tl i)) (hd 0%nat i))) /\
    arr_is fct' d2 (K :: s) (fun i => Fin (member p x (tl i) (hd 0%nat i))).

Lemma cat_check_idx obs c : real_arr obs s (fun r => INR (c r)) ->
  cat_ready (categorical_array_check obs fct ax false) c.
Proof.
  intros Ho. pose proof (real_arr_is _ _ _ Hf) as Hf'. unfold categorical_array_check.
  destruct (prob_check fct (dt fct) _ _ (Err ValueError)
    (let* fct := (if (ax =? -1)%Z then Ok fct else amove_last ax (Ok fct)) in
     let* obs := (if negb (ax =? -1)%Z && false then amove_last ax (Ok obs) else Ok obs) in
     if negb (shape_eqb (pyshape obs) (py_take (-1) (pyshape fct))) then Err ValueError else
     let* K := py_index (-1) (pyshape fct) in
     let* obs := awhere (aeq (aexpand 0 (Ok obs)) (aarange 1 (K + 1))) (sci 1) (sci 0) in
     Ok (obs, fct)) Hf') as [E _]. rewrite E by (intros; now apply probs_good). clear E.
  destruct (cat_move fct _ _ Hf') as (f' & E' & H'). unfold tensor in E'. rewrite E'. cbn [bind]. rewrite andb_false_r. cbn [bind].
  unfold pyshape. destruct H' as (Hd & Hs & Hv). rewrite Hs, py_last. cbn [bind].
  destruct Ho as [So Vo]. rewrite So.
  rewrite py_take_last.
  rewrite shape_eqb_refl. cbn [negb].
  assert (Ho' : arr_is obs (dt obs) s (fun r => Fin (INR (c r)))) by (repeat split; auto).
  assert (T : ten_is (awhere (aeq (aexpand 0 (Ok obs)) (aarange 1 (K + 1))) (sci 1) (sci 0)) DInt (K :: s)
     (fun i => Fin (onehot (c (tl i)) (hd 0%nat i)))).
  { change DInt with (djoin DInt DInt). eapply (ten_where _ _ _ DInt DInt DInt (K :: s) nil nil nil (K :: s)
      (fun i => b2n (neqb (Fin (INR (c (tl i)))) (nofnat (1 + hd 0%nat i)))) (fun _ => nofnat 1) (fun _ => nofnat 0)).
    - eapply ten_conv; [ten|reflexivity|]. intros i Hi. idx. cbn [tl hd]. bidx_simp. cbn [tl hd]. rewrite ?bidx_id by auto. destruct (Nat.eqb_spec K 1); [replace k with 0%nat by lia|]; reflexivity.
    - apply ten_sc.
    - apply ten_sc.
    - reflexivity.
    - apply bshape_nil_r.
    - intros i Hi. rewrite bidx_id by auto. rewrite neqb_b2n. cbn [nofnat neqb]. unfold reqb, onehot.
      destruct (Req_EM_T _ _) as [Q|Q]; cbn [negb]; unfold nofnat.
      + apply INR_eq in Q. rewrite Q. replace (hd 0%nat i + 1 =? 1 + hd 0%nat i)%nat with true by (symmetry; apply Nat.eqb_eq; lia). reflexivity.
      + destruct (Nat.eqb_spec (hd 0%nat i + 1) (c (tl i))) as [C|C]; [exfalso; apply Q; now rewrite <- C, Nat.add_comm|reflexivity].
    - reflexivity.
    - intros i Hi. split; now destruct i. }
  destruct T as (o' & Eo & To). rewrite Eo. cbn [bind]. exists o', f', DInt, (dt fct). repeat split; auto; apply To.
Qed.
Lemma cat_check_hot obs c : sh obs = insert_at p K s ->
  (forall r k, inb s r -> (k < K)%nat -> at_ obs (insert_at p k r) = Fin (onehot (c r) k)) ->
  cat_ready (categorical_array_check obs fct ax true) c.
Proof.
  intros So Vo. pose proof (real_arr_is _ _ _ Hf) as Hf'. unfold categorical_array_check.
  destruct (prob_check fct (dt fct) _ _ (Err ValueError)
    (let* fct := (if (ax =? -1)%Z then Ok fct else amove_last ax (Ok fct)) in
     let* obs := (if negb (ax =? -1)%Z && true then amove_last ax (Ok obs) else Ok obs) in
     if negb (shape_eqb (pyshape obs) (pyshape fct)) then Err ValueError else Ok (obs, fct)) Hf') as [E _].
  rewrite E by (intros; now apply probs_good). clear E.
  destruct (cat_move fct _ _ Hf') as (f' & E' & H'). unfold tensor in E'. rewrite E'. cbn [bind].
  assert (Ho' : arr_is obs (dt obs) (insert_at p K s) (at_ obs)) by (repeat split; auto).
  destruct (cat_move obs _ _ Ho') as (o' & Eo & Hoo). rewrite andb_true_r.
  assert (Eo' : (if negb (ax =? -1)%Z then amove_last ax (Ok obs) else Ok obs) = Ok o')
     by (rewrite <- Eo; now destruct (ax =? -1)%Z).
  unfold tensor in Eo'. rewrite Eo'. cbn [bind]. unfold pyshape. destruct H' as (Hd & Hs & Hv). destruct Hoo as (Hd2 & Hs2 & Hv2).
  rewrite Hs, Hs2, shape_eqb_refl. cbn [negb]. exists o', f', (dt obs), (dt fct). repeat split; auto.
  intros i Hi. rewrite Hv2 by auto. idx. cbn [hd tl]. now apply Vo.
Qed.
Lemma rps_ready c o f d1 d2 : arr_is o d1 (K :: s) (fun i => Fin (onehot (c (tl i)) (hd 0%nat i))) ->
  arr_is f d2 (K :: s) (fun i => Fin (member p x (tl i) (hd 0%nat i))) ->
  returns (asum (asq (acumsum (Ok f) - acumsum (Ok o)))%A) s
    (fun r => Fin (sumn K (fun k => (cum (member p x r) k - sumn (S k) (onehot (c r))) ^ 2))).
Proof.
  intros Ho Hf0. eexists. eapply ten_conv; [tenq|reflexivity|]. intros r Hr. cbv beta.
  eapply nsumn_Fin. intros k Hk. bidx_simp. cbn [hd tl].
  fold (rw K (fun k0 => Fin (member p x r k0))). fold (rw K (fun k0 => Fin (onehot (c r) k0))).
  rewrite (ncumsum_real K (fun k0 => Fin (member p x r k0)) (member p x r)) by auto.
  rewrite (ncumsum_real K (fun k0 => Fin (onehot (c r) k0)) (onehot (c r))) by auto.
  fin. unfold cum. ring.
Qed.
Lemma rls_ready c o f d1 d2 : arr_is o d1 (K :: s) (fun i => Fin (onehot (c (tl i)) (hd 0%nat i))) ->
  arr_is f d2 (K :: s) (fun i => Fin (member p x (tl i) (hd 0%nat i))) ->
  returns (asum (aneg (alog (aabs (acumsum (Ok f) + acumsum (Ok o) - sc 1))))%A) s
    (fun r => nsumn K (fun k => nopp (nlog (Fin (Rabs (cum (member p x r) k + sumn (S k) (onehot (c r)) - 1)))))).
Proof.
  intros Ho Hf0. eexists. eapply ten_conv; [tenq|reflexivity|]. intros r Hr. cbv beta.
  apply nsumn_ext. intros k Hk. bidx_simp. cbn [hd tl].
  fold (rw K (fun k0 => Fin (member p x r k0))). fold (rw K (fun k0 => Fin (onehot (c r) k0))).
  rewrite (ncumsum_real K (fun k0 => Fin (member p x r k0)) (member p x r)) by auto.
  rewrite (ncumsum_real K (fun k0 => Fin (onehot (c r) k0)) (onehot (c r))) by auto.
  reflexivity.
Qed.
End Cat.

(** ** propriety of the ranked scores *)
Lemma cat_cum K q k : sumn K q = 1 -> (k < K)%nat -> cat_mean K q (fun c => ind_cat c k) = cum q k.
Proof.
  intros Hq Hk. unfold cat_mean, cum, ind_cat.
  replace K with (S k + (K - S k))%nat by lia. rewrite sumn_plus_idx.
  rewrite (sumn_ext (S k) _ q).
  2:{ intros j Hj. destruct (Nat.leb_spec (j + 1) (k + 1)); [ring|lia]. }
  rewrite (sumn_ext (K - S k) _ (fun _ => 0)), sumn_zero; [ring|].
  intros j Hj. destruct (Nat.leb_spec (S k + j + 1) (k + 1)); [lia|ring].
Qed.
Lemma cat_mean_sum K n q (f : nat -> nat -> R) : cat_mean K q (fun c => sumn n (f c)) = sumn n (fun k => cat_mean K q (fun c => f c k)).
Proof.
  unfold cat_mean. rewrite (sumn_ext K _ (fun j => sumn n (fun k => q j * f (j + 1)%nat k))) by (intros; now rewrite sumn_scal).
  apply sumn_swap.
Qed.
(** a function of the indicator, averaged: an event of probability cum q k *)
Lemma cat_bern K q k (g : R -> R) : sumn K q = 1 -> (k < K)%nat ->
  cat_mean K q (fun c => g (ind_cat c k)) = bern_mean (cum q k) g.
Proof.
  intros Hq Hk. unfold bern_mean. rewrite <- (cat_cum K q k Hq Hk).
  rewrite (Rmult_comm _ (g 1)). replace ((1 - cat_mean K q (fun c => ind_cat c k)) * g 0) with
     (g 0 * cat_mean K q (fun c => 1 - ind_cat c k)).
  - unfold cat_mean. rewrite <- !sumn_scal, <- sumn_plus. apply sumn_ext. intros j Hj. unfold ind_cat.
    destruct (j + 1 <=? k + 1)%nat; [replace (1 - 1) with 0 by ring|replace (1 - 0) with 1 by ring]; ring.
  - unfold cat_mean. rewrite (sumn_ext K _ (fun k0 => q k0 - q k0 * ind_cat (k0 + 1) k)) by (intros; ring).
    rewrite sumn_minus, Hq. ring.
Qed.
Lemma cum_inj K p q : (forall k, (k < K)%nat -> cum p k = cum q k) -> forall k, (k < K)%nat -> p k = q k.
Proof.
  intros H k Hk. unfold cum in H. destruct k.
  - specialize (H 0%nat Hk). unfold sumn, Rsum in H; simpl in H. lra.
  - pose proof (H (S k) Hk). pose proof (H k ltac:(lia)). rewrite !(sumn_S (S k)) in H0. lra.
Qed.
Lemma rps_gap K p q : sumn K q = 1 ->
  cat_mean K q (rps K p) - cat_mean K q (rps K q) = sumn K (fun k => (cum p k - cum q k) ^ 2).
Proof.
  intros Hq. unfold rps. rewrite !cat_mean_sum, <- sumn_minus. apply sumn_ext. intros k Hk.
  rewrite (cat_bern K q k (fun v => (cum p k - v) ^ 2) Hq Hk), (cat_bern K q k (fun v => (cum q k - v) ^ 2) Hq Hk).
  apply brier_gap.
Qed.
Lemma rps_proper K p q : sumn K q = 1 -> cat_mean K q (rps K q) <= cat_mean K q (rps K p) /\
  (cat_mean K q (rps K p) = cat_mean K q (rps K q) <-> forall k, (k < K)%nat -> p k = q k).
Proof.
  intros Hq. pose proof (rps_gap K p q Hq) as G.
  assert (P : forall k, (k < K)%nat -> 0 <= (cum p k - cum q k) ^ 2) by (intros; apply pow2_ge_0).
  split; [pose proof (sumn_nonneg K _ P); lra|]. split.
  - intros E. assert (Z : sumn K (fun k => (cum p k - cum q k) ^ 2) = 0) by lra.
    apply cum_inj. intros k Hk. pose proof (sumn_zero_inv K _ P Z k Hk) as H. cbv beta in H.
    assert (cum p k - cum q k = 0) by nra. lra.
  - intros E. assert (Z : sumn K (fun k => (cum p k - cum q k) ^ 2) = 0); [|lra].
    rewrite (sumn_ext K _ (fun _ => 0)); [apply sumn_zero|]. intros k Hk. unfold cum.
    rewrite (sumn_ext (S k) p q) by (intros; apply E; lia). ring.
Qed.
(** cumulative probabilities of inner vectors *)
Lemma inner_cum K p k : inner_probs K p -> (S k < K)%nat -> 0 < cum p k < 1.
Proof.
  intros [H1 H2] Hk. unfold cum. split.
  - rewrite sumn_S. pose proof (sumn_nonneg k p ltac:(intros; apply Rlt_le, H1; lia)). pose proof (H1 k ltac:(lia)). lra.
  - rewrite <- H2. replace K with (S k + S (K - S k - 1))%nat by lia. rewrite sumn_plus_idx, (sumn_S (K - S k - 1)).
    pose proof (sumn_nonneg (K - S k - 1) (fun j => p (S k + j)%nat) ltac:(intros; apply Rlt_le, H1; lia)).
    pose proof (H1 (S k + (K - S k - 1))%nat ltac:(lia)). lra.
Qed.
Lemma inner_range K p k : inner_probs K p -> (k < K)%nat -> 0 <= p k <= 1.
Proof.
  intros Hi Hk. pose proof (proj1 Hi k Hk). split; [lra|]. destruct Hi as [H1 H2]. rewrite <- H2.
  replace K with (k + S (K - k - 1))%nat by lia. rewrite sumn_plus_idx, sumn_S_l, Nat.add_0_r.
  pose proof (sumn_nonneg k p ltac:(intros; apply Rlt_le, H1; lia)).
  pose proof (sumn_nonneg (K - k - 1) (fun j => p (k + S j)%nat) ltac:(intros; apply Rlt_le, H1; lia)). lra.
Qed.
Lemma inner_last K p k : inner_probs K p -> S k = K -> cum p k = 1.
Proof. intros [_ H] <-. exact H. Qed.
Lemma last_cat c k K : (0 < c <= K)%nat -> S k = K -> ind_cat c k = 1.
Proof. intros H <-. unfold ind_cat. destruct (Nat.leb_spec c (k + 1)); auto; lia. Qed.

(** entries of the ranked log score *)
Lemma rls_term K p c k : inner_probs K p -> (0 < c <= K)%nat -> (k < K)%nat ->
  nopp (nlog (Fin (Rabs (cum p k + sumn (S k) (onehot c) - 1)))) = Fin (logsc (cum p k) (ind_cat c k)).
Proof.
  intros Hp Hc Hk. rewrite onehot_le by lia. unfold logsc.
  destruct (Nat.eq_dec (S k) K) as [E|E].
  - rewrite (inner_last K p k), (last_cat c k K) by auto. destruct (Req_EM_T 1 1); [|lra].
    replace (1 + 1 - 1) with 1 by ring. rewrite Rabs_R1, nlog_Fin by lra. reflexivity.
  - pose proof (inner_cum K p k Hp ltac:(lia)) as B. unfold ind_cat. destruct (c <=? k + 1)%nat.
    + destruct (Req_EM_T 1 1); [|lra]. replace (cum p k + 1 - 1) with (cum p k) by ring.
      rewrite Rabs_pos_eq, nlog_Fin by lra. reflexivity.
    + destruct (Req_EM_T 0 1); [lra|]. rewrite Rabs_left1 by lra. rewrite nlog_Fin by lra. cbn [nopp]. do 3 f_equal. ring.
Qed.
Lemma rls_proper K p q : inner_probs K p -> inner_probs K q ->
  cat_mean K q (rls K q) <= cat_mean K q (rls K p) /\
  (cat_mean K q (rls K p) = cat_mean K q (rls K q) <-> forall k, (k < K)%nat -> p k = q k).
Proof.
  intros Hp Hq. pose proof (proj2 Hq) as Sq. unfold rls. rewrite !cat_mean_sum.
  set (d := fun k => bern_mean (cum q k) (logsc (cum p k)) - bern_mean (cum q k) (logsc (cum q k))).
  assert (G : sumn K (fun k => cat_mean K q (fun c => logsc (cum p k) (ind_cat c k)))
            - sumn K (fun k => cat_mean K q (fun c => logsc (cum q k) (ind_cat c k))) = sumn K d).
  { rewrite <- sumn_minus. apply sumn_ext. intros k Hk.
    rewrite (cat_bern K q k (logsc (cum p k)) Sq Hk), (cat_bern K q k (logsc (cum q k)) Sq Hk). reflexivity. }
  assert (P : forall k, (k < K)%nat -> 0 <= d k).
  { intros k Hk. unfold d. destruct (Nat.eq_dec (S k) K) as [E|E].
    - rewrite (inner_last K p k), (inner_last K q k) by auto. lra.
    - pose proof (inner_cum K p k Hp ltac:(lia)). pose proof (inner_cum K q k Hq ltac:(lia)).
      pose proof (logsc_le (cum q k) (cum p k) ltac:(lra) ltac:(lra)). lra. }
  split; [pose proof (sumn_nonneg K d P); lra|]. split.
  - intros E. assert (Z : sumn K d = 0) by lra.
    apply cum_inj. intros k Hk. pose proof (sumn_zero_inv K _ P Z k Hk) as H.
    destruct (Nat.eq_dec (S k) K) as [E'|E']; [now rewrite (inner_last K p k), (inner_last K q k)|].
    destruct (Req_dec (cum p k) (cum q k)) as [|N]; auto. exfalso.
    pose proof (inner_cum K p k Hp ltac:(lia)). pose proof (inner_cum K q k Hq ltac:(lia)).
    pose proof (logsc_lt (cum q k) (cum p k) ltac:(lra) ltac:(lra) N). unfold d in H. lra.
  - intros E. assert (Z : sumn K d = 0); [|lra].
    rewrite (sumn_ext K _ (fun _ => 0)); [apply sumn_zero|]. intros k Hk. unfold d, cum.
    rewrite (sumn_ext (S k) p q) by (intros; apply E; lia). ring.
Qed.
