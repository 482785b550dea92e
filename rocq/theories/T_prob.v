(** Proofs of the properties of the scores of probability forecasts (statements in P_prob.v). *)
From Verif Require Export L_prob.
Open Scope R_scope.
Lemma bin_call p y : 0 <= p <= 1 -> (y = 0 \/ y = 1) ->
  returns (brier_score (num0 (Fin y)) (num0 (Fin p))) nil (fun _ => Fin ((p - y) ^ 2)) /\
  (0 < p < 1 -> returns (log_score (num0 (Fin y)) (num0 (Fin p))) nil (fun _ => Fin (logsc p y))).
Proof.
  intros Hp Hy. split.
  - apply (brier_value (num0 (Fin y)) (num0 (Fin p)) nil (fun _ => y) (fun _ => p)); auto; repeat split.
  - intros Hp'. eapply returns_ext; [apply (log_value (num0 (Fin y)) (num0 (Fin p)) nil (fun _ => y) (fun _ => p)); auto; repeat split|].
    intros r Hr. cbv beta. unfold logsc. destruct (Req_EM_T y 1); rewrite nlog_Fin by lra; reflexivity.
Qed.
Lemma cat0_args c K x : cat_args (num0 (Fin (INR c))) (real1 K x) (-1) nil 0 K (fun _ => c) (fun i => x (hd 0%nat i)).
Proof. repeat split; simpl; auto. now left. Qed.
Lemma C29_value_l :
  forall obs fct s y x, real_arr obs s y -> real_arr fct s x ->
  (forall i, inb s i -> y i = 0 \/ y i = 1) -> (forall i, inb s i -> 0 <= x i <= 1) ->
  returns (brier_score obs fct) s (fun r => Fin ((x r - y r) ^ 2)) /\
  forall r, inb s r -> 0 <= (x r - y r) ^ 2 <= 1.
Proof.
  intros obs fct s y x Ho Hf Hy Hx. split; [now apply brier_value|].
  intros r Hr. specialize (Hx r Hr). destruct (Hy r Hr) as [E|E]; rewrite E; nra.
Qed.
Lemma C29_validation_l :
  forall obs fct s, sh obs = s -> sh fct = s ->
  ((exists i, inb s i /\ (bad_prob (at_ fct i) \/ bad_outcome (at_ obs i))) ->
     raises (brier_score obs fct) ValueError /\ raises (log_score obs fct) ValueError) /\
  ((forall i, inb s i -> ~ bad_prob (at_ fct i) /\ ~ bad_outcome (at_ obs i)) ->
     (exists v, returns (brier_score obs fct) s v) /\ (exists v, returns (log_score obs fct) s v)).
Proof.
  intros obs fct s Ho Hf. split; intros H.
  - apply (brier_bad obs fct s (at_ obs) (at_ fct)); auto; repeat split; auto.
  - apply (brier_good obs fct s (at_ obs) (at_ fct)); auto; repeat split; auto.
Qed.
Lemma C29_proper_l :
  forall q, 0 <= q <= 1 ->
  exists S : R -> R -> R,
    (forall p y, 0 <= p <= 1 -> y = 0 \/ y = 1 ->
       returns (brier_score (num0 (Fin y)) (num0 (Fin p))) nil (fun _ => Fin (S p y))) /\
    forall p, bern_mean q (S p) = bern_mean q (S q) + (p - q) ^ 2.
Proof.
  intros q Hq. exists (fun p y => (p - y) ^ 2). split.
  - intros p y Hp Hy. now apply bin_call.
  - intros p. pose proof (brier_gap q p). lra.
Qed.
Lemma C30_value_l :
  forall obs fct ax s p K c x, cat_args obs fct ax s p K c x -> probs s p K x ->
  (forall r, inb s r -> (0 < c r)%nat) ->
  returns (rps_score obs fct ax false) s (fun r => Fin (rps K (member p x r) (c r))).
Proof.
  intros obs fct ax s p K c x (Ho & Hf & Hp & Hax) Hx Hc.
  destruct (cat_check_idx fct ax s p K x Hf Hp Hax Hx obs c Ho) as (o & f & d1 & d2 & E & H1 & H2).
  unfold rps_score. rewrite E. cbn [bind]. eapply returns_ext; [eapply (rps_ready s p K x Hp c o f d1 d2 H1 H2)|].
  intros r Hr. cbv beta. f_equal. apply sumn_ext. intros k Hk. now rewrite onehot_le by auto.
Qed.
Lemma C30_onehot_l :
  forall obs obs1 fct ax s p K c x, cat_args obs fct ax s p K c x -> onehot_args obs1 fct ax s p K c x -> probs s p K x ->
  exists v, returns (rps_score obs fct ax false) s v /\ returns (rps_score obs1 fct ax true) s v.
Proof.
  intros obs obs1 fct ax s p K c x (Ho & Hf & Hp & Hax) (_ & _ & _ & So & Vo) Hx.
  destruct (cat_check_idx fct ax s p K x Hf Hp Hax Hx obs c Ho) as (o & f & d1 & d2 & E & H1 & H2).
  destruct (cat_check_hot fct ax s p K x Hf Hp Hax Hx obs1 c So Vo) as (o' & f' & d1' & d2' & E' & H1' & H2').
  eexists. unfold rps_score. rewrite E, E'. cbn [bind].
  split; [eapply (rps_ready s p K x Hp c o f d1 d2 H1 H2)|eapply (rps_ready s p K x Hp c o' f' d1' d2' H1' H2')].
Qed.
Lemma C30_category_refuted_l :
  exists obs fct x, real_arr obs nil (fun _ => 0) /\ real_arr fct (2%nat :: nil) x /\
    probs nil 0 2 x /\ sumn 2 (fun k => x (k :: nil)) = 1 /\
    returns (rps_score obs fct (-1) false) nil (fun _ => Fin 2).
Proof.
  exists (num0 (Fin (INR 0))), (real1 2 (onehot 1)), (fun i => onehot 1 (hd 0%nat i)).
  pose proof (cat0_args 0 2 (onehot 1)) as (Ho & Hf & Hp & Hax).
  assert (Hx : probs nil 0 2 (fun i => onehot 1 (hd 0%nat i))).
  { intros r k Hr Hk. unfold member, onehot. cbn [insert_at hd]. destruct (k + 1 =? 1)%nat; lra. }
  split; [exact Ho|]. split; [exact Hf|]. split; [exact Hx|]. split; [unfold sumn, Rsum, onehot; simpl; lra|].
  destruct (cat_check_idx _ _ _ _ _ _ Hf Hp Hax Hx _ (fun _ => 0%nat) Ho) as (o & f & d1 & d2 & E & H1 & H2).
  unfold rps_score. rewrite E. cbn [bind]. eapply returns_ext; [eapply (rps_ready _ _ _ _ Hp (fun _ => 0%nat) o f d1 d2 H1 H2)|].
  intros r Hr. cbv beta. f_equal. unfold cum, member, onehot, sumn, Rsum; simpl. unfold Rsum; simpl. lra.
Qed.
Lemma C30_proper_l :
  forall K q, masses K q ->
  exists S : (nat -> R) -> nat -> R,
    (forall p c, (forall k, (k < K)%nat -> 0 <= p k <= 1) -> (0 < c)%nat ->
       returns (rps_score (num0 (Fin (INR c))) (real1 K p) (-1) false) nil (fun _ => Fin (S p c))) /\
    forall p, cat_mean K q (S q) <= cat_mean K q (S p) /\
      (cat_mean K q (S p) = cat_mean K q (S q) <-> forall k, (k < K)%nat -> p k = q k).
Proof.
  intros K q [_ Hq]. exists (rps K). split; [|intros p; now apply rps_proper].
  intros p c Hp Hc. eapply returns_ext; [apply (C30_value_l _ _ _ _ _ _ _ _ (cat0_args c K p))|].
  - intros r k Hr Hk. now apply Hp.
  - auto.
  - reflexivity.
Qed.
Lemma C30_errors_l :
  forall obs fct hot, 
  ((exists i, inb (sh fct) i /\ bad_prob (at_ fct i)) -> forall ax,
    raises (rps_score obs fct ax hot) ValueError /\ raises (rls_score obs fct ax hot) ValueError) /\
  (sh obs <> (if hot then sh fct else tl (sh fct)) ->
    raises (rps_score obs fct (-1) hot) ValueError /\ raises (rls_score obs fct (-1) hot) ValueError).
Proof.
  intros obs fct hot. assert (Hf : arr_is fct (dt fct) (sh fct) (at_ fct)) by (repeat split). split.
  - intros H ax. assert (E : categorical_array_check obs fct ax hot = Err ValueError).
    { unfold categorical_array_check. destruct (prob_any _ _ _ _ Hf) as ((b1 & E1 & H1) & (b2 & E2 & H2)).
      rewrite E1, E2. cbn [bind]. replace (b1 || b2)%bool with true; auto. symmetry. apply orb_true_intro.
      destruct H as (i & Hi & [C|C]); [left; apply H1|right; apply H2]; exists i; split; auto.
      - now apply below_nltb. - rewrite EPS. now apply above_nltb. }
    unfold raises, rps_score, rls_score. now rewrite E.
  - intros Hs. assert (E : categorical_array_check obs fct (-1) hot = Err ValueError).
    { unfold categorical_array_check. destruct (prob_any _ _ _ _ Hf) as ((b1 & E1 & H1) & (b2 & E2 & H2)).
      rewrite E1, E2. cbn [bind]. destruct (b1 || b2)%bool; auto. cbn [bind Z.eqb Pos.eqb negb andb]. destruct hot; cbn [bind].
      - destruct (shape_eqb (pyshape obs) (pyshape fct)) eqn:E; auto. apply shape_eqb_true in E. exfalso; apply Hs.
        unfold pyshape in E. apply (f_equal (@rev nat)) in E. now rewrite !rev_involutive in E.
      - destruct (shape_eqb _ _) eqn:E; auto. apply shape_eqb_true in E. exfalso; apply Hs.
        unfold pyshape in E. destruct (sh fct) as [|K s]; cbn [tl].
        + change (py_take (-1) (rev nil)) with (@nil nat) in E. apply (f_equal (@rev nat)) in E. now rewrite rev_involutive in E.
        + rewrite py_take_last in E. apply (f_equal (@rev nat)) in E. now rewrite !rev_involutive in E. }
    unfold raises, rps_score, rls_score. now rewrite E.
Qed.
Lemma C31_value_l :
  forall obs fct s y x, real_arr obs s y -> real_arr fct s x ->
  (forall i, inb s i -> y i = 0 \/ y i = 1) -> (forall i, inb s i -> 0 <= x i <= 1) ->
  returns (log_score obs fct) s (fun r =>
    let q := if Req_EM_T (y r) 1 then x r else 1 - x r in if Rlt_dec 0 q then Fin (- ln q) else PInf).
Proof.
  intros obs fct s y x Ho Hf Hy Hx. eapply returns_ext; [now apply (log_value obs fct s y x)|].
  intros r Hr. cbv beta zeta. set (q := if Req_EM_T (y r) 1 then x r else 1 - x r).
  assert (0 <= q) by (specialize (Hx r Hr); unfold q; destruct (Req_EM_T _ _); lra).
  unfold nlog. destruct (Rlt_dec 0 q); auto. destruct (Rlt_dec q 0); [lra|reflexivity].
Qed.
Lemma C31_proper_l :
  forall q, 0 < q < 1 ->
  exists S : R -> R -> R,
    (forall p y, 0 < p < 1 -> y = 0 \/ y = 1 ->
       returns (log_score (num0 (Fin y)) (num0 (Fin p))) nil (fun _ => Fin (S p y))) /\
    forall p, 0 < p < 1 -> p <> q -> bern_mean q (S q) < bern_mean q (S p).
Proof.
  intros q Hq. exists logsc. split.
  - intros p y Hp Hy. apply bin_call; auto. lra.
  - intros p Hp Hn. apply logsc_lt; auto. lra.
Qed.
Lemma C31_ranked_l :
  forall obs obs1 fct ax s p K c x, cat_args obs fct ax s p K c x -> onehot_args obs1 fct ax s p K c x ->
  (forall r, inb s r -> inner_probs K (member p x r)) -> (forall r, inb s r -> (0 < c r <= K)%nat) ->
  returns (rls_score obs fct ax false) s (fun r => Fin (rls K (member p x r) (c r))) /\
  returns (rls_score obs1 fct ax true) s (fun r => Fin (rls K (member p x r) (c r))).
Proof.
  intros obs obs1 fct ax s p K c x (Ho & Hf & Hp & Hax) (_ & _ & _ & So & Vo) Hi Hc.
  assert (Hx : probs s p K x) by (intros r k Hr Hk; now apply (inner_range K _ k (Hi r Hr))).
  destruct (cat_check_idx fct ax s p K x Hf Hp Hax Hx obs c Ho) as (o & f & d1 & d2 & E & H1 & H2).
  destruct (cat_check_hot fct ax s p K x Hf Hp Hax Hx obs1 c So Vo) as (o' & f' & d1' & d2' & E' & H1' & H2').
  unfold rls_score. rewrite E, E'. cbn [bind].
  split; (eapply returns_ext; [first [eapply (rls_ready s p K x Hp c o f d1 d2 H1 H2)|eapply (rls_ready s p K x Hp c o' f' d1' d2' H1' H2')]|]).
  all: intros r Hr; apply nsumn_Fin; intros k Hk; apply (rls_term K); auto.
Qed.
Lemma C31_ranked_proper_l :
  forall K q, inner_probs K q ->
  exists S : (nat -> R) -> nat -> R,
    (forall p c, inner_probs K p -> (0 < c <= K)%nat ->
       returns (rls_score (num0 (Fin (INR c))) (real1 K p) (-1) false) nil (fun _ => Fin (S p c))) /\
    forall p, inner_probs K p -> cat_mean K q (S q) <= cat_mean K q (S p) /\
      (cat_mean K q (S p) = cat_mean K q (S q) <-> forall k, (k < K)%nat -> p k = q k).
Proof.
  intros K q Hq. exists (rls K). split; [|intros p Hp; now apply rls_proper].
  intros p c Hp Hc. apply (C31_ranked_l _ (real1 K (onehot c)) _ _ _ _ _ _ _ (cat0_args c K p)); auto.
  repeat split; simpl; auto. now left.
Qed.
