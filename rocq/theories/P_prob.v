(** Properties C29-C31: [brier_score], [rps_score], [log_score] and [rls_score]. *)
From Verif Require Import L_examples T_prob.
Open Scope R_scope.

(** C29.  The Brier score is the squared difference. *)
Theorem C29_value :
  forall obs fct s y x, real_arr obs s y -> real_arr fct s x ->
  (forall i, inb s i -> y i = 0 \/ y i = 1) -> (forall i, inb s i -> 0 <= x i <= 1) ->
  returns (brier_score obs fct) s (fun r => Fin ((x r - y r) ^ 2)) /\
  forall r, inb s r -> 0 <= (x r - y r) ^ 2 <= 1.
Proof. exact C29_value_l. Qed.
Print Assumptions C29_value.
Example C29_case : real_arr (real1 2 INR) (2%nat :: nil) (fun i => INR (hd 0%nat i)) /\
  (forall i, inb (2%nat :: nil) i -> INR (hd 0%nat i) = 0 \/ INR (hd 0%nat i) = 1).
Proof.
  split; [repeat split|]. intros [|k [|? ?]] Hi; simpl in Hi; try easy; destruct Hi as [Hk _].
  destruct k as [|[|k]]; [left|right|lia]; simpl; lra.
Qed.

(** C29.  A call succeeds if and only if no forecast is below 0 or above 1 + 1e-5 and every
    outcome is 0 or 1 (a NaN forecast is accepted, a NaN outcome is not). *)
Theorem C29_validation :
  forall obs fct s, sh obs = s -> sh fct = s ->
  ((exists i, inb s i /\ (bad_prob (at_ fct i) \/ bad_outcome (at_ obs i))) ->
     raises (brier_score obs fct) ValueError /\ raises (log_score obs fct) ValueError) /\
  ((forall i, inb s i -> ~ bad_prob (at_ fct i) /\ ~ bad_outcome (at_ obs i)) ->
     (exists v, returns (brier_score obs fct) s v) /\ (exists v, returns (log_score obs fct) s v)).
Proof. exact C29_validation_l. Qed.
Print Assumptions C29_validation.
Example C29_validation_case : bad_prob (Fin 2) /\ ~ bad_prob NaN /\ bad_outcome NaN /\ ~ bad_outcome (Fin 1) /\ ~ bad_prob (Fin (1 + / 200000)).
Proof.
  repeat split; try discriminate.
  - right. simpl. lra.
  - now intros [H|H].
  - now intros [_ H].
  - intros [H|H]; simpl in H; lra.
Qed.

(** C29.  Strict propriety: if the event has probability q, the expected score of the forecast p exceeds
    that of q by (p - q)^2. *)
Theorem C29_proper :
  forall q, 0 <= q <= 1 ->
  exists S : R -> R -> R,
    (forall p y, 0 <= p <= 1 -> y = 0 \/ y = 1 ->
       returns (brier_score (num0 (Fin y)) (num0 (Fin p))) nil (fun _ => Fin (S p y))) /\
    forall p, bern_mean q (S p) = bern_mean q (S q) + (p - q) ^ 2.
Proof. exact C29_proper_l. Qed.
Print Assumptions C29_proper.

(** C30.  With outcomes given as categories, for every position of the category axis: the ranked
    probability score is the sum of the squared differences of the cumulative probabilities and the
    cumulative indicators. *)
Theorem C30_value :
  forall obs fct ax s p K c x, cat_args obs fct ax s p K c x -> probs s p K x ->
  (forall r, inb s r -> (0 < c r)%nat) ->
  returns (rps_score obs fct ax false) s (fun r => Fin (rps K (member p x r) (c r))).
Proof. exact C30_value_l. Qed.
Print Assumptions C30_value.
Example C30_case : cat_args (num0 (Fin (INR 2))) (real1 3 (fun k => (INR k + 1) / 6)) (-1) nil 0 3 (fun _ => 2%nat)
    (fun i => (INR (hd 0%nat i) + 1) / 6) /\
  probs nil 0 3 (fun i => (INR (hd 0%nat i) + 1) / 6) /\
  rps 3 (fun k => (INR k + 1) / 6) 2 = 5 / 18.
Proof.
  split; [apply (cat0_args 2 3 (fun k => (INR k + 1) / 6))|]. split.
  - intros r k Hr Hk. unfold member. cbn [insert_at hd]. destruct k as [|[|[|k]]]; [| | |lia]; simpl; lra.
  - unfold rps, cum, ind_cat, sumn, Rsum; simpl. lra.
Qed.

(** C30.  One-hot outcomes give the same result as categories. *)
Theorem C30_onehot :
  forall obs obs1 fct ax s p K c x, cat_args obs fct ax s p K c x -> onehot_args obs1 fct ax s p K c x -> probs s p K x ->
  exists v, returns (rps_score obs fct ax false) s v /\ returns (rps_score obs1 fct ax true) s v.
Proof. exact C30_onehot_l. Qed.
Print Assumptions C30_onehot.
Example C30_onehot_case : onehot_args (real1 3 (onehot 2)) (real1 3 (fun k => (INR k + 1) / 6)) (-1) nil 0 3 (fun _ => 2%nat)
    (fun i => (INR (hd 0%nat i) + 1) / 6).
Proof. repeat split; simpl; auto. now left. Qed.

(** C30.  Categories are not validated: the category 0 (or one above K) is accepted and scored as if
    every cumulative outcome were 0; the forecast "certainly the first category" of two then scores 2,
    more than any valid outcome can. *)
Theorem C30_category_refuted :
  exists obs fct x, real_arr obs nil (fun _ => 0) /\ real_arr fct (2%nat :: nil) x /\
    probs nil 0 2 x /\ sumn 2 (fun k => x (k :: nil)) = 1 /\
    returns (rps_score obs fct (-1) false) nil (fun _ => Fin 2).
Proof. exact C30_category_refuted_l. Qed.
Print Assumptions C30_category_refuted.

(** C30.  Strict propriety: if the categories have probabilities q, then q minimises the expected score
    and every other vector of forecast probabilities scores worse. *)
Theorem C30_proper :
  forall K q, masses K q ->
  exists S : (nat -> R) -> nat -> R,
    (forall p c, (forall k, (k < K)%nat -> 0 <= p k <= 1) -> (0 < c)%nat ->
       returns (rps_score (num0 (Fin (INR c))) (real1 K p) (-1) false) nil (fun _ => Fin (S p c))) /\
    forall p, cat_mean K q (S q) <= cat_mean K q (S p) /\
      (cat_mean K q (S p) = cat_mean K q (S q) <-> forall k, (k < K)%nat -> p k = q k).
Proof. exact C30_proper_l. Qed.
Print Assumptions C30_proper.
Example C30_proper_case : masses 3 (fun k => (INR k + 1) / 6).
Proof. split; [|unfold sumn, Rsum; simpl; lra]. intros j Hj. pose proof (pos_INR j). lra. Qed.

(** C30, C31.  A forecast below 0 or above 1 + 1e-5, or an outcome array whose shape does not fit, is a
    ValueError. *)
Theorem C30_errors :
  forall obs fct hot, 
  ((exists i, inb (sh fct) i /\ bad_prob (at_ fct i)) -> forall ax,
    raises (rps_score obs fct ax hot) ValueError /\ raises (rls_score obs fct ax hot) ValueError) /\
  (sh obs <> (if hot then sh fct else tl (sh fct)) ->
    raises (rps_score obs fct (-1) hot) ValueError /\ raises (rls_score obs fct (-1) hot) ValueError).
Proof. exact C30_errors_l. Qed.
Print Assumptions C30_errors.

(** C31.  The log score is minus the logarithm of the probability given to what happened; plus infinity
    if that probability is 0. *)
Theorem C31_value :
  forall obs fct s y x, real_arr obs s y -> real_arr fct s x ->
  (forall i, inb s i -> y i = 0 \/ y i = 1) -> (forall i, inb s i -> 0 <= x i <= 1) ->
  returns (log_score obs fct) s (fun r =>
    let q := if Req_EM_T (y r) 1 then x r else 1 - x r in if Rlt_dec 0 q then Fin (- ln q) else PInf).
Proof. exact C31_value_l. Qed.
Print Assumptions C31_value.

(** C31.  Strict propriety of the log score. *)
Theorem C31_proper :
  forall q, 0 < q < 1 ->
  exists S : R -> R -> R,
    (forall p y, 0 < p < 1 -> y = 0 \/ y = 1 ->
       returns (log_score (num0 (Fin y)) (num0 (Fin p))) nil (fun _ => Fin (S p y))) /\
    forall p, 0 < p < 1 -> p <> q -> bern_mean q (S q) < bern_mean q (S p).
Proof. exact C31_proper_l. Qed.
Print Assumptions C31_proper.

(** C31.  The ranked log score is the sum over the thresholds of the log scores of the cumulative
    probabilities; categories and one-hot outcomes agree. *)
Theorem C31_ranked :
  forall obs obs1 fct ax s p K c x, cat_args obs fct ax s p K c x -> onehot_args obs1 fct ax s p K c x ->
  (forall r, inb s r -> inner_probs K (member p x r)) -> (forall r, inb s r -> (0 < c r <= K)%nat) ->
  returns (rls_score obs fct ax false) s (fun r => Fin (rls K (member p x r) (c r))) /\
  returns (rls_score obs1 fct ax true) s (fun r => Fin (rls K (member p x r) (c r))).
Proof. exact C31_ranked_l. Qed.
Print Assumptions C31_ranked.
Example C31_ranked_case : inner_probs 3 (fun k => (INR k + 1) / 6).
Proof. split; [|unfold sumn, Rsum; simpl; lra]. intros j Hj. pose proof (pos_INR j). lra. Qed.

(** C31.  Strict propriety of the ranked log score. *)
Theorem C31_ranked_proper :
  forall K q, inner_probs K q ->
  exists S : (nat -> R) -> nat -> R,
    (forall p c, inner_probs K p -> (0 < c <= K)%nat ->
       returns (rls_score (num0 (Fin (INR c))) (real1 K p) (-1) false) nil (fun _ => Fin (S p c))) /\
    forall p, inner_probs K p -> cat_mean K q (S q) <= cat_mean K q (S p) /\
      (cat_mean K q (S p) = cat_mean K q (S q) <-> forall k, (k < K)%nat -> p k = q k).
Proof. exact C31_ranked_proper_l. Qed.
Print Assumptions C31_ranked_proper.
