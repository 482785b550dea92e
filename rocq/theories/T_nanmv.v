(** Proofs about the multivariate NaN policy (statements in P_nanmv.v). *)
From Coq Require Import String.
From Verif Require Export L_nanmv M_utils.
From Coq Require Import Reals List Psatz Lia.
Import ListNotations.
Open Scope R_scope.
(** instances: two members (1, 2) and (NaN, 4); an observation (0, 0) *)
Definition ex_fct : arr := mkArr DFloat [2%nat; 2%nat] (fun i => match i with
  | [0%nat; 0%nat] => Fin 1 | [1%nat; 0%nat] => Fin 2 | [0%nat; 1%nat] => NaN | _ => Fin 4 end).
Definition ex_obs : arr := mkArr DFloat [2%nat] (fun _ => Fin 0).
Lemma C79_omit_l :
forall obs fct D s, sh fct = (D :: s)%list ->
  exists fct' mask, apply_nan_policy_ens_mv obs fct "omit" = Ok (obs, fct', Some mask) /\
    sh fct' = sh fct /\ sh mask = s /\ dt mask = DInt /\ dt fct' = DFloat /\
    forall r, inb s r ->
      ((exists d, (d < D)%nat /\ at_ fct (d :: r)%list = NaN) ->
         at_ mask r = Fin 1 /\ forall d, (d < D)%nat -> at_ fct' (d :: r)%list = Fin 0) /\
      ((forall d, (d < D)%nat -> at_ fct (d :: r)%list <> NaN) ->
         at_ mask r = Fin 0 /\ forall d, (d < D)%nat -> at_ fct' (d :: r)%list = at_ fct (d :: r)%list).
Proof.
intros obs fct D s E. destruct (omit_form obs fct D s E) as (f' & m & A & S1 & S2 & D1 & D2 & HM & HF).
  exists f', m. repeat (split; [assumption|]). intros r Hr. split.
  - intros Hn. apply has_nan in Hn. split; [rewrite (HM r Hr), Hn; reflexivity|]. intros d Hd. rewrite (HF d r (conj Hd Hr)), Hn. reflexivity.
  - intros Hn. assert (existsb nisnan (map (fun d => at_ fct (d :: r)%list) (seq 0 D)) = false) as Z.
    { destruct (existsb _ _) eqn:Q; [|reflexivity]. apply has_nan in Q. destruct Q as (d & Hd & Q). destruct (Hn d Hd Q). }
    split; [rewrite (HM r Hr), Z; reflexivity|]. intros d Hd. rewrite (HF d r (conj Hd Hr)), Z. reflexivity.
Qed.
Lemma C79_clean_l :
forall obs fct D s fct' mask, sh fct = (D :: s)%list -> apply_nan_policy_ens_mv obs fct "omit" = Ok (obs, fct', Some mask) ->
  (forall i, inb (sh fct) i -> at_ fct' i <> NaN) /\
  (exists fct2 mask2, apply_nan_policy_ens_mv obs fct' "omit" = Ok (obs, fct2, Some mask2) /\ sh fct2 = sh fct /\
     (forall i, inb (sh fct) i -> at_ fct2 i = at_ fct' i) /\ forall r, inb s r -> at_ mask2 r = Fin 0) /\
  ((forall i, inb (sh obs) i -> at_ obs i <> NaN) -> apply_nan_policy_ens_mv obs fct' "raise" = Ok (obs, fct', None)).
Proof.
intros obs fct D s fct' mask E A. destruct (omit_form obs fct D s E) as (f' & m & A' & S1 & S2 & D1 & D2 & HM & HF).
  rewrite A in A'. injection A' as <- <-.
  assert (forall i, inb (sh fct) i -> at_ fct' i <> NaN) as NN.
  { intros i Hi. rewrite E in Hi. destruct i as [|d r]; [destruct Hi|]. rewrite (HF d r Hi).
    destruct (existsb _ _) eqn:Q; [discriminate|]. intros F. destruct Hi as [Hd Hr].
    assert (existsb nisnan (map (fun d => at_ fct (d :: r)%list) (seq 0 D)) = true) by (apply has_nan; exists d; auto). congruence. }
  split; [exact NN|]. split.
  - rewrite E in S1. destruct (omit_form obs fct' D s S1) as (f2 & m2 & A2 & T1 & T2 & _ & _ & HM2 & HF2).
    exists f2, m2. split; [exact A2|]. split; [congruence|].
    assert (forall r, inb s r -> existsb nisnan (map (fun d => at_ fct' (d :: r)%list) (seq 0 D)) = false) as Z.
    { intros r Hr. destruct (existsb _ _) eqn:Q; [|reflexivity]. apply has_nan in Q. destruct Q as (d & Hd & Q).
      exfalso. apply (NN (d :: r)%list); [rewrite E; split; assumption|exact Q]. }
    split.
    + intros i Hi. rewrite E in Hi. destruct i as [|d r]; [destruct Hi|]. rewrite (HF2 d r Hi), (Z r (proj2 Hi)). reflexivity.
    + intros r Hr. rewrite (HM2 r Hr), (Z r Hr). reflexivity.
  - intros Ho. unfold apply_nan_policy_ens_mv. simpl (_ =? _)%string. cbv iota.
    destruct (any_nan_iff fct') as (b1 & E1 & H1). destruct (any_nan_iff obs) as (b2 & E2 & H2).
    rewrite E1, E2. simpl bind. destruct b1.
    { destruct (proj1 H1 eq_refl) as (i & Hi & Q). rewrite S1 in Hi. destruct (NN i Hi Q). }
    destruct b2; [|reflexivity].
    destruct (proj1 H2 eq_refl) as (i & Hi & Q). destruct (Ho i Hi Q).
Qed.
Lemma C79_raise_l :
forall obs fct,
  (((exists i, inb (sh fct) i /\ at_ fct i = NaN) \/ (exists i, inb (sh obs) i /\ at_ obs i = NaN)) <->
     apply_nan_policy_ens_mv obs fct "raise" = Err ValueError) /\
  ((forall i, inb (sh fct) i -> at_ fct i <> NaN) -> (forall i, inb (sh obs) i -> at_ obs i <> NaN) ->
     apply_nan_policy_ens_mv obs fct "raise" = Ok (obs, fct, None)).
Proof.
intros obs fct. unfold apply_nan_policy_ens_mv. simpl (_ =? _)%string. cbv iota.
  destruct (any_nan_iff fct) as (b1 & E1 & H1). destruct (any_nan_iff obs) as (b2 & E2 & H2). rewrite E1, E2. simpl bind. split.
  - rewrite <- H1, <- H2. destruct b1, b2; split; intros H; try reflexivity; try discriminate; try (left; reflexivity); try (right; reflexivity); destruct H; discriminate.
  - intros Hf Ho. destruct b1; [destruct (proj1 H1 eq_refl) as (i & Hi & Q); destruct (Hf i Hi Q)|].
    destruct b2; [destruct (proj1 H2 eq_refl) as (i & Hi & Q); destruct (Ho i Hi Q)|]. reflexivity.
Qed.
Lemma C79_other_l :
forall obs fct nan_policy, nan_policy <> "raise"%string -> nan_policy <> "omit"%string ->
  apply_nan_policy_ens_mv obs fct nan_policy = Ok (obs, fct, None) /\
  (nan_policy <> "propagate"%string -> forall estimator m_axis, apply_nan_policy_ens_uv obs fct nan_policy None estimator m_axis = Err ValueError).
Proof.
intros obs fct p H1 H2. apply String.eqb_neq in H1, H2. split.
  - unfold apply_nan_policy_ens_mv. now rewrite H1, H2.
  - intros H3 e ax. apply String.eqb_neq in H3. unfold apply_nan_policy_ens_uv. simpl bind. now rewrite H1, H2, H3.
Qed.
Lemma C79_axis_l :
forall obs fct, sh fct = nil -> apply_nan_policy_ens_mv obs fct "omit" = Err AxisError.
Proof.
intros obs [d s a] E. simpl in E. subst s. reflexivity.
Qed.
