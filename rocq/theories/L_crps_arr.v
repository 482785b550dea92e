(** The array implementation of the CRPS estimators, row by row. *)
From Verif Require Export M_crps L_arr.
Open Scope nat_scope.

(** [nsumn n f] is f 0 + ... + f (n-1) on values *)
Definition nsumn (n : nat) (f : nat -> num) : num := nsum (map f (seq 0 n)).
Lemma nsumn_ext n f g : (forall k, k < n -> f k = g k) -> nsumn n f = nsumn n g.
Proof. intros H; apply nsum_ext; intros a Ha; apply in_seq in Ha; apply H; lia. Qed.
Lemma nsumn_Fin n f g : (forall k, k < n -> f k = Fin (g k)) -> nsumn n f = Fin (sumn n g).
Proof. apply nsum_sumn. Qed.
Lemma nsumn_NaN n f k : k < n -> f k = NaN -> nsumn n f = NaN.
Proof.
  intros Hk H; apply nsum_NaN. rewrite <- H. apply in_map, in_seq; lia.
Qed.

Lemma ten_sum x d m s g : ten_is x d (m :: s) g ->
  ten_is (asum x) d s (fun r => nsumn m (fun k => g (k :: r))).
Proof. intros H. exact (ten_reduce (fun d => d) nsum _ _ _ _ _ H). Qed.
Lemma ten_sum2 x d m n s g : ten_is x d (m :: n :: s) g ->
  ten_is (asum2 x) d s (fun r => nsumn n (fun i => nsumn m (fun j => g (j :: i :: r)))).
Proof. intros H. apply ten_sum in H. apply ten_sum in H. exact H. Qed.
Lemma ten_mean x d m s g : ten_is x d (m :: s) g ->
  ten_is (amean x) DFloat s (fun r => ndiv (nsumn m (fun k => g (k :: r))) (nofnat m)).
Proof.
  intros H. eapply ten_ext; [apply (ten_reduce dfloat1 nmean _ _ _ _ _ H)|].
  intros i Hi; unfold nmean. now rewrite map_length, seq_length.
Qed.
Lemma ten_sum_keep x d m s g : ten_is x d (m :: s) g ->
  ten_is (asum_keep x) d (1 :: s) (fun i => nsumn m (fun k => g (k :: tl i))).
Proof. intros H. exact (ten_reduce_keep (fun d => d) nsum _ _ _ _ _ H). Qed.
Lemma ten_mean_keep x d m s g : ten_is x d (m :: s) g ->
  ten_is (amean_keep x) DFloat (1 :: s) (fun i => ndiv (nsumn m (fun k => g (k :: tl i))) (nofnat m)).
Proof.
  intros H. eapply ten_ext; [apply (ten_reduce_keep dfloat1 nmean _ _ _ _ _ H)|].
  intros i Hi; unfold nmean. now rewrite map_length, seq_length.
Qed.

Lemma ten_arange0 m : ten_is (aarange 0 m) DInt [m] (fun i => nofnat (hd 0 i)).
Proof. apply ten_Ok; repeat split; simpl; f_equal; lia. Qed.
Lemma ten_arange1 m : ten_is (aarange 1 (m + 1)) DInt [m] (fun i => nofnat (1 + hd 0 i)).
Proof. apply ten_Ok; repeat split; simpl; f_equal; lia. Qed.

Lemma ten_slice1 x d m s g : ten_is x d ((m + 1) :: s) g ->
  ten_is (aslice 1 (m + 1) x) d (m :: s) (fun i => g ((1 + hd 0 i) :: tl i)).
Proof. intros H. replace m with (m + 1 - 1) at 2 by lia. eapply ten_slice; eauto; lia. Qed.
Lemma ten_slice0 x d m s g : ten_is x d ((m + 1) :: s) g ->
  ten_is (aslice 0 m x) d (m :: s) (fun i => g (hd 0 i :: tl i)).
Proof. intros H. replace m with (m - 0) at 2 by lia. eapply (ten_slice 0 m); eauto; lia. Qed.
Lemma ten_slice00 x d m s g : ten_is x d (m :: s) g ->
  ten_is (aslice 0 m x) d (m :: s) (fun i => g (hd 0 i :: tl i)).
Proof. intros H. replace m with (m - 0) at 2 by lia. eapply (ten_slice 0 m); eauto; lia. Qed.
Lemma ten_take_seq f x d m s g : ten_is x d (m :: s) g -> (forall k, k < m -> f k < m) ->
  ten_is (atake (map f (seq 0 m)) x) d (m :: s) (fun i => g (f (hd 0 i) :: tl i)).
Proof.
  intros H Hf. eapply ten_ext.
  - replace m with (length (map f (seq 0 m))) at 2 by now rewrite map_length, seq_length.
    apply (ten_take _ _ _ _ _ _ H). intros k Hk. apply in_map_iff in Hk.
    destruct Hk as (j & <- & Hj). apply in_seq in Hj. apply Hf; lia.
  - intros i Hi. idx. simpl. f_equal. f_equal.
    rewrite (nth_indep _ 0 (f 0)) by (rewrite map_length, seq_length; lia).
    rewrite map_nth, seq_nth by lia. reflexivity.
Qed.
Lemma mod_lt a m k : k < m -> a mod m < m.
Proof. intros; apply Nat.mod_upper_bound; lia. Qed.

Ltac dts := unfold dfloat1, dfloat2, dbool2, djoin in *;
  repeat match goal with d : dtype |- _ => destruct d end; try reflexivity; try congruence.

(** automation: compute the description of an array expression *)
Ltac ten1 :=
  match goal with
  | |- ten_is (asum2 _) _ _ _ => eapply ten_sum2
  | |- ten_is (asum _) _ _ _ => eapply ten_sum
  | |- ten_is (amean _) _ _ _ => eapply ten_mean
  | |- ten_is (asum_keep _) _ _ _ => eapply ten_sum_keep
  | |- ten_is (amean_keep _) _ _ _ => eapply ten_mean_keep
  | |- ten_is (aexpand 0 _) _ _ _ => eapply ten_expand0
  | |- ten_is (aexpand 1 _) _ _ _ => eapply ten_expand1
  | |- ten_is (aroll _ _) _ _ _ => eapply ten_roll
  | |- ten_is (aarange 0 _) _ _ _ => eapply ten_arange0
  | |- ten_is (aarange 1 (_ + 1)) _ _ _ => eapply ten_arange1
  | |- ten_is (aslice 1 (_ + 1) _) _ _ _ => eapply ten_slice1
  | |- ten_is (aslice 0 _ _) _ _ _ => eapply ten_slice0
  | |- ten_is (atake (map _ (seq 0 _)) _) _ _ _ =>
      eapply ten_take_seq; [|intros; eapply mod_lt; eassumption]
  | |- ten_is (awhere _ _ _) _ _ _ => eapply ten_where_same
  | |- ten_is (acast _ _) _ _ _ => eapply ten_cast
  | |- ten_is (azeros _) _ _ _ => eapply ten_zeros
  | |- ten_is (asort _) _ _ _ => eapply ten_rowmap
  | |- ten_is (acumsum _) _ _ _ => eapply ten_rowmap
  | |- ten_is (aconcat _ _) _ _ _ => eapply ten_concat
  | |- ten_is (sci _) _ _ _ => eapply ten_sc
  | |- ten_is (sc _) _ _ _ => eapply ten_sc
  | |- ten_is (scn _) _ _ _ => eapply ten_sc
  | |- ten_is (amap _ _ _) _ _ _ => eapply ten_map
  | |- ten_is (aabs _) _ _ _ => eapply ten_map
  | |- ten_is (aneg _) _ _ _ => eapply ten_map
  | |- ten_is (asq _) _ _ _ => eapply ten_map
  | |- ten_is (aexp _) _ _ _ => eapply ten_map
  | |- ten_is (alog _) _ _ _ => eapply ten_map
  | |- ten_is (asqrt _) _ _ _ => eapply ten_map
  | |- ten_is (afloor _) _ _ _ => eapply ten_map
  | |- ten_is (anot _) _ _ _ => eapply ten_map
  | |- ten_is (aisnan _) _ _ _ => eapply ten_map
  | |- ten_is (agt ?x ?y) _ _ _ => change (agt x y) with (alt y x)
  | |- ten_is (age ?x ?y) _ _ _ => change (age x y) with (ale y x)
  | |- ten_is (aadd _ _) _ _ _ => eapply ten_bin
  | |- ten_is (asub _ _) _ _ _ => eapply ten_bin
  | |- ten_is (amul _ _) _ _ _ => eapply ten_bin
  | |- ten_is (adiv _ _) _ _ _ => eapply ten_bin
  | |- ten_is (apow _ _) _ _ _ => eapply ten_bin
  | |- ten_is (amax _ _) _ _ _ => eapply ten_bin
  | |- ten_is (amin _ _) _ _ _ => eapply ten_bin
  | |- ten_is (alt _ _) _ _ _ => eapply ten_bin
  | |- ten_is (ale _ _) _ _ _ => eapply ten_bin
  | |- ten_is (aeq _ _) _ _ _ => eapply ten_bin
  | |- ten_is (aand _ _) _ _ _ => eapply ten_bin
  | |- ten_is (aor _ _) _ _ _ => eapply ten_bin
  | |- ten_is (ainplace _ _ _) _ _ _ => eapply ten_inplace
  | H : ten_is ?T _ _ _ |- ten_is ?T _ _ _ => exact H
  | H : arr_is ?a _ _ _ |- ten_is (Ok ?a) _ _ _ => exact (ten_Ok _ _ _ _ H)
  | |- bshape _ _ = Some _ => bsolve
  | |- djoin _ _ = _ => solve [dts]
  | |- forall i, inb _ i -> _ = ?g i =>
      is_evar g; intros; cbv beta; reflexivity
  end.
Ltac ten := repeat ten1.

Lemma ten_conv T d d' s f g : ten_is T d s f -> d = d' -> (forall i, inb s i -> f i = g i) ->
  ten_is T d' s g.
Proof. intros H -> Hx; eapply ten_ext; eauto. Qed.
(** describe [T], leaving the pointwise goal *)
Ltac ten_start := eapply ten_conv; [ten | try solve [dts] | ].

(** rows *)
Definition e1n (M : nat) (y : num) (x : nat -> num) : num := nsumn M (fun k => nabs (nsub y (x k))).
Definition e2n (M : nat) (x : nat -> num) : num :=
  nsumn M (fun i => nsumn M (fun j => nabs (nsub (x i) (x j)))).


(** prove equality of two values built by the same operations from entries *)
Ltac rows :=
  bidx_simp; cbn [tl hd];
  try reflexivity;
  lazymatch goal with
  | |- nsumn ?n _ = nsumn ?n _ => apply nsumn_ext; intros; rows
  | |- nadd _ _ = nadd _ _ => apply f_equal2; rows
  | |- nsub _ _ = nsub _ _ => apply f_equal2; rows
  | |- nmul _ _ = nmul _ _ => apply f_equal2; rows
  | |- ndiv _ _ = ndiv _ _ => apply f_equal2; rows
  | |- nabs _ = nabs _ => apply f_equal; rows
  | |- nopp _ = nopp _ => apply f_equal; rows
  | |- nsq _ = nsq _ => apply f_equal; rows
  | |- b2n _ = b2n _ => apply f_equal; rows
  | |- nleb _ _ = nleb _ _ => apply f_equal2; rows
  | |- nltb _ _ = nltb _ _ => apply f_equal2; rows
  | |- nth _ ?l _ = nth _ ?l _ => apply (f_equal (fun k => nth k l _)); rows
  | |- nth ?k _ _ = nth ?k _ _ => apply (f_equal (fun l => nth k l _)); rows
  | |- nsort _ = nsort _ => apply f_equal; rows
  | |- ncumsum _ = ncumsum _ => apply f_equal; rows
  | |- map _ ?l = map _ ?l =>
      apply map_ext_in; let k := fresh "k" in let H := fresh "H" in
      intros k H; apply in_seq in H; rows
  | |- (if ?k <? ?m then _ else _) = (if ?k <? ?m then _ else _) =>
      destruct (Nat.ltb_spec k m); rows
  | _ => idtac
  end.
(** start the description of an estimator *)
Ltac est f :=
  intros; unfold f, lastdim;
  repeat match goal with
  | H : arr_is ?a _ _ _ |- context [sh ?a] =>
      let H' := fresh in pose proof H as (_ & H' & _); rewrite H'; clear H'; cbn [hd]
  end;
  ten_start.

Definition row_nrg (M : nat) (y : num) (x : nat -> num) : num :=
  e1n M y x ./ nofnat M .- Fin half .* (e2n M x ./ nofnat (M * M)).
Definition row_fair (M : nat) (y : num) (x : nat -> num) : num :=
  e1n M y x ./ nofnat M .- Fin half .* (e2n M x ./ nofnat (M * (M - 1))).
Definition row_pwm (M : nat) (y : num) (x : nat -> num) : num :=
  e1n M y x ./ nofnat M .+ nsumn M x ./ nofnat M
  .- Fin 2 .* (nsumn M (fun k => x k .* nofnat k) ./ Fin (INR M * (INR M - 1))).
Definition row_lag (M : nat) (g : nat -> nat) (y : num) (x : nat -> num) : num :=
  e1n M y x ./ nofnat M .- Fin half .* (nsumn M (fun k => nabs (x k .- x (g k))) ./ nofnat M).
Definition row_qd (M : nat) (y : num) (x : nat -> num) : num :=
  nofnat 2 .* (nsumn M (fun k =>
    b2n (nleb (x k) y) .* (nofnat (1 + k) .- Fin half) .* (y .- x k)
    .+ b2n (nltb y (x k)) .* (nofnat M .- (nofnat (1 + k) .- Fin half)) .* (x k .- y))
   ./ nofnat (M * M)).


Lemma nrg_arr : forall obs fct d1 d2 M s y x, arr_is obs d1 s y -> arr_is fct d2 (M :: s) x ->
  ten_is (crps_nrg_arr obs fct) DFloat s (fun r => row_nrg M (y r) (fun k => x (k :: r))).
Proof. est crps_nrg_arr. intros r Hr. unfold row_nrg, e1n, e2n. rows. Qed.
Lemma fair_arr : forall obs fct d1 d2 M s y x, arr_is obs d1 s y -> arr_is fct d2 (M :: s) x ->
  ten_is (crps_fair_arr obs fct) DFloat s (fun r => row_fair M (y r) (fun k => x (k :: r))).
Proof. est crps_fair_arr. intros r Hr. unfold row_fair, e1n, e2n. rows. Qed.
Lemma pwm_arr : forall obs fct d1 d2 M s y x, arr_is obs d1 s y -> arr_is fct d2 (M :: s) x ->
  ten_is (crps_pwm_arr obs fct) DFloat s (fun r => row_pwm M (y r) (fun k => x (k :: r))).
Proof. est crps_pwm_arr. intros r Hr. unfold row_pwm, e1n, e2n. rows. Qed.
Lemma akr_arr : forall obs fct d1 d2 M s y x, arr_is obs d1 s y -> arr_is fct d2 (M :: s) x ->
  ten_is (crps_akr_arr obs fct) DFloat s
    (fun r => row_lag M (fun k => (k + M - 1 mod M) mod M) (y r) (fun k => x (k :: r))).
Proof. est crps_akr_arr. intros r Hr. unfold row_lag, e1n, e2n. rows. Qed.
Lemma akr_circperm_arr : forall obs fct d1 d2 M s y x, arr_is obs d1 s y -> arr_is fct d2 (M :: s) x ->
  ten_is (crps_akr_circperm_arr obs fct) DFloat s
    (fun r => row_lag M (fun k => (k + M - (M / 2) mod M) mod M) (y r) (fun k => x (k :: r))).
Proof. est crps_akr_circperm_arr. intros r Hr. unfold row_lag, e1n, e2n. rows. Qed.
Lemma qd_arr : forall obs fct d1 d2 M s y x, arr_is obs d1 s y -> arr_is fct d2 (M :: s) x ->
  ten_is (crps_qd_arr obs fct) DFloat s
    (fun r => row_qd M (y r) (fun k => x (k :: r))).
Proof. est crps_qd_arr. intros r Hr. unfold row_qd, e1n, e2n. rows. Qed.

(** ** "int" and pinball *)
Definition row_int (M : nat) (cdf : nat -> num) (ypos : num) (y : num) (x : nat -> num) : num :=
  let C := nsort (map (fun k => if k <? M then cdf k else ypos) (seq 0 (M + 1))) in
  let E := nsort (map (fun k => if k <? M then x k else y) (seq 0 (M + 1))) in
  nsumn M (fun k => (nth (1 + k) E NaN .- nth k E NaN)
                    .* nsq (nth k C NaN .- b2n (nleb y (nth k E NaN)) .* Fin 1)).
Lemma int_arr : forall obs fct d1 d2 M s y x, arr_is obs d1 s y -> arr_is fct d2 (M :: s) x ->
  ten_is (crps_int_arr obs fct) DFloat s
    (fun r => row_int M (fun k => Fin 0 .+ nofnat (1 + k) ./ nofnat M)
       (nsumn M (fun k => b2n (nleb (x (k :: r)) (y r)) .* Fin 1) ./ nofnat M)
       (y r) (fun k => x (k :: r))).
Proof. est crps_int_arr. intros r Hr. unfold row_int. rows. Qed.

Definition row_pinball (M : nat) (y : num) (x a : nat -> num) : num :=
  nofnat 2 .* (nsumn M (fun k =>
    b2n (nleb (x k) y) .* a k .* (y .- x k)
    .+ b2n (nltb y (x k)) .* (nofnat 1 .- a k) .* (x k .- y)) ./ nofnat M).
Lemma pinball_arr : forall obs fct al d1 d2 d3 M s y x a, arr_is obs d1 s y ->
  arr_is fct d2 (M :: s) x -> arr_is al d3 [M] a ->
  ten_is (quantile_pinball_arr obs fct al) DFloat s
    (fun r => row_pinball M (y r) (fun k => x (k :: r)) (fun k => a [k])).
Proof. est quantile_pinball_arr. intros r Hr. unfold row_pinball. rows. Qed.

(** ** outcome-weighted, vertically re-scaled *)
Definition e1wn (M : nat) (y : num) (x w : nat -> num) : num := nsumn M (fun k => nabs (y .- x k) .* w k).
Definition e2wn (M : nat) (x w : nat -> num) : num :=
  nsumn M (fun i => nsumn M (fun j => nabs (x i .- x j) .* w i .* w j)).
Definition row_ow (M : nat) (y : num) (x : nat -> num) (a : num) (w : nat -> num) : num :=
  let wbar := nsumn M w ./ nofnat M in
  e1wn M y x w .* a ./ (nofnat M .* wbar)
  .- Fin half .* (e2wn M x w .* (a ./ (nofnat (M * M) .* nsq wbar))).
Definition row_vr (M : nat) (y : num) (x : nat -> num) (a : num) (w : nat -> num) : num :=
  e1wn M y x w .* a ./ nofnat M
  .- Fin half .* (nsumn M (fun i => nsumn M (fun j => nabs (x i .- x j) .* (w i .* w j))) ./ nofnat (M * M))
  .+ (nsumn M (fun k => nabs (x k) .* w k) ./ nofnat M .- nabs y .* a) .* (nsumn M w ./ nofnat M .- a).
Lemma ow_arr : forall obs fct ow fw d1 d2 d3 M s y x a w, arr_is obs d1 s y -> arr_is fct d2 (M :: s) x ->
  arr_is ow d3 s a -> arr_is fw DFloat (M :: s) w ->
  ten_is (ow_ensemble_arr obs fct ow fw) DFloat s
    (fun r => row_ow M (y r) (fun k => x (k :: r)) (a r) (fun k => w (k :: r))).
Proof. est ow_ensemble_arr. intros r Hr. unfold row_ow, e1wn, e2wn. rows. Qed.
(** [axis=1] is the last axis exactly when the forecasts have two axes *)
Lemma ten_mean_axis1 x d m n g : ten_is x d [m; n] g ->
  ten_is (amean_axis 1 x) DFloat [n] (fun r => nsumn m (fun k => g (k :: r)) ./ nofnat m).
Proof.
  intros H. unfold amean_axis. eapply ten_ext.
  - eapply ten_mean. eapply (ten_move_last 1 x d 0 m [n]); [exact H| simpl; lia | reflexivity].
  - intros i Hi. reflexivity.
Qed.
Lemma vr_arr : forall obs fct ow fw d1 d2 d3 M n y x a w, arr_is obs d1 [n] y -> arr_is fct d2 [M; n] x ->
  arr_is ow d3 [n] a -> arr_is fw DFloat [M; n] w ->
  ten_is (vr_ensemble_arr obs fct ow fw) DFloat [n]
    (fun r => row_vr M (y r) (fun k => x (k :: r)) (a r) (fun k => w (k :: r))).
Proof.
  intros. unfold vr_ensemble_arr, lastdim. pose proof H0 as (_ & E & _). rewrite E; cbn [hd].
  eapply ten_conv; [repeat first [eapply ten_mean_axis1 | ten1] | solve [dts] | ].
  intros r Hr. idx. unfold row_vr, e1wn, e2wn. rows.
Qed.

(** ** weighted *)
Definition fair_c (M : nat) (w : nat -> num) : num := nofnat 1 .- nsumn M (fun k => w k .* w k).
Definition row_nrg_w (M : nat) (y : num) (x w : nat -> num) : num :=
  e1wn M y x w .- Fin half .* e2wn M x w.
Definition row_fair_w (M : nat) (y : num) (x w : nat -> num) : num :=
  e1wn M y x w .- Fin half .* (e2wn M x w ./ fair_c M w).
Definition cumn (M : nat) (w : nat -> num) (k : nat) : num := nth k (ncumsum (map w (seq 0 M))) NaN.
Definition row_pwm_w (M : nat) (y : num) (x w : nat -> num) : num :=
  e1wn M y x w .+ nsumn M (fun k => x k .* w k)
  .- Fin 2 .* (nsumn M (fun k => x k .* w k .* (cumn M w k .- w k)) ./ fair_c M w).
Definition row_qd_w (M : nat) (y : num) (x w : nat -> num) : num :=
  nofnat 2 .* nsumn M (fun k =>
    let a := cumn M w k .- Fin half .* w k in
    w k .* (if neqb (b2n (nltb (nofnat 0) (x k .- y))) (Fin 0) then nopp a else nofnat 1 .- a)
    .* (x k .- y)).
Definition row_lag_w (M : nat) (g : nat -> nat) (y : num) (x w : nat -> num) : num :=
  e1wn M y x w .- Fin half .* nsumn M (fun k => nabs (x (g k) .- x k) .* w (g k)).
Lemma nrg_w_arr : forall obs fct wt d1 d2 d3 M s y x w, arr_is obs d1 s y -> arr_is fct d2 (M :: s) x ->
  arr_is wt d3 (M :: s) w ->
  ten_is (crps_nrg_w_arr obs fct wt) DFloat s
    (fun r => row_nrg_w M (y r) (fun k => x (k :: r)) (fun k => w (k :: r))).
Proof. est crps_nrg_w_arr. intros r Hr. unfold row_nrg_w, e1wn, e2wn. rows. Qed.
Lemma fair_w_arr : forall obs fct wt d1 d2 d3 M s y x w, arr_is obs d1 s y -> arr_is fct d2 (M :: s) x ->
  arr_is wt d3 (M :: s) w ->
  ten_is (crps_fair_w_arr obs fct wt) DFloat s
    (fun r => row_fair_w M (y r) (fun k => x (k :: r)) (fun k => w (k :: r))).
Proof. est crps_fair_w_arr. intros r Hr. unfold row_fair_w, e1wn, e2wn, fair_c. rows. Qed.
Lemma pwm_w_arr : forall obs fct wt d1 d2 d3 M s y x w, arr_is obs d1 s y -> arr_is fct d2 (M :: s) x ->
  arr_is wt d3 (M :: s) w ->
  ten_is (crps_pwm_w_arr obs fct wt) DFloat s
    (fun r => row_pwm_w M (y r) (fun k => x (k :: r)) (fun k => w (k :: r))).
Proof. est crps_pwm_w_arr. intros r Hr. unfold row_pwm_w, e1wn, e2wn, fair_c, cumn. rows. Qed.
Lemma qd_w_arr : forall obs fct wt d1 d2 d3 M s y x w, arr_is obs d1 s y -> arr_is fct d2 (M :: s) x ->
  arr_is wt d3 (M :: s) w ->
  ten_is (crps_qd_w_arr obs fct wt) DFloat s
    (fun r => row_qd_w M (y r) (fun k => x (k :: r)) (fun k => w (k :: r))).
Proof. est crps_qd_w_arr. intros r Hr. unfold row_qd_w, e1wn, e2wn, cumn. rows. Qed.
Lemma akr_w_arr : forall obs fct wt d1 d2 d3 M s y x w, arr_is obs d1 s y -> arr_is fct d2 (M :: s) x ->
  arr_is wt d3 (M :: s) w ->
  ten_is (crps_akr_w_arr obs fct wt) DFloat s
    (fun r => row_lag_w M (fun k => (k + 1) mod M) (y r) (fun k => x (k :: r)) (fun k => w (k :: r))).
Proof. est crps_akr_w_arr. intros r Hr. unfold row_lag_w, e1wn. rows. Qed.
Lemma akr_circperm_w_arr : forall obs fct wt d1 d2 d3 M s y x w, arr_is obs d1 s y -> arr_is fct d2 (M :: s) x ->
  arr_is wt d3 (M :: s) w ->
  ten_is (crps_akr_circperm_w_arr obs fct wt) DFloat s
    (fun r => row_lag_w M (fun k => (k + (M - 1) / 2) mod M) (y r) (fun k => x (k :: r)) (fun k => w (k :: r))).
Proof. est crps_akr_circperm_w_arr. intros r Hr. unfold row_lag_w, e1wn. rows. Qed.
Lemma int_w_arr : forall obs fct wt d1 d2 d3 M s y x w, arr_is obs d1 s y -> arr_is fct d2 (M :: s) x ->
  arr_is wt d3 (M :: s) w ->
  ten_is (crps_int_w_arr obs fct wt) DFloat s
    (fun r => row_int M (cumn M (fun k => w (k :: r))) (nsumn M (fun k => b2n (nleb (x (k :: r)) (y r)) .* w (k :: r))) (y r) (fun k => x (k :: r))).
Proof. est crps_int_w_arr. intros r Hr. unfold row_int, cumn. rows. Qed.

Definition e1own (M : nat) (y : num) (x w e : nat -> num) : num :=
  nsumn M (fun k => e k .* nabs (y .- x k) .* w k).
Definition e2own (M : nat) (x w e : nat -> num) : num :=
  nsumn M (fun i => nsumn M (fun j => e i .* e j .* nabs (x i .- x j) .* w i .* w j)).
Definition row_ow_w (M : nat) (y : num) (x : nat -> num) (a : num) (w e : nat -> num) : num :=
  let wbar := nsumn M (fun k => e k .* w k) in
  e1own M y x w e .* a ./ wbar .- Fin half .* (e2own M x w e .* (a ./ nsq wbar)).
Definition row_vr_w (M : nat) (y : num) (x : nat -> num) (a : num) (w e : nat -> num) : num :=
  e1own M y x w e .* a .- Fin half .* e2own M x w e
  .+ (nsumn M (fun k => e k .* nabs (x k) .* w k) .- nabs y .* a) .* (nsumn M (fun k => e k .* w k) .- a).
Lemma ow_w_arr : forall obs fct ow fw ew d1 d2 d3 d4 M s y x a w e, arr_is obs d1 s y -> arr_is fct d2 (M :: s) x ->
  arr_is ow d3 s a -> arr_is fw d4 (M :: s) w -> arr_is ew DFloat (M :: s) e ->
  ten_is (ow_ensemble_w_arr obs fct ow fw ew) DFloat s
    (fun r => row_ow_w M (y r) (fun k => x (k :: r)) (a r) (fun k => w (k :: r)) (fun k => e (k :: r))).
Proof. est ow_ensemble_w_arr. intros r Hr. unfold row_ow_w, e1own, e2own. rows. Qed.
Lemma vr_w_arr : forall obs fct ow fw ew d1 d2 d3 d4 M s y x a w e, arr_is obs d1 s y -> arr_is fct d2 (M :: s) x ->
  arr_is ow d3 s a -> arr_is fw d4 (M :: s) w -> arr_is ew DFloat (M :: s) e ->
  ten_is (vr_ensemble_w_arr obs fct ow fw ew) DFloat s
    (fun r => row_vr_w M (y r) (fun k => x (k :: r)) (a r) (fun k => w (k :: r)) (fun k => e (k :: r))).
Proof. est vr_ensemble_w_arr. intros r Hr. unfold row_vr_w, e1own, e2own. rows. Qed.
