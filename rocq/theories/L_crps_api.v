(** The whole of crps_ensemble, entry by entry. *)
From Verif Require Export L_axis.
Open Scope nat_scope.

Inductive est : Type := Nrg | Fair | Pwm | Qd | Akr | Circ | EInt.
Definition ename (e : est) : string :=
  match e with Nrg => "nrg" | Fair => "fair" | Pwm => "pwm" | Qd => "qd" | Akr => "akr"
             | Circ => "akr_circperm" | EInt => "int" end.
Definition esorts (e : est) : bool := match e with Pwm | Qd | EInt => true | _ => false end.
Definition known_estimators : list string :=
  ["nrg"; "fair"; "pwm"; "qd"; "akr"; "akr_circperm"; "int"]%string.
Lemma known_ename s : In s known_estimators -> exists e, s = ename e.
Proof.
  simpl. intros [<-|[<-|[<-|[<-|[<-|[<-|[<-|[]]]]]]]]; [exists Nrg|exists Fair|exists Pwm|exists Qd|exists Akr|exists Circ|exists EInt]; reflexivity.
Qed.

(** ** unweighted rows *)
Definition row_arr (e : est) (M : nat) (y : num) (x : nat -> num) : num :=
  match e with
  | Nrg => row_nrg M y x
  | Fair => row_fair M y x
  | Pwm => row_pwm M y x
  | Qd => row_qd M y x
  | Akr => row_lag M (fun k => (k + M - 1 mod M) mod M) y x
  | Circ => row_lag M (fun k => (k + M - (M / 2) mod M) mod M) y x
  | EInt => row_int M (fun k => Fin 0 .+ nofnat (1 + k) ./ nofnat M)
              (nsumn M (fun k => b2n (nleb (x k) y) .* Fin 1) ./ nofnat M) y x
  end.
Definition row_gu (e : est) (y : num) (x : list num) : num :=
  match e with
  | Nrg => crps_nrg_k y x
  | Fair => crps_fair_k y x
  | Pwm => crps_pwm_k y x
  | Qd => crps_qd_k y x
  | Akr => crps_akr_k y x
  | Circ => crps_akr_circperm_k y x
  | EInt => crps_int_k y x
  end.
Definition row_un (b : impl) (e : est) (M : nat) (y : num) (x : nat -> num) : num :=
  match b with Array => row_arr e M y x | Numba => row_gu e y (rw M x) end.
(** dtype of the result *)
Definition odt (b : impl) (e : est) (d : dtype) : dtype :=
  match b, e with
  | Array, _ => DFloat
  | Numba, (Nrg | Fair | Qd) => DFloat
  | Numba, _ => d
  end.
Lemma ncast_float x : ncast DFloat x = x. Proof. reflexivity. Qed.

Lemma backend_un b e obs fct d1 d2 M s y x : arr_is obs d1 s y -> arr_is fct d2 (M :: s) x ->
  ten_is (match b with Numba => crps_gufuncs (ename e) obs fct | Array => crps_ensemble_arr obs fct (ename e) end)
    (odt b e d1) s
    (fun r => ncast (odt b e d1) (row_un b e M (y r) (fun k => x (k :: r)))).
Proof.
  intros H1 H2. destruct b; destruct e; cbn [odt row_un row_arr row_gu];
    first [ eapply (gu_sv_is _ dfloat1); [apply outs_own|eassumption|eassumption]
          | eapply (gu_sv_is _ (fun d => d)); [apply outs_lazy|eassumption|eassumption]
          | eapply nrg_arr | eapply fair_arr | eapply pwm_arr | eapply qd_arr | eapply akr_arr
          | eapply akr_circperm_arr | eapply int_arr]; eassumption.
Qed.

(** ** weighted rows *)
Definition row_arr_w (e : est) (M : nat) (y : num) (x w : nat -> num) : num :=
  match e with
  | Nrg => row_nrg_w M y x w
  | Fair => row_fair_w M y x w
  | Pwm => row_pwm_w M y x w
  | Qd => row_qd_w M y x w
  | Akr => row_lag_w M (fun k => (k + 1) mod M) y x w
  | Circ => row_lag_w M (fun k => (k + (M - 1) / 2) mod M) y x w
  | EInt => row_int M (cumn M w) (nsumn M (fun k => b2n (nleb (x k) y) .* w k)) y x
  end.
Definition row_gu_w (e : est) (y : num) (x w : list num) : num :=
  match e with
  | Nrg => crps_nrg_w_k y x w
  | Fair => crps_fair_w_k y x w
  | Pwm => crps_pwm_w_k y x w
  | Qd => crps_qd_w_k y x w
  | Akr => crps_akr_w_k y x w
  | Circ => crps_akr_circperm_w_k y x w
  | EInt => crps_int_w_k y x w
  end.
Definition row_w (b : impl) (e : est) (M : nat) (y : num) (x w : nat -> num) : num :=
  match b with Array => row_arr_w e M y x w | Numba => row_gu_w e y (rw M x) (rw M w) end.
Definition odt_w (b : impl) (d : dtype) : dtype := match b with Array => DFloat | Numba => d end.

Lemma nrg_w_arrF obs fct wt d1 d2 M s y x w : arr_is obs d1 s y -> arr_is fct d2 (M :: s) x ->
  arr_is wt DFloat (M :: s) w ->
  ten_is (crps_nrg_w_arr obs fct wt) DFloat s (fun r => row_nrg_w M (y r) (fun k => x (k :: r)) (fun k => w (k :: r))).
Proof. intros. eapply nrg_w_arr; eassumption. Qed.
Lemma backend_w b e obs fct wt d1 d2 M s y x w : arr_is obs d1 s y -> arr_is fct d2 (M :: s) x ->
  arr_is wt DFloat (M :: s) w ->
  ten_is (match b with Numba => crps_gufuncs_w (ename e) obs fct wt
          | Array => crps_ensemble_w_arr obs fct wt (ename e) end)
    (odt_w b d1) s
    (fun r => ncast (odt_w b d1) (row_w b e M (y r) (fun k => x (k :: r)) (fun k => w (k :: r)))).
Proof.
  intros H1 H2 H3. destruct b; destruct e; cbn [odt_w row_w row_arr_w row_gu_w];
    first [ eapply (gu_svv_is _ (fun d => d)); [apply outs_lazy|eassumption|eassumption|eassumption]
          | eapply nrg_w_arr | eapply fair_w_arr | eapply pwm_w_arr | eapply qd_w_arr | eapply akr_w_arr
          | eapply akr_circperm_w_arr | eapply int_w_arr]; eassumption.
Qed.

(** ** weights *)
Definition normn (M : nat) (w : nat -> num) (k : nat) : num := w k ./ nsumn M w.
Lemma weight_check_ok wt fct d s d' M f w ax p :
  sh fct = M :: s -> arr_is wt d (insert_at p M s) w -> p <= length s ->
  norm_axis ax (S (length s)) = Ok (length s - p) ->
  (forall i, inb (insert_at p M s) i -> nltb (w i) (Fin 0) = false) ->
  d' = DFloat -> (f = fun i => normn M (fun k => w (insert_at p k (tl i))) (hd 0 i)) ->
  ten_is (univariate_weight_check wt fct ax) d' (M :: s) f.
Proof.
  intros Hs Hw Hp Hax Hneg -> ->. unfold univariate_weight_check, shift_axis. rewrite Hs. cbn [length].
  destruct (norm_axis_shift _ _ _ Hax) as [Hk E]. rewrite E.
  destruct (ten_move_last (Z.of_nat (length s - p)) (Ok wt) d p M s w (ten_Ok _ _ _ _ Hw) Hp) as (w' & E' & H').
  { apply norm_axis_nat; lia. }
  rewrite E'. cbn [bind]. pose proof H' as (_ & Hs' & _). rewrite Hs', shape_eqb_refl. cbn [negb].
  destruct (aany_spec (Ok w' <? sci 0)%A DInt (M :: s)
     (fun i => b2n (nltb (w (insert_at p (hd 0 i) (tl i))) (nofnat 0)))) as (b & Eb & Hb).
  { eapply ten_conv; [ten|reflexivity|]. intros i Hi. idx. cbn [bidx hd tl]. rows. }
  rewrite Eb. cbn [bind].
  assert (b = false) as ->.
  { destruct b; auto. destruct Hb as [Hb _]. destruct (Hb eq_refl) as (i & Hi & Hn).
    rewrite neqb_b2n in Hn. unfold nofnat in Hn. cbn [INR] in Hn. rewrite Hneg in Hn; [discriminate|].
    idx. apply inb_insert; auto. }
  eapply ten_conv; [ten|reflexivity|]. intros i Hi. idx. unfold normn. cbn [hd tl]. rows.
Qed.
Lemma weight_check_neg wt fct d s M w ax p i :
  sh fct = M :: s -> arr_is wt d (insert_at p M s) w -> p <= length s ->
  norm_axis ax (S (length s)) = Ok (length s - p) ->
  inb (insert_at p M s) i -> nltb (w i) (Fin 0) = true ->
  univariate_weight_check wt fct ax = Err ValueError.
Proof.
  intros Hs Hw Hp Hax Hi Hneg. unfold univariate_weight_check, shift_axis. rewrite Hs. cbn [length].
  destruct (norm_axis_shift _ _ _ Hax) as [Hk E]. rewrite E.
  destruct (ten_move_last (Z.of_nat (length s - p)) (Ok wt) d p M s w (ten_Ok _ _ _ _ Hw) Hp) as (w' & E' & H').
  { apply norm_axis_nat; lia. }
  rewrite E'. cbn [bind]. pose proof H' as (_ & Hs' & _). rewrite Hs', shape_eqb_refl. cbn [negb].
  destruct (aany_spec (Ok w' <? sci 0)%A DInt (M :: s)
     (fun i => b2n (nltb (w (insert_at p (hd 0 i) (tl i))) (nofnat 0)))) as (b & Eb & Hb).
  { eapply ten_conv; [ten|reflexivity|]. intros j Hj. idx. cbn [bidx hd tl]. rows. }
  rewrite Eb. cbn [bind].
  assert (b = true) as ->; [|reflexivity].
  apply Hb. exists (nth p i 0 :: remove_at p i).
  destruct (inb_remove p M s i Hp Hi). split; [split; auto|].
  rewrite neqb_b2n. cbn [hd tl]. rewrite insert_remove.
  - unfold nofnat; cbn [INR]. now rewrite Hneg.
  - rewrite (inb_length _ _ Hi), insert_at_length. lia.
Qed.
Lemma nonneg_nsum l : (forall a, In a l -> nltb a (Fin 0) = false) -> nltb (nsum l) (Fin 0) = false.
Proof.
  induction l as [|a l IH]; intros H; [unfold nsum; simpl; unfold rltb; rdec; auto; lra|].
  specialize (IH ltac:(intros; apply H; now right)). specialize (H a ltac:(now left)).
  unfold nsum in *; cbn [fold_right]. destruct a, (fold_right nadd (Fin 0) l); simpl in *; auto; try easy.
  apply rltb_false in IH, H. apply rltb_false. lra.
Qed.
Lemma nonneg_ndiv a b : nltb a (Fin 0) = false -> nltb b (Fin 0) = false -> nltb (a ./ b) (Fin 0) = false.
Proof.
  destruct a, b; simpl; auto; try easy; rewrite ?rltb_false; intros; rdec; auto;
    try (apply rltb_false; lra); try (exfalso; lra); try lra.
  - unfold infsgn; rdec; auto; exfalso; lra.
  - apply rltb_false. apply Rmult_le_pos; auto. left; apply Rinv_0_lt_compat; lra.
Qed.
Lemma normn_nonneg M w k : k < M -> (forall k, k < M -> nltb (w k) (Fin 0) = false) ->
  nltb (normn M w k) (Fin 0) = false.
Proof.
  intros Hk H. apply nonneg_ndiv; auto. apply nonneg_nsum. intros a Ha. apply in_map_iff in Ha.
  destruct Ha as (j & <- & Hj). apply in_seq in Hj. apply H; lia.
Qed.

(** ** the part of crps_ensemble after the NaN policy *)
Definition crps_core (srt : list num -> list nat) (backend : impl) (obs fct : arr) (ens_w : option arr)
    (estimator : string) (sorted_ensemble : bool) : tensor :=
  let* (fct, ens_w) := univariate_sort_ens srt fct ens_w (-1) estimator sorted_ensemble in
  let* ens_w := opt_weight_check ens_w fct (-1) in
  match backend, ens_w with
  | Numba, None => crps_gufuncs estimator obs fct
  | Numba, Some w => crps_gufuncs_w estimator obs fct w
  | Array, None => crps_ensemble_arr obs fct estimator
  | Array, Some w => crps_ensemble_w_arr obs fct w estimator
  end.
Lemma crps_ensemble_core srt b obs fct ax ens_w e sf pol :
  crps_ensemble srt b obs fct ax ens_w e sf pol =
  let* (obs, fct) := univariate_array_check obs fct ax in
  let* (obs, fct, ens_w) := apply_nan_policy_ens_uv obs fct pol ens_w (Some e) ax in
  crps_core srt b obs fct ens_w e sf.
Proof. reflexivity. Qed.

(** the order in which the members are used *)
Definition ord (srt : list num -> list nat) (e : est) (sf : bool) (M : nat) (x : nat -> num) (k : nat) : nat :=
  if negb sf && esorts e then sorted_by srt M x k else k.
Lemma sorts_name e : str_in (ename e) ["qd"; "pwm"; "int"]%string = esorts e.
Proof. destruct e; reflexivity. Qed.

Section Core.
Variable srt : list num -> list nat.
Hypothesis Hsrt : argsort_ok srt.
Lemma ord_lt e sf M x k : k < M -> ord srt e sf M x k < M.
Proof. intros. unfold ord. destruct (_ && _)%bool; auto. now apply sorted_by_lt. Qed.
Lemma ord_perm e sf M x : Permutation (map (ord srt e sf M x) (seq 0 M)) (seq 0 M).
Proof.
  unfold ord. destruct (_ && _)%bool; [now apply sorted_by_perm|]. now rewrite map_id.
Qed.
Lemma sorted_by_ext M x x' : (forall k, k < M -> x k = x' k) -> sorted_by srt M x = sorted_by srt M x'.
Proof. intros H. unfold sorted_by. now rewrite (rw_ext M x x' H). Qed.
Lemma gather_ok a fct d d2 M s f x : arr_is a d (M :: s) f -> arr_is fct d2 (M :: s) x ->
  ten_is (agather (Ok a) (aargsort srt (Ok fct))) d (M :: s)
    (fun i => f (sorted_by srt M (fun k => x (k :: tl i)) (hd 0 i) :: tl i)).
Proof.
  intros Ha Hf. unfold agather, aargsort. cbn [bind]. pose proof Hf as (_ & Hs & _). rewrite Hs.
  cbn [bind ish iat]. pose proof Ha as (Hd & Hs1 & Hv). rewrite Hs1.
  destruct (list_eq_dec Nat.eq_dec (M :: s) (M :: s)); [|easy]. apply ten_Ok. repeat split; auto.
  intros i Hi. idx. cbn [at_ hd tl].
  rewrite (row_is fct d2 M s x r Hf Hr). fold (rw M (fun k => x (k :: r))). unfold sorted_by.
  apply Hv. split; auto. apply (sorted_by_lt srt Hsrt M (fun k => x (k :: r)) k Hk).
Qed.

Lemma core_un b obs fct d1 d2 M s y x e sf : arr_is obs d1 s y -> arr_is fct d2 (M :: s) x ->
  ten_is (crps_core srt b obs fct None (ename e) sf) (odt b e d1) s
    (fun r => ncast (odt b e d1) (row_un b e M (y r)
       (fun k => x (ord srt e sf M (fun k => x (k :: r)) k :: r)))).
Proof.
  intros H1 H2. unfold crps_core, univariate_sort_ens, ord. rewrite sorts_name.
  destruct (negb sf && esorts e)%bool.
  - destruct (gather_ok fct fct d2 d2 M s x x H2 H2) as (f' & E & Hf'). rewrite E. cbn [bind opt_weight_check].
    pose proof (backend_un b e obs f' d1 d2 M s y _ H1 Hf') as HB.
    destruct b; exact HB.
  - cbn [bind opt_weight_check]. pose proof (backend_un b e obs fct d1 d2 M s y _ H1 H2) as HB.
    destruct b; exact HB.
Qed.

Lemma weight_check_last wt fct d M s w :
  sh fct = M :: s -> arr_is wt d (M :: s) w ->
  (forall i, inb (M :: s) i -> nltb (w i) (Fin 0) = false) ->
  ten_is (univariate_weight_check wt fct (-1)) DFloat (M :: s)
     (fun i => normn M (fun k => w (k :: tl i)) (hd 0 i)).
Proof.
  intros Hs Hw Hn.
  eapply (weight_check_ok wt fct d s DFloat M _ w (-1)%Z 0); eauto; try lia.
  pose proof (norm_axis_neg (length s) (S (length s)) ltac:(lia)) as E.
  replace (Z.of_nat (length s) - Z.of_nat (S (length s)))%Z with (-1)%Z in E by lia.
  rewrite E. f_equal; lia.
Qed.

(** weights seen by the estimator *)
Definition effw (e : est) (sf : bool) (M : nat) (x w : nat -> num) : nat -> num :=
  normn M (fun k => normn M w (ord srt e sf M x k)).
Lemma core_w b obs fct wt d1 d2 d3 M s y x w e sf : arr_is obs d1 s y -> arr_is fct d2 (M :: s) x ->
  arr_is wt d3 (M :: s) w ->
  (forall i, inb (M :: s) i -> nltb (w i) (Fin 0) = false) ->
  ten_is (crps_core srt b obs fct (Some wt) (ename e) sf) (odt_w b d1) s
    (fun r => ncast (odt_w b d1) (row_w b e M (y r)
       (fun k => x (ord srt e sf M (fun k => x (k :: r)) k :: r))
       (effw e sf M (fun k => x (k :: r)) (fun k => w (k :: r))))).
Proof.
  intros H1 H2 H3 Hn. unfold crps_core, univariate_sort_ens. rewrite sorts_name.
  unfold effw, ord. destruct (negb sf && esorts e)%bool.
  - destruct (gather_ok fct fct d2 d2 M s x x H2 H2) as (f' & E & Hf'). rewrite E. cbn [bind].
    destruct (weight_check_last wt f' d3 M s w) as (w1 & E1 & Hw1); auto; [apply Hf'|].
    rewrite E1. cbn [bind].
    destruct (gather_ok w1 fct DFloat d2 M s _ x Hw1 H2) as (w2 & E2 & Hw2). rewrite E2. cbn [bind opt_weight_check].
    destruct (weight_check_last w2 f' DFloat M s _ ltac:(apply Hf') Hw2) as (w3 & E3 & Hw3).
    { intros i Hi. idx. cbn [hd tl]. apply normn_nonneg.
      - now apply sorted_by_lt.
      - intros j Hj. apply Hn. split; auto. }
    rewrite E3. cbn [bind].
    pose proof (backend_w b e obs f' w3 d1 d2 M s y _ _ H1 Hf' Hw3) as HB.
    eapply ten_ext; [destruct b; exact HB|]. intros r Hr. cbn [hd tl]. reflexivity.
  - cbn [bind].
    destruct (weight_check_last wt fct d3 M s w) as (w1 & E1 & Hw1); auto; [apply H2|].
    rewrite E1. cbn [bind opt_weight_check].
    destruct (weight_check_last w1 fct DFloat M s _ ltac:(apply H2) Hw1) as (w3 & E3 & Hw3).
    { intros i Hi. idx. cbn [hd tl]. apply normn_nonneg; auto. intros j Hj. apply Hn. split; auto. }
    rewrite E3. cbn [bind].
    pose proof (backend_w b e obs fct w3 d1 d2 M s y _ _ H1 H2 Hw3) as HB.
    eapply ten_ext; [destruct b; exact HB|]. intros r Hr. cbn [hd tl]. reflexivity.
Qed.
Lemma core_neg b obs fct wt d3 M s w e sf i d2 x : arr_is fct d2 (M :: s) x ->
  arr_is wt d3 (M :: s) w -> inb (M :: s) i -> nltb (w i) (Fin 0) = true ->
  crps_core srt b obs fct (Some wt) (ename e) sf = Err ValueError.
Proof.
  intros H2 H3 Hi Hn. unfold crps_core, univariate_sort_ens. rewrite sorts_name.
  assert (A : norm_axis (-1) (S (length s)) = Ok (length s - 0)).
  { pose proof (norm_axis_neg (length s) (S (length s)) ltac:(lia)) as E.
    replace (Z.of_nat (length s) - Z.of_nat (S (length s)))%Z with (-1)%Z in E by lia.
    rewrite E. f_equal; lia. }
  destruct (negb sf && esorts e)%bool.
  - destruct (gather_ok fct fct d2 d2 M s x x H2 H2) as (f' & E & Hf'). rewrite E. cbn [bind].
    rewrite (weight_check_neg wt f' d3 s M w (-1)%Z 0 i); auto; [apply Hf'|lia].
  - cbn [bind]. rewrite (weight_check_neg wt fct d3 s M w (-1)%Z 0 i); auto; [apply H2|lia].
Qed.
End Core.

(** ** NaN policies *)
(** weights passed by the caller, after the cast and the move of the ensemble axis *)
Definition castw (d2 : dtype) (p : nat) (w : list nat -> num) (i : list nat) : num :=
  ncast d2 (w (insert_at p (hd 0 i) (tl i))).
Lemma move_w fct wt d2 d3 p M s w ax : dt fct = d2 ->
  arr_is wt d3 (insert_at p M s) w -> p <= length s ->
  norm_axis ax (S (length s)) = Ok (length s - p) ->
  ten_is (amove_last ax (acast (dt fct) (Ok wt))) d2 (M :: s) (castw d2 p w).
Proof.
  intros <- Hw Hp Hax. apply (ten_move_last ax _ (dt fct) p M s (fun i => ncast (dt fct) (w i))); auto.
  exact (ten_cast (dt fct) (Ok wt) d3 _ w (ten_Ok _ _ _ _ Hw)).
Qed.

(** well-shaped arguments: [obs] of shape [s], [fct] with the ensemble axis, of size [M],
    inserted at position [p] (counted from the end), [ax] the python axis number *)
Definition inputs (obs fct : arr) (ax : Z) (d1 d2 : dtype) (s : list nat) (p M : nat)
    (y x : list nat -> num) : Prop :=
  arr_is obs d1 s y /\ arr_is fct d2 (insert_at p M s) x /\ p <= length s /\
  norm_axis ax (S (length s)) = Ok (length s - p).

Section Api.
Variable srt : list num -> list nat.
Hypothesis Hsrt : argsort_ok srt.
Variables (b : impl) (obs fct : arr) (ax : Z) (d1 d2 : dtype) (s : list nat) (p M : nat) (y x : list nat -> num).
Hypothesis Hin : inputs obs fct ax d1 d2 s p M y x.
Let xr r k := x (insert_at p k r).

Lemma check_in : exists fct', univariate_array_check obs fct ax = Ok (obs, fct') /\
  arr_is fct' d2 (M :: s) (fun i => xr (tl i) (hd 0 i)).
Proof. destruct Hin as (H1 & H2 & H3 & H4). eapply array_check_ok; eauto. Qed.

Lemma api_un e sf : 
  ten_is (crps_ensemble srt b obs fct ax None (ename e) sf "propagate") (odt b e d1) s
    (fun r => ncast (odt b e d1) (row_un b e M (y r) (fun k => xr r (ord srt e sf M (xr r) k)))).
Proof.
  destruct check_in as (f' & E & Hf'). rewrite crps_ensemble_core, E. cbn [bind].
  destruct Hin as (H1 & _). exact (core_un srt Hsrt b obs f' d1 d2 M s y _ e sf H1 Hf').
Qed.
Lemma any_nan a d s' f : arr_is a d s' f -> exists b', aany (aisnan (Ok a)) = Ok b' /\
  (b' = true <-> exists i, inb s' i /\ f i = NaN).
Proof.
  intros Ha. destruct (aany_spec (aisnan (Ok a)) DInt s' (fun i => b2n (nisnan (f i)))) as (b' & E & Hb').
  { eapply ten_conv; [ten|reflexivity|]. reflexivity. }
  exists b'; split; auto. rewrite Hb'. split; intros (i & Hi & Hn); exists i; split; auto.
  - rewrite neqb_b2n in Hn. destruct (f i); simpl in *; easy.
  - now rewrite Hn, neqb_b2n.
Qed.

(** weights given by the caller *)
Section Weights.
Variables (wt : arr) (d3 : dtype) (w : list nat -> num).
Hypothesis Hw : arr_is wt d3 (insert_at p M s) w.
Let wr r k := ncast d2 (w (insert_at p k r)).
Lemma move_in fct' : dt fct' = d2 ->
  ten_is (amove_last ax (acast (dt fct') (Ok wt))) d2 (M :: s) (fun i => wr (tl i) (hd 0 i)).
Proof. intros Hd. destruct Hin as (_ & _ & H3 & H4). now apply (move_w fct' wt d2 d3 p M s w ax). Qed.
Lemma api_w e sf :
  (forall r k, inb s r -> k < M -> nltb (wr r k) (Fin 0) = false) ->
  ten_is (crps_ensemble srt b obs fct ax (Some wt) (ename e) sf "propagate") (odt_w b d1) s
    (fun r => ncast (odt_w b d1) (row_w b e M (y r) (fun k => xr r (ord srt e sf M (xr r) k))
       (effw srt e sf M (xr r) (wr r)))).
Proof.
  intros Hn. destruct check_in as (f' & E & Hf'). rewrite crps_ensemble_core, E. cbn [bind].
  unfold apply_nan_policy_ens_uv. destruct (move_in f' ltac:(apply Hf')) as (w' & E' & Hw').
  rewrite E'. cbn [bind String.eqb Ascii.eqb Bool.eqb].
  destruct Hin as (H1 & _).
  refine (core_w srt Hsrt b obs f' w' d1 d2 d2 M s y _ _ e sf H1 Hf' Hw' _).
  intros i Hi. idx. apply Hn; auto.
Qed.
Lemma api_neg e sf r k : inb s r -> k < M -> nltb (wr r k) (Fin 0) = true ->
  crps_ensemble srt b obs fct ax (Some wt) (ename e) sf "propagate" = Err ValueError.
Proof.
  intros Hr Hk Hn. destruct check_in as (f' & E & Hf'). rewrite crps_ensemble_core, E. cbn [bind].
  unfold apply_nan_policy_ens_uv. destruct (move_in f' ltac:(apply Hf')) as (w' & E' & Hw').
  rewrite E'. cbn [bind String.eqb Ascii.eqb Bool.eqb].
  eapply (core_neg srt Hsrt b obs f' w' d2 M s _ e sf (k :: r)); eauto. split; auto.
Qed.
End Weights.

(** raise *)
Let wr' (ow : option (arr * dtype * (list nat -> num))) r k :=
  match ow with None => Fin 0 | Some (_, _, w) => ncast d2 (w (insert_at p k r)) end.
Definition ok_w (ow : option (arr * dtype * (list nat -> num))) : Prop :=
  match ow with None => True | Some (wt, d3, w) => arr_is wt d3 (insert_at p M s) w end.
Definition the_w (ow : option (arr * dtype * (list nat -> num))) : option arr :=
  match ow with None => None | Some (wt, _, _) => Some wt end.
Lemma mask_in ow fct' : ok_w ow -> arr_is fct' d2 (M :: s) (fun i => xr (tl i) (hd 0 i)) ->
  exists ow', (match the_w ow with
     | None => Ok None
     | Some w => let* w := amove_last ax (acast (dt fct') (Ok w)) in Ok (Some w)
     end) = Ok ow' /\
  (match ow' with None => ow = None
    | Some w' => ow <> None /\ arr_is w' d2 (M :: s) (fun i => wr' ow (tl i) (hd 0 i)) end) /\
  ten_is (match ow' with
          | None => aisnan (Ok fct')
          | Some w => aor (aisnan (Ok fct')) (aisnan (Ok w))
          end) DInt (M :: s)
    (fun i => b2n (nisnan (xr (tl i) (hd 0 i)) || nisnan (wr' ow (tl i) (hd 0 i)))).
Proof.
  intros Ho Hf. destruct ow as [[[wt d3] w]|]; cbn [the_w].
  - destruct (move_in wt d3 w Ho fct' ltac:(apply Hf)) as (w' & E & Hw'). rewrite E. cbn [bind].
    exists (Some w'). repeat split; try easy; try apply Hw'.
    eapply ten_conv; [ten|reflexivity|]. intros i Hi. cbn [wr'].
    rewrite !(bidx_id _ _ Hi).
    destruct (nisnan _), (nisnan _); cbn [b2n orb]; rewrite nmax_Fin; f_equal;
      first [rewrite Rmax_left by lra; reflexivity | rewrite Rmax_right by lra; reflexivity].
  - exists None. repeat split; auto. eapply ten_conv; [ten|reflexivity|]. intros i Hi. cbn [wr' nisnan].
    now rewrite Bool.orb_false_r.
Qed.
Lemma api_raise_ok ow e sf : ok_w ow ->
  (forall r, inb s r -> y r <> NaN) ->
  (forall r k, inb s r -> k < M -> xr r k <> NaN /\ wr' ow r k <> NaN) ->
  crps_ensemble srt b obs fct ax (the_w ow) e sf "raise" =
  crps_ensemble srt b obs fct ax (the_w ow) e sf "propagate".
Proof.
  intros Ho Hy Hx. destruct check_in as (f' & E & Hf'). rewrite !crps_ensemble_core, E. cbn [bind].
  unfold apply_nan_policy_ens_uv. destruct (mask_in ow f' Ho Hf') as (ow' & E1 & Ho' & HT).
  rewrite E1. cbn [bind String.eqb Ascii.eqb Bool.eqb].
  destruct HT as (m & E2 & Hm). unfold tensor in E2; rewrite E2. cbn [bind].
  destruct (aany_spec (Ok m) _ _ _ (ten_Ok _ _ _ _ Hm)) as (b1 & E3 & Hb1). rewrite E3. cbn [bind].
  destruct Hin as (H1 & _). destruct (any_nan obs d1 s y H1) as (b2 & E4 & Hb2). rewrite E4. cbn [bind].
  assert (b1 = false) as ->.
  { destruct b1; auto. destruct Hb1 as [Hb1 _]. destruct (Hb1 eq_refl) as (i & Hi & Hn). idx.
    destruct (Hx r k Hr Hk). rewrite neqb_b2n in Hn. cbn [hd tl] in Hn.
    destruct (xr r k), (wr' ow r k); simpl in Hn; easy. }
  assert (b2 = false) as ->.
  { destruct b2; auto. destruct Hb2 as [Hb2 _]. destruct (Hb2 eq_refl) as (i & Hi & Hn). now apply Hy in Hn. }
  reflexivity.
Qed.
Lemma api_raise_err ow e sf : ok_w ow ->
  (exists r, inb s r /\ y r = NaN) \/ (exists r k, inb s r /\ k < M /\ (xr r k = NaN \/ wr' ow r k = NaN)) ->
  crps_ensemble srt b obs fct ax (the_w ow) e sf "raise" = Err ValueError.
Proof.
  intros Ho HN. destruct check_in as (f' & E & Hf'). rewrite !crps_ensemble_core, E. cbn [bind].
  unfold apply_nan_policy_ens_uv. destruct (mask_in ow f' Ho Hf') as (ow' & E1 & Ho' & HT).
  rewrite E1. cbn [bind String.eqb Ascii.eqb Bool.eqb].
  destruct HT as (m & E2 & Hm). unfold tensor in E2; rewrite E2. cbn [bind].
  destruct (aany_spec (Ok m) _ _ _ (ten_Ok _ _ _ _ Hm)) as (b1 & E3 & Hb1). rewrite E3. cbn [bind].
  destruct Hin as (H1 & _). destruct (any_nan obs d1 s y H1) as (b2 & E4 & Hb2). rewrite E4. cbn [bind].
  destruct HN as [HN|(r & k & Hr & Hk & HN)].
  - apply Hb2 in HN as ->. now rewrite Bool.orb_true_r.
  - assert (b1 = true) as ->; [|reflexivity]. apply Hb1. exists (k :: r). split; [split; auto|].
    cbn [hd tl]. rewrite neqb_b2n. destruct HN as [-> | ->]; simpl; rewrite ?Bool.orb_true_r; reflexivity.
Qed.

(** omit *)
Definition omx r k : num := if nisnan (xr r k) then Fin 0 else xr r k.
Definition omw ow r k : num :=
  match ow with
  | None => b2n (negb (nisnan (xr r k)))
  | Some _ => if nisnan (xr r k) || nisnan (wr' ow r k) then Fin 0 else wr' ow r k
  end.
Lemma api_omit ow e sf : ok_w ow -> (e = Nrg \/ e = Fair \/ e = Pwm \/ e = Qd) ->
  (forall r k, inb s r -> k < M -> nltb (wr' ow r k) (Fin 0) = false) ->
  ten_is (crps_ensemble srt b obs fct ax (the_w ow) (ename e) sf "omit") (odt_w b d1) s
    (fun r => ncast (odt_w b d1) (row_w b e M (y r) (fun k => omx r (ord srt e sf M (omx r) k))
       (effw srt e sf M (omx r) (omw ow r)))).
Proof.
  intros Ho He Hneg. destruct check_in as (f' & E & Hf'). rewrite !crps_ensemble_core, E. cbn [bind].
  unfold apply_nan_policy_ens_uv. destruct (mask_in ow f' Ho Hf') as (ow' & E1 & Ho' & HT).
  rewrite E1. cbn [bind String.eqb Ascii.eqb Bool.eqb].
  destruct HT as (m & E2 & Hm). unfold tensor in E2; rewrite E2. cbn [bind].
  replace (str_in (ename e) ["int"; "akr"; "akr_circperm"]%string) with false
    by (destruct He as [->|[->|[->| ->]]]; reflexivity).
  assert (HF : ten_is (awhere (aisnan (Ok f')) (sc 0) (Ok f')) DFloat (M :: s) (fun i => omx (tl i) (hd 0 i))).
  { eapply ten_conv; [eapply ten_where_scl; ten|destruct d2; reflexivity|]. intros i Hi. unfold omx. rewrite ?(bidx_id _ _ Hi), neqb_b2n.
    destruct (nisnan (xr (tl i) (hd 0 i))); reflexivity. }
  destruct HF as (f2 & EF & HF). rewrite EF. cbn [bind].
  assert (HW : ten_is (match ow' with
      | None => acast (dt f2) (anot (Ok m))
      | Some w => awhere (Ok m) (sc 0) (Ok w) end) DFloat (M :: s) (fun i => omw ow (tl i) (hd 0 i))).
  { destruct ow' as [w'|]; destruct ow as [[[wt d3] w]|]; try easy; try (destruct Ho'; congruence).
    - destruct Ho' as [_ Hw'].
      eapply ten_conv; [eapply ten_where_scl; ten|destruct d2; reflexivity|]. intros i Hi. unfold omw. rewrite ?(bidx_id _ _ Hi), neqb_b2n.
      destruct (nisnan _), (nisnan _); reflexivity.
    - replace (dt f2) with DFloat by (symmetry; apply HF).
      eapply ten_conv; [ten|reflexivity|]. intros i Hi. unfold omw, wr'. cbn [nisnan ncast].
      rewrite Bool.orb_false_r. destruct (nisnan _); simpl; f_equal; lra. }
  destruct HW as (w2 & EW & HW). unfold tensor in EW; rewrite EW. cbn [bind].
  destruct Hin as (H1 & _).
  refine (core_w srt Hsrt b obs f2 w2 d1 DFloat DFloat M s y _ _ e sf H1 HF HW _).
  intros i Hi. idx. cbn [hd tl]. unfold omw.
  assert (Z : nltb (Fin 0) (Fin 0) = false) by (simpl; unfold rltb; rdec; auto; lra).
  assert (Z1 : nltb (Fin 1) (Fin 0) = false) by (simpl; unfold rltb; rdec; auto; lra).
  destruct ow as [ow|].
  - destruct (_ || _)%bool; auto.
  - destruct (nisnan _); auto.
Qed.
Lemma api_omit_ni ow e sf : ok_w ow -> In e ["int"; "akr"; "akr_circperm"]%string ->
  crps_ensemble srt b obs fct ax (the_w ow) e sf "omit" = Err NotImplementedError.
Proof.
  intros Ho He. destruct check_in as (f' & E & Hf'). rewrite !crps_ensemble_core, E. cbn [bind].
  unfold apply_nan_policy_ens_uv. destruct (mask_in ow f' Ho Hf') as (ow' & E1 & Ho' & HT).
  rewrite E1. cbn [bind String.eqb Ascii.eqb Bool.eqb].
  destruct HT as (m & E2 & Hm). unfold tensor in E2; rewrite E2. cbn [bind].
  replace (str_in e ["int"; "akr"; "akr_circperm"]%string) with true; [reflexivity|].
  symmetry. apply existsb_exists. exists e. split; auto. apply String.eqb_refl.
Qed.
Lemma api_policy ow e sf pol : ok_w ow -> ~ In pol ["propagate"; "omit"; "raise"]%string ->
  crps_ensemble srt b obs fct ax (the_w ow) e sf pol = Err ValueError.
Proof.
  intros Ho He. destruct check_in as (f' & E & Hf'). rewrite !crps_ensemble_core, E. cbn [bind].
  unfold apply_nan_policy_ens_uv. destruct (mask_in ow f' Ho Hf') as (ow' & E1 & Ho' & HT).
  rewrite E1. cbn [bind].
  assert (N : forall q, In q ["propagate"; "omit"; "raise"]%string -> String.eqb pol q = false).
  { intros q Hq. apply String.eqb_neq. intros ->; tauto. }
  rewrite !N by (simpl; tauto).
  destruct HT as (m & E2 & Hm). unfold tensor in E2; rewrite E2. cbn [bind]. reflexivity.
Qed.
(** estimator names *)
Lemma api_estimator ow e sf : ok_w ow -> ~ In e known_estimators -> ~ In e ["ownrg"; "vrnrg"]%string ->
  (forall r k, inb s r -> k < M -> nltb (wr' ow r k) (Fin 0) = false) ->
  crps_ensemble srt b obs fct ax (the_w ow) e sf "propagate" = Err ValueError.
Proof.
  intros Ho He He' Hneg. destruct check_in as (f' & E & Hf'). rewrite !crps_ensemble_core, E. cbn [bind].
  unfold apply_nan_policy_ens_uv. destruct (mask_in ow f' Ho Hf') as (ow' & E1 & Ho' & HT).
  rewrite E1. cbn [bind String.eqb Ascii.eqb Bool.eqb].
  unfold crps_core, univariate_sort_ens.
  assert (N : forall q, In q known_estimators \/ In q ["ownrg"; "vrnrg"]%string -> String.eqb e q = false).
  { intros q Hq. apply String.eqb_neq. intros ->; tauto. }
  assert (Z : str_in e ["qd"; "pwm"; "int"]%string = false).
  { unfold str_in; cbn [existsb]. rewrite !N by (simpl; tauto). reflexivity. }
  rewrite Z, Bool.andb_false_r. cbn [bind].
  destruct ow' as [w'|]; cbn [bind opt_weight_check].
  - destruct Ho' as [_ Hw'].
    destruct (weight_check_last w' f' d2 M s _ ltac:(apply Hf') Hw') as (w1 & E2 & Hw1).
    { intros i Hi. idx. apply Hneg; auto. }
    unfold tensor in E2; rewrite E2. cbn [bind].
    cbn [opt_weight_check].
    destruct (weight_check_last w1 f' DFloat M s _ ltac:(apply Hf') Hw1) as (w2 & E3 & Hw2).
    { intros i Hi. idx. cbn [hd tl]. apply normn_nonneg; auto. }
    rewrite E3. cbn [bind]. unfold crps_gufuncs_w, crps_ensemble_w_arr.
    rewrite !N by (simpl; tauto). destruct b; reflexivity.
  - unfold crps_gufuncs, crps_ensemble_arr. rewrite !N by (simpl; tauto). destruct b; reflexivity.
Qed.
Lemma api_estimator_ow e sf : In e ["ownrg"; "vrnrg"]%string ->
  crps_ensemble srt b obs fct ax None e sf "propagate" =
  Err (match b with Numba => TypeError | Array => ValueError end).
Proof.
  intros He. destruct check_in as (f' & E & Hf'). rewrite !crps_ensemble_core, E. cbn [bind].
  destruct He as [<-|[<-|[]]]; unfold crps_core, univariate_sort_ens; cbn; rewrite ?Bool.andb_false_r;
    destruct b; reflexivity.
Qed.
End Api.
