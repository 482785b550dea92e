(** Scaling and translation of values. *)
From Verif Require Export L_closed.
From Coq Require Import Psatz.
Open Scope R_scope.

Ltac rdec := repeat match goal with
  | |- context [Rlt_dec ?a ?b] => destruct (Rlt_dec a b)
  | |- context [Rle_dec ?a ?b] => destruct (Rle_dec a b)
  | |- context [Req_EM_T ?a ?b] => destruct (Req_EM_T a b) end.
Section scale.
Variable c : R.
Hypothesis Hc : 0 < c.
Ltac sgn := exfalso; nra.
Lemma infsgn_scal r : infsgn (0 + c * r) = infsgn r.
Proof. unfold infsgn. rdec; try reflexivity; sgn. Qed.
Lemma infsgn_mul a r : 0 < a -> infsgn (a * r) = infsgn r.
Proof. intros Ha. unfold infsgn. rdec; try reflexivity; exfalso; nra. Qed.
Lemma scal_infsgn r : scal c (infsgn r) = infsgn r.
Proof. unfold infsgn. rdec; reflexivity. Qed.
Lemma scal_opp_infsgn r : scal c (nopp (infsgn r)) = nopp (infsgn r).
Proof. unfold infsgn. rdec; reflexivity. Qed.
Lemma aff_sub a x y : nsub (aff a c x) (aff a c y) = scal c (nsub x y).
Proof. destruct x, y; simpl; try reflexivity. f_equal. ring. Qed.
Lemma scal_sub x y : nsub (scal c x) (scal c y) = scal c (nsub x y).
Proof. apply aff_sub. Qed.
Lemma scal_add x y : nadd (scal c x) (scal c y) = scal c (nadd x y).
Proof. destruct x, y; simpl; try reflexivity. f_equal. ring. Qed.
Lemma aff_add_scal a x y : nadd (aff a c x) (scal c y) = aff a c (nadd x y).
Proof. destruct x, y; simpl; try reflexivity. f_equal. ring. Qed.
Lemma scal_mul_l x y : nmul (scal c x) y = scal c (nmul x y).
Proof. destruct x, y; simpl; rewrite ?infsgn_scal, ?scal_infsgn, ?scal_opp_infsgn; try reflexivity. f_equal. ring. Qed.
Lemma scal_mul_r x y : nmul x (scal c y) = scal c (nmul x y).
Proof. destruct x, y; simpl; rewrite ?infsgn_scal, ?scal_infsgn, ?scal_opp_infsgn; try reflexivity. f_equal. ring. Qed.
Lemma scal_div x y : ndiv (scal c x) (scal c y) = ndiv x y.
Proof.
  destruct x, y; simpl; try reflexivity; rdec; rewrite ?infsgn_scal; try reflexivity; try sgn. f_equal. field. split; lra.
Qed.
Lemma scal_div_l x y : ndiv (scal c x) y = scal c (ndiv x y).
Proof.
  destruct x, y; simpl; try reflexivity; rdec; rewrite ?infsgn_scal, ?scal_infsgn; try reflexivity; try sgn; simpl; f_equal; field; auto.
Qed.
Lemma scal_abs x : nabs (scal c x) = scal c (nabs x).
Proof. destruct x; simpl; try reflexivity. f_equal. rewrite !Rplus_0_l, Rabs_mult, (Rabs_right c) by lra. reflexivity. Qed.
Lemma scal_opp x : nopp (scal c x) = scal c (nopp x).
Proof. destruct x; simpl; try reflexivity. f_equal. ring. Qed.
Lemma scal_min0 x : nmin (Fin 0) (scal c x) = scal c (nmin (Fin 0) x).
Proof. destruct x; unfold nmin, nleb, rleb; simpl; try reflexivity; rdec; simpl; try reflexivity; try sgn; f_equal; ring. Qed.
Lemma scal_max0 x : nmax (Fin 0) (scal c x) = scal c (nmax (Fin 0) x).
Proof. destruct x; unfold nmax, nleb, rleb; simpl; try reflexivity; rdec; simpl; try reflexivity; try sgn; f_equal; ring. Qed.
Lemma scal_max0' x : nmax (scal c x) (Fin 0) = scal c (nmax x (Fin 0)).
Proof. destruct x; unfold nmax, nleb, rleb; simpl; try reflexivity; rdec; simpl; try reflexivity; try sgn; f_equal; ring. Qed.
Lemma scal_lt0 x : nltb (scal c x) (Fin 0) = nltb x (Fin 0).
Proof. destruct x; simpl; try reflexivity; unfold rltb; rdec; try reflexivity; sgn. Qed.
Lemma scal_le0 x : nleb (scal c x) (Fin 0) = nleb x (Fin 0).
Proof. destruct x; simpl; try reflexivity; unfold rleb; rdec; try reflexivity; sgn. Qed.
Lemma scal_lt x y : nltb (scal c x) (scal c y) = nltb x y.
Proof. destruct x, y; simpl; try reflexivity; unfold rltb; rdec; try reflexivity; sgn. Qed.
Lemma scal_log x : nlog (scal c x) = aff (ln c) 1 (nlog x).
Proof.
  destruct x; simpl; try reflexivity. rdec; simpl; try reflexivity; try sgn. f_equal. rewrite Rplus_0_l, ln_mult by lra. ring.
Qed.
Lemma exp_log_scal x : nexp (aff (ln c) 1 x) = scal c (nexp x).
Proof. destruct x; simpl; try reflexivity; f_equal; [rewrite exp_plus, exp_ln, Rmult_1_l by lra; ring|ring]. Qed.
(** rates are divided by c *)
Lemma rate_mul x y : nmul (scal (/ c) x) (scal c y) = nmul x y.
Proof.
  assert (0 < / c) as Hi by (apply Rinv_0_lt_compat; lra).
  destruct x, y; simpl; rewrite ?infsgn_scal; try reflexivity.
  - f_equal. field. lra.
  - rewrite Rplus_0_l, infsgn_mul; auto.
  - rewrite Rplus_0_l, infsgn_mul; auto.
Qed.
Lemma rate_div x y : ndiv x (scal (/ c) y) = scal c (ndiv x y).
Proof.
  assert (0 < / c) as Hi by (apply Rinv_0_lt_compat; lra).
  destruct x, y; simpl; try reflexivity; rdec; rewrite ?scal_infsgn; try reflexivity; try (exfalso; nra); simpl; f_equal; try ring.
  field. split; [auto|lra].
Qed.
End scale.
Lemma scal_scal a b x : scal a (scal b x) = scal (a * b) x.
Proof. destruct x; simpl; try reflexivity. f_equal. ring. Qed.
Lemma scal_opp_l c x : 0 < c -> nopp (scal c x) = scal c (nopp x). Proof. intros; now apply scal_opp. Qed.
Lemma aff_ln_sub l x y : nsub (aff l 1 x) (aff l 1 y) = nsub x y.
Proof. destruct x, y; simpl; try reflexivity. f_equal. ring. Qed.
Lemma aff_ln_add l x y : nadd (aff l 1 x) y = aff l 1 (nadd x y).
Proof. destruct x, y; simpl; try reflexivity. f_equal. ring. Qed.
Lemma scal_0_sc c : scal c (Fin 0) = Fin 0. Proof. simpl. f_equal. ring. Qed.
Lemma float1_returns T s f : returns T s f -> returns (float1 T) (float_shape s)
  (fun i => if (fold_right Nat.mul 1 s =? 1)%nat then f (map (fun _ => 0%nat) s) else f i).
Proof.
  intros (d & a & -> & Hd & Hs & Hv). unfold float1, float_shape, asize. cbn [bind]. rewrite Hs.
  destruct (Nat.eqb_spec (fold_right Nat.mul 1%nat s) 1) as [E|E].
  - exists DFloat. eexists. split; [reflexivity|]. repeat split. intros i Hi. cbn [at_]. apply Hv.
    clear - E. induction s as [|k s IH]; simpl in *; auto. apply Nat.eq_mul_1 in E as [-> E]. split; [lia|auto].
  - exists d, a. repeat split; auto.
Qed.
Lemma scal_sq c x : 0 < c -> nsq (scal c x) = scal (c * c) (nsq x).
Proof. intros H. unfold nsq. rewrite scal_mul_l, scal_mul_r, scal_scal by auto. reflexivity. Qed.
Lemma scal_div2 c x y : 0 < c -> ndiv (scal (c * c) x) (scal c y) = scal c (ndiv x y).
Proof. intros H. rewrite <- scal_scal, scal_div_l, scal_div by auto. reflexivity. Qed.
Lemma scal_div3 c x y : 0 < c -> ndiv (scal (c * c * c) x) (scal (c * c) y) = scal c (ndiv x y).
Proof.
  intros H. assert (0 < c * c) by nra. replace (c * c * c) with (c * (c * c)) by ring. rewrite <- scal_scal, scal_div_l, scal_div by auto. reflexivity.
Qed.
Lemma scal_div_r c x y : 0 < c -> ndiv x (scal c y) = scal (/ c) (ndiv x y).
Proof.
  intros H. assert (0 < / c) as Hi by (apply Rinv_0_lt_compat; lra). rewrite <- (rate_div (/ c) Hi x y). now rewrite Rinv_inv.
Qed.
Lemma scal_inv c x : 0 < c -> scal (c * / c) x = x.
Proof. intros H. rewrite Rinv_r by lra. destruct x; simpl; try reflexivity. f_equal. ring. Qed.
Lemma scal_inv' c x : 0 < c -> scal (/ c * c) x = x.
Proof. intros H. rewrite Rinv_l by lra. destruct x; simpl; try reflexivity. f_equal. ring. Qed.
