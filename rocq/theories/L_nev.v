(** Evaluating numbers: all operations on finite values, NaN and known comparisons. *)
From Verif Require Export L_bcast.
From Coq Require Import Psatz.
Open Scope R_scope.

Lemma ev_nat n : nofnat n = Fin (INR n). Proof. reflexivity. Qed.
Lemma ev_add a b : nadd (Fin a) (Fin b) = Fin (a + b). Proof. reflexivity. Qed.
Lemma ev_sub a b : nsub (Fin a) (Fin b) = Fin (a - b). Proof. reflexivity. Qed.
Lemma ev_mul a b : nmul (Fin a) (Fin b) = Fin (a * b). Proof. reflexivity. Qed.
Lemma ev_opp a : nopp (Fin a) = Fin (- a). Proof. reflexivity. Qed.
Lemma ev_abs a : nabs (Fin a) = Fin (Rabs a). Proof. reflexivity. Qed.
Lemma ev_exp a : nexp (Fin a) = Fin (exp a). Proof. reflexivity. Qed.
Lemma ev_sq a : nsq (Fin a) = Fin (a * a). Proof. reflexivity. Qed.
Lemma ev_max a b : nmax (Fin a) (Fin b) = Fin (Rmax a b). Proof. apply nmax_Fin. Qed.
Lemma ev_min a b : nmin (Fin a) (Fin b) = Fin (Rmin a b). Proof. apply nmin_Fin. Qed.
Lemma ev_add_nl x : nadd NaN x = NaN. Proof. reflexivity. Qed.
Lemma ev_add_nr x : nadd x NaN = NaN. Proof. now destruct x. Qed.
Lemma ev_sub_nl x : nsub NaN x = NaN. Proof. reflexivity. Qed.
Lemma ev_sub_nr x : nsub x NaN = NaN. Proof. now destruct x. Qed.
Lemma ev_mul_nl x : nmul NaN x = NaN. Proof. reflexivity. Qed.
Lemma ev_mul_nr x : nmul x NaN = NaN. Proof. now destruct x. Qed.
Lemma ev_div_nl x : ndiv NaN x = NaN. Proof. reflexivity. Qed.
Lemma ev_div_nr x : ndiv x NaN = NaN. Proof. now destruct x. Qed.
Lemma ev_opp_n : nopp NaN = NaN. Proof. reflexivity. Qed.
Lemma ev_exp_n : nexp NaN = NaN. Proof. reflexivity. Qed.
Lemma ev_log_n : nlog NaN = NaN. Proof. reflexivity. Qed.
Lemma ev_abs_n : nabs NaN = NaN. Proof. reflexivity. Qed.
Lemma ev_sq_n : nsq NaN = NaN. Proof. reflexivity. Qed.
Lemma ev_max_nl x : nmax NaN x = NaN. Proof. reflexivity. Qed.
Lemma ev_lt_nl x : nltb NaN x = false. Proof. now destruct x. Qed.
Lemma ev_lt_nr x : nltb x NaN = false. Proof. now destruct x. Qed.
Lemma ev_le_nl x : nleb NaN x = false. Proof. now destruct x. Qed.
Lemma ev_le_nr x : nleb x NaN = false. Proof. now destruct x. Qed.
Lemma ev_eq_nl x : neqb NaN x = false. Proof. now destruct x. Qed.
Lemma ev_eq_nr x : neqb x NaN = false. Proof. now destruct x. Qed.
Lemma ev_where_t {A} (x y : A) : (if neqb (b2n true) (Fin 0) then x else y) = y.
Proof. simpl. unfold reqb. destruct (Req_EM_T 1 0); [lra|reflexivity]. Qed.
Lemma ev_where_f {A} (x y : A) : (if neqb (b2n false) (Fin 0) then x else y) = x.
Proof. simpl. unfold reqb. destruct (Req_EM_T 0 0); [reflexivity|lra]. Qed.
Lemma ev_and p q : nmul (b2n p) (b2n q) = b2n (p && q).
Proof. destruct p, q; simpl; f_equal; ring. Qed.
Lemma ev_or p q : nmax (b2n p) (b2n q) = b2n (p || q).
Proof. destruct p, q; cbn [b2n orb]; rewrite nmax_Fin; f_equal; unfold Rmax; destruct (Rle_dec _ _); lra. Qed.
Lemma ev_not p : nsub (Fin 1) (b2n p) = b2n (negb p).
Proof. destruct p; simpl; f_equal; ring. Qed.
Lemma ev_neq p : negb (neqb (b2n p) (Fin 0)) = p.
Proof. destruct p; simpl; unfold reqb; [destruct (Req_EM_T 1 0)|destruct (Req_EM_T 0 0)]; try reflexivity; lra. Qed.
Lemma ev_eq0 p : neqb (b2n p) (Fin 0) = negb p.
Proof. destruct p; simpl; unfold reqb; [destruct (Req_EM_T 1 0)|destruct (Req_EM_T 0 0)]; try reflexivity; lra. Qed.
Lemma ev_sq_inf : nsq PInf = PInf. Proof. reflexivity. Qed.
Lemma ev_sq_ninf : nsq NInf = PInf. Proof. reflexivity. Qed.
Lemma ev_opp_inf : nopp PInf = NInf. Proof. reflexivity. Qed.
Lemma ev_opp_ninf : nopp NInf = PInf. Proof. reflexivity. Qed.
Lemma ev_exp_inf : nexp PInf = PInf. Proof. reflexivity. Qed.
Lemma ev_exp_ninf : nexp NInf = Fin 0. Proof. reflexivity. Qed.
Lemma ev_sub_pf a : nsub PInf (Fin a) = PInf. Proof. reflexivity. Qed.
Lemma ev_sub_mf a : nsub NInf (Fin a) = NInf. Proof. reflexivity. Qed.
Lemma ev_add_fp a : nadd (Fin a) PInf = PInf. Proof. reflexivity. Qed.
Lemma ev_add_pf a : nadd PInf (Fin a) = PInf. Proof. reflexivity. Qed.
Lemma ev_div_fp a : ndiv (Fin a) PInf = Fin 0. Proof. reflexivity. Qed.
Lemma ev_eq_pp : neqb PInf PInf = true. Proof. reflexivity. Qed.
Lemma ev_eq_mm : neqb NInf NInf = true. Proof. reflexivity. Qed.
Lemma ev_eq_fp a : neqb (Fin a) PInf = false. Proof. reflexivity. Qed.
Lemma ev_eq_fm a : neqb (Fin a) NInf = false. Proof. reflexivity. Qed.
Lemma ev_lt_fp a : nltb (Fin a) PInf = true. Proof. reflexivity. Qed.
Lemma ev_lt_mf a : nltb NInf (Fin a) = true. Proof. reflexivity. Qed.
Lemma ev_lt_pf a : nltb PInf (Fin a) = false. Proof. reflexivity. Qed.
Lemma ev_lt_fm a : nltb (Fin a) NInf = false. Proof. reflexivity. Qed.
Lemma ev_le_fp a : nleb (Fin a) PInf = true. Proof. reflexivity. Qed.
Lemma ev_le_mf a : nleb NInf (Fin a) = true. Proof. reflexivity. Qed.
Lemma ev_le_pf a : nleb PInf (Fin a) = false. Proof. reflexivity. Qed.
Lemma ev_max_fm a : nmax (Fin a) NInf = Fin a. Proof. reflexivity. Qed.
Lemma ev_min_fp a : nmin (Fin a) PInf = Fin a. Proof. reflexivity. Qed.
Lemma ev_neg_t : negb true = false. Proof. reflexivity. Qed.
Lemma ev_neg_f : negb false = true. Proof. reflexivity. Qed.
Lemma ev_if_t {A} (x y : A) : (if true then x else y) = x. Proof. reflexivity. Qed.
Lemma ev_if_f {A} (x y : A) : (if false then x else y) = y. Proof. reflexivity. Qed.
#[export] Hint Rewrite ev_nat ev_add ev_sub ev_mul ev_opp ev_abs ev_exp ev_sq ev_max ev_min ev_add_nl ev_add_nr ev_sub_nl ev_sub_nr
  ev_mul_nl ev_mul_nr ev_div_nl ev_div_nr ev_opp_n ev_exp_n ev_log_n ev_abs_n ev_sq_n ev_max_nl ev_lt_nl ev_lt_nr ev_le_nl ev_le_nr
  ev_eq_nl ev_eq_nr @ev_where_t @ev_where_f ev_and ev_or ev_not ev_neq ev_eq0 ev_sq_inf ev_sq_ninf ev_opp_inf ev_opp_ninf ev_exp_inf ev_exp_ninf ev_sub_pf ev_sub_mf
  ev_add_fp ev_add_pf ev_div_fp ev_eq_pp ev_eq_mm ev_eq_fp ev_eq_fm ev_lt_fp ev_lt_mf ev_lt_pf ev_lt_fm ev_le_fp ev_le_mf ev_le_pf ev_max_fm ev_min_fp
  andb_true_r andb_false_r orb_true_r orb_false_r andb_true_l andb_false_l orb_true_l orb_false_l negb_involutive ev_neg_t ev_neg_f @ev_if_t @ev_if_f : nev.

Lemma ltb_t a b : a < b -> nltb (Fin a) (Fin b) = true. Proof. intros; simpl; unfold rltb; destruct (Rlt_dec a b); auto; lra. Qed.
Lemma ltb_f a b : b <= a -> nltb (Fin a) (Fin b) = false. Proof. intros; simpl; unfold rltb; destruct (Rlt_dec a b); auto; lra. Qed.
Lemma leb_t a b : a <= b -> nleb (Fin a) (Fin b) = true. Proof. intros; simpl; unfold rleb; destruct (Rle_dec a b); auto; lra. Qed.
Lemma leb_f a b : b < a -> nleb (Fin a) (Fin b) = false. Proof. intros; simpl; unfold rleb; destruct (Rle_dec a b); auto; lra. Qed.
Lemma eqb_t a b : a = b -> neqb (Fin a) (Fin b) = true. Proof. intros; simpl; unfold reqb; destruct (Req_EM_T a b); auto; lra. Qed.
Lemma eqb_f a b : a <> b -> neqb (Fin a) (Fin b) = false. Proof. intros; simpl; unfold reqb; destruct (Req_EM_T a b); auto; lra. Qed.
Lemma div_f a b : b <> 0 -> ndiv (Fin a) (Fin b) = Fin (a / b). Proof. intros; now apply ndiv_Fin. Qed.
Lemma div_pf b : 0 < b -> ndiv PInf (Fin b) = PInf. Proof. intros; simpl. destruct (Rlt_dec b 0); auto; lra. Qed.
Lemma div_mf b : 0 < b -> ndiv NInf (Fin b) = NInf. Proof. intros; simpl. destruct (Rlt_dec b 0); auto; lra. Qed.
Lemma log_f a : 0 < a -> nlog (Fin a) = Fin (ln a). Proof. intros; simpl. destruct (Rlt_dec 0 a); auto; lra. Qed.
Lemma log_0 : nlog (Fin 0) = NInf. Proof. simpl. destruct (Rlt_dec 0 0); [lra|]. destruct (Rlt_dec 0 0); [lra|auto]. Qed.
Lemma sqrt_f a : 0 <= a -> nsqrt (Fin a) = Fin (sqrt a). Proof. intros; simpl. destruct (Rlt_dec a 0); auto; lra. Qed.
Lemma pow_f a b : 0 < a -> npow (Fin a) (Fin b) = Fin (Rpower a b).
Proof.
  intros H. simpl. destruct (Req_EM_T b 0) as [->|]; [unfold Rpower; now rewrite Rmult_0_l, exp_0|]. destruct (Rlt_dec 0 a); [auto|lra].
Qed.
Lemma pow_0 b : 0 < b -> npow (Fin 0) (Fin b) = Fin 0.
Proof.
  intros H. simpl. destruct (Req_EM_T b 0) as [->|]; [lra|]. destruct (Rlt_dec 0 0); [lra|]. destruct (Rlt_dec 0 0); [lra|]. destruct (Rlt_dec 0 b); [auto|lra].
Qed.
Lemma INR_1 : INR 1 = 1. Proof. reflexivity. Qed.
Lemma INR_2 : INR 2 = 2. Proof. reflexivity. Qed.
Lemma INR_3 : INR 3 = 3. Proof. simpl; ring. Qed.
Lemma INR_4 : INR 4 = 4. Proof. simpl; ring. Qed.
Lemma INR_0 : INR 0 = 0. Proof. reflexivity. Qed.
#[export] Hint Rewrite INR_0 INR_1 INR_2 INR_3 INR_4 : nev.
(** sd solves side conditions (comparisons of reals); undecided ones remain *)
Ltac sd := solve [assumption | lra | apply exp_pos | apply Rgt_not_eq, exp_pos].
Ltac nev1 := match goal with
  | |- context [nltb (Fin ?a) (Fin ?b)] => first [rewrite (ltb_t a b) by sd | rewrite (ltb_f a b) by sd]
  | |- context [nleb (Fin ?a) (Fin ?b)] => first [rewrite (leb_t a b) by sd | rewrite (leb_f a b) by sd]
  | |- context [neqb (Fin ?a) (Fin ?b)] => first [rewrite (eqb_t a b) by sd | rewrite (eqb_f a b) by sd]
  | |- context [ndiv (Fin ?a) (Fin ?b)] => rewrite (div_f a b) by sd
  | |- context [ndiv PInf (Fin ?b)] => rewrite (div_pf b) by sd
  | |- context [ndiv NInf (Fin ?b)] => rewrite (div_mf b) by sd
  | |- context [nlog (Fin ?b)] => rewrite (log_f b) by sd
  | |- context [nsqrt (Fin ?b)] => rewrite (sqrt_f b) by sd
  | |- context [npow (Fin ?a) (Fin ?b)] => rewrite (pow_f a b) by sd
  end.
Ltac nev := unfold fins; repeat first [progress autorewrite with nev | nev1].
