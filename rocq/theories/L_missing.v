(** Rewriting with NaN arguments. *)
From Verif Require Export S_missing L_logp.
From Coq Require Import Psatz.
Open Scope R_scope.

Lemma nmax_nr x : nmax x NaN = NaN. Proof. destruct x; reflexivity. Qed.
Lemma nmin_nl x : nmin NaN x = NaN. Proof. destruct x; reflexivity. Qed.
Lemma nmin_nr x : nmin x NaN = NaN. Proof. destruct x; reflexivity. Qed.
Lemma gammainc_nl x : ngammainc NaN x = NaN. Proof. destruct x; reflexivity. Qed.
Lemma gammainc_nr x : ngammainc x NaN = NaN. Proof. destruct x; reflexivity. Qed.
Lemma gammaincc_nl x : ngammaincc NaN x = NaN. Proof. destruct x; reflexivity. Qed.
Lemma gammaincc_nr x : ngammaincc x NaN = NaN. Proof. destruct x; reflexivity. Qed.
Lemma betainc_n1 x y : nbetainc NaN x y = NaN. Proof. destruct x, y; reflexivity. Qed.
Lemma betainc_n2 x y : nbetainc x NaN y = NaN. Proof. destruct x, y; reflexivity. Qed.
Lemma betainc_n3 x y : nbetainc x y NaN = NaN. Proof. destruct x, y; reflexivity. Qed.
Lemma beta_nl x : nbeta NaN x = NaN. Proof. destruct x; reflexivity. Qed.
Lemma beta_nr x : nbeta x NaN = NaN. Proof. destruct x; reflexivity. Qed.
Lemma comb_nl x : ncomb NaN x = Fin 0. Proof. destruct x; reflexivity. Qed.
Lemma comb_nr x : ncomb x NaN = Fin 0. Proof. destruct x; reflexivity. Qed.
Lemma log_nan : nlog NaN = NaN. Proof. reflexivity. Qed.
Lemma log_zero : nlog (Fin 0) = NInf. Proof. simpl. destruct (Rlt_dec 0 0); [lra|]. destruct (Rlt_dec 0 0); [lra|reflexivity]. Qed.
Lemma eq_00 : neqb (Fin 0) (Fin 0) = true. Proof. simpl. unfold reqb. destruct (Req_EM_T 0 0); congruence. Qed.
Lemma if_neg {A} (b : bool) (x y : A) : (if negb b then x else y) = if b then y else x. Proof. destruct b; reflexivity. Qed.
Global Hint Rewrite ev_add_nl ev_add_nr ev_sub_nl ev_sub_nr ev_mul_nl ev_mul_nr ev_div_nl ev_div_nr ev_max_nl nmax_nr nmin_nl nmin_nr ev_lt_nl ev_lt_nr ev_le_nl ev_le_nr ev_eq_nl ev_eq_nr
  gammainc_nl gammainc_nr gammaincc_nl gammaincc_nr betainc_n1 betainc_n2 betainc_n3 beta_nl beta_nr comb_nl comb_nr log_nan log_zero eq_00 @if_neg
  ev_and ev_or ev_not ev_eq0 Bool.andb_false_l Bool.andb_false_r Bool.orb_false_l Bool.orb_false_r Bool.orb_true_l Bool.orb_true_r : nan.
Ltac nanr := repeat (progress (autorewrite with nan; cbn [nexp nopp nabs nerf Num.nfloor nsq nsqrt ngamma nfactorial nreal1 negb]); cbv iota).
Ltac exs E := lazymatch type of E with
  | Exists _ (_ :: _)%list => apply Exists_cons in E; destruct E as [E|E]; [|exs E]
  | _ => apply Exists_nil in E; contradiction end.
Ltac nan_end := first [reflexivity | left; reflexivity | right; reflexivity].
Ltac nan_split := repeat (match goal with |- context [if ?b then _ else _] => destruct b end; nanr; try nan_end).
(** [nan_gives] for calls evaluated by [ret] *)
Ltac nanw P := eexists (fun i => _); split; [ret P; reflexivity|]; let i := fresh "i" in let Hi := fresh "Hi" in let E := fresh "E" in intros i Hi E; exs E; cbv beta in *; rewrite ?E;
  nanr; try nan_end; nan_split.

(** infinite arguments *)
Lemma inf_mul_pf b : 0 < b -> nmul PInf (Fin b) = PInf. Proof. intros; simpl; unfold infsgn; destruct (Rlt_dec 0 b); auto; lra. Qed.
Lemma inf_mul_pm b : b < 0 -> nmul PInf (Fin b) = NInf. Proof. intros; simpl; unfold infsgn; destruct (Rlt_dec 0 b); try lra; destruct (Rlt_dec b 0); auto; lra. Qed.
Lemma inf_mul_p0 : nmul PInf (Fin 0) = NaN. Proof. intros; simpl; unfold infsgn; destruct (Rlt_dec 0 0); try lra; destruct (Rlt_dec 0 0); auto; lra. Qed.
Lemma inf_mul_mf b : 0 < b -> nmul NInf (Fin b) = NInf. Proof. intros; simpl; unfold infsgn; destruct (Rlt_dec 0 b); auto; lra. Qed.
Lemma inf_mul_mm b : b < 0 -> nmul NInf (Fin b) = PInf. Proof. intros; simpl; unfold infsgn; destruct (Rlt_dec 0 b); try lra; destruct (Rlt_dec b 0); auto; lra. Qed.
Lemma inf_mul_m0 : nmul NInf (Fin 0) = NaN. Proof. intros; simpl; unfold infsgn; destruct (Rlt_dec 0 0); try lra; destruct (Rlt_dec 0 0); auto; lra. Qed.
Lemma inf_mul_C x y : nmul x y = nmul y x. Proof. destruct x, y; simpl; try reflexivity. f_equal; ring. Qed.
Lemma inf_mul_fp b : 0 < b -> nmul (Fin b) PInf = PInf. Proof. intros; rewrite inf_mul_C; now apply inf_mul_pf. Qed.
Lemma inf_mul_fm b : 0 < b -> nmul (Fin b) NInf = NInf. Proof. intros; rewrite inf_mul_C; now apply inf_mul_mf. Qed.
Lemma inf_mul_np b : b < 0 -> nmul (Fin b) PInf = NInf. Proof. intros; rewrite inf_mul_C; now apply inf_mul_pm. Qed.
Lemma inf_mul_nm b : b < 0 -> nmul (Fin b) NInf = PInf. Proof. intros; rewrite inf_mul_C; now apply inf_mul_mm. Qed.
Lemma inf_add_mf a : nadd NInf (Fin a) = NInf. Proof. reflexivity. Qed.
Lemma inf_add_fm a : nadd (Fin a) NInf = NInf. Proof. reflexivity. Qed.
Lemma inf_add_pp : nadd PInf PInf = PInf. Proof. reflexivity. Qed.
Lemma inf_sub_fp a : nsub (Fin a) PInf = NInf. Proof. reflexivity. Qed.
Lemma inf_sub_fm a : nsub (Fin a) NInf = PInf. Proof. reflexivity. Qed.
Lemma inf_sub_pp : nsub PInf PInf = NaN. Proof. reflexivity. Qed.
Lemma inf_sub_mm : nsub NInf NInf = NaN. Proof. reflexivity. Qed.
Lemma inf_sub_pm : nsub PInf NInf = PInf. Proof. reflexivity. Qed.
Lemma inf_mul_pp : nmul PInf PInf = PInf. Proof. reflexivity. Qed.
Lemma inf_erf_p : nerf PInf = Fin 1. Proof. reflexivity. Qed.
Lemma inf_erf_m : nerf NInf = Fin (-1). Proof. reflexivity. Qed.
Lemma inf_abs_p : nabs PInf = PInf. Proof. reflexivity. Qed.
Lemma inf_abs_m : nabs NInf = PInf. Proof. reflexivity. Qed.
Lemma inf_log_p : nlog PInf = PInf. Proof. reflexivity. Qed.
Lemma inf_log_m : nlog NInf = NaN. Proof. reflexivity. Qed.
Lemma inf_le_fm a : nleb (Fin a) NInf = false. Proof. reflexivity. Qed.
Lemma inf_eq_pf a : neqb PInf (Fin a) = false. Proof. reflexivity. Qed.
Lemma inf_eq_mf a : neqb NInf (Fin a) = false. Proof. reflexivity. Qed.
Lemma inf_min_pf a : nmin PInf (Fin a) = Fin a. Proof. unfold nmin. reflexivity. Qed.
Lemma inf_max_pf a : nmax PInf (Fin a) = PInf. Proof. reflexivity. Qed.
Lemma inf_min_mf a : nmin NInf (Fin a) = NInf. Proof. reflexivity. Qed.
Lemma inf_max_mf a : nmax NInf (Fin a) = Fin a. Proof. reflexivity. Qed.
Lemma inf_max_fp a : nmax (Fin a) PInf = PInf. Proof. reflexivity. Qed.
Lemma inf_fl_p : Num.nfloor PInf = PInf. Proof. reflexivity. Qed.
Lemma inf_fl_m : Num.nfloor NInf = NInf. Proof. reflexivity. Qed.
Lemma inf_div_fm a : ndiv (Fin a) NInf = Fin 0. Proof. reflexivity. Qed.
Lemma inf_log_0 b : b = 0 -> nlog (Fin b) = NInf. Proof. intros ->; apply log_zero. Qed.
Lemma inf_s2 : 0 < sqrt 2. Proof. apply sqrt_lt_R0; lra. Qed.
Lemma inf_pi2 : 0 < sqrt (2 * PI). Proof. apply sqrt_lt_R0. pose proof PI_RGT_0; lra. Qed.
Lemma inf_pi1 : 0 < sqrt PI. Proof. apply sqrt_lt_R0. pose proof PI_RGT_0; lra. Qed.
#[global] Hint Rewrite inf_mul_p0 inf_mul_m0 inf_add_mf inf_add_fm inf_add_pp inf_sub_fp inf_sub_fm inf_sub_pp inf_sub_mm inf_sub_pm inf_mul_pp inf_erf_p inf_erf_m inf_abs_p inf_abs_m inf_log_p inf_log_m inf_le_fm inf_eq_pf inf_eq_mf inf_min_pf inf_max_pf inf_min_mf inf_max_mf inf_max_fp inf_fl_p inf_fl_m inf_div_fm INR_1 : infv.
Ltac sdd := first [sd | simpl INR; pose proof inf_s2; pose proof inf_pi2; pose proof inf_pi1; pose proof PI_RGT_0; first [lra | nra | apply Rdiv_lt_0_compat; lra| apply Rinv_0_lt_compat; lra | apply Rmult_lt_0_compat; first [lra|apply exp_pos]]].
Ltac inf1 := match goal with
  | |- context [nmul PInf (Fin ?b)] => first [rewrite (inf_mul_pf b) by sdd | rewrite (inf_mul_pm b) by sdd | replace (Fin b) with (Fin 0) by (f_equal; simpl INR; lra); rewrite inf_mul_p0]
  | |- context [nmul NInf (Fin ?b)] => first [rewrite (inf_mul_mf b) by sdd | rewrite (inf_mul_mm b) by sdd]
  | |- context [nmul (Fin ?b) PInf] => first [rewrite (inf_mul_fp b) by sdd | rewrite (inf_mul_np b) by (apply Ropp_lt_gt_0_contravar; sdd) | rewrite (inf_mul_np b) by sdd]
  | |- context [nmul (Fin ?b) NInf] => first [rewrite (inf_mul_fm b) by sdd | rewrite (inf_mul_nm b) by sdd]
  | |- context [ndiv PInf (Fin ?b)] => rewrite (div_pf b) by sdd
  | |- context [ndiv NInf (Fin ?b)] => rewrite (div_mf b) by sdd
  | |- context [ndiv (Fin ?a) (Fin ?b)] => rewrite (div_f a b) by (apply Rgt_not_eq; sdd)
  | |- context [nlog (Fin ?b)] => first [rewrite (log_f b) by sdd | rewrite (inf_log_0 b) by (simpl INR; first [lra | unfold Rdiv; ring])]
  | |- context [nsqrt (Fin ?b)] => rewrite (sqrt_f b) by (apply Rlt_le; sdd)
  | |- context [npow (Fin ?a) (Fin ?b)] => rewrite (pow_f a b) by sdd
  end.
Ltac infe := unfold fins; cbv beta; repeat first [progress autorewrite with nev | progress autorewrite with infv | nev1 | inf1].

Ltac infw P sp := eexists (fun i => _); split; [ret P; reflexivity|]; let i := fresh "i" in let Hi := fresh "Hi" in let E := fresh "E" in intros i Hi E; cbv beta in *; sp i Hi; try (destruct E as [E|E]); rewrite ?E; infe; try reflexivity.
