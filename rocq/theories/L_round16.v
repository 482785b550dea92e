(** Rounding errors of the estimator int of the CRPS for weighted ensembles. *)
From Coq Require Import Reals List ZArith Permutation Sorted Lia Lra Psatz Bool.
From Flocq Require Import Core.
From Verif Require Import Num M_crps L_sort L_band L_crps_row L_crps_roww L_crps_real L_crps_omit.
From Verif Require Export L_round8 L_round14 M_round10 S_round5 S_round.
Import ListNotations.
Open Scope R_scope.

Local Notation fmt := (generic_format radix2 (FLT_exp (-1074) 53)).
Local Notation bp := (bpow radix2).

(** * sorting *)
Lemma rsort_ok l : Permutation (rsort l) l /\ StronglySorted Rle (rsort l).
Proof.
  unfold rsort. destruct (nsort_Fin_ex l) as (l' & E & SS). pose proof (nsort_perm (map Fin l)) as P. rewrite E in *. apply unmap_perm in P.
  rewrite map_map, map_id. auto.
Qed.
Lemma rsort_len l : length (rsort l) = length l. Proof. apply Permutation_length, rsort_ok. Qed.
Lemma nth_shift l e k : (k < length l)%nat -> nth k (map (fun v => v + e) l) 0 = nth k l 0 + e.
Proof. intros H. rewrite (nth_indep _ 0 (0 + e)) by (now rewrite map_length). apply (map_nth (fun v => v + e)). Qed.
Lemma ss_shift l e : StronglySorted Rle l -> StronglySorted Rle (map (fun v => v + e) l).
Proof. induction 1 as [|a l S IH F]; simpl; constructor; auto. apply Forall_map. eapply Forall_impl; [|exact F]. intros; simpl in *. lra. Qed.
Lemma rsort_le l m e k : Forall2 (fun a b => a <= b + e) l m -> (k < length l)%nat -> nth k (rsort l) 0 <= nth k (rsort m) 0 + e.
Proof.
  intros H Hk. destruct (rsort_ok l) as [P S]. destruct (rsort_ok m) as [P' S']. assert (length l = length m) as L by (clear -H; induction H; simpl; auto).
  rewrite <- nth_shift by (rewrite rsort_len; lia). apply (ord_dom _ _ l (map (fun v => v + e) m)); auto; [now apply ss_shift|now apply Permutation_map| |now rewrite rsort_len].
  clear -H. induction H; simpl; constructor; auto.
Qed.
Lemma f2_app M (Q : R -> R -> Prop) f g u v : (forall i, (i < M)%nat -> Q (f i) (g i)) -> Q u v -> Forall2 Q (map f (seq 0 M) ++ (u :: nil)) (map g (seq 0 M) ++ (v :: nil)).
Proof.
  intros H Hu. apply Forall2_app; [|constructor; auto]. assert (forall i, In i (seq 0 M) -> Q (f i) (g i)) as H' by (intros i Hi; apply in_seq in Hi; apply H; lia). clear H.
  induction (seq 0 M); simpl; constructor; [apply H'; now left|]. apply IHl. intros; apply H'. now right.
Qed.
(** sorting moves no entry further than the largest difference of the entries *)
Lemma rsort_near M f g u v e k : (forall i, (i < M)%nat -> Rabs (f i - g i) <= e) -> Rabs (u - v) <= e -> (k < M + 1)%nat ->
  Rabs (nth k (rsort (map f (seq 0 M) ++ (u :: nil))) 0 - nth k (rsort (map g (seq 0 M) ++ (v :: nil))) 0) <= e.
Proof.
  intros H Hu Hk. assert (forall h w, length (map h (seq 0 M) ++ (w :: nil : list R)) = (M + 1)%nat) as L by (intros; rewrite app_length, map_length, seq_length; reflexivity).
  apply Rabs_le. split.
  - enough (nth k (rsort (map g (seq 0 M) ++ (v :: nil))) 0 <= nth k (rsort (map f (seq 0 M) ++ (u :: nil))) 0 + e) by lra. apply rsort_le; [|now rewrite L].
    apply f2_app; [intros i Hi; specialize (H i Hi); apply Rabs_le_inv in H; lra|apply Rabs_le_inv in Hu; lra].
  - enough (nth k (rsort (map f (seq 0 M) ++ (u :: nil))) 0 <= nth k (rsort (map g (seq 0 M) ++ (v :: nil))) 0 + e) by lra. apply rsort_le; [|now rewrite L].
    apply f2_app; [intros i Hi; specialize (H i Hi); apply Rabs_le_inv in H; lra|apply Rabs_le_inv in Hu; lra].
Qed.
Lemma rsort_in M f u k (Q : R -> Prop) : (forall i, (i < M)%nat -> Q (f i)) -> Q u -> (k < M + 1)%nat -> Q (nth k (rsort (map f (seq 0 M) ++ (u :: nil))) 0).
Proof.
  intros H Hu Hk. destruct (rsort_ok (map f (seq 0 M) ++ (u :: nil))) as [P _].
  assert (In (nth k (rsort (map f (seq 0 M) ++ (u :: nil))) 0) (map f (seq 0 M) ++ (u :: nil))) as I by (apply (Permutation_in _ P), nth_In; rewrite rsort_len, app_length, map_length, seq_length; exact Hk).
  apply in_app_or in I as [I|[I|[]]]; [|now rewrite <- I]. apply in_map_iff in I as (i & <- & Hi). apply in_seq in Hi. apply H. lia.
Qed.
Lemma tsum_zl t a : (forall i, In i (leaves t) -> a i = 0) -> tsum b64 t a = 0.
Proof. induction t as [i|t1 IH1 t2 IH2]; intros H; simpl; [apply H; now left|]. unfold radd. rewrite IH1, IH2 by (intros; apply H; simpl; apply in_or_app; auto). rewrite Rplus_0_r. apply b64_0. Qed.
Lemma czero k p : calc k p 0 0.
Proof. apply (calc_le 0 _ p p); [lia|lia|]. apply calc_exact; [apply fmt_0|now left]. Qed.
Lemma tele n f : sumn n (fun i => f (i + 1)%nat - f i) = f n - f 0%nat.
Proof. induction n as [|n IH]; [rewrite sumn_0; ring|]. rewrite sumn_S, IH, Nat.add_1_r. ring. Qed.

(** * one interval *)
Lemma sq_term g a b c C d D o : (o = 0 \/ o = 1) -> appr g 0 c C 1 -> big 227 (Rabs c) -> d = b64 (a - b) -> D = a - b -> fmt a -> fmt b -> apart 400 a b -> b <= a ->
  appr (2 * g + 5) 0 (b64 (d * b64 (b64 (c - o) * b64 (c - o)))) (D * ((C - o) * (C - o))) (4 * D) /\
  b64 (d * b64 (b64 (c - o) * b64 (c - o))) = b64 (b64 (b64 (c - o) * b64 (c - o)) * d).
Proof.
  intros Ho A B -> -> Fa Fb Ap L. split; [|now rewrite Rmult_comm].
  assert (appr (S g) 0 (b64 (c - o)) (C - o) 2 /\ big 227 (Rabs (b64 (c - o)))) as [Ad Bd].
  { destruct Ho as [Eo|Eo]; subst o; (split; [|apply big_b64; [lia|]]).
    - rewrite !Rminus_0_r, b64_id by apply A. apply (appr_up _ _ _ 1); [|lra]. apply (appr_le g _ 0 0); [lia|lra|exact A].
    - now rewrite Rminus_0_r.
    - replace 2 with (1 + 1) by ring. eapply (appr_le _ _ (0 + 0) 0); [apply le_n|lra|]. apply appr_sub; [exact A|]. apply (appr_le 0 g 0 0); [lia|lra|]. pose proof (appr_exact 1 (fmt_int 1 ltac:(lia))) as Q. now rewrite Rabs_R1 in Q.
    - apply (big_le 53); [lia|]. apply (apart_bigp 53), near_one, A. }
  assert (big 400 (Rabs (a - b))) as Bb by (apply (apart_bigp 400), Ap).
  assert (appr 1 0 (b64 (a - b)) (a - b) (a - b)) as Adf.
  { split; [apply b64_fmt|]. rewrite Rabs_pos_eq by lra. split; [lra|]. split; [lra|]. pose proof (b64_minus _ _ Fa Fb) as Q. rewrite (Rabs_pos_eq (a - b)) in Q by lra. rewrite Rmult_0_l, Rplus_0_r. cbn [pow]. lra. }
  assert (big 454 (Rabs (b64 (c - o) * b64 (c - o)))) as B2 by (apply (big_mul 227 227); auto; lia).
  pose proof (appr_mul (S g) (S g) 454 _ _ _ _ _ _ ltac:(lia) Ad Ad B2) as A2. replace (2 * g + 5)%nat with (S (1 + S (S g + S g)))%nat by lia. replace (4 * (a - b)) with ((a - b) * (2 * 2)) by ring.
  apply (appr_mul _ _ 854); [lia|exact Adf|exact A2|]. apply (big_mul 400 454); [lia|lia|now apply big_b64|now apply big_b64].
Qed.
Lemma appr_add0 k x X A y Y B : appr k 0 x X A -> appr k 0 y Y B -> appr (S k) 0 (b64 (x + y)) (X + Y) (A + B).
Proof. intros H H'. apply (appr_le (S k) (S k) (0 + 0) 0); [lia|lra|now apply appr_add]. Qed.

Section Int.
Variables (M : nat) (y : R) (x w : nat -> R) (tw : stree).
Hypothesis HE : wens64 M y x.
Hypothesis HW : wts64 M w.
Hypothesis AW : adds tw M.
Hypothesis BW : (Z.of_nat (height tw) <= 2 ^ 52)%Z.
Hypothesis Ha : ascending M x.
Local Notation wc := (weights_r b64 tw w).
Local Notation W := (nw M w).
Local Notation kw := (height tw + 2)%nat.
Local Notation lo := (Rmin y (x 0%nat)).
Local Notation hi := (Rmax y (x (M - 1)%nat)).
Lemma iM : (0 < M)%nat. Proof. apply HE. Qed.
Lemma iw i : (i < M)%nat -> calc kw 227 (wc i) (W i). Proof. now apply (qwts M y x w tw). Qed.
Lemma iw0 i : (i < M)%nat -> 0 <= W i. Proof. now apply (qw0 M y x w tw). Qed.
Lemma icum n : (n <= M)%nat -> 0 <= sumn n W <= 1.
Proof. intros Hn. split; [apply sumn_nonneg; intros; apply iw0; lia|]. rewrite <- (qsum1 M w HW). apply sumn_mono; [lia|]. intros. now apply iw0. Qed.
Lemma ify : fmt y. Proof. apply is64_fmt, HE. Qed.
Lemma ifx i : (i < M)%nat -> fmt (x i). Proof. intros. apply is64_fmt. now apply HE. Qed.
Lemma iap i : (i < M)%nat -> apart 400 (x i) y. Proof. intros. now apply HE. Qed.
Lemma iapp i j : (i < M)%nat -> (j < M)%nat -> apart 400 (x i) (x j). Proof. intros. now apply HE. Qed.
Lemma appr_one g c C : calc g 227 c C -> C <= 1 -> appr g 0 c C 1 /\ big 227 (Rabs c).
Proof. intros H L. split; [apply (appr_up _ _ _ C); [now apply (appr_of_calc g 227)|exact L]|]. destruct H as (_ & _ & _ & B). rewrite Rabs_pos_eq by apply (big_ge0 _ _ B). exact B. Qed.

(** ** the array implementation *)
Lemma int_w_arr tc t1 t2 h : cumorders M h tc -> adds t1 M -> adds t2 M ->
  Rabs (crps_int_w_arr_r b64 tc t1 t2 M y x wc - wexact_crps M W y x) <= ((1 + u64) ^ (height t2 + 2 * Nat.max h (height t1) + 2 * height tw + 9) - 1) * (4 * (hi - lo)).
Proof.
  intros Hc A1 A2. pose proof iM as HM. destruct (split_at M x y Ha) as (p & Hp & H1 & H2). assert (ascending (M + 1) (ins p x y)) as As by (apply ins_sorted; auto; intros k Hk; left; auto).
  set (g := (kw + Nat.max h (height t1))%nat). set (E := ins p x y) in *.
  assert (E M - E 0%nat = hi - lo) as Er.
  { unfold E, ins. destruct (Nat.ltb_spec M p); [lia|]. destruct (Nat.eqb_spec M p) as [e|n].
    - destruct (Nat.ltb_spec 0 p); [|lia]. pose proof (H1 0%nat ltac:(lia)). pose proof (H1 (M - 1)%nat ltac:(lia)). rewrite Rmax_left, Rmin_right by lra. reflexivity.
    - pose proof (H2 (M - 1)%nat ltac:(lia)). rewrite Rmax_right by lra. destruct (Nat.ltb_spec 0 p).
      + pose proof (H1 0%nat ltac:(lia)). rewrite Rmin_right by lra. reflexivity.
      + destruct (Nat.eqb_spec 0 p); [|lia]. pose proof (H2 0%nat ltac:(lia)). rewrite Rmin_left by lra. reflexivity. }
  set (C := ins p (fun k => sumn (S k) W) (sumn p W)).
  assert (forall k, (k < M + 1)%nat -> nth k (rsort (map (fun k => sumn (S k) W) (seq 0 M) ++ (sumn p W :: nil))) 0 = C k) as EC.
  { intros k Hk. apply rsort_ins; auto; intros; [intros i j|..]; intros; apply sumn_mono; try lia; intros; apply iw0; lia. }
  set (yp := tsum b64 t1 (fun i => rmul b64 (rbool (rle (x i) y)) (wc i))).
  assert (calc g 227 yp (sumn p W)) as Cy.
  { rewrite <- (sumn_cut p M (fun k => ind_le (x k) y)); [|exact Hp|intros; apply ind_le_1; auto|intros; apply ind_le_0; auto].
    apply (calc_le (kw + height t1) g 227 227); [unfold g; lia|lia|]. apply tsum_n; [lia|exact A1|]. intros i Hi. pose proof (iw i Hi) as Q. unfold rmul, rbool, rle, ind_le. destruct (Rle_dec (x i) y).
    - rewrite !Rmult_1_l, b64_id by apply Q. exact Q.
    - rewrite !Rmult_0_l, b64_0. apply czero. }
  assert (forall i, (i < M)%nat -> calc g 227 (tsum b64 (tc i) wc) (sumn (S i) W)) as Cc.
  { intros i Hi. destruct (Hc i Hi) as [Ai Li]. apply (calc_le (kw + height (tc i)) g 227 227); [unfold g; lia|lia|]. apply tsum_n; [lia|exact Ai|]. intros. apply iw. lia. }
  set (D := fun k => nth k (rsort (map (fun i => tsum b64 (tc i) wc) (seq 0 M) ++ (yp :: nil))) 0).
  assert (forall k, (k < M + 1)%nat -> appr g 0 (D k) (C k) 1 /\ big 227 (Rabs (D k))) as AD.
  { assert (forall c X, calc g 227 c X -> X <= 1 -> Rabs (c - X) <= (1 + u64) ^ g - 1) as Q by (intros c X H L; destruct (appr_one _ _ _ H L) as [(_ & _ & _ & R) _]; lra).
    intros k Hk. split; [|unfold D; apply (rsort_in M _ _ _ (fun v => big 227 (Rabs v))); auto; [intros i Hi; apply (appr_one g _ _ (Cc i Hi)), icum; lia|apply (appr_one g _ _ Cy), icum; lia]].
    split; [unfold D; apply rsort_in; auto; [intros i Hi; apply (Cc i Hi)|apply Cy]|]. rewrite <- (EC k Hk). split; [|split; [lra|]].
    - apply (rsort_in M _ _ _ (fun v => Rabs v <= 1)); auto; intros; rewrite Rabs_pos_eq; apply icum; lia.
    - unfold D. rewrite Rmult_0_l, Rplus_0_r, Rmult_1_r. apply rsort_near; auto; [intros i Hi; apply Q; [auto|apply icum; lia]|apply Q; [auto|apply icum; lia]]. }
  assert (appr ((2 * g + 5) + height t2) (INR M * 0) (crps_int_w_arr_r b64 tc t1 t2 M y x wc) (wexact_crps M W y x) (4 * (hi - lo))) as T.
  { rewrite <- Er, <- (tele M E), <- sumn_scal. rewrite <- (int_sum M W x y p Ha Hp H1 H2 (qsum1 M w HW)). unfold crps_int_w_arr_r. fold yp. apply tsum_an; [exact A2|]. intros i Hi. fold (D i).
    rewrite !(rsort_ins M x y p) by (auto; try lia; intros k Hk; left; auto). fold E. fold C. rewrite (Nat.add_comm 1 i). unfold rmul, rsub. rewrite !Rmult_1_r.
    assert (b64 (rbool (rle y (E i))) = ind_le y (E i) /\ (ind_le y (E i) = 0 \/ ind_le y (E i) = 1)) as [-> Ho].
    { unfold rbool, rle, ind_le. destruct (Rle_dec y (E i)); split; auto; [apply b64_id, (fmt_int 1); lia|apply b64_0]. }
    destruct (AD i ltac:(lia)) as [Q1 Q2]. apply (sq_term g (E (i + 1)%nat) (E i)); auto.
    - unfold E. apply (E_fmt M p y x HM); auto using ify, ifx; lia.
    - unfold E. apply (E_fmt M p y x HM); auto using ify, ifx; lia.
    - unfold E, ins. destruct (Nat.ltb_spec (i + 1) p), (Nat.ltb_spec i p); try lia; [apply iapp; lia| |].
      + destruct (Nat.eqb_spec (i + 1) p); [|lia]. apply apart_sym, iap. lia.
      + destruct (Nat.eqb_spec (i + 1) p), (Nat.eqb_spec i p); try lia; [apply iap; lia|apply iapp; lia].
    - apply As. lia. }
  destruct T as (_ & _ & _ & T). replace (height t2 + 2 * Nat.max h (height t1) + 2 * height tw + 9)%nat with (2 * g + 5 + height t2)%nat by (unfold g; lia). rewrite Rmult_0_r, Rmult_0_l, Rplus_0_r in T. lra.
Qed.
(** ** the numba kernel *)
Definition ikst (v : nat -> R) (rnd : R -> R) (n : nat) := fold_left (crps_int_w_step_r rnd y x v) (seq 0 n) (false, 0, 0, 0).
Lemma ikst_S v rnd n : ikst v rnd (S n) = crps_int_w_step_r rnd y x v (ikst v rnd n) n.
Proof. unfold ikst. rewrite seq_S, fold_left_app. reflexivity. Qed.
Local Notation g := (kw + M)%nat.
Local Notation K := (2 * g + 5)%nat.
Lemma kzero c d : c = 0 -> b64 (d * b64 (c * c)) = 0 /\ b64 (b64 (c * c) * d) = 0.
Proof. intros ->. now rewrite Rmult_0_l, b64_0, Rmult_0_r, Rmult_0_l, b64_0. Qed.
Lemma ikst_appr n : (n <= M)%nat -> exists ob fc FC prev I J A, ikst wc b64 n = (ob, fc, prev, I) /\ ikst W idr n = (ob, FC, prev, J) /\
  at_obs y x n ob prev /\ FC = sumn n W /\ calc (kw + n) 227 fc FC /\ (n = 0%nat -> fc = 0) /\ appr (K + n + (if ob then 1 else 0)) 0 I J A /\ (n = 0%nat -> A = 0) /\ (n <> 0%nat -> A = 4 * (prev - lo)).
Proof.
  pose proof iM as HM. induction n as [|n IH]; intros Hn.
  - exists false, 0, 0, 0, 0, 0, 0. split; [reflexivity|]. split; [reflexivity|]. split; [now left|]. split; [now rewrite sumn_0|]. split; [apply czero|]. split; [auto|]. split; [apply appr_0|]. easy.
  - destruct (IH ltac:(lia)) as (ob & fc & FC & prev & I & J & A & E & E' & At & EF & C & F & AI & A0 & A1). rewrite !ikst_S, E, E'.
    pose proof (at_step M y x HM Ha n ob prev Hn At) as At'. pose proof (term_ge0 M y x HM Ha n ob prev Hn At) as Tg. pose proof (icum n ltac:(lia)) as Q. rewrite <- EF in Q.
    assert (radd idr FC (W n) = sumn (S n) W) as EF' by (rewrite sumn_S, <- EF; reflexivity).
    assert (calc (kw + S n) 227 (radd b64 fc (wc n)) (radd idr FC (W n))) as C'.
    { replace (kw + S n)%nat with (S (kw + n)) by lia. apply (calc_add (kw + n) 227 fc FC _ (W n)); [lia|exact C|]. apply (calc_le kw _ 227 227); [lia|lia|]. apply iw. lia. }
    destruct (appr_one (kw + n) fc FC C (proj2 Q)) as [Ac Bc]. apply (appr_le _ g 0 0) in Ac; [|lia|lra].
    assert (n <> 0%nat -> fmt prev /\ apart 400 y prev /\ apart 400 (x n) prev) as Pv.
    { intros N. destruct At as [(-> & _)|(m & -> & -> & _)]; [easy|]. split; [apply ifx; lia|]. split; [apply apart_sym, iap; lia|apply iapp; lia]. }
    assert (fmt (x n)) as Fn by (apply ifx; lia). pose proof ify as Fy.
    unfold crps_int_w_step_r. destruct (negb ob && rlt y (x n)) eqn:Eb.
    + apply andb_prop in Eb as [Eo El]. apply negb_true_iff in Eo. apply rlt_spec in El. subst ob.
      exists true. do 5 eexists. exists (4 * (x n - lo)). split; [reflexivity|]. split; [reflexivity|]. split; [exact At'|]. split; [exact EF'|]. split; [exact C'|]. split; [easy|]. split; [|easy].
      replace (K + S n + 1)%nat with (S (S (K + n)))%nat by lia. unfold radd, rmul, rsub. unfold idr.
      destruct (sq_term g (x n) y fc FC _ _ 1 ltac:(auto) Ac Bc eq_refl eq_refl Fn Fy (iap n ltac:(lia)) ltac:(lra)) as [T1 _].
      replace (4 * (x n - lo)) with (4 * (y - lo) + 4 * (x n - y)) by ring. apply appr_add0; [|apply (appr_le K _ 0 0); [lia|lra|exact T1]].
      destruct (Nat.eq_dec n 0) as [N|N].
      * rewrite (proj1 (kzero fc _ (F N))). assert (FC = 0) as -> by (rewrite EF, N; apply sumn_0). rewrite Rmult_0_r, Rmult_0_r. subst n. rewrite Rmin_left by lra. rewrite (A0 eq_refl) in AI. rewrite Rplus_0_r, Rplus_0_r, b64_id by apply AI.
        replace (4 * (y - y)) with 0 by ring. eapply (appr_le _ _ 0 0); [|lra|exact AI]. lia.
      * destruct (Pv N) as (F1 & F2 & F3). destruct (Tg N) as [_ T]. specialize (T eq_refl).
        destruct (sq_term g y prev fc FC _ _ 0 ltac:(auto) Ac Bc eq_refl eq_refl Fy F1 F2 T) as [T0 _]. rewrite !Rminus_0_r, (b64_id fc) in T0 by apply C.
        replace (4 * (y - lo)) with (A + 4 * (y - prev)) by (rewrite (A1 N); ring). apply appr_add0; [eapply (appr_le _ _ 0 0); [|lra|exact AI]; lia|apply (appr_le K _ 0 0); [lia|lra|exact T0]].
    + exists ob. do 5 eexists. exists (4 * (x n - lo)). split; [reflexivity|]. split; [reflexivity|]. split; [exact At'|]. split; [exact EF'|]. split; [exact C'|]. split; [easy|]. split; [|easy].
      replace (K + S n + (if ob then 1 else 0))%nat with (S (K + n + (if ob then 1 else 0)))%nat by lia. unfold radd, rmul, rsub. unfold idr.
      destruct (Nat.eq_dec n 0) as [N|N].
      * destruct At as [(_ & -> & ->)|(m & -> & _)]; [|easy]. simpl (rbool false). rewrite !Rminus_0_r. rewrite (F N), b64_0. rewrite (proj2 (kzero 0 _ eq_refl)). assert (FC = 0) as -> by (rewrite EF, N; apply sumn_0).
        rewrite !Rmult_0_l, !Rplus_0_r. rewrite b64_id by apply AI. subst n. assert (x 0%nat <= y) by (simpl in Eb; destruct (Rlt_le_dec y (x 0%nat)) as [L|L]; [apply rlt_spec in L; congruence|exact L]).
        rewrite Rmin_right by lra. replace (4 * (x 0%nat - x 0%nat)) with A by (rewrite (A0 eq_refl); ring). eapply (appr_le _ _ 0 0); [|lra|exact AI]. lia.
      * destruct (Pv N) as (F1 & F2 & F3). destruct (Tg N) as [T _].
        destruct (sq_term g (x n) prev fc FC _ _ (rbool ob) ltac:(destruct ob; simpl; auto) Ac Bc eq_refl eq_refl Fn F1 F3 T) as [T0 T1]. rewrite T1 in T0.
        replace (4 * (x n - lo)) with (A + 4 * (x n - prev)) by (rewrite (A1 N); ring). apply appr_add0; [exact AI|]. rewrite (Rmult_comm ((FC - _) * _)). apply (appr_le K _ 0 0); [lia|lra|exact T0].
Qed.
Lemma int_w_k_appr : Rabs (crps_int_w_k_r b64 M y x wc - crps_int_w_k_r idr M y x W) <= ((1 + u64) ^ (3 * M + 2 * height tw + 10) - 1) * (4 * (hi - lo)).
Proof.
  pose proof iM as HM. destruct (ikst_appr M (le_n M)) as (ob & fc & FC & prev & I & J & A & E & E' & At & EF & C & F & AI & A0 & A1). unfold crps_int_w_k_r. unfold ikst in E, E'. rewrite E, E'.
  assert (M <> 0%nat) as N by lia. specialize (A1 N). destruct At as [(-> & _)|(m & Em & -> & Ho)]; [lia|]. replace (M - 1)%nat with m by lia.
  assert (lo <= y) by apply Rmin_l. assert (y <= Rmax y (x m)) by apply Rmax_l. assert (x m <= Rmax y (x m)) by apply Rmax_r.
  replace (3 * M + 2 * height tw + 10)%nat with (K + M + 1)%nat by lia. enough (appr (K + M + 1) 0 (if ob then I else radd b64 I (rsub b64 y (x m))) (if ob then J else radd idr J (rsub idr y (x m))) (4 * (Rmax y (x m) - lo))) as (_ & _ & _ & T).
  { rewrite Rmult_0_l, Rplus_0_r in T. destruct ob; lra. }
  destruct ob.
  - apply (appr_up _ _ _ A); [|rewrite A1; lra]. eapply (appr_le _ _ 0 0); [|lra|exact AI]. lia.
  - assert (x m <= y) as Lm by (destruct (Rlt_le_dec y (x m)) as [L|L]; [apply Ho in L; congruence|exact L]).
    apply (appr_up _ _ _ (A + (y - x m))); [|rewrite A1; lra]. replace (K + M + 1)%nat with (S (K + M)) by lia. unfold radd, rsub. unfold idr. apply appr_add0; [eapply (appr_le _ _ 0 0); [|lra|exact AI]; lia|].
    apply (appr_le 1 _ 0 0); [lia|lra|]. split; [apply b64_fmt|]. rewrite Rabs_pos_eq by lra. split; [lra|]. split; [lra|]. pose proof (b64_minus y (x m) ify (ifx m ltac:(lia))) as Q. rewrite (Rabs_pos_eq (y - x m)) in Q by lra. rewrite Rmult_0_l, Rplus_0_r. cbn [pow]. lra.
Qed.
End Int.
(** without rounding it is the kernel of M_crps.v *)
Lemma step_w_id y x v s n : crps_int_step (Fin (v n)) (Fin y) (L_round8.up s) (Fin (x n)) = L_round8.up (crps_int_w_step_r idr y x v s n).
Proof.
  destruct s as [[[ob fc] prev] I]. cbn [crps_int_step L_round8.up nisnan crps_int_w_step_r]. replace (nltb (Fin y) (Fin (x n))) with (rlt y (x n)) by (unfold rlt; cbn; unfold rltb; destruct Rlt_dec; reflexivity).
  destruct (negb ob && rlt y (x n)); [reflexivity|]. destruct ob; reflexivity.
Qed.
Lemma fold_w_id y x v l : forall s, fold_left (fun st i => crps_int_step (Fin (v i)) (Fin y) st (Fin (x i))) l (L_round8.up s) = L_round8.up (fold_left (crps_int_w_step_r idr y x v) l s).
Proof. induction l as [|i l IH]; intros s; [reflexivity|]. cbn [fold_left]. rewrite step_w_id. apply IH. Qed.
Lemma int_w_k_idr M y x v : (0 < M)%nat -> ascending M x -> sumn M v = 1 -> crps_int_w_k_r idr M y x v = wexact_crps M v y x.
Proof.
  intros HM Ha H1. pose proof (int_finish M (Fin y) (fun i => Fin (x i)) y x HM eq_refl (fun _ _ => eq_refl) (fun i => Fin (v i)) v Ha (fun _ _ => eq_refl) H1) as Q.
  unfold n0 in Q. change (Some (false, Fin 0, Fin 0, Fin 0)) with (L_round8.up (false, 0, 0, 0)) in Q. rewrite fold_w_id in Q. unfold crps_int_w_k_r.
  destruct (fold_left (crps_int_w_step_r idr y x v) (seq 0 M) (false, 0, 0, 0)) as [[[ob fc] prev] I]. cbn [L_round8.up] in Q. destruct ob; now injection Q.
Qed.
Lemma int_w_k_ge0 M y x v : (0 < M)%nat -> ascending M x -> 0 <= crps_int_w_k_r b64 M y x v.
Proof.
  intros HM Ha. assert (forall n, (n <= M)%nat -> exists ob fc prev I, ikst y x v b64 n = (ob, fc, prev, I) /\ at_obs y x n ob prev /\ (n = 0%nat -> fc = 0) /\ 0 <= I) as H.
  { induction n as [|n IH]; intros Hn.
    - exists false, 0, 0, 0. split; [reflexivity|]. split; [now left|]. split; [auto|lra].
    - destruct (IH ltac:(lia)) as (ob & fc & prev & I & E & A & F & P). rewrite ikst_S, E.
      pose proof (at_step M y x HM Ha n ob prev Hn A) as A'. pose proof (term_ge0 M y x HM Ha n ob prev Hn A) as Tg.
      assert (forall a, 0 <= rmul b64 a a) as Sq by (intros a; apply b64_ge0, Rle_0_sqr).
      cbn [crps_int_w_step_r]. destruct (negb ob && rlt y (x n)) eqn:Eb.
      + apply andb_prop in Eb as [Eo El]. apply negb_true_iff in Eo. apply rlt_spec in El. do 4 eexists. split; [reflexivity|]. split; [exact A'|]. split; [easy|].
        apply b64_ge0, Rplus_le_le_0_compat; [apply b64_ge0, Rplus_le_le_0_compat; [exact P|]|apply b64_ge0, Rmult_le_pos; [apply b64_ge0; lra|apply Sq]].
        destruct (Nat.eq_dec n 0) as [N|N].
        * rewrite (F N). unfold rmul. rewrite Rmult_0_l, b64_0, Rmult_0_r, b64_0. lra.
        * destruct (Tg N) as [_ T]. specialize (T Eo). apply b64_ge0, Rmult_le_pos; [apply b64_ge0; lra|apply Sq].
      + do 4 eexists. split; [reflexivity|]. split; [exact A'|]. split; [easy|].
        apply b64_ge0, Rplus_le_le_0_compat; [exact P|]. destruct (Nat.eq_dec n 0) as [N|N].
        * rewrite (F N). destruct A as [(_ & -> & _)|(m & -> & _)]; [|easy]. unfold rmul, rsub. simpl (rbool false). rewrite Rminus_0_r, b64_0, Rmult_0_l, b64_0, Rmult_0_l, b64_0. lra.
        * destruct (Tg N) as [T _]. apply b64_ge0, Rmult_le_pos; [apply Sq|apply b64_ge0; lra]. }
  destruct (H M ltac:(lia)) as (ob & fc & prev & I & E & A & _ & P). unfold crps_int_w_k_r. unfold ikst in E. rewrite E. destruct ob; [exact P|].
  destruct A as [(-> & _)|(m & -> & -> & Ho)]; [lia|]. apply b64_ge0, Rplus_le_le_0_compat; [exact P|]. apply b64_ge0.
  destruct (Rlt_le_dec y (x m)) as [L|L]; [|lra]. now apply Ho in L.
Qed.
Lemma rsort_asc l i j : (i <= j < length l)%nat -> nth i (rsort l) 0 <= nth j (rsort l) 0.
Proof. intros H. destruct (rsort_ok l) as [_ S]. apply ss_nth; [exact S|]. rewrite rsort_len. exact H. Qed.
Lemma int_w_arr_ge0 tc t1 t2 M y x v : adds t2 M -> 0 <= crps_int_w_arr_r b64 tc t1 t2 M y x v.
Proof.
  intros A2. unfold crps_int_w_arr_r. apply tsum_ge0. intros i Hi. apply (Permutation_in i A2), in_seq in Hi. apply b64_ge0, Rmult_le_pos; [|apply b64_ge0, Rle_0_sqr]. apply b64_ge0.
  pose proof (rsort_asc (map x (seq 0 M) ++ (y :: nil)) i (i + 1) ltac:(rewrite app_length, map_length, seq_length; simpl; lia)). lra.
Qed.
Lemma int_w_k_perfect rnd M y x v : rnd 0 = 0 -> (0 < M)%nat -> (forall i, (i < M)%nat -> x i = y) -> crps_int_w_k_r rnd M y x v = 0.
Proof.
  intros R0 HM Hx. assert (forall n, (0 < n <= M)%nat -> exists fc, ikst y x v rnd n = (false, fc, y, 0)) as H.
  { induction n as [|n IH]; intros Hn; [lia|]. rewrite ikst_S. destruct (Nat.eq_dec n 0) as [->|N].
    - unfold ikst. simpl. rewrite Hx by lia. unfold rlt. destruct Rlt_dec; [lra|]. simpl. eexists. unfold radd at 2, rmul, rsub. now rewrite Rminus_0_r, R0, !Rmult_0_l, !R0, Rmult_0_l, R0, Rplus_0_r, R0.
    - destruct (IH ltac:(lia)) as [fc ->]. simpl. rewrite Hx by lia. unfold rlt. destruct Rlt_dec; [lra|]. simpl. eexists. unfold radd at 2, rmul at 1, rsub at 3. now rewrite Rminus_eq_0, R0, Rmult_0_r, R0, Rplus_0_r, R0. }
  unfold crps_int_w_k_r. destruct (H M ltac:(lia)) as [fc E]. unfold ikst in E. rewrite E. unfold radd, rsub. now rewrite Rminus_eq_0, R0, Rplus_0_r, R0.
Qed.
Lemma int_w_arr_perfect tc t1 t2 M y x v : adds t2 M -> (forall i, (i < M)%nat -> x i = y) -> crps_int_w_arr_r b64 tc t1 t2 M y x v = 0.
Proof.
  intros A2 Hx. unfold crps_int_w_arr_r. apply tsum_zl. intros i Hi. apply (Permutation_in i A2), in_seq in Hi.
  rewrite !(rsort_in M x y _ (fun r => r = y)) by (auto; lia). unfold rmul, rsub. rewrite Rminus_eq_0, b64_0, Rmult_0_l. apply b64_0.
Qed.
