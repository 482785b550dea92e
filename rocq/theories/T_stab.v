(** Proofs of the stability and convexity properties (statements in P_stab.v). *)
From Verif Require Export L_stab T_crps_inv T_quant.
From Coq Require Import Psatz FunctionalExtensionality.
Open Scope R_scope.
Ltac rcall X := eapply returns_is, X; auto.
Lemma lipc_name e : lipc e = if String.eqb (ename e) "pwm" then 3 else 2.
Proof. destruct e; reflexivity. Qed.
Lemma nwp p M (w : list nat -> R) r : (forall k, (k < M)%nat -> 0 <= member p w r k) -> 0 < sumn M (member p w r) ->
  (forall i, (i < M)%nat -> 0 <= nw M (member p w r) i) /\ sumn M (nw M (member p w r)) = 1.
Proof. intros H0 H1. split; [intros; now apply nw_nonneg|]. apply nw_sum1. lra. Qed.
Lemma exact_es M y x : exact_crps M y x = k_exact M (es_err 1 (fun _ => y) (fun i _ => x i)) (es_dist 1 (fun i _ => x i)).
Proof.
  unfold exact_crps, k_exact, mae, pairsum. f_equal; [f_equal|f_equal]; apply sumn_ext; intros.
  - now rewrite es_err_1.
  - apply sumn_ext; intros. now rewrite es_dist_1.
Qed.
Lemma wexact_es M w y x : wexact_crps M w y x = k_wexact M w (es_err 1 (fun _ => y) (fun i _ => x i)) (es_dist 1 (fun i _ => x i)).
Proof.
  unfold wexact_crps, k_wexact, wmae, wpairsum. f_equal; [|f_equal]; apply sumn_ext; intros.
  - now rewrite es_err_1.
  - apply sumn_ext; intros. now rewrite es_dist_1.
Qed.
Lemma nw_one M i : (0 < M)%nat -> (i < M)%nat -> nw M (fun _ => 1) i = / INR M.
Proof. intros HM Hi. pose proof (lt_0_INR M HM). unfold nw. rewrite sumn_const. field. lra. Qed.
Lemma k_exact_one M e d : (0 < M)%nat -> k_exact M e d = k_wexact M (nw M (fun _ => 1)) e d.
Proof. intros HM. rewrite <- (k_exact_unif M HM). apply k_wexact_ext; auto. intros i Hi. symmetry. now apply nw_one. Qed.
(** pooled weights and members given by their values *)
Lemma es_pool' M N D v f g y p x z : 0 < sumn M f -> 0 < sumn N g ->
  (forall i, (i < M)%nat -> v i = f i) -> (forall i, (i < N)%nat -> v (M + i)%nat = g i) ->
  (forall i k, (i < M)%nat -> (k < D)%nat -> p i k = x i k) -> (forall i k, (i < N)%nat -> (k < D)%nat -> p (M + i)%nat k = z i k) ->
  k_wexact (M + N) (nw (M + N) v) (es_err D y p) (es_dist D p)
  <= (sumn M f * k_wexact M (nw M f) (es_err D y x) (es_dist D x) + sumn N g * k_wexact N (nw N g) (es_err D y z) (es_dist D z)) / (sumn M f + sumn N g).
Proof.
  intros HA HB V1 V2 P1 P2.
  assert (V : forall i, (i < M + N)%nat -> v i = pool M f g i).
  { intros i Hi. unfold pool. destruct (Nat.ltb_spec i M); auto. rewrite <- V2 by lia. f_equal. lia. }
  assert (P : forall i k, (i < M + N)%nat -> (k < D)%nat -> p i k = pool M x z i k).
  { intros i k Hi Hk. unfold pool. destruct (Nat.ltb_spec i M); auto. rewrite <- P2 by lia. f_equal. lia. }
  rewrite (k_wexact_ext (M + N) (nw (M + N) v) (nw (M + N) (pool M f g)) (es_err D y p) (es_dist D p) (es_err D y (pool M x z)) (es_dist D (pool M x z))).
  - now apply es_pool.
  - intros i Hi. unfold nw. rewrite V by auto. f_equal. now apply sumn_ext.
  - intros i Hi. apply eucl_ext; auto.
  - intros i j Hi Hj. apply eucl_ext; auto.
Qed.
Lemma pinball_lip al q y q' y' : 0 <= al <= 1 -> Rabs (pinball al q' y' - pinball al q y) <= Rmax al (1 - al) * (Rabs (q' - q) + Rabs (y' - y)).
Proof.
  intros H. set (m := Rmax al (1 - al)). assert (al <= m) by apply Rmax_l. assert (1 - al <= m) by apply Rmax_r.
  assert (P : forall q y, pinball al q y = Rmax ((1 - al) * (q - y)) (al * (y - q))).
  { intros a b. unfold pinball. destruct (Rle_dec b a); [rewrite Rmax_left|rewrite Rmax_right]; nra. }
  assert (E : Rabs ((q' - y') - (q - y)) <= Rabs (q' - q) + Rabs (y' - y)).
  { replace (q' - y' - (q - y)) with ((q' - q) + - (y' - y)) by ring. eapply Rle_trans; [apply Rabs_triang|]. rewrite Rabs_Ropp. lra. }
  pose proof (Rabs_pos ((q' - y') - (q - y))).
  rewrite !P. eapply Rle_trans; [apply (max_lip _ _ _ _ (m * Rabs ((q' - y') - (q - y))))|apply Rmult_le_compat_l; lra].
  - replace ((1 - al) * (q' - y') - (1 - al) * (q - y)) with ((1 - al) * ((q' - y') - (q - y))) by ring.
    rewrite Rabs_mult, (Rabs_right (1 - al)) by lra. apply Rmult_le_compat_r; lra.
  - replace (al * (y' - q') - al * (y - q)) with (al * - ((q' - y') - (q - y))) by ring.
    rewrite Rabs_mult, Rabs_Ropp, (Rabs_right al) by lra. apply Rmult_le_compat_r; lra.
Qed.
Lemma winkler_lip al l u y l' u' y' : 0 < al ->
  Rabs (winkler al l' u' y' - winkler al l u y) <= (1 + 2 / al) * (Rabs (l' - l) + Rabs (u' - u)) + 4 / al * Rabs (y' - y).
Proof.
  intros H. set (c := 2 / al). assert (0 < c) by (unfold c; apply Rdiv_lt_0_compat; lra).
  assert (P : forall l u y, winkler al l u y = (u - l) + c * Rmax (l - y) 0 + c * Rmax (y - u) 0).
  { intros a b z. unfold winkler. fold c. unfold Rmax. repeat destruct Rlt_dec; repeat destruct Rle_dec; nra. }
  rewrite !P. replace (4 / al) with (2 * c) by (unfold c; field; lra).
  assert (M1 : Rabs (Rmax (l' - y') 0 - Rmax (l - y) 0) <= Rabs (l' - l) + Rabs (y' - y)).
  { apply max_lip; [|rewrite Rminus_eq_0, Rabs_R0; pose proof (Rabs_pos (l' - l)); pose proof (Rabs_pos (y' - y)); lra].
    replace (l' - y' - (l - y)) with ((l' - l) + - (y' - y)) by ring. eapply Rle_trans; [apply Rabs_triang|]. rewrite Rabs_Ropp. lra. }
  assert (M2 : Rabs (Rmax (y' - u') 0 - Rmax (y - u) 0) <= Rabs (u' - u) + Rabs (y' - y)).
  { apply max_lip; [|rewrite Rminus_eq_0, Rabs_R0; pose proof (Rabs_pos (u' - u)); pose proof (Rabs_pos (y' - y)); lra].
    replace (y' - u' - (y - u)) with ((y' - y) + - (u' - u)) by ring. eapply Rle_trans; [apply Rabs_triang|]. rewrite Rabs_Ropp. lra. }
  apply Rabs_le_between in M1, M2. pose proof (Rle_abs (l' - l)). pose proof (Rle_abs (u' - u)).
  pose proof (Rle_abs (- (l' - l))) as N1. pose proof (Rle_abs (- (u' - u))) as N2. rewrite Rabs_Ropp in N1, N2.
  apply Rabs_le. nra.
Qed.
Lemma C75_crps_l :
forall srt b obs fct obs' fct' ax s p M y x y' x' dy dx e sf pol,
  argsort_ok srt -> ens_args obs fct ax s p M y x -> ens_args obs' fct' ax s p M y' x' ->
  (0 < M)%nat -> In e ["nrg"; "fair"; "pwm"; "qd"; "int"; "akr"; "akr_circperm"]%string -> (In e ["fair"; "pwm"]%string -> (1 < M)%nat) -> In pol ["propagate"; "raise"]%string ->
  (b = Numba -> dt obs = DFloat /\ dt obs' = DFloat) -> sorted_if sf s p M x -> sorted_if sf s p M x' ->
  (forall r, inb s r -> Rabs (y' r - y r) <= dy r) ->
  (forall r i, inb s r -> (i < M)%nat -> Rabs (member p x' r i - member p x r i) <= dx r) ->
  exists v v', returns (crps_ensemble srt b obs fct ax None e sf pol) s (fun r => Fin (v r)) /\
    returns (crps_ensemble srt b obs' fct' ax None e sf pol) s (fun r => Fin (v' r)) /\
    forall r, inb s r -> Rabs (v' r - v r) <= dy r + 2 * dx r.
Proof.
intros srt b obs fct obs' fct' ax s p M y x y' x' dy dx e sf pol Hs Ha Ha' HM He H2 Hp Hd Hsf Hsf' Hy Hx.
destruct (name_est e He) as (e' & ->). assert (H2' : need2 e' = true -> (1 < M)%nat) by (intros; apply H2; now apply (name_need2 _ e')).
eexists (fun r => _), (fun r => _). split; [rcall (call_un srt b obs fct ax s p M y x e' sf pol); now intros E; apply Hd|].
split; [rcall (call_un srt b obs' fct' ax s p M y' x' e' sf pol); now intros E; apply Hd|].
intros r Hr. cbv beta. apply real_un_lip; auto.
Qed.
Lemma C75_crps_weighted_l :
forall srt b obs fct obs' fct' wt wt' ax s p M y x y' x' w dy dx e sf pol,
  argsort_ok srt -> ens_args obs fct ax s p M y x -> ens_args obs' fct' ax s p M y' x' ->
  wts_args wt fct s p M w -> wts_args wt' fct' s p M w ->
  (0 < M)%nat -> In e ["nrg"; "fair"; "pwm"; "qd"; "int"; "akr"; "akr_circperm"]%string -> (In e ["fair"; "pwm"]%string -> forall r, inb s r -> two_positive M (member p w r)) -> In pol ["propagate"; "raise"]%string ->
  (b = Numba -> dt obs = DFloat /\ dt obs' = DFloat) -> sorted_if sf s p M x -> sorted_if sf s p M x' ->
  (forall r, inb s r -> Rabs (y' r - y r) <= dy r) ->
  (forall r i, inb s r -> (i < M)%nat -> Rabs (member p x' r i - member p x r i) <= dx r) ->
  exists v v', returns (crps_ensemble srt b obs fct ax (Some wt) e sf pol) s (fun r => Fin (v r)) /\
    returns (crps_ensemble srt b obs' fct' ax (Some wt') e sf pol) s (fun r => Fin (v' r)) /\
    forall r, inb s r -> Rabs (v' r - v r) <= dy r + (if String.eqb e "pwm" then 3 else 2) * dx r.
Proof.
intros srt b obs fct obs' fct' wt wt' ax s p M y x y' x' w dy dx e sf pol Hs Ha Ha' Hw Hw' HM He H2 Hp Hd Hsf Hsf' Hy Hx.
destruct (name_est e He) as (e' & ->). assert (H2' : need2 e' = true -> forall r, inb s r -> two_positive M (member p w r)) by (intros; apply H2; auto; now apply (name_need2 _ e')).
eexists (fun r => _), (fun r => _). split; [rcall (call_w srt b obs fct wt ax s p M y x w e' sf pol); now intros E; apply Hd|].
split; [rcall (call_w srt b obs' fct' wt' ax s p M y' x' w e' sf pol); now intros E; apply Hd|].
intros r Hr. cbv beta. rewrite <- lipc_name. destruct Hw as (_ & _ & W0 & W1). destruct (nwp p M w r (fun k => W0 r k Hr) (W1 r Hr)) as (A & B).
apply real_w_lip; auto. intros E. apply two_positive_fairc; auto.
Qed.
Lemma C75_energy_l :
forall b obs fct obs' fct' m v s p q M D y x y' x' dy dx e,
  mv_args obs fct m v s p q M D y x -> mv_args obs' fct' m v s p q M D y' x' ->
  (0 < M)%nat -> (0 < D)%nat -> (b = Numba -> floats obs fct /\ floats obs' fct') ->
  In e ["nrg"; "fair"; "akr"; "akr_circperm"]%string -> (e = "fair"%string -> (1 < M)%nat) ->
  (forall r, inb s r -> eucl D (obsv q y' r) (obsv q y r) <= dy r) ->
  (forall r i, inb s r -> (i < M)%nat -> eucl D (memv p q x' r i) (memv p q x r i) <= dx r) ->
  exists u u', returns (es_ensemble b obs fct m v None e) s (fun r => Fin (u r)) /\
    returns (es_ensemble b obs' fct' m v None e) s (fun r => Fin (u' r)) /\
    forall r, inb s r -> Rabs (u' r - u r) <= dy r + 2 * dx r.
Proof.
intros b obs fct obs' fct' m v s p q M D y x y' x' dy dx e Ha Ha' HM HD Hf He H2 Hy Hx. destruct (name_mest e He) as (e' & ->).
eexists (fun r => _), (fun r => _). split; [eapply returns_is, (es_call b obs fct m v s p q M D y x Ha HM HD); [intros E; now apply Hf|now apply fair_names]|].
split; [eapply returns_is, (es_call b obs' fct' m v s p q M D y' x' Ha' HM HD); [intros E; now apply Hf|now apply fair_names]|].
intros r Hr. cbv beta. unfold eserr, esdist. replace (dy r + 2 * dx r) with (dy r + dx r + 2 * dx r / 2) by field.
apply mval_lip; auto; [now apply fair_names|apply es_err_lip; auto|apply es_dist_lip; auto|intros; apply es_dist_refl|intros; apply es_dist_refl].
Qed.
Lemma C75_energy_weighted_l :
forall b obs fct obs' fct' wt wt' m v s p q M D y x y' x' w dy dx e,
  mv_args obs fct m v s p q M D y x -> mv_args obs' fct' m v s p q M D y' x' ->
  (0 < M)%nat -> (0 < D)%nat -> (b = Numba -> floats obs fct /\ floats obs' fct') ->
  (q < p)%nat -> mv_wts wt s (wpos p q) M w -> mv_wts wt' s (wpos p q) M w ->
  In e ["nrg"; "fair"; "akr"; "akr_circperm"]%string -> (e = "fair"%string -> forall r, inb s r -> two_positive M (member (wpos p q) w r)) ->
  (forall r, inb s r -> eucl D (obsv q y' r) (obsv q y r) <= dy r) ->
  (forall r i, inb s r -> (i < M)%nat -> eucl D (memv p q x' r i) (memv p q x r i) <= dx r) ->
  exists u u', returns (es_ensemble b obs fct m v (Some wt) e) s (fun r => Fin (u r)) /\
    returns (es_ensemble b obs' fct' m v (Some wt') e) s (fun r => Fin (u' r)) /\
    forall r, inb s r -> Rabs (u' r - u r) <= dy r + 2 * dx r.
Proof.
intros b obs fct obs' fct' wt wt' m v s p q M D y x y' x' w dy dx e Ha Ha' HM HD Hf Hqp Hw Hw' He H2 Hy Hx. destruct (name_mest e He) as (e' & ->).
assert (H2' : e' = MFair -> forall r, inb s r -> two_positive M (member (wpos p q) w r)) by (intros -> r Hr; now apply H2).
eexists (fun r => _), (fun r => _). split; [eapply returns_is, (es_call_w b obs fct m v s p q M D y x Ha HM HD ltac:(intros E; now apply Hf) wt _ w Hw (wpos_S _ _ Hqp)); auto|].
split; [eapply returns_is, (es_call_w b obs' fct' m v s p q M D y' x' Ha' HM HD ltac:(intros E; now apply Hf) wt' _ w Hw' (wpos_S _ _ Hqp)); auto|].
intros r Hr. cbv beta. unfold eserr, esdist. replace (dy r + 2 * dx r) with (dy r + dx r + 2 * dx r / 2) by field.
destruct Hw as (_ & W0 & W1). destruct (nwp (wpos p q) M w r (fun k => W0 r k Hr) (W1 r Hr)) as (A & B).
apply mval_w_lip; auto; [intros E; pose proof (two_positive_fairc M _ (fun k => W0 r k Hr) (W1 r Hr) (H2' E r Hr)) as F; unfold fairc in F; lra|apply es_err_lip; auto|apply es_dist_lip; auto|intros; apply es_dist_refl|intros; apply es_dist_refl].
Qed.
Lemma C75_quantile_l :
forall obs fct obs' fct' al s sa y x y' x' a,
  real_arr obs s y -> real_arr fct s x -> real_arr obs' s y' -> real_arr fct' s x' -> real_arr al sa a -> scalar_or sa s ->
  (forall i, inb sa i -> 0 <= a i <= 1) ->
  exists v v', returns (quantile_score obs fct al) s (fun r => Fin (v r)) /\ returns (quantile_score obs' fct' al) s (fun r => Fin (v' r)) /\
    forall r, inb s r -> Rabs (v' r - v r) <= Rmax (entry sa a r) (1 - entry sa a r) * (Rabs (x' r - x r) + Rabs (y' r - y r)).
Proof.
intros obs fct obs' fct' al s sa y x y' x' a Ho Hf Ho' Hf' Hal Hsc Hl.
eexists (fun r => _), (fun r => _). split; [eapply (C25_value_l obs fct al s sa y x a); auto|]. split; [eapply (C25_value_l obs' fct' al s sa y' x' a); auto|].
intros r Hr. cbv beta. apply pinball_lip. destruct Hsc as [-> | ->]; cbn [entry]; [apply Hl; exact I|]. destruct s; apply Hl; auto. destruct r; auto. contradiction.
Qed.
Lemma C75_interval_l :
forall obs lower upper obs' lower' upper' al s sa y l u y' l' u' a,
  real_arr obs s y -> real_arr lower s l -> real_arr upper s u -> real_arr obs' s y' -> real_arr lower' s l' -> real_arr upper' s u' ->
  real_arr al sa a -> scalar_or sa s -> length sa <> 1%nat -> (forall i, inb sa i -> 0 < a i) ->
  exists v v', returns_squeezed (interval_score obs lower upper al) s (fun r => Fin (v r)) /\
    returns_squeezed (interval_score obs' lower' upper' al) s (fun r => Fin (v' r)) /\
    forall r, inb s r -> Rabs (v' r - v r) <= (1 + 2 / entry sa a r) * (Rabs (l' r - l r) + Rabs (u' r - u r)) + 4 / entry sa a r * Rabs (y' r - y r).
Proof.
intros obs lower upper obs' lower' upper' al s sa y l u y' l' u' a H1 H2 H3 H1' H2' H3' Hal Hsc Hn Hl.
assert (Hz : forall i, inb sa i -> a i <> 0) by (intros i Hi; specialize (Hl i Hi); lra).
eexists (fun r => _), (fun r => _). split; [eapply (C26_value_l obs lower upper al s sa y l u a); auto|]. split; [eapply (C26_value_l obs' lower' upper' al s sa y' l' u' a); auto|].
intros r Hr. cbv beta. apply winkler_lip. destruct Hsc as [-> | ->]; cbn [entry]; [apply Hl; exact I|]. destruct s; apply Hl; auto. destruct r; auto. contradiction.
Qed.
Lemma C76_crps_obs_l :
forall srt b obs obs1 obs2 fct ax s p M y1 y2 x t e sf pol,
  argsort_ok srt -> ens_args obs1 fct ax s p M y1 x -> ens_args obs2 fct ax s p M y2 x ->
  ens_args obs fct ax s p M (fun r => t r * y1 r + (1 - t r) * y2 r) x -> (forall r, inb s r -> 0 <= t r <= 1) ->
  (0 < M)%nat -> In e ["nrg"; "fair"; "pwm"; "qd"; "int"; "akr"; "akr_circperm"]%string -> (In e ["fair"; "pwm"]%string -> (1 < M)%nat) -> In pol ["propagate"; "raise"]%string ->
  (b = Numba -> dt obs = DFloat /\ dt obs1 = DFloat /\ dt obs2 = DFloat) -> sorted_if sf s p M x ->
  exists v v1 v2, returns (crps_ensemble srt b obs fct ax None e sf pol) s (fun r => Fin (v r)) /\
    returns (crps_ensemble srt b obs1 fct ax None e sf pol) s (fun r => Fin (v1 r)) /\
    returns (crps_ensemble srt b obs2 fct ax None e sf pol) s (fun r => Fin (v2 r)) /\
    forall r, inb s r -> v r <= t r * v1 r + (1 - t r) * v2 r.
Proof.
intros srt b obs obs1 obs2 fct ax s p M y1 y2 x t e sf pol Hs H1 H2 H0 Ht HM He N2 Hp Hd Hsf.
destruct (name_est e He) as (e' & ->). assert (N2' : need2 e' = true -> (1 < M)%nat) by (intros; apply N2; now apply (name_need2 _ e')).
eexists (fun r => _), (fun r => _), (fun r => _). split; [rcall (call_un srt b obs fct ax s p M _ x e' sf pol Hs H0); now intros E; apply Hd|].
split; [rcall (call_un srt b obs1 fct ax s p M y1 x e' sf pol Hs H1); now intros E; apply Hd|].
split; [rcall (call_un srt b obs2 fct ax s p M y2 x e' sf pol Hs H2); now intros E; apply Hd|].
intros r Hr. cbv beta. apply real_un_convex; auto.
Qed.
Lemma C76_crps_obs_weighted_l :
forall srt b obs obs1 obs2 fct wt ax s p M y1 y2 x w t e sf pol,
  argsort_ok srt -> ens_args obs1 fct ax s p M y1 x -> ens_args obs2 fct ax s p M y2 x ->
  ens_args obs fct ax s p M (fun r => t r * y1 r + (1 - t r) * y2 r) x -> (forall r, inb s r -> 0 <= t r <= 1) -> wts_args wt fct s p M w ->
  (0 < M)%nat -> In e ["nrg"; "fair"; "pwm"; "qd"; "int"; "akr"; "akr_circperm"]%string -> (In e ["fair"; "pwm"]%string -> forall r, inb s r -> two_positive M (member p w r)) -> In pol ["propagate"; "raise"]%string ->
  (b = Numba -> dt obs = DFloat /\ dt obs1 = DFloat /\ dt obs2 = DFloat) -> sorted_if sf s p M x ->
  exists v v1 v2, returns (crps_ensemble srt b obs fct ax (Some wt) e sf pol) s (fun r => Fin (v r)) /\
    returns (crps_ensemble srt b obs1 fct ax (Some wt) e sf pol) s (fun r => Fin (v1 r)) /\
    returns (crps_ensemble srt b obs2 fct ax (Some wt) e sf pol) s (fun r => Fin (v2 r)) /\
    forall r, inb s r -> v r <= t r * v1 r + (1 - t r) * v2 r.
Proof.
intros srt b obs obs1 obs2 fct wt ax s p M y1 y2 x w t e sf pol Hs H1 H2 H0 Ht Hw HM He N2 Hp Hd Hsf.
destruct (name_est e He) as (e' & ->). assert (N2' : need2 e' = true -> forall r, inb s r -> two_positive M (member p w r)) by (intros; apply N2; auto; now apply (name_need2 _ e')).
eexists (fun r => _), (fun r => _), (fun r => _). split; [rcall (call_w srt b obs fct wt ax s p M _ x w e' sf pol Hs H0); now intros E; apply Hd|].
split; [rcall (call_w srt b obs1 fct wt ax s p M y1 x w e' sf pol Hs H1); now intros E; apply Hd|].
split; [rcall (call_w srt b obs2 fct wt ax s p M y2 x w e' sf pol Hs H2); now intros E; apply Hd|].
intros r Hr. cbv beta. destruct Hw as (_ & _ & W0 & W1). destruct (nwp p M w r (fun k => W0 r k Hr) (W1 r Hr)) as (A & B). apply real_w_convex; auto.
Qed.
Lemma C76_energy_obs_l :
forall b obs obs1 obs2 fct m v s p q M D y y1 y2 x t e,
  mv_args obs fct m v s p q M D y x -> mv_args obs1 fct m v s p q M D y1 x -> mv_args obs2 fct m v s p q M D y2 x ->
  (forall r k, inb s r -> (k < D)%nat -> obsv q y r k = t r * obsv q y1 r k + (1 - t r) * obsv q y2 r k) -> (forall r, inb s r -> 0 <= t r <= 1) ->
  (0 < M)%nat -> (0 < D)%nat -> (b = Numba -> floats obs fct /\ floats obs1 fct /\ floats obs2 fct) ->
  In e ["nrg"; "fair"; "akr"; "akr_circperm"]%string -> (e = "fair"%string -> (1 < M)%nat) ->
  exists u u1 u2, returns (es_ensemble b obs fct m v None e) s (fun r => Fin (u r)) /\
    returns (es_ensemble b obs1 fct m v None e) s (fun r => Fin (u1 r)) /\
    returns (es_ensemble b obs2 fct m v None e) s (fun r => Fin (u2 r)) /\
    forall r, inb s r -> u r <= t r * u1 r + (1 - t r) * u2 r.
Proof.
intros b obs obs1 obs2 fct m v s p q M D y y1 y2 x t e H0 H1 H2 Hy Ht HM HD Hf He N2. destruct (name_mest e He) as (e' & ->).
eexists (fun r => _), (fun r => _), (fun r => _). split; [eapply returns_is, (es_call b obs fct m v s p q M D y x H0 HM HD); [intros E; now apply Hf|now apply fair_names]|].
split; [eapply returns_is, (es_call b obs1 fct m v s p q M D y1 x H1 HM HD); [intros E; now apply Hf|now apply fair_names]|].
split; [eapply returns_is, (es_call b obs2 fct m v s p q M D y2 x H2 HM HD); [intros E; now apply Hf|now apply fair_names]|].
intros r Hr. cbv beta. unfold eserr, esdist. apply mval_convex; auto; [now apply fair_names|]. intros i Hi. unfold es_err.
eapply Rle_trans; [|apply eucl_convex; auto]. right. apply eucl_ext; auto.
Qed.
Lemma C76_crps_pool_l :
forall srt b obs fct fct1 fct2 ax s p M N y x x1 x2 e sf pol,
  argsort_ok srt -> ens_args obs fct ax s p (M + N) y x -> ens_args obs fct1 ax s p M y x1 -> ens_args obs fct2 ax s p N y x2 ->
  (forall r i, inb s r -> (i < M)%nat -> member p x r i = member p x1 r i) ->
  (forall r i, inb s r -> (i < N)%nat -> member p x r (M + i) = member p x2 r i) ->
  (0 < M)%nat -> (0 < N)%nat -> In e ["nrg"; "qd"; "int"]%string -> In pol ["propagate"; "raise"]%string -> (b = Numba -> dt obs = DFloat) ->
  sorted_if sf s p (M + N) x -> sorted_if sf s p M x1 -> sorted_if sf s p N x2 ->
  exists v v1 v2, returns (crps_ensemble srt b obs fct ax None e sf pol) s (fun r => Fin (v r)) /\
    returns (crps_ensemble srt b obs fct1 ax None e sf pol) s (fun r => Fin (v1 r)) /\
    returns (crps_ensemble srt b obs fct2 ax None e sf pol) s (fun r => Fin (v2 r)) /\
    forall r, inb s r -> v r <= (INR M * v1 r + INR N * v2 r) / (INR M + INR N).
Proof.
intros srt b obs fct fct1 fct2 ax s p M N y x x1 x2 e sf pol Hs H0 H1 H2 P1 P2 HM HN He Hp Hd S0 S1 S2.
assert (exists e', e = ename e' /\ (forall M y x, real_un e' M y x = exact_crps M y x) /\ need2 e' = false) as (e' & -> & E1 & E3).
{ names He; [exists Nrg|exists Qd|exists EInt]; repeat split; reflexivity. }
eexists (fun r => _), (fun r => _), (fun r => _). split; [rcall (call_un srt b obs fct ax s p (M + N) y x e' sf pol Hs H0); [lia|congruence]|].
split; [rcall (call_un srt b obs fct1 ax s p M y x1 e' sf pol Hs H1); congruence|].
split; [rcall (call_un srt b obs fct2 ax s p N y x2 e' sf pol Hs H2); congruence|].
intros r Hr. cbv beta. rewrite !E1, !exact_es, !k_exact_one by lia.
pose proof (es_pool' M N 1 (fun _ => 1) (fun _ => 1) (fun _ => 1) (fun _ => y r) (fun i _ => member p x r i) (fun i _ => member p x1 r i) (fun i _ => member p x2 r i)) as Q.
rewrite !sumn_const, !Rmult_1_r in Q. apply Q; auto using lt_0_INR.
Qed.
Lemma C76_crps_pool_weighted_l :
forall srt b obs fct fct1 fct2 wt wt1 wt2 ax s p M N y x x1 x2 w w1 w2 e sf pol,
  argsort_ok srt -> ens_args obs fct ax s p (M + N) y x -> ens_args obs fct1 ax s p M y x1 -> ens_args obs fct2 ax s p N y x2 ->
  wts_args wt fct s p (M + N) w -> wts_args wt1 fct1 s p M w1 -> wts_args wt2 fct2 s p N w2 ->
  (forall r i, inb s r -> (i < M)%nat -> member p x r i = member p x1 r i) ->
  (forall r i, inb s r -> (i < N)%nat -> member p x r (M + i) = member p x2 r i) ->
  (forall r i, inb s r -> (i < M)%nat -> member p w r i = member p w1 r i) ->
  (forall r i, inb s r -> (i < N)%nat -> member p w r (M + i) = member p w2 r i) ->
  In e ["nrg"; "qd"; "int"]%string -> In pol ["propagate"; "raise"]%string -> (b = Numba -> dt obs = DFloat) ->
  sorted_if sf s p (M + N) x -> sorted_if sf s p M x1 -> sorted_if sf s p N x2 -> (0 < M)%nat -> (0 < N)%nat ->
  exists v v1 v2, returns (crps_ensemble srt b obs fct ax (Some wt) e sf pol) s (fun r => Fin (v r)) /\
    returns (crps_ensemble srt b obs fct1 ax (Some wt1) e sf pol) s (fun r => Fin (v1 r)) /\
    returns (crps_ensemble srt b obs fct2 ax (Some wt2) e sf pol) s (fun r => Fin (v2 r)) /\
    forall r, inb s r -> let A := sumn M (member p w1 r) in let B := sumn N (member p w2 r) in
      v r <= (A * v1 r + B * v2 r) / (A + B).
Proof.
intros srt b obs fct fct1 fct2 wt wt1 wt2 ax s p M N y x x1 x2 w w1 w2 e sf pol Hs H0 H1 H2 Hw Hw1 Hw2 P1 P2 Q1 Q2 He Hp Hd S0 S1 S2 HM HN.
assert (exists e', e = ename e' /\ (forall M w y x, real_w b e' M w y x = wexact_crps M w y x) /\ need2 e' = false) as (e' & -> & E1 & E3).
{ names He; [exists Nrg|exists Qd|exists EInt]; repeat split; reflexivity. }
eexists (fun r => _), (fun r => _), (fun r => _). split; [rcall (call_w srt b obs fct wt ax s p (M + N) y x w e' sf pol Hs H0); [congruence|lia]|].
split; [rcall (call_w srt b obs fct1 wt1 ax s p M y x1 w1 e' sf pol Hs H1); congruence|].
split; [rcall (call_w srt b obs fct2 wt2 ax s p N y x2 w2 e' sf pol Hs H2); congruence|].
intros r Hr. cbv beta zeta. rewrite !E1, !wexact_es.
apply (es_pool' M N 1 (member p w r) (member p w1 r) (member p w2 r) (fun _ => y r) (fun i _ => member p x r i) (fun i _ => member p x1 r i) (fun i _ => member p x2 r i)); auto.
- destruct Hw1 as (_ & _ & _ & W). auto.
- destruct Hw2 as (_ & _ & _ & W). auto.
Qed.
Lemma C76_energy_pool_l :
forall b obs fct fct1 fct2 m v s p q M N D y x x1 x2,
  mv_args obs fct m v s p q (M + N) D y x -> mv_args obs fct1 m v s p q M D y x1 -> mv_args obs fct2 m v s p q N D y x2 ->
  (forall r i k, inb s r -> (i < M)%nat -> (k < D)%nat -> memv p q x r i k = memv p q x1 r i k) ->
  (forall r i k, inb s r -> (i < N)%nat -> (k < D)%nat -> memv p q x r (M + i) k = memv p q x2 r i k) ->
  (0 < M)%nat -> (0 < N)%nat -> (0 < D)%nat -> (b = Numba -> floats obs fct /\ floats obs fct1 /\ floats obs fct2) ->
  exists u u1 u2, returns (es_ensemble b obs fct m v None "nrg") s (fun r => Fin (u r)) /\
    returns (es_ensemble b obs fct1 m v None "nrg") s (fun r => Fin (u1 r)) /\
    returns (es_ensemble b obs fct2 m v None "nrg") s (fun r => Fin (u2 r)) /\
    forall r, inb s r -> u r <= (INR M * u1 r + INR N * u2 r) / (INR M + INR N).
Proof.
intros b obs fct fct1 fct2 m v s p q M N D y x x1 x2 H0 H1 H2 P1 P2 HM HN HD Hf.
eexists (fun r => _), (fun r => _), (fun r => _). split; [eapply returns_is, (es_call b obs fct m v s p q (M + N) D y x H0 ltac:(lia) HD ltac:(intros E; now apply Hf) MNrg); easy|].
split; [eapply returns_is, (es_call b obs fct1 m v s p q M D y x1 H1 HM HD ltac:(intros E; now apply Hf) MNrg); easy|].
split; [eapply returns_is, (es_call b obs fct2 m v s p q N D y x2 H2 HN HD ltac:(intros E; now apply Hf) MNrg); easy|].
intros r Hr. cbv beta. unfold eserr, esdist. cbn [mval]. rewrite !k_exact_one by lia.
pose proof (es_pool' M N D (fun _ => 1) (fun _ => 1) (fun _ => 1) (obsv q y r) (memv p q x r) (memv p q x1 r) (memv p q x2 r)) as Q.
rewrite !sumn_const, !Rmult_1_r in Q. apply Q; auto using lt_0_INR.
Qed.
Lemma C76_energy_pool_weighted_l :
forall b obs fct fct1 fct2 wt wt1 wt2 m v s p q M N D y x x1 x2 w w1 w2,
  mv_args obs fct m v s p q (M + N) D y x -> mv_args obs fct1 m v s p q M D y x1 -> mv_args obs fct2 m v s p q N D y x2 ->
  (q < p)%nat -> mv_wts wt s (wpos p q) (M + N) w -> mv_wts wt1 s (wpos p q) M w1 -> mv_wts wt2 s (wpos p q) N w2 ->
  (forall r i k, inb s r -> (i < M)%nat -> (k < D)%nat -> memv p q x r i k = memv p q x1 r i k) ->
  (forall r i k, inb s r -> (i < N)%nat -> (k < D)%nat -> memv p q x r (M + i) k = memv p q x2 r i k) ->
  (forall r i, inb s r -> (i < M)%nat -> member (wpos p q) w r i = member (wpos p q) w1 r i) ->
  (forall r i, inb s r -> (i < N)%nat -> member (wpos p q) w r (M + i) = member (wpos p q) w2 r i) ->
  (0 < M)%nat -> (0 < N)%nat -> (0 < D)%nat -> (b = Numba -> floats obs fct /\ floats obs fct1 /\ floats obs fct2) ->
  exists u u1 u2, returns (es_ensemble b obs fct m v (Some wt) "nrg") s (fun r => Fin (u r)) /\
    returns (es_ensemble b obs fct1 m v (Some wt1) "nrg") s (fun r => Fin (u1 r)) /\
    returns (es_ensemble b obs fct2 m v (Some wt2) "nrg") s (fun r => Fin (u2 r)) /\
    forall r, inb s r -> let A := sumn M (member (wpos p q) w1 r) in let B := sumn N (member (wpos p q) w2 r) in
      u r <= (A * u1 r + B * u2 r) / (A + B).
Proof.
intros b obs fct fct1 fct2 wt wt1 wt2 m v s p q M N D y x x1 x2 w w1 w2 H0 H1 H2 Hqp Hw Hw1 Hw2 P1 P2 Q1 Q2 HM HN HD Hf.
eexists (fun r => _), (fun r => _), (fun r => _). split; [eapply returns_is, (es_call_w b obs fct m v s p q (M + N) D y x H0 ltac:(lia) HD ltac:(intros E; now apply Hf) wt _ w Hw (wpos_S _ _ Hqp) MNrg); easy|].
split; [eapply returns_is, (es_call_w b obs fct1 m v s p q M D y x1 H1 HM HD ltac:(intros E; now apply Hf) wt1 _ w1 Hw1 (wpos_S _ _ Hqp) MNrg); easy|].
split; [eapply returns_is, (es_call_w b obs fct2 m v s p q N D y x2 H2 HN HD ltac:(intros E; now apply Hf) wt2 _ w2 Hw2 (wpos_S _ _ Hqp) MNrg); easy|].
intros r Hr. cbv beta zeta. unfold eserr, esdist. cbn [mval_w].
apply (es_pool' M N D (member (wpos p q) w r) (member (wpos p q) w1 r) (member (wpos p q) w2 r) (obsv q y r) (memv p q x r) (memv p q x1 r) (memv p q x2 r)); auto.
- destruct Hw1 as (_ & _ & W). auto.
- destruct Hw2 as (_ & _ & W). auto.
Qed.
Lemma C76_fair_pool_refuted_l :
exists v1 v, v1 < v /\ forall srt b, argsort_ok srt ->
  returns (crps_ensemble srt b (farr nil (fun _ => 0)) (real1 2 INR) (-1) None "fair" false "propagate") nil (fun _ => Fin v1) /\
  returns (crps_ensemble srt b (farr nil (fun _ => 0)) (real1 4 (fun k => INR (k mod 2))) (-1) None "fair" false "propagate") nil (fun _ => Fin v).
Proof.
exists (fair_crps 2 0 INR), (fair_crps 4 0 (fun k => INR (k mod 2))). split.
- unfold fair_crps, mae, pairsum, sumn, Rsum. simpl. rewrite !Rminus_0_r, !Rminus_eq_0, Rminus_0_l, Rabs_Ropp, !Rabs_R0, !Rabs_R1. lra.
- intros srt b Hs. split; eapply returns_is.
  + apply (call_un srt b _ _ _ _ _ _ _ _ Fair false "propagate" Hs (real0_args 0 2 INR)); auto; try easy; now left.
  + apply (call_un srt b _ _ _ _ _ _ _ _ Fair false "propagate" Hs (real0_args 0 4 (fun k => INR (k mod 2)))); auto; try easy; try lia; now left.
Qed.
