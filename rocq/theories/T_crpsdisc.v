(** Proofs that the closed-form CRPS of the Poisson, negative binomial and hypergeometric distributions is the CRPS integral (statements in P_crpsdisc.v). *)
From Verif Require Export L_closed L_crpsnb L_crpshyp.
From Coq Require Import Psatz Lia.
From Coquelicot Require Import Coquelicot.
Open Scope R_scope.
Lemma floor_fl t : 0 <= t -> Num.nfloor (Fin t) = Fin (INR (fl t)).
Proof. intros H. pose proof (base_Int_part t) as [B1 B2]. assert (0 <= Int_part t)%Z by (assert (-1 < IZR (Int_part t)) as K by lra; apply lt_IZR in K; lia). unfold fl. rewrite INR_IZR_INZ, Z2Nat.id by auto. reflexivity. Qed.
Lemma fl_S t : 0 <= t -> fl (t + 1) = S (fl t).
Proof. intros H. pose proof (fl_spec t H). apply fl_unique. rewrite S_INR. lra. Qed.
Lemma pois_cdf_val y l : 0 <= l ->
  (if neqb (b2n (nltb (Fin y) (Fin 0))) (Fin 0) then ngammaincc (Num.nfloor (nabs (Fin y) .+ nofnat 1)) (Fin l) .* ngamma (Num.nfloor (nabs (Fin y) .+ nofnat 1)) ./ ngamma (Num.nfloor (nabs (Fin y) .+ nofnat 1)) else Fin 0) = Fin (count_cdf (poisson_pmf l) y).
Proof.
  intros Hl. unfold count_cdf. fold (fl y). destruct (Rlt_dec y 0) as [L|L]; [rewrite ltb_t by auto; cbn [b2n]; nev; reflexivity|]. rewrite ltb_f by lra. cbn [b2n]. nev.
  change (nofnat 1) with (Fin 1). nev. rewrite Rabs_right by lra. rewrite floor_fl, fl_S by lra. rewrite <- inc_pois by auto. rewrite <- S_INR. assert (0 < INR (S (fl y))) as P by (apply lt_0_INR; lia).
  rewrite gamma_f1 by auto. pose proof (Rgamma_pos _ P). unfold ngammaincc, ngammainc. destruct (Rlt_dec 0 (INR (S (fl y)))); [|lra]. destruct (Rle_dec 0 l); [|lra]. nev. f_equal. field. lra.
Qed.
Lemma floor_neg y : y < 0 -> exists k, Num.nfloor (Fin y) = Fin k /\ k < 0.
Proof. intros H. exists (IZR (Int_part y)). split; [reflexivity|]. destruct (base_Int_part y). lra. Qed.
Lemma pois_pdf_val y l : 0 <= l ->
  (if neqb (b2n (nltb (Num.nfloor (Fin y)) (Fin 0))) (Fin 0) then
     if neqb (b2n (nltb (Num.nfloor (nabs (Num.nfloor (Fin y)))) (nabs (Num.nfloor (Fin y))))) (Fin 0)
     then npow (Fin l) (nabs (Num.nfloor (Fin y))) .* nexp (nopp (Fin l)) ./ nfactorial (nabs (Num.nfloor (Fin y))) else Fin 0
   else Fin 0) = Fin (if Rlt_dec y 0 then 0 else poisson_pmf l (fl y)).
Proof.
  intros Hl. destruct (Rlt_dec y 0) as [L|L].
  - destruct (floor_neg y L) as (k & -> & K). rewrite ltb_t by auto. cbn [b2n]. nev. reflexivity.
  - rewrite floor_fl by lra. pose proof (pos_INR (fl y)). rewrite ltb_f by auto. cbn [b2n]. replace (nabs (Fin (INR (fl y)))) with (Fin (INR (fl y))) by (nev; f_equal; rewrite Rabs_right; lra).
    rewrite floor_nat, ltb_f, pow_nat, factorial_nat by lra. cbn [b2n]. pose proof (INR_fact_neq_0 (fl y)). nev. reflexivity.
Qed.
Lemma nb_cdf_val y r p : 0 < r -> 0 < p <= 1 ->
  (if neqb (b2n (nltb (Fin y) (Fin 0))) (Fin 0) then nbetainc (Fin r) (Num.nfloor (Fin y .+ nofnat 1)) (Fin p) else Fin 0) = Fin (count_cdf (negbinom_pmf r p) y).
Proof.
  intros Hr Hp. unfold count_cdf. fold (fl y). destruct (Rlt_dec y 0) as [L|L]; [rewrite ltb_t by auto; cbn [b2n]; nev; reflexivity|]. rewrite ltb_f by lra. cbn [b2n]. nev.
  change (nofnat 1) with (Fin 1). nev. rewrite floor_fl, fl_S, S_INR by lra. pose proof (pos_INR (fl y)). rewrite betainc_f1 by lra. now rewrite inc_nb.
Qed.
Lemma prob_mean r m : 0 < r -> 0 <= m -> 0 < r / (r + m) <= 1.
Proof. intros Hr Hm. split; [apply Rdiv_lt_0_compat; lra|]. apply (Rmult_le_reg_r (r + m)); [lra|]. unfold Rdiv. rewrite Rmult_assoc, Rinv_l by lra. lra. Qed.
Lemma nb_value y r p : 0 < r -> 0 < p <= 1 ->
  Fin y .* (nofnat 2 .* (if neqb (b2n (nltb (Fin y) (Fin 0))) (Fin 0) then nbetainc (Fin r) (Num.nfloor (Fin y .+ nofnat 1)) (Fin p) else Fin 0) .- nofnat 1)
  .- Fin r .* (nofnat 1 .- Fin p)
     .* (Fin p .* (nofnat 2 .* (if neqb (b2n (nltb (Fin y .- nofnat 1) (Fin 0))) (Fin 0) then nbetainc (Fin r .+ nofnat 1) (Num.nfloor (Fin y .- nofnat 1 .+ nofnat 1)) (Fin p) else Fin 0) .- nofnat 1)
         .+ nhyp2f1 (Fin r .+ nofnat 1) (Fin (1 / 2)) (Fin 2) (Fin (-4) .* (nofnat 1 .- Fin p) ./ nsq (Fin p))) ./ nsq (Fin p) =
  Fin (y * (2 * count_cdf (negbinom_pmf r p) y - 1) - r * (1 - p) * (p * (2 * count_cdf (negbinom_pmf (r + 1) p) (y - 1) - 1) + Rhyp2f1 (r + 1) (1 / 2) 2 (- (4 * (1 - p) / p ^ 2))) / p ^ 2).
Proof.
  intros Hr Hp. rewrite nb_cdf_val by auto. replace (Fin r .+ nofnat 1) with (Fin (r + 1)) by reflexivity. replace (Fin y .- nofnat 1) with (Fin (y - 1)) by reflexivity. rewrite nb_cdf_val by lra.
  generalize (count_cdf (negbinom_pmf r p) y), (count_cdf (negbinom_pmf (r + 1) p) (y - 1)). intros u1 u2. assert (0 < p * p) by (apply Rmult_lt_0_compat; lra).
  assert (nhyp2f1 (Fin (r + 1)) (Fin (1 / 2)) (Fin 2) (Fin (-4) .* (nofnat 1 .- Fin p) ./ nsq (Fin p)) = Fin (Rhyp2f1 (r + 1) (1 / 2) 2 (- (4 * (1 - p) / p ^ 2)))) as ->.
  { change (nofnat 1) with (Fin 1). assert (Fin (-4) .* (Fin 1 .- Fin p) ./ nsq (Fin p) = Fin (- (4 * (1 - p) / p ^ 2))) as -> by (nev; f_equal; field; lra).
    unfold nhyp2f1. destruct (Rlt_dec 0 (1 / 2)); [|lra]. destruct (Rlt_dec (1 / 2) 2); [|lra]. destruct (Rlt_dec (- (4 * (1 - p) / p ^ 2)) 1) as [L|L]; auto. exfalso. apply L.
    assert (0 <= 4 * (1 - p) / p ^ 2); [|lra]. apply Rmult_le_pos; [lra|]. left. apply Rinv_0_lt_compat. simpl. lra. }
  generalize (Rhyp2f1 (r + 1) (1 / 2) 2 (- (4 * (1 - p) / p ^ 2))). intros u3. change (nofnat 1) with (Fin 1). change (nofnat 2) with (Fin 2). nev. f_equal. simpl. field. lra.
Qed.
Lemma hyper_returns obs m k n s f g h : params s [(obs, f); (m, g); (k, h)]%list ->
  returns (crps_hypergeometric obs m n k) s (fun i => hyper_score n (f i) (g i) (h i)).
Proof.
  intros P. destruct (common_bto _ _ (proj1 P)) as [B C]. cbn [map fst] in B, C.
  assert (bto (sh obs) s) as Ba by (apply B; simpl; tauto). assert (bto (sh m) s) as Bb by (apply B; simpl; tauto). assert (bto (sh k) s) as Bc by (apply B; simpl; tauto).
  destruct (bshape_bto _ _ _ Ba Bb) as (t & E & T0 & T1 & T2 & Q).
  destruct (bshape_bto _ _ _ T0 Bc) as (u & E' & U0 & U1 & U2 & Q').
  assert (u = s) as ->.
  { apply bto_pres_eq; auto. intros j Hj. destruct (C j Hj) as (v & Hv & Pv). apply Q'. simpl in Hv. destruct Hv as [<-|[<-|[<-|[]]]]; auto. }
  unfold crps_hypergeometric, broadcast3. rewrite E, E'. cbn [bind]. exists DFloat. eexists. split; [reflexivity|]. cbn [sh dt at_]. repeat split; auto. intros i Hi.
  destruct P as [_ P]. inversion P as [|? ? P1 P']; inversion P' as [|? ? P2 P'']; inversion P'' as [|? ? P3 _]; subst. cbn [fst snd] in *. rewrite <- P1, <- P2, <- P3 by auto. reflexivity.
Qed.
Lemma C64_poisson_l :
forall (obs mean : arr) (s : list nat) (y l : list nat -> R),
  params s [(obs, fins y); (mean, fins l)]%list -> (forall i, inb s i -> 0 <= l i) ->
  exists f, returns (crps_poisson obs mean) s (fins f) /\ forall i, inb s i -> is_crps (count_cdf (poisson_pmf (l i))) (y i) (f i).
Proof.
intros obs mean s y l P H. eexists. split; [|intros i Hi; apply pois_crps; auto].
ret P. specialize (H i Hi). unfold fins. rewrite pois_cdf_val by auto. rewrite (ltb_f (l i) 0) by auto. cbn [b2n]. replace (neqb (Fin 0) (Fin 0)) with true by (nev; reflexivity).
rewrite pois_pdf_val by auto. unfold nreal1. change (nofnat 2) with (Fin 2). change (nofnat 1) with (Fin 1). generalize (count_cdf (poisson_pmf (l i)) (y i)), (if Rlt_dec (y i) 0 then 0 else poisson_pmf (l i) (fl (y i))). intros u1 u2. nev. reflexivity.
Qed.
Lemma C64_negbinom_l :
forall (obs size prob : arr) (s : list nat) (y r p : list nat -> R),
  params s [(obs, fins y); (size, fins r); (prob, fins p)]%list -> (forall i, inb s i -> 0 < r i /\ 0 < p i <= 1) ->
  exists f, returns (crps_negbinom obs size (Some prob) None) s (fins f) /\ forall i, inb s i -> is_crps (count_cdf (negbinom_pmf (r i) (p i))) (y i) (f i).
Proof.
intros obs size prob s y r p P H. eexists. split; [|intros i Hi; destruct (H i Hi) as [Hr Hp]; apply nb_crps; auto].
unfold crps_negbinom; ret P. destruct (H i Hi) as [Hr Hp]. unfold fins. pose proof Hp as Hq. apply nb_value; auto.
Qed.
Lemma C64_negbinom_mean_l :
forall (obs size mean : arr) (s : list nat) (y r p : list nat -> R),
  params s [(obs, fins y); (size, fins r); (mean, fins p)]%list -> (forall i, inb s i -> 0 < r i /\ 0 <= p i) ->
  exists f, returns (crps_negbinom obs size None (Some mean)) s (fins f) /\ forall i, inb s i -> is_crps (count_cdf (negbinom_pmf (r i) (r i / (r i + p i)))) (y i) (f i).
Proof.
intros obs size mean s y r p P H. eexists. split; [|intros i Hi; destruct (H i Hi) as [Hr Hp]; apply nb_crps; auto; now apply prob_mean].
unfold crps_negbinom; ret P. destruct (H i Hi) as [Hr Hp]. unfold fins. pose proof (prob_mean (r i) (p i) Hr Hp) as Hq. assert (ndiv (Fin (r i)) (nadd (Fin (r i)) (Fin (p i))) = Fin (r i / (r i + p i))) as E by (nev; auto). rewrite ?E. apply nb_value; auto.
Qed.
Lemma C64_hypergeometric_l :
forall (obs m k : arr) (n : nat) (s : list nat) (y : list nat -> R) (a c : list nat -> nat),
  params s [(obs, fins y); (m, fins (fun i => INR (a i))); (k, fins (fun i => INR (c i)))]%list -> (forall i, inb s i -> (c i <= a i + n /\ Nat.min (a i) (c i) <= n)%nat) ->
  exists f, returns (crps_hypergeometric obs m n k) s (fins f) /\ forall i, inb s i -> is_crps (count_cdf (hypergeometric_pmf (a i) n (c i))) (y i) (f i).
Proof.
intros obs m k n s y a c P H.
exists (fun i => 2 * sumn (S n) (fun j => hypergeometric_pmf (a i) n (c i) j * (gt_ind (y i) j - sumn (S j) (hypergeometric_pmf (a i) n (c i)) + hypergeometric_pmf (a i) n (c i) j / 2) * (INR j - y i))). split.
- eapply returns_eq; [apply hyper_returns; exact P|]. intros i Hi. cbv beta. unfold fins. apply hyper_score_val. now apply H.
- intros i Hi. destruct (H i Hi) as [H1 H2]. apply fin_crps; [now apply hypergeometric_sum|]. intros j Hj. apply hyper_support. lia.
Qed.
Lemma C64_hypergeometric_refuted_l :
(forall y, returns (crps_hypergeometric (farr nil (fun _ => y)) (farr nil (fun _ => 5)) 1 (farr nil (fun _ => 3))) nil (fun _ => Fin 0)) /\
  exists v, is_crps (count_cdf (hypergeometric_pmf 5 1 3)) 0 v /\ v = 9 / 4.
Proof.
split.
- intros y. assert (params nil [(farr nil (fun _ => y), fins (fun _ => y)); (farr nil (fun _ => 5), fins (fun _ => 5)); (farr nil (fun _ => 3), fins (fun _ => 3))]%list) as P by (split; [reflexivity|repeat constructor]).
  eapply returns_eq; [apply hyper_returns; exact P|]. intros i Hi. cbv beta. unfold fins. replace 5 with (INR 5) by (simpl; ring). replace 3 with (INR 3) by (simpl; ring). rewrite hyper_score_val by lia.
  rewrite !sumn_S, !sumn_0. unfold hypergeometric_pmf. simpl. f_equal. field.
- eexists. split; [apply (fin_crps (hypergeometric_pmf 5 1 3) 3); [apply hypergeometric_sum; lia|intros j Hj; apply hyper_support; simpl; lia]|].
  rewrite !sumn_S, !sumn_0. unfold gt_ind, hypergeometric_pmf. simpl. repeat (destruct (Rlt_dec _ _); try lra).
Qed.
