(** Proofs that closed-form scores are CRPS integrals (statements in P_crpsint.v). *)
From Verif Require Export L_closed L_nev L_cdf.
From Coq Require Import Psatz.
From Coquelicot Require Import Coquelicot.
Open Scope R_scope.
Lemma abs_div y m s : 0 < s -> Rabs ((y - m) / s) = Rabs (y - m) / s.
Proof. intros H. unfold Rdiv. rewrite Rabs_mult, (Rabs_right (/ s)); auto. apply Rle_ge, Rlt_le, Rinv_0_lt_compat. auto. Qed.
Lemma C39_exponential_l :
forall (obs rate : arr) (s : list nat) (y l : list nat -> R),
  params s [(obs, fins y); (rate, fins l)]%list -> (forall i, inb s i -> 0 < l i) ->
  exists f, returns (crps_exponential obs rate) s (fins f) /\
    forall i, inb s i -> is_crps (exponential_cdf (l i)) (y i) (f i).
Proof.
intros obs rate s y l P Hl. eexists (fun i => _). split.
- ret P. specialize (Hl i Hi). nev. reflexivity.
- intros i Hi. specialize (Hl i Hi). cbv beta. assert (0 < / l i) as Hp by (now apply Rinv_0_lt_compat).
  pose proof (gpd_crps 0 Rlt_0_1 0 0 (/ l i) (y i) Hp) as H. cbv zeta in H.
  assert (forall t, (t - 0) / / l i = l i * t) as E by (intros; field; lra).
  eapply crps_eq; [| |exact H].
  + intros t. unfold gpd_cdf, exponential_cdf, gpd_sf. destruct (Req_EM_T 0 0); [|lra]. rewrite E. destruct (Rlt_dec t 0); ring.
  + rewrite E, Rabs_mult, (Rabs_right (l i)) by lra. unfold gpd_sf. destruct (Req_EM_T 0 0); [|lra]. rewrite pow0_pos by apply exp_pos.
    rewrite !Rminus_0_r, Rpower_1 by apply exp_pos.
    replace (Rmax (1 - exp (- l i * y i)) 0) with (1 - exp (- Rmax (l i * y i) 0)); [field; lra|].
    destruct (Rle_dec 0 (l i * y i)) as [C|C].
    * rewrite (Rmax_left (l i * y i)) by lra. replace (- (l i * y i)) with (- l i * y i) by ring. rewrite Rmax_left; auto.
      assert (exp (- l i * y i) <= 1); [|lra]. rewrite <- exp_0. destruct (Req_dec (l i * y i) 0); [right; f_equal; lra|left; apply exp_increasing; lra].
    * rewrite (Rmax_right (l i * y i)) by lra. rewrite Ropp_0, exp_0, Rmax_right; [ring|].
      assert (1 < exp (- l i * y i)); [|lra]. rewrite <- exp_0. apply exp_increasing. lra.
Qed.
Lemma C39_exponentialM_l :
forall (obs mass location scale : arr) (s : list nat) (y p m c : list nat -> R),
  params s [(obs, fins y); (mass, fins p); (location, fins m); (scale, fins c)]%list -> dt obs = DFloat -> sh obs = s ->
  (forall i, inb s i -> 0 < c i) ->
  exists f, returns (crps_exponentialM obs mass location scale) s (fins f) /\
    forall i, inb s i -> is_crps (exponentialM_cdf (p i) (m i) (c i)) (y i) (f i).
Proof.
intros obs mass location scale s y p m c P D S Hc. eexists. split.
- exact (exponentialM_value _ _ _ _ _ _ _ _ _ P D S (fun i Hi => Rgt_not_eq _ _ (Hc i Hi))).
- intros i Hi. specialize (Hc i Hi). cbv beta zeta.
  pose proof (gpd_crps 0 Rlt_0_1 (p i) (m i) (c i) (y i) Hc) as H. cbv zeta in H.
  eapply crps_eq; [| |exact H].
  + intros t. unfold gpd_cdf, exponentialM_cdf, gpd_sf. destruct (Req_EM_T 0 0); [|lra]. reflexivity.
  + rewrite abs_div by auto. unfold gpd_sf. destruct (Req_EM_T 0 0); [|lra]. rewrite pow0_pos by apply exp_pos.
    rewrite !Rminus_0_r, Rpower_1 by apply exp_pos. set (w := (y i - m i) / c i).
    replace (Rmax (1 - exp (- w)) 0) with (1 - exp (- Rmax w 0)); [field; lra|].
    destruct (Rle_dec 0 w) as [C|C].
    * rewrite (Rmax_left w) by lra. rewrite Rmax_left; auto.
      assert (exp (- w) <= 1); [|lra]. rewrite <- exp_0. destruct (Req_dec w 0); [right; f_equal; lra|left; apply exp_increasing; lra].
    * rewrite (Rmax_right w) by lra. rewrite Ropp_0, exp_0, Rmax_right; [ring|].
      assert (1 < exp (- w)); [|lra]. rewrite <- exp_0. apply exp_increasing. lra.
Qed.
Lemma C39_2pexponential_l :
forall (obs scale1 scale2 location : arr) (s : list nat) (y p q m : list nat -> R),
  params s [(obs, fins y); (scale1, fins p); (scale2, fins q); (location, fins m)]%list ->
  (forall i, inb s i -> 0 < p i /\ 0 < q i) ->
  exists f, returns (crps_2pexponential obs scale1 scale2 location) s (fins f) /\
    forall i, inb s i -> is_crps (exponential2p_cdf (p i) (q i) (m i)) (y i) (f i).
Proof.
intros obs scale1 scale2 location s y p q m P H.
exists (fun i => let z := Rabs (y i - m i) in let c := if Rlt_dec (y i - m i) 0 then p i else q i in
  z + 2 * c ^ 2 / (p i + q i) * exp (- z / c) - 2 * c ^ 2 / (p i + q i) + (p i ^ 3 + q i ^ 3) / (2 * (p i + q i) ^ 2)). split.
- ret P. destruct (H i Hi) as [Hp Hq]. assert (2 * ((p i + q i) * (p i + q i)) <> 0) by nra.
  unfold fins. cbv zeta. destruct (Rlt_dec (y i - m i) 0); nev; f_equal; field; lra.
- intros i Hi. destruct (H i Hi) as [Hp Hq]. apply exp2p_crps; auto.
Qed.
Lemma C39_laplace_l :
forall (obs location scale : arr) (s : list nat) (y m c : list nat -> R),
  params s [(obs, fins y); (location, fins m); (scale, fins c)]%list -> (forall i, inb s i -> 0 < c i) ->
  exists f, returns (crps_laplace obs location scale) s (fins f) /\
    forall i, inb s i -> is_crps (laplace_cdf (m i) (c i)) (y i) (f i).
Proof.
intros obs location scale s y m c P Hc. eexists (fun i => _). split.
- ret P. specialize (Hc i Hi). nev. reflexivity.
- intros i Hi. specialize (Hc i Hi). cbv beta. now apply laplace_crps.
Qed.
Lemma C39_logistic_l :
forall (obs mu sigma : arr) (s : list nat) (y m c : list nat -> R),
  params s [(obs, fins y); (mu, fins m); (sigma, fins c)]%list -> (forall i, inb s i -> 0 < c i) ->
  exists f, returns (crps_logistic obs mu sigma) s (fins f) /\
    forall i, inb s i -> is_crps (logistic_cdf (m i) (c i)) (y i) (f i).
Proof.
intros obs mu sigma s y m c P Hc.
exists (fun i => let w := (y i - m i) / c i in c i * (w - 2 * ln (1 / (1 + exp (- w))) - 1)). split.
- ret P. specialize (Hc i Hi). cbv zeta. set (w := (y i - m i) / c i). pose proof (exp_pos (- w)).
  assert (0 < 1 / (1 + exp (- w))) by (apply Rdiv_lt_0_compat; lra). nev. fold w. nev. reflexivity.
- intros i Hi. specialize (Hc i Hi). cbv beta. now apply logistic_crps.
Qed.
Lemma C39_uniform_l :
forall (obs min max lmass umass : arr) (s : list nat) (y a b p q : list nat -> R),
  params s [(obs, fins y); (min, fins a); (max, fins b); (lmass, fins p); (umass, fins q)]%list -> (forall i, inb s i -> a i < b i) ->
  exists f, returns (crps_uniform obs min max lmass umass) s (fins f) /\
    forall i, inb s i -> is_crps (uniform_cdf (a i) (b i) (p i) (q i)) (y i) (f i).
Proof.
intros obs min max lmass umass s y a b p q P Hab.
exists (fun i => let w := (y i - a i) / (b i - a i) in let z := Rmin (Rmax w 0) 1 in
   (b i - a i) * (Rabs (w - z) + z ^ 2 * (1 - p i - q i) - z * (1 - 2 * p i) + (1 - p i - q i) ^ 2 / 3 + (1 - p i) * q i)). split.
- ret P. specialize (Hab i Hi). cbv zeta. nev. f_equal. field.
- intros i Hi. specialize (Hab i Hi). cbv beta. now apply uniform_crps.
Qed.
Lemma C39_gpd_l :
forall (obs shape location scale mass : arr) (s : list nat) (y k m c p : list nat -> R),
  params s [(obs, fins y); (shape, fins k); (location, fins m); (scale, fins c); (mass, fins p)]%list ->
  (forall i, inb s i -> k i < 1 /\ 0 < c i /\ 0 <= p i <= 1) ->
  exists f, returns (crps_gpd obs shape location scale mass) s (fins f) /\
    forall i, inb s i -> is_crps (gpd_cdf (k i) (m i) (c i) (p i)) (y i) (f i).
Proof.
intros obs shape location scale mass s y k m c p P H.
exists (fun i => let w := (y i - m i) / c i in let u := gpd_sf (k i) (Rmax w 0) in
  c i * (Rabs w - 2 * (1 - p i) * (1 - pow0 u (1 - k i)) / (1 - k i) + (1 - p i) ^ 2 / (2 - k i))). split.
- ret P. destruct (H i Hi) as (Hk & Hc & Hp0 & Hp1). cbv zeta. set (w := (y i - m i) / c i). nev. fold w.
  assert (forall r, Fin (c i) .* (Fin (Rabs w) .- Fin (2 * (1 - p i)) .* (Fin 1 .- Fin r) ./ (Fin (1 - k i)) .+ Fin ((1 - p i) * (1 - p i)) ./ Fin (2 - k i))
    = Fin (c i * (Rabs w - 2 * (1 - p i) * (1 - r) / (1 - k i) + (1 - p i) ^ 2 / (2 - k i)))) as E.
  { intros r. nev. f_equal. field. lra. }
  assert (Rpower 1 (1 - k i) = 1) as R1 by (unfold Rpower; rewrite ln_1, Rmult_0_r; apply exp_0).
  destruct (Rlt_dec w 0) as [W|W].
  { rewrite (Rmax_right w 0), gpd_sf_0, pow0_pos, R1 by lra. rewrite <- E.
    destruct (Rtotal_order (k i) 0) as [K|[K|K]].
    - assert (0 < -1 / k i) by (replace (-1 / k i) with (/ - k i) by (field; lra); apply Rinv_0_lt_compat; lra). nev. rewrite Rminus_0_r, R1. reflexivity.
    - nev. rewrite Rminus_0_r, R1. reflexivity.
    - nev. rewrite Rminus_0_r, R1. reflexivity. }
  assert (forall x, Fin 1 .- (Fin 1 .- Fin x) = Fin x) as E1 by (intros; simpl; f_equal; ring).
  rewrite (Rmax_left w 0) by lra. rewrite <- E. unfold gpd_sf. destruct (Req_EM_T (k i) 0) as [K0|K0].
  { rewrite pow0_pos by apply exp_pos. rewrite K0. nev. rewrite !Rminus_0_r. replace (1 - (1 - exp (- w))) with (exp (- w)) by ring. nev. reflexivity. }
  destruct (Rlt_dec 0 (k i)) as [K|K].
  { assert (0 < 1 + k i * w) by nra. assert (0 < Rpower (1 + k i * w) (-1 / k i)) by apply exp_pos. rewrite !(pow0_pos (1 + k i * w)), pow0_pos by (auto; apply exp_pos).
    nev. replace (1 - (1 - Rpower (1 + k i * w) (-1 / k i))) with (Rpower (1 + k i * w) (-1 / k i)) by ring. nev.
    replace (- (1 / k i)) with (-1 / k i) by (field; auto). reflexivity. }
  assert (k i < 0) as Kn by lra. assert (-1 / k i = / - k i) as Kv by (field; lra). assert (0 < -1 / k i) as Kp by (rewrite Kv; apply Rinv_0_lt_compat; lra).
  assert (k i * (-1 / k i) = -1) as Ki by (field; lra). assert (- (1 / k i) = -1 / k i) as -> by (field; lra).
  destruct (Rtotal_order w (-1 / k i)) as [C|[C|C]].
  + assert (0 < 1 + k i * w) by nra. assert (0 < Rpower (1 + k i * w) (-1 / k i)) by apply exp_pos. rewrite !(pow0_pos (1 + k i * w)), pow0_pos by (auto; apply exp_pos).
    nev. replace (1 - (1 - Rpower (1 + k i * w) (-1 / k i))) with (Rpower (1 + k i * w) (-1 / k i)) by ring. nev. reflexivity.
  + rewrite !(pow0_neg (1 + k i * w)), pow0_neg by nra. nev. replace (1 + k i * w) with 0 by nra. rewrite pow_0 by auto. nev.
    replace (1 - (1 - 0)) with 0 by ring. rewrite pow_0 by lra. nev. reflexivity.
  + rewrite !(pow0_neg (1 + k i * w)), pow0_neg by nra. nev. replace (1 - 1) with 0 by ring. rewrite pow_0 by lra. nev. reflexivity.
- intros i Hi. destruct (H i Hi) as (Hk & Hc & Hp). cbv beta. now apply gpd_crps.
Qed.
