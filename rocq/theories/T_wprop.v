(** Proofs of the propriety of the weighted ensemble scores (statements in P_wprop.v). *)
From Coq Require Import FunctionalExtensionality.
From Verif Require Export S_wprop L_wprop.
From Coq Require Import Lra Lia.
Open Scope R_scope.
Lemma mem_same p (M : nat) (e : nat -> R) j : (p <= 1)%nat -> member p (fun i => e (nth p i 0%nat)) (j :: nil) = e.
Proof. intros Hp. extensionality k. unfold member. destruct p as [|[|p]]; [reflexivity|reflexivity|lia]. Qed.
Lemma obsv_same q (z : nat -> nat -> R) j : (q <= 1)%nat -> obsv q (fun i => z (hd 0%nat (remove_at q i)) (nth q i 0%nat)) (j :: nil) = z j.
Proof. intros Hq. extensionality k. unfold obsv. destruct q as [|[|q]]; [reflexivity|reflexivity|lia]. Qed.
Lemma memv_same p q (e : nat -> nat -> R) j : (p <= 2)%nat -> (q <= 1)%nat ->
  memv p q (fun i => e (nth p i 0%nat) (nth q (remove_at p i) 0%nat)) (j :: nil) = e.
Proof. intros Hp Hq. extensionality i. extensionality k. unfold memv. destruct q as [|[|q]]; [| |lia]; (destruct p as [|[|[|p]]]; [reflexivity|reflexivity|reflexivity|lia]). Qed.
Lemma same_p obs fct ax p N M z e : same_uv obs fct ax p N M z e -> (p <= 1)%nat.
Proof. intros (_ & _ & H & _). exact H. Qed.
Lemma same_pq obs fct m v p q N M D z e : same_mv obs fct m v p q N M D z e -> (p <= 2)%nat /\ (q <= 1)%nat.
Proof. intros (_ & _ & H & H' & _). split; assumption. Qed.
Lemma inb1 N (P : list nat -> Prop) : (forall j, (j < N)%nat -> P (j :: nil)) -> forall r, inb (N :: nil) r -> P r.
Proof. intros H r Hr. destruct r as [|j r]; [destruct Hr|]. destruct r as [|k r]; [|destruct Hr as [_ Hr]; destruct Hr]. apply H, Hr. Qed.
Lemma in1 N r : inb (N :: nil) r -> r = (hd 0%nat r :: nil).
Proof. revert r. apply inb1. reflexivity. Qed.
Lemma nw_pos0 (N : nat) (a : nat -> R) : 0 < sumn N a -> (0 < N)%nat.
Proof. intros H. destruct N; [rewrite sumn_0 in H; lra|lia]. Qed.
(** the values at (j :: nil) *)
Lemma nw_intro N T T' (f h : list nat -> num) (a b : nat -> R) : returns T (N :: nil) f -> returns T' (N :: nil) h ->
  (forall j, (j < N)%nat -> f (j :: nil) = Fin (a j)) -> (forall j, (j < N)%nat -> h (j :: nil) = Fin (b j)) -> sumn N a <= sumn N b -> not_worse N T T'.
Proof.
  intros H1 H2 E1 E2 L. exists a, b. split; [|split; [|exact L]].
  - eapply returns_ext; [exact H1|]. apply inb1. intros j Hj. now apply E1.
  - eapply returns_ext; [exact H2|]. apply inb1. intros j Hj. now apply E2.
Qed.
Lemma vweight_nn D wf g u : vweight D wf g -> 0 <= g u. Proof. intros H. apply (H u). Qed.
Lemma tw_value srt be obs fct a c ax s p M y x e pol f vf : argsort_ok srt -> ens_args obs fct ax s p M y x -> (0 < M)%nat ->
  (thresholds a c /\ clips a c f /\ vf = None \/ exists h, vf = Some h /\ forall t, h (Fin t) = Fin (f t)) ->
  In e ["nrg"; "qd"; "int"]%string -> In pol ["propagate"; "raise"]%string ->
  returns (twcrps_ensemble srt be obs fct a c ax None vf e false pol) s (fun r => Fin (exact_crps M (f (y r)) (fun i => f (member p x r i)))).
Proof.
  intros Hs Ha HM Hf He Hp.
  destruct (tw_chain srt be obs fct a c ax None vf e false pol s p M _ _ (args_nums _ _ _ _ _ _ _ _ Ha)) as (obs' & fct' & D1 & D2 & Hn & ->).
  assert (forall t, match vf with None => nmin (nmax (Fin t) a) c | Some g => g (Fin t) end = Fin (f t)) as F.
  { intros t. destruct Hf as [(T & C & ->)|(h & -> & H)]; [symmetry; now apply clips_R|apply H]. }
  apply (nums_args obs' fct' ax s p M _ _ (fun r => f (y r)) (fun i => f (x i))) in Hn; [|intros; apply F|intros; apply F].
  assert (exists e', e = ename e' /\ (forall y x, real_un e' M y x = exact_crps M y x) /\ need2 e' = false) as (e' & -> & E1 & E3).
  { names He; [exists Nrg|exists Qd|exists EInt]; repeat split; reflexivity. }
  eapply returns_ext; [eapply returns_is, (call_un srt be obs' fct' ax s p M _ _ e' false pol Hs Hn); auto; congruence|].
  intros r Hr. cbv beta. rewrite E1. reflexivity.
Qed.
Lemma exact_es M y x : exact_crps M y x = k_exact M (es_err 1 (fun _ => y) (up x)) (es_dist 1 (up x)).
Proof.
  unfold exact_crps, mae, pairsum, k_exact, es_err, es_dist, up. f_equal; f_equal.
  - apply sumn_ext. intros i _. now rewrite eucl_up.
  - apply sumn_ext. intros i _. apply sumn_ext. intros j _. now rewrite eucl_up.
Qed.
(** instances: the observations 0 and 1; the ensemble of one member 5, and the observations as ensemble *)
Definition ex_o : arr := farr (2%nat :: nil) (fun i => INR (hd 0%nat i)).
Definition ex_f : arr := farr (1%nat :: 2%nat :: nil) (fun _ => 5).
Definition ex_g : arr := farr (2%nat :: 2%nat :: nil) (fun i => INR (nth 0 i 0%nat)).
Lemma ex_uv : same_uv ex_o ex_f (-1) 0 2 1 INR (fun _ => 5) /\ same_uv ex_o ex_g (-1) 0 2 2 INR INR.
Proof. split; (split; [|split; [|split]]); try (split; [reflexivity|intros; reflexivity]); simpl; try lia; left; reflexivity. Qed.
(** the same with vectors of two equal entries *)
Definition ex_om : arr := farr (2%nat :: 2%nat :: nil) (fun i => INR (hd 0%nat (remove_at 0 i))).
Definition ex_fm : arr := farr (2%nat :: 1%nat :: 2%nat :: nil) (fun _ => 5).
Definition ex_gm : arr := farr (2%nat :: 2%nat :: 2%nat :: nil) (fun i => INR (nth 1 i 0%nat)).
Definition dup (f : nat -> R) (j _ : nat) : R := f j.
Lemma ex_mv : same_mv ex_om ex_fm (-2) (-1) 1 0 2 1 2 (dup INR) (dup (fun _ => 5)) /\ same_mv ex_om ex_gm (-2) (-1) 1 0 2 2 2 (dup INR) (dup INR).
Proof. split; (split; [|split; [|split; [|split; [|split]]]]); try (split; [reflexivity|intros; reflexivity]); simpl; try lia; left; reflexivity. Qed.
(** a weight function: the indicator of positive first entries, plus one *)
Definition ex_wf : dtype * (list num -> num) := (DFloat, fun l => match l with Fin r :: _ => Fin (1 + ind_le 0 r) | _ => NaN end).
Lemma ex_vweight : vweight 2 ex_wf (fun u => 1 + ind_le 0 (u 0%nat)).
Proof. intros u. split; [reflexivity|]. unfold ind_le. destruct (Rle_dec _ _); lra. Qed.
Lemma ex_weighting : weighting NInf PInf (Some (DFloat, fun v => match v with Fin r => Fin (1 + ind_le 0 r) | _ => NaN end)) (fun t => 1 + ind_le 0 t) /\ forall t, 0 < 1 + ind_le 0 t.
Proof. split; [split; [reflexivity|intros; reflexivity]|]. intros t. unfold ind_le. destruct (Rle_dec _ _); lra. Qed.
Lemma C80_twcrps_l :
forall srt be obs fct fctG ax ax' p p' N M z e a c f vf es pol, argsort_ok srt -> (0 < M)%nat -> (0 < N)%nat ->
  same_uv obs fct ax p N M z e -> same_uv obs fctG ax' p' N N z z ->
  (thresholds a c /\ clips a c f /\ vf = None \/ exists h, vf = Some h /\ forall t, h (Fin t) = Fin (f t)) ->
  In es ["nrg"; "qd"; "int"]%string -> In pol ["propagate"; "raise"]%string ->
  not_worse N (twcrps_ensemble srt be obs fctG a c ax' None vf es false pol) (twcrps_ensemble srt be obs fct a c ax None vf es false pol).
Proof.
intros srt be obs fct fctG ax ax' p p' N M z e a c f vf es pol Hs HM HN Hf HG Hv He Hp.
  pose proof (same_p _ _ _ _ _ _ _ _ Hf) as P1. pose proof (same_p _ _ _ _ _ _ _ _ HG) as P2.
  eapply nw_intro; [apply (tw_value srt be obs fctG a c ax' (N :: nil) p' N _ _ es pol f vf Hs HG HN Hv He Hp)|apply (tw_value srt be obs fct a c ax (N :: nil) p M _ _ es pol f vf Hs Hf HM Hv He Hp)| | |].
  - intros j Hj. cbv beta. rewrite (mem_same p' N z j P2), exact_es. reflexivity.
  - intros j Hj. cbv beta. rewrite (mem_same p M e j P1), exact_es. reflexivity.
  - apply (es_mean M N 1 (up (fun i => f (e i))) (up (fun i => f (z i))) HM HN).
Qed.
Lemma C80_owcrps_l :
forall be obs fct fctG ax ax' p p' N M z e a c wf g pol, (be = Numba -> dt obs = DFloat) ->
  same_uv obs fct ax p N M z e -> same_uv obs fctG ax' p' N N z z -> weighting a c wf g -> (forall t, 0 <= g t) ->
  0 < sumn M (fun k => g (e k)) -> 0 < sumn N (fun j => g (z j)) -> In pol ["propagate"; "raise"]%string ->
  not_worse N (owcrps_ensemble be obs fctG a c ax' None wf pol) (owcrps_ensemble be obs fct a c ax None wf pol).
Proof.
intros be obs fct fctG ax ax' p p' N M z e a c wf g pol Hd Hf HG Hw Hg0 HM HN Hp.
  pose proof (same_p _ _ _ _ _ _ _ _ Hf) as P1. pose proof (same_p _ _ _ _ _ _ _ _ HG) as P2.
  pose proof (nw_pos0 _ _ HM) as M0. pose proof (nw_pos0 _ _ HN) as N0.
  eapply nw_intro; [apply (ow_un be obs fctG a c ax' (N :: nil) p' N _ _ wf g HG N0 Hd Hw Hg0 pol Hp)|apply (ow_un be obs fct a c ax (N :: nil) p M _ _ wf g Hf M0 Hd Hw Hg0 pol Hp)| | |].
  - intros j Hj. cbv beta. rewrite (mem_same p' N z j P2). unfold owv. destruct (Req_EM_T _ _) as [E0|_]; [exfalso; cbv beta in E0; rewrite E0 in *; lra|]. rewrite wexact_es. reflexivity.
  - intros j Hj. cbv beta. rewrite (mem_same p M e j P1). unfold owv. destruct (Req_EM_T _ _) as [E0|_]; [exfalso; cbv beta in E0; rewrite E0 in *; lra|]. rewrite wexact_es. reflexivity.
  - apply (es_ow M N 1 (up e) (up z) (fun k => g (e k)) (fun k => g (z k)) HM HN).
Qed.
Lemma C80_vrcrps_l :
forall be obs fct fctG ax ax' p p' N M z e a c wf g pol, (be = Numba -> dt obs = DFloat) -> (0 < M)%nat -> (0 < N)%nat ->
  same_uv obs fct ax p N M z e -> same_uv obs fctG ax' p' N N z z -> weighting a c wf g -> (forall t, 0 <= g t) ->
  In pol ["propagate"; "raise"]%string ->
  not_worse N (vrcrps_ensemble be obs fctG a c ax' None wf pol) (vrcrps_ensemble be obs fct a c ax None wf pol).
Proof.
intros be obs fct fctG ax ax' p p' N M z e a c wf g pol Hd HM HN Hf HG Hw Hg0 Hp.
  pose proof (same_p _ _ _ _ _ _ _ _ Hf) as P1. pose proof (same_p _ _ _ _ _ _ _ _ HG) as P2.
  eapply nw_intro; [apply (vr_un be obs fctG a c ax' (N :: nil) p' N _ _ wf g HG HN Hd Hw Hg0 pol Hp ltac:(eauto))|apply (vr_un be obs fct a c ax (N :: nil) p M _ _ wf g Hf HM Hd Hw Hg0 pol Hp ltac:(eauto))| | |].
  - intros j Hj. cbv beta. rewrite (mem_same p' N z j P2), vrv_es.
    replace (fun i => / INR N * g (z i)) with (fun i => g (z i) / INR N) by (extensionality i; unfold Rdiv; ring). reflexivity.
  - intros j Hj. cbv beta. rewrite (mem_same p M e j P1), vrv_es. reflexivity.
  - apply (es_vr M N 1 _ (fun k => g (z k)) (up e) (up z) HN).
Qed.
Lemma C80_energy_l :
forall b obs fct fctG m v m' v' p q p' q' N M D z e, (0 < M)%nat -> (0 < N)%nat -> (0 < D)%nat ->
  (forall obs' fct' fctG' vf h, vf obs = Ok obs' -> vf fct = Ok fct' -> vf fctG = Ok fctG' ->
  same_mv obs' fct' m v p q N M D (fun j => h (z j)) (fun k => h (e k)) -> same_mv obs' fctG' m' v' p' q' N N D (fun j => h (z j)) (fun j => h (z j)) -> (b = Numba -> floats obs' fct' /\ floats obs' fctG') ->
     not_worse N (twes_ensemble b obs fctG vf m' v' None "nrg") (twes_ensemble b obs fct vf m v None "nrg")) /\
  (forall wf g, same_mv obs fct m v p q N M D z e -> same_mv obs fctG m' v' p' q' N N D z z -> (b = Numba -> floats obs fct /\ floats obs fctG) -> vweight D wf g ->
     (0 < sumn M (fun k => g (e k)) -> 0 < sumn N (fun j => g (z j)) ->
      not_worse N (owes_ensemble b obs fctG wf m' v' None) (owes_ensemble b obs fct wf m v None)) /\
     not_worse N (vres_ensemble b obs fctG wf m' v' None) (vres_ensemble b obs fct wf m v None)).
Proof.
intros b obs fct fctG m v m' v' p q p' q' N M D z e HM HN HD. split.
  - intros obs' fct' fctG' vf h V1 V2 V3 Hf HG Hb.
    destruct (same_pq _ _ _ _ _ _ _ _ _ _ _ Hf) as [P1 Q1]. destruct (same_pq _ _ _ _ _ _ _ _ _ _ _ HG) as [P2 Q2].
    eapply nw_intro; [refine (proj1 (C48_chain_l b obs fctG obs' fctG' vf m' v' (N :: nil) p' q' N D (fun i => h (z (hd 0%nat (remove_at q' i))) (nth q' i 0%nat)) (fun i => h (z (nth p' i 0%nat)) (nth q' (remove_at p' i) 0%nat)) _ _ (fun u => u) "nrg" V1 V3 HG HN HD (fun E => proj2 (Hb E)) (fun r k _ _ => eq_refl) (fun r i k _ _ _ => eq_refl)) eq_refl)|
      refine (proj1 (C48_chain_l b obs fct obs' fct' vf m v (N :: nil) p q M D (fun i => h (z (hd 0%nat (remove_at q i))) (nth q i 0%nat)) (fun i => h (e (nth p i 0%nat)) (nth q (remove_at p i) 0%nat)) _ _ (fun u => u) "nrg" V1 V2 Hf HM HD (fun E => proj1 (Hb E)) (fun r k _ _ => eq_refl) (fun r i k _ _ _ => eq_refl)) eq_refl)| | |].
    + intros j Hj. cbv beta zeta. rewrite (obsv_same q' (fun j => h (z j)) j Q2), (memv_same p' q' (fun j => h (z j)) j P2 Q2). reflexivity.
    + intros j Hj. cbv beta zeta. rewrite (obsv_same q (fun j => h (z j)) j Q1), (memv_same p q (fun k => h (e k)) j P1 Q1). reflexivity.
    + apply (es_mean M N D (fun k => h (e k)) (fun j => h (z j)) HM HN).
  - intros wf g Hf HG Hb Hw.
    destruct (same_pq _ _ _ _ _ _ _ _ _ _ _ Hf) as [P1 Q1]. destruct (same_pq _ _ _ _ _ _ _ _ _ _ _ HG) as [P2 Q2].
    assert (~ In 0%nat (N :: nil)) as N0 by (intros [H|[]]; lia). split.
    + intros G1 G2.
      eapply nw_intro; [apply (C48_outcome_weighted_l b obs fctG wf g m' v' (N :: nil) p' q' N D _ _ HG HN HD N0 (fun E => proj2 (Hb E)) Hw)|
        apply (C48_outcome_weighted_l b obs fct wf g m v (N :: nil) p q M D _ _ Hf HM HD N0 (fun E => proj1 (Hb E)) Hw)| | |].
      * apply inb1. intros j Hj. rewrite (memv_same p' q' z j P2 Q2). exact G2.
      * apply inb1. intros j Hj. rewrite (memv_same p q e j P1 Q1). exact G1.
      * intros j Hj. cbv beta. rewrite (obsv_same q' z j Q2), (memv_same p' q' z j P2 Q2). reflexivity.
      * intros j Hj. cbv beta. rewrite (obsv_same q z j Q1), (memv_same p q e j P1 Q1). reflexivity.
      * apply (es_ow M N D e z (fun k => g (e k)) (fun k => g (z k)) G1 G2).
    + eapply nw_intro; [apply (C48_vertical_l b obs fctG wf g m' v' (N :: nil) p' q' N D _ _ HG HN HD N0 (fun E => proj2 (Hb E)) Hw)|
        apply (C48_vertical_l b obs fct wf g m v (N :: nil) p q M D _ _ Hf HM HD N0 (fun E => proj1 (Hb E)) Hw)| | |].
      * intros j Hj. cbv beta. rewrite (obsv_same q' z j Q2), (memv_same p' q' z j P2 Q2). reflexivity.
      * intros j Hj. cbv beta. rewrite (obsv_same q z j Q1), (memv_same p q e j P1 Q1). reflexivity.
      * apply (es_vr M N D _ (fun k => g (z k)) e z HN).
Qed.
Lemma C80_kernel_uv_l :
forall b obs fct fctG ax ax' p p' N M z e a c, (0 < M)%nat -> (0 < N)%nat ->
  same_uv obs fct ax p N M z e -> same_uv obs fctG ax' p' N N z z ->
  (forall f vf, (thresholds a c /\ clips a c f /\ vf = None \/ exists h, vf = Some h /\ forall t, h (Fin t) = Fin (f t)) ->
     not_worse N (twgksuv_ensemble b obs fctG a c ax' None vf "nrg") (twgksuv_ensemble b obs fct a c ax None vf "nrg")) /\
  (forall wf g, (b = Numba -> dt obs = DFloat) -> weighting a c wf g -> (forall t, 0 <= g t) ->
     (0 < sumn M (fun k => g (e k)) -> 0 < sumn N (fun j => g (z j)) ->
      not_worse N (owgksuv_ensemble b obs fctG a c ax' None wf) (owgksuv_ensemble b obs fct a c ax None wf)) /\
     not_worse N (vrgksuv_ensemble b obs fctG a c ax' None wf) (vrgksuv_ensemble b obs fct a c ax None wf)).
Proof.
intros b obs fct fctG ax ax' p p' N M z e a c HM HN Hf HG.
  pose proof (same_p _ _ _ _ _ _ _ _ Hf) as P1. pose proof (same_p _ _ _ _ _ _ _ _ HG) as P2. split.
  - intros f vf Hv.
    eapply nw_intro; [refine (proj1 (C53_chain_l b obs fctG a c ax' (N :: nil) p' N _ _ "nrg" f vf HG HN Hv) eq_refl)|refine (proj1 (C53_chain_l b obs fct a c ax (N :: nil) p M _ _ "nrg" f vf Hf HM Hv) eq_refl)| | |].
    + intros j Hj. cbv beta zeta. rewrite (mem_same p' N z j P2), gk_exact_up. reflexivity.
    + intros j Hj. cbv beta zeta. rewrite (mem_same p M e j P1), gk_exact_up. reflexivity.
    + apply (gk_mean M N 1 (up (fun i => f (e i))) (up (fun i => f (z i))) HM HN).
  - intros wf g Hd Hw Hg0. destruct C53_outcome_l as [O _]. destruct C53_vertical_l as [V _]. split.
    + intros G1 G2.
      eapply nw_intro; [apply (O b obs fctG a c wf g ax' (N :: nil) p' N _ _ HG HN Hd Hw Hg0)|apply (O b obs fct a c wf g ax (N :: nil) p M _ _ Hf HM Hd Hw Hg0)| | |].
      * apply inb1. intros j Hj. rewrite (mem_same p' N z j P2). exact G2.
      * apply inb1. intros j Hj. rewrite (mem_same p M e j P1). exact G1.
      * intros j Hj. cbv beta. rewrite (mem_same p' N z j P2), gk_uv_mv. reflexivity.
      * intros j Hj. cbv beta. rewrite (mem_same p M e j P1), gk_uv_mv. reflexivity.
      * apply (gk_ow M N 1 (up e) (up z) (fun k => g (e k)) (fun k => g (z k)) G2).
    + eapply nw_intro; [apply (V b obs fctG a c wf g ax' (N :: nil) p' N _ _ HG HN Hd Hw Hg0)|apply (V b obs fct a c wf g ax (N :: nil) p M _ _ Hf HM Hd Hw Hg0)| | |].
      * intros j Hj. cbv beta. rewrite (mem_same p' N z j P2), gk_vr_up. reflexivity.
      * intros j Hj. cbv beta. rewrite (mem_same p M e j P1), gk_vr_up. reflexivity.
      * apply (gk_vrp M N 1 _ (fun k => g (z k)) (up e) (up z) HN).
Qed.
Lemma C80_kernel_mv_l :
forall b obs fct fctG m v m' v' p q p' q' N M D z e, (0 < M)%nat -> (0 < N)%nat -> (0 < D)%nat ->
  (forall obs' fct' fctG' vf h, vf obs = Ok obs' -> vf fct = Ok fct' -> vf fctG = Ok fctG' ->
  same_mv obs' fct' m v p q N M D (fun j => h (z j)) (fun k => h (e k)) -> same_mv obs' fctG' m' v' p' q' N N D (fun j => h (z j)) (fun j => h (z j)) -> (b = Numba -> floats obs' fct' /\ floats obs' fctG') ->
     not_worse N (twgksmv_ensemble b obs fctG vf m' v' None "nrg") (twgksmv_ensemble b obs fct vf m v None "nrg")) /\
  (forall wf g, same_mv obs fct m v p q N M D z e -> same_mv obs fctG m' v' p' q' N N D z z -> (b = Numba -> floats obs fct /\ floats obs fctG) -> vweight D wf g ->
     (0 < sumn M (fun k => g (e k)) -> 0 < sumn N (fun j => g (z j)) ->
      not_worse N (owgksmv_ensemble b obs fctG wf m' v' None) (owgksmv_ensemble b obs fct wf m v None)) /\
     not_worse N (vrgksmv_ensemble b obs fctG wf m' v' None) (vrgksmv_ensemble b obs fct wf m v None)).
Proof.
intros b obs fct fctG m v m' v' p q p' q' N M D z e HM HN HD. split.
  - intros obs' fct' fctG' vf h V1 V2 V3 Hf HG Hb.
    destruct (same_pq _ _ _ _ _ _ _ _ _ _ _ Hf) as [P1 Q1]. destruct (same_pq _ _ _ _ _ _ _ _ _ _ _ HG) as [P2 Q2].
    eapply nw_intro; [refine (proj1 (C53_mv_chain_l b obs fctG obs' fctG' vf m' v' (N :: nil) p' q' N D (fun i => h (z (hd 0%nat (remove_at q' i))) (nth q' i 0%nat)) (fun i => h (z (nth p' i 0%nat)) (nth q' (remove_at p' i) 0%nat)) _ _ (fun u => u) "nrg" V1 V3 HG HN HD (fun E => proj2 (Hb E)) (fun r k _ _ => eq_refl) (fun r i k _ _ _ => eq_refl)) eq_refl)|
      refine (proj1 (C53_mv_chain_l b obs fct obs' fct' vf m v (N :: nil) p q M D (fun i => h (z (hd 0%nat (remove_at q i))) (nth q i 0%nat)) (fun i => h (e (nth p i 0%nat)) (nth q (remove_at p i) 0%nat)) _ _ (fun u => u) "nrg" V1 V2 Hf HM HD (fun E => proj1 (Hb E)) (fun r k _ _ => eq_refl) (fun r i k _ _ _ => eq_refl)) eq_refl)| | |].
    + intros j Hj. cbv beta zeta. rewrite (obsv_same q' (fun j => h (z j)) j Q2), (memv_same p' q' (fun j => h (z j)) j P2 Q2). reflexivity.
    + intros j Hj. cbv beta zeta. rewrite (obsv_same q (fun j => h (z j)) j Q1), (memv_same p q (fun k => h (e k)) j P1 Q1). reflexivity.
    + apply (gk_mean M N D (fun k => h (e k)) (fun j => h (z j)) HM HN).
  - intros wf g Hf HG Hb Hw. destruct C53_outcome_l as [_ O]. destruct C53_vertical_l as [_ V].
    destruct (same_pq _ _ _ _ _ _ _ _ _ _ _ Hf) as [P1 Q1]. destruct (same_pq _ _ _ _ _ _ _ _ _ _ _ HG) as [P2 Q2].
    assert (~ In 0%nat (N :: nil)) as N0 by (intros [H|[]]; lia). split.
    + intros G1 G2.
      eapply nw_intro; [apply (O b obs fctG wf g m' v' (N :: nil) p' q' N D _ _ HG HN HD N0 (fun E => proj2 (Hb E)) Hw)|
        apply (O b obs fct wf g m v (N :: nil) p q M D _ _ Hf HM HD N0 (fun E => proj1 (Hb E)) Hw)| | |].
      * apply inb1. intros j Hj. rewrite (memv_same p' q' z j P2 Q2). exact G2.
      * apply inb1. intros j Hj. rewrite (memv_same p q e j P1 Q1). exact G1.
      * intros j Hj. cbv beta. rewrite (obsv_same q' z j Q2), (memv_same p' q' z j P2 Q2). reflexivity.
      * intros j Hj. cbv beta. rewrite (obsv_same q z j Q1), (memv_same p q e j P1 Q1). reflexivity.
      * apply (gk_ow M N D e z (fun k => g (e k)) (fun k => g (z k)) G2).
    + eapply nw_intro; [apply (V b obs fctG wf g m' v' (N :: nil) p' q' N D _ _ HG HN HD N0 (fun E => proj2 (Hb E)) Hw)|
        apply (V b obs fct wf g m v (N :: nil) p q M D _ _ Hf HM HD N0 (fun E => proj1 (Hb E)) Hw)| | |].
      * intros j Hj. cbv beta. rewrite (obsv_same q' z j Q2), (memv_same p' q' z j P2 Q2). reflexivity.
      * intros j Hj. cbv beta. rewrite (obsv_same q z j Q1), (memv_same p q e j P1 Q1). reflexivity.
      * apply (gk_vrp M N D _ (fun k => g (z k)) e z HN).
Qed.
Lemma C80_variogram_l :
forall b obs fct fctG m v m' v' p q p' q' N M D z e hw hp po, (0 < M)%nat -> (0 < N)%nat -> (0 < D)%nat -> 0 < po ->
  pair_wts hw (N :: nil) D (fun _ => hp) -> (forall i j, (i < D)%nat -> (j < D)%nat -> 0 <= hp i j) ->
  (forall obs' fct' fctG' vf h, vf obs = Ok obs' -> vf fct = Ok fct' -> vf fctG = Ok fctG' ->
  same_mv obs' fct' m v p q N M D (fun j => h (z j)) (fun k => h (e k)) -> same_mv obs' fctG' m' v' p' q' N N D (fun j => h (z j)) (fun j => h (z j)) -> (b = Numba -> dt obs' = DFloat) ->
     not_worse N (twvs_ensemble b obs fctG vf hw m' v' None po "nrg") (twvs_ensemble b obs fct vf hw m v None po "nrg")) /\
  (forall wf g, same_mv obs fct m v p q N M D z e -> same_mv obs fctG m' v' p' q' N N D z z -> (b = Numba -> dt obs = DFloat) -> vweight D wf g ->
     (0 < sumn M (fun k => g (e k)) -> 0 < sumn N (fun j => g (z j)) ->
      not_worse N (owvs_ensemble b obs fctG wf hw m' v' None po) (owvs_ensemble b obs fct wf hw m v None po)) /\
     not_worse N (vrvs_ensemble b obs fctG wf hw m' v' None po) (vrvs_ensemble b obs fct wf hw m v None po)).
Proof.
intros b obs fct fctG m v m' v' p q p' q' N M D z e hw hp po HM HN HD Hpo Hh Hh0. split.
  - intros obs' fct' fctG' vf h V1 V2 V3 Hf HG Hb.
    destruct (same_pq _ _ _ _ _ _ _ _ _ _ _ Hf) as [P1 Q1]. destruct (same_pq _ _ _ _ _ _ _ _ _ _ _ HG) as [P2 Q2].
    eapply nw_intro; [refine (proj1 (C51_chain_l b obs fctG obs' fctG' vf hw m' v' (N :: nil) p' q' N D (fun i => h (z (hd 0%nat (remove_at q' i))) (nth q' i 0%nat)) (fun i => h (z (nth p' i 0%nat)) (nth q' (remove_at p' i) 0%nat)) _ _ _ po (fun u => u) V1 V3 HG Hh HN HD Hpo Hb (fun r k _ _ => eq_refl) (fun r i k _ _ _ => eq_refl)))|
      refine (proj1 (C51_chain_l b obs fct obs' fct' vf hw m v (N :: nil) p q M D (fun i => h (z (hd 0%nat (remove_at q i))) (nth q i 0%nat)) (fun i => h (e (nth p i 0%nat)) (nth q (remove_at p i) 0%nat)) _ _ _ po (fun u => u) V1 V2 Hf Hh HM HD Hpo Hb (fun r k _ _ => eq_refl) (fun r i k _ _ _ => eq_refl)))| | |].
    + intros j Hj. cbv beta zeta. rewrite (obsv_same q' (fun j => h (z j)) j Q2), (memv_same p' q' (fun j => h (z j)) j P2 Q2). reflexivity.
    + intros j Hj. cbv beta zeta. rewrite (obsv_same q (fun j => h (z j)) j Q1), (memv_same p q (fun k => h (e k)) j P1 Q1). reflexivity.
    + apply (vs_mean D hp po Hh0 M N (fun k => h (e k)) (fun j => h (z j)) HN).
  - intros wf g Hf HG Hb Hw.
    destruct (same_pq _ _ _ _ _ _ _ _ _ _ _ Hf) as [P1 Q1]. destruct (same_pq _ _ _ _ _ _ _ _ _ _ _ HG) as [P2 Q2].
    assert (~ In 0%nat (N :: nil)) as N0 by (intros [H|[]]; lia). split.
    + intros G1 G2.
      eapply nw_intro; [apply (C51_outcome_weighted_l b obs fctG wf g hw m' v' (N :: nil) p' q' N D _ _ _ po HG Hh HN HD Hpo N0 Hb Hw)|
        apply (C51_outcome_weighted_l b obs fct wf g hw m v (N :: nil) p q M D _ _ _ po Hf Hh HM HD Hpo N0 Hb Hw)| | |].
      * apply inb1. intros j Hj. rewrite (memv_same p' q' z j P2 Q2). exact G2.
      * apply inb1. intros j Hj. rewrite (memv_same p q e j P1 Q1). exact G1.
      * intros j Hj. cbv beta. rewrite (obsv_same q' z j Q2), (memv_same p' q' z j P2 Q2). reflexivity.
      * intros j Hj. cbv beta. rewrite (obsv_same q z j Q1), (memv_same p q e j P1 Q1). reflexivity.
      * apply (vs_ow D hp po Hh0 M N e z (fun k => g (e k)) (fun k => g (z k)) G2).
    + eapply nw_intro; [apply (C51_vertical_l b obs fctG wf g hw m' v' (N :: nil) p' q' N D _ _ _ po HG Hh HN HD Hpo N0 Hb Hw)|
        apply (C51_vertical_l b obs fct wf g hw m v (N :: nil) p q M D _ _ _ po Hf Hh HM HD Hpo N0 Hb Hw)| | |].
      * intros j Hj. cbv beta. rewrite (obsv_same q' z j Q2), (memv_same p' q' z j P2 Q2). reflexivity.
      * intros j Hj. cbv beta. rewrite (obsv_same q z j Q1), (memv_same p q e j P1 Q1). reflexivity.
      * apply (vs_vr D hp po Hh0 M N e z _ (fun k => g (z k)) HN).
Qed.
