(** Proofs of the properties shared by all closed-form CRPS functions (statements in P_catalog.v). *)
From Verif Require Export L_catalog L_special T_crps_value.
From Coq Require Import Psatz Lia.
Open Scope R_scope.
Lemma C69_value_l :
forall T s F y, closed_crps T s F y -> exists f, returns T s (fins f) /\ forall i, inb s i -> is_crps (F i) (y i) (f i).
Proof.
exact catalog.
Qed.
Lemma C69_nonneg_l :
forall T s F y, closed_crps T s F y -> exists f, returns T s (fins f) /\ forall i, inb s i -> 0 <= f i.
Proof.
intros T s F y H. destruct (catalog _ _ _ _ H) as (f & Rf & Cf). exists f. split; auto. intros i Hi. exact (crps_nonneg _ _ _ (Cf i Hi)).
Qed.
Lemma C69_lipschitz_l :
forall T T' s F y y', closed_crps T s F y -> closed_crps T' s F y' -> (forall i, inb s i -> forall t, 0 <= F i t <= 1) ->
  exists f f', returns T s (fins f) /\ returns T' s (fins f') /\ forall i, inb s i -> Rabs (f i - f' i) <= Rabs (y i - y' i).
Proof.
exact lipschitz.
Qed.
Lemma C69_same_l :
forall T T' s F F' y, closed_crps T s F y -> closed_crps T' s F' y -> (forall i, inb s i -> forall t, F i t = F' i t) ->
  exists f, returns T s (fins f) /\ returns T' s (fins f).
Proof.
exact same.
Qed.
Lemma C69_affine_l :
forall T T' s F F' y y' (a b : list nat -> R), closed_crps T s F y -> closed_crps T' s F' y' ->
  (forall i, inb s i -> 0 < b i /\ y' i = a i + b i * y i /\ forall t, F' i (a i + b i * t) = F i t) ->
  exists f, returns T s (fins f) /\ returns T' s (fins (fun i => b i * f i)).
Proof.
exact affine.
Qed.
Lemma C69_reflect_l :
forall T T' s F F' y y' (L : list nat -> list R), closed_crps T s F y -> closed_crps T' s F' y' ->
  (forall i, inb s i -> y' i = - y i /\ forall t, ~ In t (L i) -> F' i (- t) = 1 - F i t) ->
  exists f, returns T s (fins f) /\ returns T' s (fins f).
Proof.
exact reflected.
Qed.
Lemma C69_insample_l :
forall srt b T n F G y obs fct ax p x e sf pol, closed_crps T (n :: nil) F y -> (forall i, inb (n :: nil) i -> forall t, F i t = G t) -> (0 < n)%nat ->
  argsort_ok srt -> ens_args obs fct ax (n :: nil) p n y x -> (forall i k, (i < n)%nat -> (k < n)%nat -> member p x (i :: nil) k = y (k :: nil)) ->
  In e ("nrg" :: "qd" :: "int" :: nil)%string%list -> In pol ("propagate" :: "raise" :: nil)%string%list -> (b = Numba -> dt obs = DFloat) -> sorted_if sf (n :: nil) p n x ->
  exists f u, returns T (n :: nil) (fins f) /\ returns (crps_ensemble srt b obs fct ax None e sf pol) (n :: nil) (fins u) /\
    is_RInt_gen (fun t => (G t - ecdf n (fun k => y (k :: nil)) t) ^ 2) (Rbar_locally m_infty) (Rbar_locally p_infty)
      (mean n (fun k => f (k :: nil)) - mean n (fun k => u (k :: nil))) /\
    mean n (fun k => u (k :: nil)) <= mean n (fun k => f (k :: nil)).
Proof.
intros srt b T n F G y obs fct ax p x e sf pol H HG Hn Hs Ha Hx He Hp Hd Hsf.
  destruct (catalog _ _ _ _ H) as (f & Rf & Cf). destruct (C01_exact_crps_l srt b obs fct ax (n :: nil)%list p n y x e sf pol Hs Ha Hn He Hp Hd Hsf) as (u & Ru & Cu).
  exists f, u. split; auto. split; auto.
  assert (forall k, (k < n)%nat -> inb (n :: nil)%list (k :: nil)%list) as I by (intros k Hk; simpl; auto).
  assert (line (fun t => (G t - ecdf n (fun k => y (k :: nil)) t) ^ 2) (mean n (fun k => f (k :: nil)) - mean n (fun k => u (k :: nil)))) as K.
  { apply (insample n G (fun k => y (k :: nil)) (fun k => f (k :: nil)) (fun k => u (k :: nil))); auto.
    - intros i Hi. eapply is_crps_ext; [|exact (Cf _ (I i Hi))]. intros t. now apply HG, I.
    - intros i Hi. eapply is_crps_ext; [|exact (Cu _ (I i Hi))]. intros t. unfold ecdf. f_equal. apply sumn_ext. intros k Hk. cbv beta. now rewrite Hx by auto. }
  split; [exact K|]. pose proof (line_nonneg _ _ (fun t => pow2_ge_0 _) K). lra.
Qed.
