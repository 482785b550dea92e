(** Threshold-weighted CRPS. *)
From Coq Require Import FunctionalExtensionality.
From Verif Require Export S_tw L_crps_del.
Open Scope R_scope.

Definition cl (A B x : R) : R := Rmin (Rmax x A) B.
Lemma cl_in A B x : A <= B -> A <= cl A B x <= B.
Proof. intros H. unfold cl, Rmin, Rmax. repeat destruct (Rle_dec _ _); lra. Qed.
Lemma cl_ind A B x t : A < t < B -> ind_le (cl A B x) t = ind_le x t.
Proof. intros H. unfold ind_le, cl, Rmin, Rmax. repeat destruct (Rle_dec _ _); lra. Qed.
Lemma crps_kernel_clamp M w x y A B : sumn M w = 1 -> A <= B ->
  is_RInt (fun t => (sumn M (fun i => w i * ind_le (x i) t) - ind_le y t) ^ 2) A B
    (wexact_crps M w (cl A B y) (fun k => cl A B (x k))).
Proof.
  intros Hw HAB. 
  apply (is_RInt_extR (fun t => (sumn M (fun i => w i * ind_le (cl A B (x i)) t) - ind_le (cl A B y) t) ^ 2)).
  - intros t Ht. rewrite Rmin_left, Rmax_right in Ht by lra. rewrite cl_ind by auto. do 2 f_equal.
    apply sumn_ext; intros. now rewrite cl_ind.
  - apply crps_kernel_int; auto; intros; now apply cl_in.
Qed.

(** clamp with bounds that may be infinite *)
Definition clampR (a b : num) (x : R) : R :=
  let x1 := match a with Fin a => Rmax x a | _ => x end in
  match b with Fin b => Rmin x1 b | _ => x1 end.
Lemma clamp_num a b x : thresholds a b -> nmin (nmax (Fin x) a) b = Fin (clampR a b x).
Proof.
  unfold thresholds, clampR, nmin, nmax, Rmax, Rmin. destruct a as [a| | |], b as [b| | |]; try easy; intros H; simpl; unfold rleb;
    repeat (simpl; match goal with |- context [Rle_dec ?u ?v] => destruct (Rle_dec u v) end); simpl; unfold rleb; rdec; try reflexivity; f_equal; lra.
Qed.
Lemma clamp_num_inf v : nmin (nmax v NInf) PInf = v.
Proof. destruct v; reflexivity. Qed.
Lemma clampR_far a b (l : nat -> R) n y : thresholds a b -> exists PA PB : R -> Prop,
  end_of a PA /\ end_of b PB /\ forall A B, PA A -> PB B ->
    A <= B /\ cl A B y = clampR a b y /\ forall k, (k < n)%nat -> cl A B (l k) = clampR a b (l k).
Proof.
  intros Ht. destruct (bounds n l y) as (L & U & Hy & Hl).
  set (L' := match b with Fin b => Rmin L b | _ => L end).
  set (U' := match a with Fin a => Rmax U a | _ => U end).
  exists (match a with Fin a => fun A => A = a | _ => fun A => A < L' end),
         (match b with Fin b => fun B => B = b | _ => fun B => U' < B end).
  assert (G : forall A B, (match a with Fin a => fun A => A = a | _ => fun A => A < L' end) A ->
    (match b with Fin b => fun B => B = b | _ => fun B => U' < B end) B ->
    A <= B /\ forall x, L <= x <= U -> cl A B x = clampR a b x).
  { intros A B. unfold L', U', thresholds, cl, clampR in *. destruct a as [a| | |], b as [b| | |]; try easy; intros HA HB; subst;
      unfold Rmin, Rmax in *; split; intros; repeat destruct (Rle_dec _ _); lra. }
  repeat split.
  - clear G. destruct a, b; try (exfalso; exact Ht); simpl; unfold at_point; auto; exists L'; auto.
  - clear G. destruct a, b; try (exfalso; exact Ht); simpl; unfold at_point; auto; exists U'; auto.
  - now apply G.
  - apply G; auto.
  - intros k Hk. apply G; auto.
Qed.
Lemma is_tw_kernel M w x y a b : sumn M w = 1 -> thresholds a b ->
  is_twcrps (fun t => sumn M (fun i => w i * ind_le (x i) t)) y a b
    (wexact_crps M w (clampR a b y) (fun k => clampR a b (x k))).
Proof.
  intros Hw Ht P HP. destruct (clampR_far a b x M y Ht) as (PA & PB & HA & HB & H).
  apply (Filter_prod _ _ _ PA PB HA HB). intros A B Ha Hb. destruct (H A B Ha Hb) as (H1 & H2 & H3).
  exists (wexact_crps M w (clampR a b y) (fun k => clampR a b (x k))). split; [|now apply locally_singleton].
  cbn [fst snd]. pose proof (crps_kernel_clamp M w x y A B Hw H1) as I. rewrite H2 in I.
  replace (wexact_crps M w (clampR a b y) (fun k => cl A B (x k))) with (wexact_crps M w (clampR a b y) (fun k => clampR a b (x k))) in I; auto.
  unfold wexact_crps, wmae, wpairsum. f_equal.
  - apply sumn_ext; intros; now rewrite H3.
  - f_equal. apply sumn_ext; intros; apply sumn_ext; intros; now rewrite !H3.
Qed.
Lemma end_of_filter a : Filter (end_of a).
Proof. destruct a; simpl; typeclasses eauto. Qed.
Lemma is_twcrps_ext F G y a b v : (forall t, F t = G t) -> is_twcrps F y a b v -> is_twcrps G y a b v.
Proof. intros H. replace G with F; auto. now apply functional_extensionality. Qed.
Lemma is_tw_wcdf M w x y a b : sumn M w <> 0 -> thresholds a b ->
  is_twcrps (wcdf M w x) y a b (wexact_crps M (nw M w) (clampR a b y) (fun k => clampR a b (x k))).
Proof.
  intros H Ht. eapply is_twcrps_ext; [intros; symmetry; apply wcdf_nw|]. apply is_tw_kernel; auto. now apply nw_sum.
Qed.
Lemma is_tw_ecdf M x y a b : (0 < M)%nat -> thresholds a b ->
  is_twcrps (ecdf M x) y a b (exact_crps M (clampR a b y) (fun k => clampR a b (x k))).
Proof.
  intros HM Ht. rewrite exact_uniform by auto.
  eapply is_twcrps_ext; [|apply is_tw_kernel; auto].
  - intros t. unfold ecdf, Rdiv. rewrite sumn_scal. ring.
  - now apply uniform_sum.
Qed.

(** the chained arrays *)
Lemma chain_is a b v x d s f : ten_is x d s f ->
  ten_is (uv_chain1 a b v x) DFloat s (fun i => match v with None => nmin (nmax (f i) a) b | Some g => g (f i) end).
Proof.
  intros H. unfold uv_chain1. destruct v as [g|].
  - eapply ten_conv; [eapply ten_map; exact H|reflexivity|reflexivity].
  - eapply ten_conv; [eapply ten_bin_scr, ten_bin_scr; exact H|destruct d; reflexivity|reflexivity].
Qed.
(** twcrps is the CRPS of the chained arrays *)
Lemma tw_chain srt be obs fct a b ax ow v e sf pol s p M y x : ens_nums obs fct ax s p M y x ->
  exists obs' fct', dt obs' = DFloat /\ dt fct' = DFloat /\
    ens_nums obs' fct' ax s p M (fun r => match v with None => nmin (nmax (y r) a) b | Some g => g (y r) end)
                                (fun i => match v with None => nmin (nmax (x i) a) b | Some g => g (x i) end) /\
    twcrps_ensemble srt be obs fct a b ax ow v e sf pol = crps_ensemble srt be obs' fct' ax ow e sf pol.
Proof.
  intros ((H1 & H2) & (H3 & H4) & H5 & H6).
  destruct (chain_is a b v (Ok obs) (dt obs) s y) as (obs' & E1 & D1 & S1 & A1); [apply ten_Ok; repeat split; auto|].
  destruct (chain_is a b v (Ok fct) (dt fct) (insert_at p M s) x) as (fct' & E2 & D2 & S2 & A2); [apply ten_Ok; repeat split; auto|].
  exists obs', fct'. unfold twcrps_ensemble, uv_weighted_score_chain. unfold tensor in *. rewrite E1, E2. cbn [bind].
  repeat split; auto.
Qed.
