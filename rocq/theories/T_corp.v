(** Proofs of the reliability properties (statements in P_corp.v). *)
From Verif Require Export L_corp L_crps_call.
From Coq Require Import Psatz Lia.
Open Scope R_scope.
Lemma INR_pos n : (1 <= n)%nat -> 0 < INR n.
Proof. intros. apply lt_0_INR. lia. Qed.
Lemma perm_mean n p f : Permutation p (seq 0 n) -> sumn n (fun i => f (nth i p 0%nat)) = sumn n f.
Proof.
  intros P. pose proof (Permutation_length P) as L. rewrite seq_length in L. unfold sumn at 1. rewrite <- (map_map (fun i => nth i p 0%nat) f), nth_map_seq by auto. now apply sumn_perm.
Qed.
Lemma div_nonneg a n : (1 <= n)%nat -> 0 <= a -> 0 <= a / INR n.
Proof. intros H Ha. pose proof (INR_pos n H). apply Rmult_le_pos; auto. left. now apply Rinv_0_lt_compat. Qed.
Lemma div_sub a b n : (1 <= n)%nat -> a / INR n - b / INR n = (a - b) / INR n.
Proof. intros H. pose proof (INR_pos n H). field. lra. Qed.
Lemma div_zero a n : (1 <= n)%nat -> a / INR n = 0 -> a = 0.
Proof. intros H E. pose proof (INR_pos n H). replace a with (a / INR n * INR n) by (field; lra). rewrite E. ring. Qed.
Lemma sse_mean n y c : (1 <= n)%nat -> sse n y (fun _ => c) = sse n y (fun _ => mean n y) + INR n * (mean n y - c) ^ 2.
Proof.
  intros H. pose proof (INR_pos n H). assert (sumn n y = INR n * mean n y) as E by (unfold mean; field; lra). unfold sse. set (m := mean n y) in *.
  rewrite (sumn_ext n (fun i => (y i - c) ^ 2) (fun i => (y i - m) ^ 2 + (2 * (m - c) * y i + (c ^ 2 - m ^ 2)))) by (intros; ring). rewrite !sumn_plus, sumn_scal, E, sumn_const. ring.
Qed.
Lemma sse_fit_mean n y z : nondec n z -> (forall w, nondec n w -> sse n y z + sse n z w <= sse n y w) -> sse n y z + sse n z (fun _ => mean n y) <= sse n y (fun _ => mean n y).
Proof. intros _ H. apply H, nondec_const. Qed.
Lemma mean_perm n p f : Permutation p (seq 0 n) -> mean n (fun i => f (nth i p 0%nat)) = mean n f.
Proof. intros P. unfold mean. now rewrite (perm_mean n p f P). Qed.
Lemma sse_perm n p f g : Permutation p (seq 0 n) -> sse n (fun i => f (nth i p 0%nat)) (fun i => g (nth i p 0%nat)) = sse n f g.
Proof. intros P. unfold sse. exact (perm_mean n p (fun k => (f k - g k) ^ 2) P). Qed.
Lemma sse_ext n f g f' g' : (forall i, (i < n)%nat -> f i = f' i) -> (forall i, (i < n)%nat -> g i = g' i) -> sse n f g = sse n f' g'.
Proof. intros H H'. apply sumn_ext. intros. now rewrite H, H'. Qed.
Lemma sse_self n f : sse n f f = 0.
Proof. unfold sse. rewrite (sumn_ext n _ (fun _ => 0)) by (intros; ring). rewrite sumn_const. ring. Qed.
Lemma diag_value srt n o f : argsort_ok srt -> (1 <= n)%nat -> exists p z, Permutation p (seq 0 n) /\ nondec n (fun i => f (nth i p 0%nat)) /\
  corp_reliability srt (rlist n o) (rlist n f) = Ok (rlist n (fun i => f (nth i p 0%nat)), rlist n (fun i => o (nth i p 0%nat)), rlist n z) /\
  nondec n z /\ (forall w, nondec n w -> sse n (fun i => o (nth i p 0%nat)) z + sse n z w <= sse n (fun i => o (nth i p 0%nat)) w) /\ sumn n z = sumn n o /\
  diagram_scores srt (rlist n o) (rlist n f) = Ok (Fin (sse n o f / INR n - sse n (fun i => o (nth i p 0%nat)) z / INR n), Fin (sse n o (fun _ => mean n o) / INR n - sse n (fun i => o (nth i p 0%nat)) z / INR n), Fin (sse n o (fun _ => mean n o) / INR n)).
Proof.
  intros Hs Hn. destruct (corp_perm srt n f Hs) as [P N]. set (p := srt (rlist n f)) in *. pose proof (rel_value srt n o f n Hs (le_n n)) as E. fold p in E.
  destruct (iso_fun n (fun i => o (nth i p 0%nat))) as (z & Ez & Z1 & Z2 & Z3 & _). exists p, z. split; [auto|]. split; [auto|]. rewrite Ez in E. split; [auto|]. split; [auto|]. split; [auto|].
  split; [now rewrite Z3, perm_mean|]. unfold diagram_scores. rewrite E. cbn [bind]. rewrite decomp_value by auto. cbn [nsub nopp nadd]. rewrite mean_perm by auto. rewrite (sse_perm n p o f P), (sse_perm n p o (fun _ => mean n o) P). reflexivity.
Qed.
Lemma seq_map_nth g n k : (k < n)%nat -> nth k (map g (seq 0 n)) 0%nat = g k.
Proof. intros H. rewrite (nth_indep _ 0%nat (g 0%nat)) by now rewrite map_length, seq_length. rewrite map_nth. now rewrite seq_nth. Qed.
Lemma transfer srt srt' n o f g h : argsort_ok srt -> argsort_ok srt' -> distinct n f -> reorders n g ->
  (forall i j, (i < n)%nat -> (j < n)%nat -> f i < f j -> h (f i) < h (f j)) ->
  exists x y z, corp_reliability srt (rlist n o) (rlist n f) = Ok (rlist n x, y, z) /\ corp_reliability srt' (rlist n (fun i => o (g i))) (rlist n (fun i => h (f (g i)))) = Ok (rlist n (fun i => h (x i)), y, z).
Proof.
  intros Hs Hs' D G Hh. destruct (corp_perm srt n f Hs) as [P N]. destruct (corp_perm srt' n (fun i => h (f (g i))) Hs') as [P' N'].
  rewrite (rel_value srt n o f n Hs (le_n n)), (rel_value srt' n _ _ n Hs' (le_n n)). set (p := srt _) in *. set (q := srt' _) in *.
  destruct (sort_unique n o f (fun i => o (g i)) (fun i => h (f (g i))) h p q (map g (seq 0 n)) P P' G D Hh ltac:(intros; now rewrite seq_map_nth) N N') as [E1 E2].
  do 3 eexists. split; [reflexivity|]. rewrite <- E1, <- E2. reflexivity.
Qed.
Lemma rl2 (z : nat -> R) : rlist 2 z = Fin (z 0%nat) :: Fin (z 1%nat) :: nil.
Proof. reflexivity. Qed.
Lemma sumn2 f : sumn 2 f = f 0%nat + f 1%nat.
Proof. unfold sumn, Rsum. simpl. ring. Qed.
Lemma perm2 p : Permutation p (seq 0 2) -> p = 0%nat :: 1%nat :: nil \/ p = 1%nat :: 0%nat :: nil.
Proof. intros P. simpl in P. symmetry in P. now apply Permutation_length_2_inv in P. Qed.
Lemma sc01 y z : nondec 2 z -> (forall w, nondec 2 w -> sse 2 y z + sse 2 z w <= sse 2 y w) -> y 0%nat = 0 -> y 1%nat = 1 -> sse 2 y z = 0.
Proof.
  intros N Z H0 H1. assert (nondec 2 y) as Ny by (intros i j Hi Hj; destruct i as [|[|?]], j as [|[|?]]; solve [lia | apply Rle_refl | rewrite H0, H1; apply Rle_0_1]). specialize (Z y Ny). rewrite sse_self in Z. pose proof (sse_nonneg 2 y z). pose proof (sse_nonneg 2 z y). lra.
Qed.
Lemma sc10 y z : nondec 2 z -> y 0%nat = 1 -> y 1%nat = 0 -> 1 / 2 <= sse 2 y z.
Proof. intros N H0 H1. unfold sse. rewrite sumn2, H0, H1. pose proof (N 0%nat 1%nat ltac:(lia) ltac:(lia)). pose proof (pow2_ge_0 (1 - z 0%nat - z 1%nat)). assert (1 <= (1 - z 0%nat + z 1%nat) ^ 2) by nra. nra. Qed.
Lemma C66_isotonic_l :
forall n y, exists z,
  isotonic_regression (rlist n y) = rlist n z /\ isotonic_fit n y z /\
  (forall w, isotonic_fit n y w -> forall i, (i < n)%nat -> w i = z i) /\ sumn n z = sumn n y /\
  (forall lo hi, (forall i, (i < n)%nat -> lo <= y i <= hi) -> forall i, (i < n)%nat -> lo <= z i <= hi).
Proof.
intros n y. destruct (iso_fun n y) as (z & E & N & O & M & B). exists z. split; [auto|]. split; [split; [auto|]|].
  - intros w Hw. specialize (O w Hw). pose proof (sse_nonneg n z w). lra.
  - split; [|auto]. intros w [Nw Ow] i Hi. symmetry. apply (sse_zero n z w); auto. specialize (O w Nw). specialize (Ow z N). pose proof (sse_nonneg n z w). lra.
Qed.
Lemma C66_reliability_l :
forall srt n o f, argsort_ok srt ->
  exists g x y z, corp_reliability srt (rlist n o) (rlist n f) = Ok (rlist n x, rlist n y, rlist n z) /\
    reorders n g /\ (forall i, (i < n)%nat -> x i = f (g i) /\ y i = o (g i)) /\ nondec n x /\ isotonic_fit n y z.
Proof.
intros srt n o f Hs. destruct (corp_perm srt n f Hs) as [P N]. pose proof (Permutation_length P) as L. rewrite seq_length in L.
  destruct (C66_isotonic_l n (fun i => o (nth i (srt (rlist n f)) 0%nat))) as (z & E & F & _). exists (fun i => nth i (srt (rlist n f)) 0%nat). do 3 eexists. split; [rewrite (rel_value srt n o f n Hs (le_n n)), E; reflexivity|].
  split; [unfold reorders; now rewrite nth_map_seq|]. split; [auto|]. split; [exact N|exact F].
Qed.
Lemma C66_lengths_l :
forall srt n m o f, argsort_ok srt ->
  ((m < n)%nat -> corp_reliability srt (rlist m o) (rlist n f) = Err IndexError) /\
  ((n <= m)%nat -> corp_reliability srt (rlist m o) (rlist n f) = corp_reliability srt (rlist n o) (rlist n f)).
Proof.
intros srt n m o f Hs. split; intros H; [now apply rel_short|]. now rewrite !rel_value by auto.
Qed.
Lemma C66_decomposition_l :
forall srt n o f, argsort_ok srt -> (1 <= n)%nat ->
  exists mcb dsc unc, diagram_scores srt (rlist n o) (rlist n f) = Ok (Fin mcb, Fin dsc, Fin unc) /\
    0 <= mcb /\ 0 <= dsc <= unc /\ mean n (fun i => (f i - o i) ^ 2) = mcb - dsc + unc /\
    unc = mean n (fun i => (o i - mean n o) ^ 2) /\
    ((forall i, (i < n)%nat -> o i = 0 \/ o i = 1) -> unc = mean n o * (1 - mean n o)).
Proof.
intros srt n o f Hs Hn. destruct (diag_value srt n o f Hs Hn) as (p & z & P & N & _ & Nz & Oz & M & E). do 3 eexists. split; [exact E|]. set (y := fun i => o (nth i p 0%nat)) in *. pose proof (INR_pos n Hn) as Hi.
  pose proof (Oz (fun i => f (nth i p 0%nat)) N) as A. pose proof (sse_nonneg n z (fun i => f (nth i p 0%nat))) as A'. pose proof (Oz (fun _ => mean n o) (nondec_const n _)) as B. pose proof (sse_nonneg n z (fun _ => mean n o)) as B'.
  assert (sse n y (fun i => f (nth i p 0%nat)) = sse n o f) as E1 by now apply (sse_perm n p o f). assert (sse n y (fun _ => mean n o) = sse n o (fun _ => mean n o)) as E2 by now apply (sse_perm n p o (fun _ => mean n o)). rewrite E1 in A. rewrite E2 in B. rewrite !div_sub by auto.
  split; [apply div_nonneg; auto; lra|]. split; [split; [apply div_nonneg; auto; lra|]|].
  - pose proof (div_nonneg (sse n y z) n Hn (sse_nonneg n y z)). pose proof (div_sub (sse n o (fun _ => mean n o)) (sse n y z) n Hn). lra.
  - split; [|split; [reflexivity|]].
    + unfold mean at 1. rewrite (sumn_ext n _ (fun i => (o i - f i) ^ 2)) by (intros; ring). fold (sse n o f). field. lra.
    + intros H01. assert (sse n o (fun _ => 0) = sumn n o) as K. { unfold sse. apply sumn_ext. intros i Hl. destruct (H01 i Hl) as [-> | ->]; ring. } rewrite sse_mean in K by auto. assert (sumn n o = INR n * mean n o) as Es by (unfold mean; field; lra). rewrite Es in K.
      replace (sse n o (fun _ => mean n o)) with (INR n * mean n o - INR n * (mean n o - 0) ^ 2) by lra. field. lra.
Qed.
Lemma C66_zero_l :
forall srt n o f x y z mcb dsc unc, argsort_ok srt -> (1 <= n)%nat ->
  corp_reliability srt (rlist n o) (rlist n f) = Ok (rlist n x, rlist n y, rlist n z) ->
  diagram_scores srt (rlist n o) (rlist n f) = Ok (Fin mcb, Fin dsc, Fin unc) ->
  (mcb = 0 <-> forall i, (i < n)%nat -> x i = z i) /\ (dsc = 0 <-> forall i, (i < n)%nat -> z i = mean n o).
Proof.
intros srt n o f x y z mcb dsc unc Hs Hn Er Ed. destruct (diag_value srt n o f Hs Hn) as (p & z' & P & N & Er' & Nz & Oz & M & E). rewrite Er in Er'. rewrite Ed in E. injection E as -> -> ->. injection Er' as E1 E2 E3.
  pose proof (rlist_inj n _ _ E1) as X. pose proof (rlist_inj n _ _ E3) as Z. clear E1 E2 E3 Er Ed. set (y' := fun i => o (nth i p 0%nat)) in *.
  assert (sse n y' (fun i => f (nth i p 0%nat)) = sse n o f) as E1 by now apply (sse_perm n p o f). assert (sse n y' (fun _ => mean n o) = sse n o (fun _ => mean n o)) as E2 by now apply (sse_perm n p o (fun _ => mean n o)). rewrite <- E1, <- E2, !div_sub by auto. pose proof (INR_pos n Hn) as Hi.
  split; split; intros H.
  - apply div_zero in H; auto. intros i Hl. rewrite X, Z by auto. specialize (Oz _ N). pose proof (sse_nonneg n z' (fun i => f (nth i p 0%nat))). symmetry. apply (sse_zero n z' (fun i => f (nth i p 0%nat))); auto. lra.
  - rewrite (sse_ext n y' (fun i => f (nth i p 0%nat)) y' z') by (intros; auto; rewrite <- Z, <- H, X by auto; reflexivity). field. lra.
  - apply div_zero in H; auto. intros i Hl. rewrite Z by auto. specialize (Oz _ (nondec_const n (mean n o))). pose proof (sse_nonneg n z' (fun _ => mean n o)). apply (sse_zero n z' (fun _ => mean n o)); auto. lra.
  - rewrite (sse_ext n y' (fun _ => mean n o) y' z') by (intros; auto; rewrite <- Z, H by auto; reflexivity). field. lra.
Qed.
Lemma C66_order_l :
forall srt srt' n o f g h, argsort_ok srt -> argsort_ok srt' -> distinct n f -> reorders n g ->
  (forall i j, (i < n)%nat -> (j < n)%nat -> f i < f j -> h (f i) < h (f j)) ->
  exists x y z, corp_reliability srt (rlist n o) (rlist n f) = Ok (rlist n x, y, z) /\
    corp_reliability srt' (rlist n (fun i => o (g i))) (rlist n (fun i => f (g i))) = Ok (rlist n x, y, z) /\
    corp_reliability srt' (rlist n (fun i => o (g i))) (rlist n (fun i => h (f (g i)))) = Ok (rlist n (fun i => h (x i)), y, z).
Proof.
intros srt srt' n o f g h Hs Hs' D G Hh. destruct (transfer srt srt' n o f g h Hs Hs' D G Hh) as (x & y & z & E1 & E2). exists x, y, z. split; [auto|]. split; [|auto].
  destruct (transfer srt srt' n o f g (fun u => u) Hs Hs' D G ltac:(auto)) as (x' & y' & z' & E1' & E2'). rewrite E1 in E1'. injection E1' as Ex -> ->. rewrite E2'. now rewrite Ex.
Qed.
Lemma C66_ties_refuted_l :
exists n o f g, reorders n g /\ (forall i, (i < n)%nat -> f (g i) = f i) /\
  forall srt, argsort_ok srt -> exists mcb dsc unc mcb' dsc' unc',
    diagram_scores srt (rlist n o) (rlist n f) = Ok (Fin mcb, Fin dsc, Fin unc) /\
    diagram_scores srt (rlist n (fun i => o (g i))) (rlist n (fun i => f (g i))) = Ok (Fin mcb', Fin dsc', Fin unc') /\
    mcb <> mcb' /\ dsc <> dsc' /\ unc = unc'.
Proof.
pose (o := fun i => if Nat.eqb i 0 then 0 else 1). exists 2%nat, o, (fun _ => 1 / 2), (fun i => (1 - i)%nat). split; [unfold reorders; simpl; apply perm_swap|]. split; [auto|]. intros srt Hs.
  destruct (iso_fun 2 (fun i => o (nth i (srt (rlist 2 (fun _ => 1 / 2))) 0%nat))) as (z & Ez & Nz & Oz & _).
  destruct (iso_fun 2 (fun i => o (Nat.sub 1 (nth i (srt (rlist 2 (fun _ => 1 / 2))) 0%nat)))) as (z' & Ez' & Nz' & Oz' & _).
  destruct (corp_perm srt 2 (fun _ => 1 / 2) Hs) as [P _].
  unfold diagram_scores. rewrite !(rel_value srt 2 _ _ 2 Hs (le_n 2)). cbv beta. rewrite Ez, Ez'. cbn [bind]. rewrite !decomp_value by lia. cbn [nsub nopp nadd]. do 6 eexists. split; [reflexivity|]. split; [reflexivity|].
  destruct (perm2 _ P) as [E|E]; rewrite E in *.
  - pose proof (sc01 _ z Nz Oz eq_refl eq_refl) as A. pose proof (sc10 _ z' Nz' eq_refl eq_refl : 1 / 2 <= sse 2 (fun i => o (1 - nth i (0%nat :: 1%nat :: nil) 0)%nat) z') as B. rewrite A. set (s := sse 2 _ z') in *. clearbody s. unfold sse, mean. rewrite !sumn2. unfold o. simpl. lra.
  - pose proof (sc01 _ z' Nz' Oz' eq_refl eq_refl) as A. pose proof (sc10 _ z Nz eq_refl eq_refl : 1 / 2 <= sse 2 (fun i => o (nth i (1%nat :: 0%nat :: nil) 0)%nat) z) as B. rewrite A. set (s := sse 2 _ z) in *. clearbody s. unfold sse, mean. rewrite !sumn2. unfold o. simpl. lra.
Qed.
