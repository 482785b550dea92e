(** Lemmas on values and on sums. *)
From Verif Require Export S_base.
From Coq Require Export Lra Lia.
Open Scope R_scope.

#[global] Arguments Rsum _ : simpl never.
#[global] Arguments nsum _ : simpl never.
#[global] Arguments sumn _ _ : simpl never.

(** ** decisions *)
Lemma rltb_true a b : rltb a b = true <-> a < b.
Proof. unfold rltb; destruct (Rlt_dec a b); split; intros; try easy; lra. Qed.
Lemma rltb_false a b : rltb a b = false <-> b <= a.
Proof. unfold rltb; destruct (Rlt_dec a b); split; intros; try easy; lra. Qed.
Lemma rleb_true a b : rleb a b = true <-> a <= b.
Proof. unfold rleb; destruct (Rle_dec a b); split; intros; try easy; lra. Qed.
Lemma rleb_false a b : rleb a b = false <-> b < a.
Proof. unfold rleb; destruct (Rle_dec a b); split; intros; try easy; lra. Qed.
Lemma reqb_true a b : reqb a b = true <-> a = b.
Proof. unfold reqb; destruct (Req_EM_T a b); split; intros; try easy; lra. Qed.
Lemma reqb_false a b : reqb a b = false <-> a <> b.
Proof. unfold reqb; destruct (Req_EM_T a b); split; intros; try easy; lra. Qed.

Ltac rdec :=
  repeat match goal with
  | |- context [Rlt_dec ?a ?b] => destruct (Rlt_dec a b)
  | |- context [Rle_dec ?a ?b] => destruct (Rle_dec a b)
  | |- context [Req_EM_T ?a ?b] => destruct (Req_EM_T a b)
  end.

(** ** finite arithmetic *)
Lemma nadd_Fin a b : nadd (Fin a) (Fin b) = Fin (a + b). Proof. reflexivity. Qed.
Lemma nsub_Fin a b : nsub (Fin a) (Fin b) = Fin (a - b). Proof. reflexivity. Qed.
Lemma nmul_Fin a b : nmul (Fin a) (Fin b) = Fin (a * b). Proof. reflexivity. Qed.
Lemma nopp_Fin a : nopp (Fin a) = Fin (- a). Proof. reflexivity. Qed.
Lemma nabs_Fin a : nabs (Fin a) = Fin (Rabs a). Proof. reflexivity. Qed.
Lemma nsq_Fin a : nsq (Fin a) = Fin (a * a). Proof. reflexivity. Qed.
Lemma ndiv_Fin a b : b <> 0 -> ndiv (Fin a) (Fin b) = Fin (a / b).
Proof. intros H; unfold ndiv; destruct (Req_EM_T b 0); easy. Qed.
Lemma ndiv_0 : ndiv (Fin 0) (Fin 0) = NaN.
Proof. unfold ndiv, infsgn; rdec; try easy; lra. Qed.
Lemma nltb_Fin a b : nltb (Fin a) (Fin b) = rltb a b. Proof. reflexivity. Qed.
Lemma nleb_Fin a b : nleb (Fin a) (Fin b) = rleb a b. Proof. reflexivity. Qed.
Lemma nofnat_Fin n : nofnat n = Fin (INR n). Proof. reflexivity. Qed.
Lemma b2n_le a b : b2n (nleb (Fin a) (Fin b)) = Fin (ind_le a b).
Proof. simpl; unfold rleb, ind_le; rdec; reflexivity. Qed.
Lemma b2n_lt a b : b2n (nltb (Fin a) (Fin b)) = Fin (ind_lt a b).
Proof. simpl; unfold rltb, ind_lt; rdec; reflexivity. Qed.
Lemma nexp_Fin a : nexp (Fin a) = Fin (exp a). Proof. reflexivity. Qed.
Lemma nsqrt_Fin a : 0 <= a -> nsqrt (Fin a) = Fin (sqrt a).
Proof. intros; unfold nsqrt; rdec; auto; lra. Qed.
Lemma nlog_Fin a : 0 < a -> nlog (Fin a) = Fin (ln a).
Proof. intros; unfold nlog; rdec; auto; lra. Qed.

Lemma nmax_Fin a b : nmax (Fin a) (Fin b) = Fin (Rmax a b).
Proof. unfold nmax; simpl; unfold rleb, Rmax; rdec; auto. Qed.
Lemma nmin_Fin a b : nmin (Fin a) (Fin b) = Fin (Rmin a b).
Proof. unfold nmin; simpl; unfold rleb, Rmin; rdec; auto. Qed.

(** rewrite finite operations; divisions are left to [ndiv_Fin] *)
#[export] Hint Rewrite nadd_Fin nsub_Fin nmul_Fin nopp_Fin nabs_Fin nsq_Fin nofnat_Fin
  b2n_le b2n_lt nexp_Fin nmax_Fin nmin_Fin : fin.

(** ** addition is a commutative monoid *)
Lemma infsgn_cases r : infsgn r = PInf \/ infsgn r = NInf \/ infsgn r = NaN.
Proof. unfold infsgn; rdec; auto. Qed.
Lemma nadd_comm x y : nadd x y = nadd y x.
Proof. destruct x, y; simpl; try reflexivity. f_equal; lra. Qed.
Lemma nadd_assoc x y z : nadd (nadd x y) z = nadd x (nadd y z).
Proof. destruct x, y, z; simpl; try reflexivity. f_equal; lra. Qed.
Lemma nadd_0_l x : nadd (Fin 0) x = x.
Proof. destruct x; simpl; try reflexivity. f_equal; lra. Qed.
Lemma nadd_0_r x : nadd x (Fin 0) = x.
Proof. rewrite nadd_comm; apply nadd_0_l. Qed.
Lemma nmul_comm x y : nmul x y = nmul y x.
Proof. destruct x, y; simpl; try reflexivity. f_equal; lra. Qed.
Lemma nmul_NaN_l x : nmul NaN x = NaN. Proof. destruct x; reflexivity. Qed.
Lemma nmul_NaN_r x : nmul x NaN = NaN. Proof. destruct x; reflexivity. Qed.
Lemma nadd_NaN_l x : nadd NaN x = NaN. Proof. destruct x; reflexivity. Qed.
Lemma nadd_NaN_r x : nadd x NaN = NaN. Proof. destruct x; reflexivity. Qed.
Lemma nsub_NaN_l x : nsub NaN x = NaN. Proof. destruct x; reflexivity. Qed.
Lemma nsub_NaN_r x : nsub x NaN = NaN. Proof. destruct x; reflexivity. Qed.
Lemma ndiv_NaN_l x : ndiv NaN x = NaN. Proof. destruct x; reflexivity. Qed.
Lemma ndiv_NaN_r x : ndiv x NaN = NaN. Proof. destruct x; reflexivity. Qed.
#[export] Hint Rewrite nmul_NaN_l nmul_NaN_r nadd_NaN_l nadd_NaN_r nsub_NaN_l nsub_NaN_r
  ndiv_NaN_l ndiv_NaN_r : nan.
Lemma nmul_1_r x : nmul x (Fin 1) = x.
Proof. destruct x; simpl; try reflexivity; [f_equal; lra| |]; unfold infsgn; rdec; simpl; auto; lra. Qed.
Lemma nmul_1_l x : nmul (Fin 1) x = x.
Proof. rewrite nmul_comm; apply nmul_1_r. Qed.
Lemma nabs_opp x : nabs (nopp x) = nabs x.
Proof. destruct x; simpl; auto. now rewrite Rabs_Ropp. Qed.
Lemma nsub_swap x y : nsub x y = nopp (nsub y x).
Proof. destruct x, y; unfold nsub; simpl; auto. f_equal; lra. Qed.
Lemma nabs_sub_sym x y : nabs (nsub x y) = nabs (nsub y x).
Proof. rewrite nsub_swap; apply nabs_opp. Qed.

(** ** sums of values *)
Lemma nsum_app l1 l2 : nsum (l1 ++ l2) = nadd (nsum l1) (nsum l2).
Proof.
  induction l1 as [|x l1 IH]; [symmetry; apply nadd_0_l|].
  unfold nsum in *; simpl; rewrite IH; now rewrite nadd_assoc.
Qed.
Lemma nsum_perm l1 l2 : Permutation l1 l2 -> nsum l1 = nsum l2.
Proof.
  induction 1; simpl; auto; unfold nsum in *; simpl; try congruence.
  rewrite <- !nadd_assoc; f_equal; apply nadd_comm.
Qed.
Lemma fold_left_nadd {A} (f : A -> num) l e :
  fold_left (fun e a => nadd e (f a)) l e = nadd e (nsum (map f l)).
Proof.
  revert e; induction l as [|x l IH]; intros e; [symmetry; apply nadd_0_r|].
  simpl; rewrite IH; now rewrite nadd_assoc.
Qed.
Lemma nsum_NaN l : In NaN l -> nsum l = NaN.
Proof.
  induction l as [|x l IH]; simpl; [easy|]; intros [->|H]; [reflexivity|].
  unfold nsum in *; simpl; rewrite (IH H); apply nadd_NaN_r.
Qed.
Lemma nsum_Fin {A} (f : A -> R) l : nsum (map (fun a => Fin (f a)) l) = Fin (Rsum (map f l)).
Proof. induction l as [|x l IH]; simpl; auto. unfold nsum, Rsum in *; simpl. now rewrite IH. Qed.
Lemma nsum_map_Fin l : nsum (map Fin l) = Fin (Rsum l).
Proof. induction l as [|x l IH]; simpl; auto. unfold nsum, Rsum in *; simpl. now rewrite IH. Qed.
Lemma nsum_ext {A} (f g : A -> num) l :
  (forall a, In a l -> f a = g a) -> nsum (map f l) = nsum (map g l).
Proof. intros H; f_equal; apply map_ext_in; auto. Qed.
Lemma nsum_sumn n (f : nat -> num) (g : nat -> R) :
  (forall k, (k < n)%nat -> f k = Fin (g k)) -> nsum (map f (seq 0 n)) = Fin (sumn n g).
Proof.
  intros H. unfold sumn. rewrite <- nsum_Fin. apply nsum_ext.
  intros a Ha; apply in_seq in Ha; apply H; lia.
Qed.

(** ** real sums *)
Lemma Rsum_nil : Rsum [] = 0. Proof. reflexivity. Qed.
Lemma Rsum_cons x l : Rsum (x :: l) = x + Rsum l. Proof. reflexivity. Qed.
Lemma Rsum_app l1 l2 : Rsum (l1 ++ l2) = Rsum l1 + Rsum l2.
Proof. induction l1 as [|x l1 IH]; simpl; rewrite ?Rsum_nil, ?Rsum_cons, ?IH; lra. Qed.
Lemma Rsum_perm l1 l2 : Permutation l1 l2 -> Rsum l1 = Rsum l2.
Proof. induction 1; simpl; rewrite ?Rsum_nil, ?Rsum_cons; lra. Qed.
Lemma Rsum_map_plus {A} (f g : A -> R) l :
  Rsum (map (fun a => f a + g a) l) = Rsum (map f l) + Rsum (map g l).
Proof. induction l; simpl; rewrite ?Rsum_nil, ?Rsum_cons; lra. Qed.
Lemma Rsum_map_scal {A} c (f : A -> R) l :
  Rsum (map (fun a => c * f a) l) = c * Rsum (map f l).
Proof. induction l; simpl; rewrite ?Rsum_nil, ?Rsum_cons; lra. Qed.
Lemma Rsum_map_ext {A} (f g : A -> R) l :
  (forall a, In a l -> f a = g a) -> Rsum (map f l) = Rsum (map g l).
Proof. intros H; f_equal; apply map_ext_in; auto. Qed.
Lemma Rsum_map_0 {A} (l : list A) : Rsum (map (fun _ => 0) l) = 0.
Proof. induction l; simpl; rewrite ?Rsum_nil, ?Rsum_cons; lra. Qed.
Lemma Rsum_swap {A B} (f : A -> B -> R) la lb :
  Rsum (map (fun a => Rsum (map (f a) lb)) la) = Rsum (map (fun b => Rsum (map (fun a => f a b) la)) lb).
Proof.
  induction la as [|a la IH]; simpl.
  - rewrite Rsum_nil. symmetry. apply Rsum_map_0.
  - rewrite Rsum_cons, IH, <- Rsum_map_plus; apply Rsum_map_ext; intros; now rewrite Rsum_cons.
Qed.

Lemma sumn_0 f : sumn 0 f = 0. Proof. reflexivity. Qed.
Lemma sumn_S n f : sumn (S n) f = sumn n f + f n.
Proof. unfold sumn. rewrite seq_S, map_app, Rsum_app; simpl. unfold Rsum; simpl; lra. Qed.
Lemma sumn_S_l n f : sumn (S n) f = f O + sumn n (fun k => f (S k)).
Proof. unfold sumn; simpl. rewrite Rsum_cons; f_equal. now rewrite <- seq_shift, map_map. Qed.
Lemma sumn_ext n f g : (forall k, (k < n)%nat -> f k = g k) -> sumn n f = sumn n g.
Proof. intros H; apply Rsum_map_ext; intros a Ha; apply in_seq in Ha; apply H; lia. Qed.
Lemma sumn_plus n f g : sumn n (fun k => f k + g k) = sumn n f + sumn n g.
Proof. apply Rsum_map_plus. Qed.
Lemma sumn_scal n c f : sumn n (fun k => c * f k) = c * sumn n f.
Proof. apply Rsum_map_scal. Qed.
Lemma sumn_scal_r n c f : sumn n (fun k => f k * c) = sumn n f * c.
Proof. rewrite Rmult_comm, <- sumn_scal; apply sumn_ext; intros; lra. Qed.
Lemma sumn_div n c f : sumn n (fun k => f k / c) = sumn n f / c.
Proof. unfold Rdiv; apply sumn_scal_r. Qed.
Lemma sumn_opp n f : sumn n (fun k => - f k) = - sumn n f.
Proof. replace (- sumn n f) with ((-1) * sumn n f) by lra. rewrite <- sumn_scal; apply sumn_ext; intros; lra. Qed.
Lemma sumn_minus n f g : sumn n (fun k => f k - g k) = sumn n f - sumn n g.
Proof. unfold Rminus; rewrite sumn_plus, sumn_opp; lra. Qed.
Lemma sumn_const n c : sumn n (fun _ => c) = INR n * c.
Proof. induction n; [rewrite sumn_0; simpl; lra|]. rewrite sumn_S, IHn, S_INR; lra. Qed.
Lemma sumn_zero n : sumn n (fun _ => 0) = 0. Proof. rewrite sumn_const; lra. Qed.
Lemma sumn_swap n m f :
  sumn n (fun i => sumn m (fun j => f i j)) = sumn m (fun j => sumn n (fun i => f i j)).
Proof. apply Rsum_swap. Qed.
Lemma sumn_le n f g : (forall k, (k < n)%nat -> f k <= g k) -> sumn n f <= sumn n g.
Proof.
  induction n; intros H; [rewrite !sumn_0; lra|]. rewrite !sumn_S.
  assert (sumn n f <= sumn n g) by (apply IHn; auto). specialize (H n ltac:(lia)). lra.
Qed.
Lemma sumn_nonneg n f : (forall k, (k < n)%nat -> 0 <= f k) -> 0 <= sumn n f.
Proof. intros H. rewrite <- (sumn_zero n). now apply sumn_le. Qed.
Lemma sumn_zero_inv n f : (forall k, (k < n)%nat -> 0 <= f k) -> sumn n f = 0 ->
  forall k, (k < n)%nat -> f k = 0.
Proof.
  induction n; intros H H0 k Hk; [lia|]. rewrite sumn_S in H0.
  assert (Hn : 0 <= sumn n f) by (apply sumn_nonneg; auto).
  assert (Hf := H n ltac:(lia)).
  destruct (Nat.eq_dec k n) as [->|]; [lra|]. apply IHn; auto; [lra|lia].
Qed.
Lemma sumn_perm n (f : nat -> R) l : Permutation l (seq 0 n) -> Rsum (map f l) = sumn n f.
Proof. intros H; apply Rsum_perm, Permutation_map, H. Qed.
Lemma sumn_mul n m f g : sumn n f * sumn m g = sumn n (fun i => sumn m (fun j => f i * g j)).
Proof. rewrite <- sumn_scal_r. apply sumn_ext; intros; now rewrite sumn_scal. Qed.
Lemma sumn_Rabs n f : Rabs (sumn n f) <= sumn n (fun k => Rabs (f k)).
Proof.
  induction n; [rewrite !sumn_0, Rabs_R0; lra|]. rewrite !sumn_S.
  eapply Rle_trans; [apply Rabs_triang|lra].
Qed.
Lemma sumn_plus_idx n m f : sumn (n + m) f = sumn n f + sumn m (fun k => f (n + k)%nat).
Proof.
  induction m; [rewrite Nat.add_0_r, sumn_0; lra|].
  replace (n + S m)%nat with (S (n + m)) by lia. rewrite !sumn_S, IHm; lra.
Qed.
Lemma sumn_rev n f : sumn n (fun k => f (n - 1 - k)%nat) = sumn n f.
Proof.
  revert f; induction n; intros f; [reflexivity|].
  rewrite sumn_S_l, sumn_S. replace (S n - 1 - 0)%nat with n by lia.
  rewrite <- (IHn f). rewrite Rplus_comm. f_equal. apply sumn_ext; intros; f_equal; lia.
Qed.
(** a single index contributes *)
Lemma sumn_delta n k c : (k < n)%nat -> sumn n (fun j => if Nat.eq_dec j k then c else 0) = c.
Proof.
  induction n; intros H; [lia|]. rewrite sumn_S. destruct (Nat.eq_dec n k) as [->|].
  - rewrite (sumn_ext k _ (fun _ => 0)), sumn_zero; [lra|].
    intros j Hj; destruct (Nat.eq_dec j k); [lia|auto].
  - rewrite IHn by lia; lra.
Qed.

(** sum over ordered pairs from the sum over i < j *)
Lemma sumn_triangle n (f : nat -> nat -> R) :
  (forall i j, f i j = f j i) -> (forall i, f i i = 0) ->
  sumn n (fun i => sumn n (fun j => f i j)) =
  2 * sumn n (fun i => Rsum (map (fun j => f i j) (seq (i + 1) (n - (i + 1))))).
Proof.
  intros Hs Hd. induction n; [rewrite !sumn_0; lra|].
  rewrite sumn_S. rewrite (sumn_ext _ _ (fun i => sumn n (fun j => f i j) + f i n))
    by (intros; apply sumn_S).
  rewrite sumn_plus, IHn, !sumn_S, Hd.
  rewrite (sumn_ext n (fun j => f n j) (fun j => f j n)) by (intros; apply Hs).
  replace (S n - (n + 1))%nat with O by lia. change (Rsum (map (fun j : nat => f n j) (seq (n + 1) 0))) with 0.
  rewrite (sumn_ext n (fun i => Rsum (map (fun j => f i j) (seq (i + 1) (S n - (i + 1)))))
    (fun i => Rsum (map (fun j => f i j) (seq (i + 1) (n - (i + 1)))) + f i n)).
  - rewrite sumn_plus; lra.
  - intros i Hi. replace (S n - (i + 1))%nat with (S (n - (i + 1))) by lia.
    rewrite seq_S, map_app, Rsum_app; simpl. unfold Rsum; simpl.
    replace (i + 1 + (n - (i + 1)))%nat with n by lia. lra.
Qed.
