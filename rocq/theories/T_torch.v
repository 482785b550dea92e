(** Proofs about the array methods of the torch and jax backends (statements in P_torch.v). *)
From Verif Require Export L_torch.
From Coq Require Import Psatz Lia.
Import ListNotations.
Open Scope nat_scope.
Definition first_g (l : list num) : num := hd NaN l.
(** the vector function of the counterexamples: the first element, NaN for the empty vector *)
Definition head_f (v : arr) : tensor := Ok (mkArr DFloat nil (fun _ => if hd 0 (sh v) =? 0 then NaN else at_ v (0 :: nil)%list)).
Lemma head_scalar : scalar_fun head_f first_g.
Proof. intros v d E. eexists. split; [reflexivity|]. split; [reflexivity|]. cbn [at_]. rewrite E. cbn [hd]. destruct d; reflexivity. Qed.
Definition mat22 : arr := mkArr DFloat (2 :: 2 :: nil)%list (fun i => Fin (INR (nth 0 i 0 + 2 * nth 1 i 0))).
Lemma C77_expand_dims_l :
forall (x : arr) (axes : list Z), let n := length axes + length (sh x) in axes_ok n axes ->
  exists r, texpand_dims x axes = Ok r /\ dt r = dt x /\ length (pyshape r) = n /\
    (forall k, k < n -> is_axis n axes k = true -> nth k (pyshape r) 0 = 1) /\
    without (is_axis n axes) (pyshape r) = pyshape x /\
    forall i, inb (sh r) i -> at_ r i = at_ x (rev (without (is_axis n axes) (rev i))).
Proof.
intros x axes n H. destruct (texpand_val x axes H) as (r & E & D & L & R). exists r. repeat split; auto; try apply R. unfold pyshape. now rewrite rev_length.
Qed.
Lemma C77_expand_dims_stop_l :
forall (x : arr) (axes : list Z), ~ axes_ok (length axes + length (sh x)) axes -> raises (texpand_dims x axes) StopIteration.
Proof.
intros x axes H. unfold raises. now apply texpand_stop.
Qed.
Lemma C77_expand_dims_code_l :
forall (x : arr),
  same_array (texpand_dims x [-2; -1]%Z) (expand12 x) /\
  same_array (texpand_dims x [-1; -2]%Z) (expand12 x) /\
  (2 <= length (sh x) -> same_array (texpand_dims x [-3; -4]%Z) (expand34 x)) /\
  forall k, same_array (texpand_dims x (map (fun j => Z.of_nat j - Z.of_nat k)%Z (seq 0 k))) (Nat.iter k (aexpand 0) (Ok x)).
Proof.
intros x. split; [exact (texpand_range x 2)|]. split; [exact (texpand_12 x)|]. split; [exact (texpand_34 x)|exact (texpand_range x)].
Qed.
Lemma C77_apply_last_l :
forall (x : arr) (d : nat) (s : list nat) (axis : Z) (f : arr -> tensor) (g : list num -> num) (fallback : tensor),
  sh x = (d :: s)%list -> ~ In 0 (sh x) -> axis = (-1)%Z \/ axis = Z.of_nat (length s) -> scalar_fun f g ->
  returns (torch_apply_along_axis true f x axis) s (fun r => g (map (fun k => at_ x (k :: r)) (seq 0 d))) /\
  returns (jax_apply_along_axis fallback true f x axis) s (fun r => g (map (fun k => at_ x (k :: r)) (seq 0 d))).
Proof.
intros x d s axis f g fb S Z A F. assert (existsb (fun k => k =? 0) (d :: s) = false) as Z'.
{ apply Bool.not_true_iff_false. intros H. apply existsb_exists in H as (k & Hk & E). apply Nat.eqb_eq in E. subst k. rewrite S in Z. auto. }
destruct (apply_last_val f g x axis d s S A Z' F) as (b & E & Sb & V). unfold torch_apply_along_axis, jax_apply_along_axis. rewrite E. split; (exists (dt b), b; repeat split; auto).
Qed.
Lemma C77_apply_numpy_l :
forall (x : arr) (t : dtype) (f : arr -> tensor) (g : list num -> num) (fallback : tensor),
  sh x <> nil -> ~ In 0 (sh x) -> scalar_fun f g ->
  exists s v, returns (aapply_last (t, g) (Ok x)) s v /\ returns (torch_apply_along_axis true f x (-1)) s v /\ returns (jax_apply_along_axis fallback true f x (-1)) s v.
Proof.
intros x t f g fb N Z F. destruct (sh x) as [|d s] eqn:S; [congruence|]. assert (existsb (fun k => k =? 0) (d :: s) = false) as Z'.
{ apply Bool.not_true_iff_false. intros H. apply existsb_exists in H as (k & Hk & E). apply Nat.eqb_eq in E. subst k. auto. }
destruct (apply_last_val f g x (-1) d s S (or_introl eq_refl) Z' F) as (b & E & Sb & V). exists s, (fun r => g (row x d r)). split.
- unfold aapply_last. cbn [bind]. rewrite S. cbn [existsb] in Z'. apply Bool.orb_false_iff in Z' as [_ Z']. rewrite Z'. eexists. eexists. split; [reflexivity|]. repeat split.
- unfold torch_apply_along_axis, jax_apply_along_axis. rewrite E. split; (exists (dt b), b; repeat split; auto).
Qed.
Lemma C77_apply_square_l :
forall (x : arr) (n : nat) (f : arr -> tensor) (g : list num -> num) (fallback : tensor),
  sh x = (n :: n :: nil)%list -> 0 < n -> scalar_fun f g ->
  exists v, returns (torch_apply_along_axis true f x 0) (n :: nil)%list v /\ returns (jax_apply_along_axis fallback true f x 0) (n :: nil)%list v /\
    forall r, r < n -> v (r :: nil)%list = g (map (fun k => at_ x (k :: r :: nil)%list) (seq 0 n)).
Proof.
intros x n f g fb S N F. destruct (apply_square_val f g x n S N F) as (b & E & Sb & V). exists (at_ b). unfold torch_apply_along_axis, jax_apply_along_axis. rewrite E. split; [|split]; [(exists (dt b), b; repeat split; auto)|(exists (dt b), b; repeat split; auto)|exact V].
Qed.
Lemma C77_apply_axis_refuted_l :
exists (x : arr) (n : nat) (f : arr -> tensor) (g : list num -> num) (r : nat), sh x = (n :: n :: nil)%list /\ r < n /\ scalar_fun f g /\
  forall fallback, exists v, returns (torch_apply_along_axis true f x 0) (n :: nil)%list v /\ returns (jax_apply_along_axis fallback true f x 0) (n :: nil)%list v /\
    v (r :: nil)%list <> g (map (fun k => at_ x (r :: k :: nil)%list) (seq 0 n)).
Proof.
exists mat22, 2, head_f, first_g, 1. split; [reflexivity|]. split; [lia|]. split; [exact head_scalar|]. intros fb.
destruct (C77_apply_square_l mat22 2 head_f first_g fb eq_refl ltac:(lia) head_scalar) as (v & R1 & R2 & V). exists v. split; [exact R1|]. split; [exact R2|].
rewrite V by lia. cbn. intros H. injection H as H. apply (INR_eq 2 1) in H. discriminate.
Qed.
Lemma C77_apply_fallback_refuted_l :
(forall (x : arr) (m d : nat) (f : arr -> tensor) (g : list num -> num), sh x = (d :: m :: nil)%list -> 0 < d -> scalar_fun f g ->
  exists v, returns (torch_apply_along_axis false f x (-1)) (d :: nil)%list v /\
    forall j, j < d -> v (j :: nil)%list = g (map (fun k => at_ x (j :: k :: nil)%list) (seq 0 m))) /\
exists (x : arr) (n : nat) (f : arr -> tensor) (g : list num -> num) (r : nat), sh x = (n :: n :: nil)%list /\ r < n /\ scalar_fun f g /\
  exists v, returns (torch_apply_along_axis false f x (-1)) (n :: nil)%list v /\
    v (r :: nil)%list <> g (map (fun k => at_ x (k :: r :: nil)%list) (seq 0 n)).
Proof.
assert (K : forall (x : arr) (m d : nat) (f : arr -> tensor) (g : list num -> num), sh x = (d :: m :: nil)%list -> 0 < d -> scalar_fun f g ->
  exists v, returns (torch_apply_along_axis false f x (-1)) (d :: nil)%list v /\
    forall j, j < d -> v (j :: nil)%list = g (map (fun k => at_ x (j :: k :: nil)%list) (seq 0 m))).
{ intros x m d f g S D F. destruct (torch_fallback_val f g x m d S D F) as (b & E & Sb & V). exists (at_ b). split; [|exact V]. rewrite E. exists (dt b), b. repeat split; auto. }
split; [exact K|]. exists mat22, 2, head_f, first_g, 1. split; [reflexivity|]. split; [lia|]. split; [exact head_scalar|].
destruct (K mat22 2 2 head_f first_g eq_refl ltac:(lia) head_scalar) as (v & R & V). exists v. split; [exact R|]. rewrite V by lia. cbn. intros H. injection H as H. apply (INR_eq 1 2) in H. discriminate.
Qed.
Lemma C77_apply_fallback_l :
(forall (x : arr) (f : arr -> tensor) (axis : Z) (fallback : tensor), jax_apply_along_axis fallback false f x axis = fallback) /\
forall (x : arr) (m d : nat) (f : arr -> tensor) (g : list num -> num), sh x = (d :: m :: nil)%list -> 0 < m -> scalar_fun f g ->
  exists v, returns (torch_apply_along_axis false f x 0) (m :: nil)%list v /\
    forall j, j < m -> v (j :: nil)%list = g (map (fun k => at_ x (k :: j :: nil)%list) (seq 0 d)).
Proof.
split.
- intros x f axis fb. unfold jax_apply_along_axis. destruct (vmap_untraced f x axis) as [e ->]. reflexivity.
- intros x m d f g S D F. destruct (torch_fallback_val0 f g x m d S D F) as (b & E & Sb & V). exists (at_ b). split; [|exact V]. rewrite E. exists (dt b), b. repeat split; auto.
Qed.
