(** Lemmas about the multivariate NaN policy. *)
From Coq Require Import String.
From Verif Require Export M_nanmv L_arr.
From Coq Require Import Reals List Lia Psatz.
Import ListNotations.
Open Scope R_scope.

Lemma any_nan_iff a : exists b, aany (aisnan (Ok a)) = Ok b /\ (b = true <-> exists i, inb (sh a) i /\ at_ a i = NaN).
Proof.
  eexists. split; [reflexivity|]. simpl. rewrite existsb_exists. split.
  - intros (i & Hi & E). exists i. split; [now apply inb_all_idx|]. rewrite neqb_b2n in E. destruct (at_ a i); try discriminate; reflexivity.
  - intros (i & Hi & E). exists i. split; [now apply inb_all_idx|]. rewrite E, neqb_b2n. reflexivity.
Qed.
Lemma mask_one a D s r : sh a = (D :: s)%list ->
  (b2n (existsb (fun v => negb (neqb v (Fin 0))) (row (mkArr DInt (D :: s) (fun i => b2n (nisnan (at_ a i)))) D r)) =
   b2n (existsb nisnan (map (fun d => at_ a (d :: r)) (seq 0 D)))).
Proof.
  intros _. unfold row. simpl. induction (seq 0 D) as [|d l IH]; [reflexivity|]. simpl.
  assert (negb (neqb (b2n (nisnan (at_ a (d :: r)%list))) (Fin 0)) = nisnan (at_ a (d :: r)%list)) as ->.
  { rewrite neqb_b2n. now destruct (nisnan (at_ a (d :: r)%list)). }
  destruct (nisnan (at_ a (d :: r)%list)); simpl; [reflexivity|exact IH].
Qed.
Lemma has_nan a D r : existsb nisnan (map (fun d => at_ a (d :: r)%list) (seq 0 D)) = true <-> exists d, (d < D)%nat /\ at_ a (d :: r)%list = NaN.
Proof.
  rewrite existsb_exists. split.
  - intros (v & Hv & E). apply in_map_iff in Hv. destruct Hv as (d & <- & Hd). apply in_seq in Hd. exists d. split; [lia|]. destruct (at_ a (d :: r)%list); try discriminate; reflexivity.
  - intros (d & Hd & E). exists NaN. split; [|reflexivity]. apply in_map_iff. exists d. split; auto. apply in_seq. lia.
Qed.
Lemma omit_form obs fct D s : sh fct = (D :: s)%list ->
  exists fct' mask, apply_nan_policy_ens_mv obs fct "omit" = Ok (obs, fct', Some mask) /\
    sh fct' = sh fct /\ sh mask = s /\ dt mask = DInt /\ dt fct' = DFloat /\
    (forall r, inb s r -> at_ mask r = b2n (existsb nisnan (map (fun d => at_ fct (d :: r)%list) (seq 0 D)))) /\
    (forall d r, inb (D :: s)%list (d :: r)%list ->
       at_ fct' (d :: r)%list = if existsb nisnan (map (fun d => at_ fct (d :: r)%list) (seq 0 D)) then Fin 0 else at_ fct (d :: r)%list).
Proof.
  intros E. destruct fct as [dtf shf atf]. simpl in E. subst shf.
  unfold apply_nan_policy_ens_mv. simpl (_ =? _)%string. cbv iota.
  unfold aany_last, areduce, aisnan, amap, bind; simpl sh; simpl dt; cbv iota beta.
  unfold aexpand, bind; simpl sh; cbv iota beta.
  unfold awhere, sc, scn, bind; simpl sh.
  assert (bshape (1%nat :: s) (D :: s) = Some (D :: s)%list) as B.
  { simpl. rewrite bshape_refl. unfold bdim. destruct D as [|[|D]]; reflexivity. }
  change (bshape [] (D :: s)) with (Some (D :: s)%list). cbv iota.
  change (0 <=? length s)%nat with true. cbv iota beta.
  change (insert_at 0 1%nat s) with (1%nat :: s). simpl sh. rewrite B.
  eexists _, _. split; [reflexivity|]. split; [reflexivity|]. split; [reflexivity|]. split; [reflexivity|]. split; [destruct dtf; reflexivity|].
  split.
  - intros r _. simpl at_. apply (mask_one (mkArr dtf (D :: s) atf) D s r eq_refl).
  - intros d r Hi. simpl at_ at 1. pose proof (bidx_id (D :: s) (d :: r) Hi) as I1. destruct Hi as [Hd Hr].
    pose proof (mask_one (mkArr dtf (D :: s) atf) D s r eq_refl) as MM.
    simpl at_ in *. change (bidx (D :: s) (d :: r)) with ((if (D =? 1)%nat then 0%nat else d) :: bidx s r)%list in *.
    rewrite (bidx_id s r Hr) in *. rewrite MM, neqb_b2n.
    destruct (existsb nisnan (map (fun d0 => atf (d0 :: r)%list) (seq 0 D))); simpl; [reflexivity|now rewrite I1].
Qed.
