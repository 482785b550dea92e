(** Concrete inputs used to show that the hypotheses of the theorems can be met. *)
From Verif Require Export L_crps_call.
Open Scope R_scope.

(** obs = [2, 0], fct of shape (3, 2): members 1,3,3 and 0,-1,4 *)
Definition ex_y (r : list nat) : R := match r with [0%nat] => 2 | _ => 0 end.
Definition ex_x (i : list nat) : R :=
  match i with
  | [0%nat; 0%nat] => 1 | [0%nat; 1%nat] => 3 | [0%nat; 2%nat] => 3
  | [1%nat; 0%nat] => 0 | [1%nat; 1%nat] => -1 | _ => 4
  end.
Definition ex_w (i : list nat) : R :=
  match i with [_; 0%nat] => 1 | [_; 1%nat] => 2 | _ => 0 end.
Definition ex_obs : arr := farr [2%nat] ex_y.
Definition ex_fct : arr := farr (insert_at 1 3%nat [2%nat]) ex_x.
Definition ex_wt : arr := farr (insert_at 1 3%nat [2%nat]) ex_w.
Lemma ex_args : ens_args ex_obs ex_fct 0 [2%nat] 1 3 ex_y ex_x.
Proof. repeat split; simpl; auto. now right. Qed.
Lemma ex_ok : argsort_ok asort /\ ens_args ex_obs ex_fct 0 [2%nat] 1 3 ex_y ex_x /\ (0 < 3)%nat /\
  (Numba = Numba -> dt ex_obs = DFloat) /\ sorted_if false [2%nat] 1 3 ex_x.
Proof. split; [apply asort_ok|]. split; [apply ex_args|]. repeat split; auto; easy. Qed.
Lemma ex_ok2 : argsort_ok asort /\ ens_args ex_obs ex_fct 0 [2%nat] 1 3 ex_y ex_x /\ (1 < 3)%nat /\
  dt ex_obs = DFloat /\ sorted_if false [2%nat] 1 3 ex_x.
Proof. split; [apply asort_ok|]. split; [apply ex_args|]. repeat split; auto; easy. Qed.
Lemma ex_fair : argsort_ok asort /\ ens_args ex_obs ex_fct 0 [2%nat] 1 3 ex_y ex_x /\ (1 < 3)%nat /\
  fair_crps 3 (ex_y [0%nat]) (member 1 ex_x [0%nat]) = 1 / 3.
Proof.
  split; [apply asort_ok|]. split; [apply ex_args|]. split; [lia|].
  unfold fair_crps, mae, pairsum, sumn, Rsum, member. simpl.
  replace (3 - 3) with 0 by ring. replace (1 - 1) with 0 by ring. replace (1 - 2) with (-(1)) by ring. replace (1 - 3) with (-(2)) by ring.
  replace (3 - 2) with 1 by ring. replace (3 - 1) with 2 by ring.
  rewrite !Rabs_Ropp, !Rabs_R0, !Rabs_R1, (Rabs_right 2) by lra. unfold Rsum; simpl; field.
Qed.
Lemma ex_wargs : wts_args ex_wt ex_fct [2%nat] 1 3 ex_w.
Proof.
  repeat split; auto.
  - intros r k Hr Hk. destruct r as [|i [|? ?]]; try easy; [|destruct Hr; easy].
    unfold member, ex_w; simpl. destruct k as [|[|k]]; lra.
  - intros r Hr. destruct r as [|i [|? ?]]; try easy; [|destruct Hr; easy].
    unfold member, ex_w, sumn, Rsum; simpl. lra.
Qed.
Lemma ex_two r : inb [2%nat] r -> two_positive 3 (member 1 ex_w r).
Proof.
  intros Hr. destruct r as [|i [|? ?]]; try easy; [|destruct Hr; easy].
  exists 0%nat, 1%nat. unfold member, ex_w; simpl. repeat split; try lia; lra.
Qed.
Lemma ex_wok : argsort_ok asort /\ ens_args ex_obs ex_fct 0 [2%nat] 1 3 ex_y ex_x /\
  wts_args ex_wt ex_fct [2%nat] 1 3 ex_w /\ (forall r, inb [2%nat] r -> two_positive 3 (member 1 ex_w r)) /\
  Nat.odd 3 = true.
Proof. split; [apply asort_ok|]. split; [apply ex_args|]. split; [apply ex_wargs|]. split; [apply ex_two|reflexivity]. Qed.
Lemma ex_unif : wts_args (farr (insert_at 1 3%nat [2%nat]) (fun _ => 5)) ex_fct [2%nat] 1 3 (fun _ => 5) /\
  (forall r k, inb [2%nat] r -> (k < 3)%nat -> member 1 (fun _ => 5) r k = 5).
Proof. repeat split; auto; intros; unfold member, sumn, Rsum; simpl; lra. Qed.
Lemma ex_scale : wts_args ex_wt ex_fct [2%nat] 1 3 ex_w /\
  wts_args (farr (insert_at 1 3%nat [2%nat]) (fun i => (INR (hd 0%nat (remove_at 1 i)) + 1) * ex_w i)) ex_fct [2%nat] 1 3
     (fun i => (INR (hd 0%nat (remove_at 1 i)) + 1) * ex_w i).
Proof.
  split; [apply ex_wargs|]. repeat split; auto.
  - intros r k Hr Hk. destruct r as [|i [|? ?]]; try easy; [|destruct Hr; easy]. pose proof (pos_INR i).
    unfold member, ex_w; simpl. apply Rmult_le_pos; [lra|]. destruct k as [|[|k]]; lra.
  - intros r Hr. destruct r as [|i [|? ?]]; try easy; [|destruct Hr; easy]. pose proof (pos_INR i).
    unfold member, ex_w, sumn, Rsum; simpl. lra.
Qed.
Lemma ex_zero : wts_args ex_wt ex_fct [2%nat] 1 3 ex_w /\ NoDup [1; 0]%nat /\
  (forall r k, inb [2%nat] r -> (k < 3)%nat -> ~ In k [1; 0]%nat -> member 1 ex_w r k = 0).
Proof.
  split; [apply ex_wargs|]. split; [repeat constructor; simpl; intuition discriminate|].
  intros r k Hr Hk N. destruct r as [|i [|? ?]]; try easy; [|destruct Hr; easy].
  unfold member, ex_w; simpl. destruct k as [|[|k]]; auto; exfalso; apply N; simpl; auto.
Qed.
Lemma ex_pos12 : (forall k, (k < 2)%nat -> 0 <= (fun k => nth k [1; 2] 0) k) /\ 0 < sumn 2 (fun k => nth k [1; 2] 0).
Proof. split; [intros [|[|k]] H; simpl; try lra; lia|unfold sumn, Rsum; simpl; lra]. Qed.
