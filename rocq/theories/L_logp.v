(** Helpers for log scores. *)
From Verif Require Export L_fam L_gibbs L_mix M_logs.
From Coq Require Import Psatz.
From Coquelicot Require Import Coquelicot.
Open Scope R_scope.

Lemma logp_pos p q : 0 < p -> p = q -> Fin (- ln p) = logp q.
Proof. intros H <-. unfold logp. destruct (Rlt_dec 0 p); [reflexivity|lra]. Qed.
Lemma logp_0 q : q = 0 -> PInf = logp q.
Proof. intros ->. unfold logp. destruct (Rlt_dec 0 0); [lra|reflexivity]. Qed.
Ltac retn H := lazymatch goal with |- returns ?T ?s ?f =>
  let i := fresh "i" in let Hi := fresh "Hi" in
  eapply (tb_returns T s f); [intros i; eapply tb_eq; [tb_args H i; tbn|intros Hi; cbv beta]|exact H|ret_in] end.
Lemma log_0 : nopp (nlog (Fin 0)) = PInf.
Proof. simpl. destruct (Rlt_dec 0 0); [lra|reflexivity]. Qed.
Lemma tb_sub T s i x L L' : tb T s i x L -> (forall t, In t L' -> In t L) -> tb T s i x L'.
Proof. intros (a & -> & H1 & H2 & H3) HL. exists a. repeat split; auto. intros j t Ht. apply H3, HL, Ht. Qed.
Lemma exponential2_value obs location scale s y m c :
  params s [(obs, fins y); (location, fins m); (scale, fins c)]%list -> dt obs = DFloat -> sh obs = s ->
  returns (logs_exponential2 obs location scale) s (fun i => if nltb (Fin (y i - m i)) (Fin 0) then PInf
    else nopp (nlog (Fin 1 ./ Fin (c i) .* nexp (nopp (Fin 1 ./ Fin (c i)) .* Fin (y i - m i))))).
Proof.
  intros P Hd Hs. destruct (exponential2_after _ _ _ _ _ _ _ P Hd Hs) as (o & _ & O1 & O2 & O3 & E). unfold logs_exponential2. rewrite E. cbv zeta.
  apply tb_returns_full. intros i. assert (tb (Ok o) s i (Fin (y i - m i)) (s :: nil)) as To by (apply L_bcast.tb_full; auto).
  pose proof (params_tb s _ scale (fins c) i P ltac:(simpl; tauto)) as Tc.
  eapply tb_sub; [eapply tb_eq; [tbs|]|].
  - intros Hi. unfold fins. change (nofnat 1) with (Fin 1). destruct (Rlt_dec (y i - m i) 0); nev; reflexivity.
  - intros t [<-|[]]. repeat (apply in_or_app; first [now left; left | right]). 
Qed.
Ltac pd := repeat match goal with |- 0 < _ / _ => apply Rdiv_lt_0_compat | |- 0 < _ * _ => apply Rmult_lt_0_compat | |- 0 < exp _ => apply exp_pos
  | |- 0 < phi _ => apply phi_pos | |- 0 < Rpower _ _ => apply exp_pos end; try lra.
Ltac lp := apply logp_pos; [try sd|].
