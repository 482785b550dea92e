(** Evaluating expressions on finite values: goals [e = Fin ?r]. *)
From Verif Require Export L_sort.
Open Scope R_scope.

Lemma fv_refl r : Fin r = Fin r. Proof. reflexivity. Qed.
Lemma fv_nat n : nofnat n = Fin (INR n). Proof. reflexivity. Qed.
Lemma fv_add a b r q : a = Fin r -> b = Fin q -> nadd a b = Fin (r + q).
Proof. intros -> ->; reflexivity. Qed.
Lemma fv_sub a b r q : a = Fin r -> b = Fin q -> nsub a b = Fin (r - q).
Proof. intros -> ->; reflexivity. Qed.
Lemma fv_mul a b r q : a = Fin r -> b = Fin q -> nmul a b = Fin (r * q).
Proof. intros -> ->; reflexivity. Qed.
Lemma fv_div a b r q : a = Fin r -> b = Fin q -> q <> 0 -> ndiv a b = Fin (r / q).
Proof. intros -> -> H; now apply ndiv_Fin. Qed.
Lemma fv_abs a r : a = Fin r -> nabs a = Fin (Rabs r). Proof. intros ->; reflexivity. Qed.
Lemma fv_opp a r : a = Fin r -> nopp a = Fin (- r). Proof. intros ->; reflexivity. Qed.
Lemma fv_sq a r : a = Fin r -> nsq a = Fin (r * r). Proof. intros ->; reflexivity. Qed.
Lemma fv_le a b r q : a = Fin r -> b = Fin q -> b2n (nleb a b) = Fin (ind_le r q).
Proof. intros -> ->; apply b2n_le. Qed.
Lemma fv_lt a b r q : a = Fin r -> b = Fin q -> b2n (nltb a b) = Fin (ind_lt r q).
Proof. intros -> ->; apply b2n_lt. Qed.
Lemma fv_max a b r q : a = Fin r -> b = Fin q -> nmax a b = Fin (Rmax r q).
Proof. intros -> ->; apply nmax_Fin. Qed.
Lemma fv_min a b r q : a = Fin r -> b = Fin q -> nmin a b = Fin (Rmin r q).
Proof. intros -> ->; apply nmin_Fin. Qed.
Lemma fv_exp a r : a = Fin r -> nexp a = Fin (exp r). Proof. intros ->; reflexivity. Qed.
Lemma fv_eq a r q : a = Fin r -> r = q -> a = Fin q. Proof. congruence. Qed.
Lemma Fin_inj a b : Fin a = Fin b -> a = b. Proof. congruence. Qed.

(** proves [e = Fin ?r]; side conditions of divisions remain *)
Ltac finv :=
  lazymatch goal with
  | |- nadd _ _ = _ => eapply fv_add; finv
  | |- nsub _ _ = _ => eapply fv_sub; finv
  | |- nmul _ _ = _ => eapply fv_mul; finv
  | |- ndiv _ _ = _ => eapply fv_div; [finv|finv|]
  | |- nabs _ = _ => eapply fv_abs; finv
  | |- nopp _ = _ => eapply fv_opp; finv
  | |- nsq _ = _ => eapply fv_sq; finv
  | |- b2n (nleb _ _) = _ => eapply fv_le; finv
  | |- b2n (nltb _ _) = _ => eapply fv_lt; finv
  | |- nmax _ _ = _ => eapply fv_max; finv
  | |- nmin _ _ = _ => eapply fv_min; finv
  | |- nexp _ = _ => eapply fv_exp; finv
  | |- nofnat _ = _ => apply fv_nat
  | |- Fin _ = _ => apply fv_refl
  | |- nsumn _ _ = _ => eapply nsumn_Fin; let k := fresh "k" in let Hk := fresh "Hk" in intros k Hk; finv
  | |- upper _ _ _ = _ => eapply upper_Fin; let k := fresh "k" in let Hk := fresh "Hk" in intros k Hk; finv
  | H : forall k, (k < ?n)%nat -> ?f k = Fin (@?g k) |- ?f _ = _ => first [eapply H; lia | eapply H]
  | H : forall k, ?f k = Fin (@?g k) |- ?f _ = _ => eapply H
  | H : ?a = Fin _ |- ?a = Fin _ => exact H
  | _ => idtac
  end.
(** reduces [e = Fin v] to [r = v] for the computed [r] *)
Ltac fin := eapply fv_eq; [finv|].
