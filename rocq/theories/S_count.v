(** Distribution functions of counts. *)
From Verif Require Export S_disc.
Open Scope R_scope.
(** p 0 + ... + p [t] *)
Definition count_cdf (p : nat -> R) (t : R) : R := if Rlt_dec t 0 then 0 else sumn (S (Z.to_nat (Int_part t))) p.
