(** The gamma distribution shifted to the left and censored at zero, independent of the code. *)
From Verif Require Export S_cont.
Open Scope R_scope.

(** distribution function of max(X - d, 0) for X gamma distributed with shape a and rate r *)
Definition csg0_cdf (a r d t : R) : R := if Rlt_dec t 0 then 0 else gamma_cdf a r (t + d).
