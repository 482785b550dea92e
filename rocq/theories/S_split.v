(** Ranges of thresholds that contain each other. *)
From Coq Require Import Reals.
From Verif Require Import Num S_tw.
Open Scope R_scope.

(** a' <= a <= b <= b' *)
Definition inside (a b a' b' : num) : Prop := thresholds a b /\ thresholds a' b' /\
  (a' = NInf \/ exists u v, a' = Fin u /\ a = Fin v /\ u <= v) /\ (b' = PInf \/ exists u v, b = Fin u /\ b' = Fin v /\ u <= v).
