(** Missing values (NaN) among the arguments of a score; independent of the model of the scores. *)
From Verif Require Export S_base.
Open Scope R_scope.

(** The call succeeds with shape s; [l] are the entries of the arguments used at each position.
    Wherever one of them is NaN, the returned number satisfies [Q]. *)
Definition nan_gives (Q : num -> Prop) (T : tensor) (s : list nat) (l : list (list nat -> num)) : Prop :=
  exists f, returns T s f /\ forall i, inb s i -> Exists (fun g => g i = NaN) l -> Q (f i).
Definition nan_propagates : tensor -> list nat -> list (list nat -> num) -> Prop := nan_gives (fun v => v = NaN).
(** never a finite number *)
Definition nan_not_finite : tensor -> list nat -> list (list nat -> num) -> Prop := nan_gives (fun v => v = NaN \/ v = PInf).
(** Where the observation [y i] is [w], the score is [v]. *)
Definition obs_gives (w v : num) (T : tensor) (s : list nat) (y : list nat -> num) : Prop :=
  exists f, returns T s f /\ forall i, inb s i -> y i = w -> f i = v.
Definition infinite_gives_infinity (T : tensor) (s : list nat) (y : list nat -> num) : Prop :=
  exists f, returns T s f /\ forall i, inb s i -> y i = PInf \/ y i = NInf -> f i = PInf.
