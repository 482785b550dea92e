(** Vocabulary for scores of parametric distributions: several array arguments that broadcast
    against each other. *)
From Verif Require Export S_crps.
Open Scope R_scope.

(** numpy's common shape of several shapes *)
Fixpoint common_shape (l : list (list nat)) : option (list nat) :=
  match l with
  | [] => Some []
  | s :: l' => match common_shape l' with Some t => bshape s t | None => None end
  end.
(** [params s [(a, f); ...]]: the arrays a, ... have the common shape s, and the entry of a that is
    used at the index i of the result is f i *)
Definition params (s : list nat) (l : list (arr * (list nat -> num))) : Prop :=
  common_shape (map (fun p => sh (fst p)) l) = Some s /\
  List.Forall (fun p => forall i, inb s i -> at_ (fst p) (bidx (sh (fst p)) i) = snd p i) l.
(** finite values *)
Definition fins (f : list nat -> R) (i : list nat) : num := Fin (f i).
(** exactly one of two optional arguments is given *)
Definition one_of {A} (a b : option A) : Prop := (a = None /\ b <> None) \/ (a <> None /\ b = None).
(** arrays whose shapes broadcast against each other *)
Definition broadcast (l : list arr) : Prop := exists s, common_shape (map sh l) = Some s.
(** a + c x; infinities and NaN stay *)
Definition aff (a c : R) (x : num) : num := match x with Fin r => Fin (a + c * r) | _ => x end.
Definition scal (c : R) : num -> num := aff 0 c.
(** shapes of results that the library converts to a float when there is only one entry *)
Definition float_shape (s : list nat) : list nat := if (fold_right Nat.mul 1 s =? 1)%nat then [] else s.
