(** The entry of the unconverted result from which entry [i] of a result converted to a float when of size one comes. *)
From Verif Require Export S_param.
Definition float_index (s i : list nat) : list nat := if (fold_right Nat.mul 1 s =? 1)%nat then map (fun _ => 0%nat) s else i.
