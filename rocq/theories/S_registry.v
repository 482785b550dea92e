(** What the backend registry should do, stated without its data structures. *)
From Verif Require Export M_registry.
Open Scope string_scope.

(** the four supported backends and their classes *)
Inductive backend_class : string -> string -> Prop :=
| bc_jax : backend_class "jax" "JaxBackend"
| bc_numpy : backend_class "numpy" "NumpyBackend"
| bc_torch : backend_class "torch" "TorchBackend"
| bc_numba : backend_class "numba" "NumbaBackend".
Definition supported (b : string) : Prop := exists c, backend_class b c.
(** supported and installed *)
Definition usable (m : machine) (b : string) : Prop := supported b /\ found m b = true.

(** the library can be imported: numpy is there, and an imported numba can also be found *)
Definition importable (m : machine) : Prop :=
  found m "numpy" = true /\ (numba_imported m = true -> found m "numba" = true).
(** [reached m h r]: r is the registry after importing the library and making the calls h *)
Definition reached (m : machine) (h : list call) (r : registry) : Prop :=
  exists r0, init m = (Ok tt, r0) /\ r = after m h r0.

(** the last name given to set_active, if any *)
Fixpoint last_set (h : list call) (default : string) : string :=
  match h with
  | [] => default
  | SetActive b :: h' => last_set h' b
  | _ :: h' => last_set h' default
  end.
Definition default_backend (m : machine) : string := if numba_imported m then "numba" else "numpy".
