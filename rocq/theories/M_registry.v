(** Model of backend/registry.py: the registry of array backends and its state.  Names are
    strings; an instance of a backend class is a number (its identity) with the name of its class.
    Importing a library that importlib finds is taken to succeed.  The methods that the class
    inherits from dict ([del], [pop], [update] ...) are not modelled.  Model file: no proofs. *)
From Verif Require Export Arr.
From Coq Require Export String.
Open Scope string_scope.

(** what is on the machine: [find_spec(name) is not None], and whether [import numba] worked when
    registry.py was loaded (lines 19-24) *)
Record machine := mkMachine { found : string -> bool; numba_imported : bool }.

(** lines 12-17, _ALL_BACKENDS_MAP: the keys and the names of the classes *)
Definition _ALL_BACKENDS_MAP : list (string * string) :=
  [("jax", "JaxBackend"); ("numpy", "NumpyBackend"); ("torch", "TorchBackend"); ("numba", "NumbaBackend")].

(** an instance: identity and class *)
Record instance := mkInst { ident : nat; cls : string }.
(** the dict, [_active], and the number of instances made so far *)
Record registry := mkReg { entries : list (string * instance); _active : string; made : nat }.

Fixpoint lookup {A} (k : string) (l : list (string * A)) : option A :=
  match l with
  | [] => None
  | (k', v) :: l' => if String.eqb k k' then Some v else lookup k l'
  end.
(** [d[k] = v] *)
Fixpoint store {A} (k : string) (v : A) (l : list (string * A)) : list (string * A) :=
  match l with
  | [] => [(k, v)]
  | (k', v') :: l' => if String.eqb k k' then (k, v) :: l' else (k', v') :: store k v l'
  end.

(** lines 38-44 *)
Definition available_backends (m : machine) : list string :=
  filter (found m) (map fst _ALL_BACKENDS_MAP).
Definition mem (k : string) (l : list string) : bool := existsb (String.eqb k) l.
(** a statement: its result (or exception) and the registry afterwards *)
Definition step (A : Type) := (res A * registry)%type.
(** lines 46-54.  The name is one of the keys of the map when it is available. *)
Definition register_backend (m : machine) (b : string) (r : registry) : step unit :=
  if negb (mem b (available_backends m)) then (Err BackendNotAvailable, r)
  else match lookup b _ALL_BACKENDS_MAP with
       | None => (Err IndexError, r)   (* KeyError; cannot happen *)
       | Some c => (Ok tt, mkReg (store b (mkInst (made r) c) (entries r)) (_active r) (S (made r)))
       end.
(** lines 56-62 *)
Definition getitem (m : machine) (b : string) (r : registry) : step instance :=
  match lookup b (entries r) with
  | Some i => (Ok i, r)
  | None => let (x, r') := register_backend m b r in
            match x with
            | Err e => (Err e, r')
            | Ok _ => match lookup b (entries r') with
                      | Some i => (Ok i, r')
                      | None => (Err IndexError, r')   (* KeyError; cannot happen *)
                      end
            end
  end.
(** lines 64-65: no check of the name *)
Definition set_active (b : string) (r : registry) : step unit :=
  (Ok tt, mkReg (entries r) b (made r)).
(** lines 67-69 *)
Definition active (m : machine) (r : registry) : step instance := getitem m (_active r) r.
(** lines 30-35 *)
Definition init (m : machine) : step unit :=
  let r := mkReg [] "" 0 in
  let (x, r) := register_backend m "numpy" r in
  match x with
  | Err e => (Err e, r)
  | Ok _ =>
      let (x, r) := if numba_imported m then register_backend m "numba" r else (Ok tt, r) in
      match x with
      | Err e => (Err e, r)
      | Ok _ => (Ok tt, mkReg (entries r) (if numba_imported m then "numba" else "numpy") (made r))
      end
  end.
(** the first statement of every score: [B = backends.active if backend is None else backends[backend]] *)
Definition score_backend (m : machine) (backend : option string) (r : registry) : step instance :=
  match backend with None => active m r | Some b => getitem m b r end.

(** a call made by a user of the library; exceptions are caught by the caller *)
Inductive call := Register (b : string) | Get (b : string) | SetActive (b : string) | Active
                | Score (backend : option string).
Definition do_call (m : machine) (c : call) (r : registry) : registry :=
  match c with
  | Register b => snd (register_backend m b r)
  | Get b => snd (getitem m b r)
  | SetActive b => snd (set_active b r)
  | Active => snd (active m r)
  | Score b => snd (score_backend m b r)
  end.
Definition after (m : machine) (h : list call) (r : registry) : registry := fold_left (fun r c => do_call m c r) h r.
