(** Property C45: the registry of backends.  [m] is any machine (which libraries are found, whether
    numba was imported) and [h] any history of calls made by users of the library, including calls
    that raise. *)
From Verif Require Import T_registry.
Open Scope string_scope.

(** importing the library succeeds exactly when numpy is found (and numba, if it was imported) *)
Theorem C45_import :
forall m : machine, (exists r, init m = (Ok tt, r)) <-> importable m.
Proof. exact C45_import_l. Qed.
Print Assumptions C45_import.
Example C45_import_ex : (exists r, init (mkMachine (fun b => String.eqb b "numpy") false) = (Ok tt, r)) /\
  ~ exists r, init (mkMachine (fun b => String.eqb b "jax") false) = (Ok tt, r).
Proof. split; [eexists; reflexivity|]. intros (r & H). discriminate H. Qed.

(** whatever was called before, asking for numpy returns a NumpyBackend and changes nothing *)
Theorem C45_numpy_registered :
forall (m : machine) (h : list call) (r : registry), reached m h r ->
  exists i, cls i = "NumpyBackend" /\ getitem m "numpy" r = (Ok i, r).
Proof. exact C45_numpy_registered_l. Qed.
Print Assumptions C45_numpy_registered.
Example C45_numpy_registered_ex : let m := mkMachine (fun b => String.eqb b "numpy" || String.eqb b "torch") false in
  exists r, reached m [Get "torch"; SetActive "cupy"; Active; Register "jax"] r /\ List.length (entries r) = 2%nat.
Proof. cbv zeta. eexists. split; [eexists; split; reflexivity|]. reflexivity. Qed.

(** a registered backend is supported, its library is installed, its instance has the right class,
    and instances are not shared between names *)
Theorem C45_registered_usable :
forall (m : machine) (h : list call) (r : registry), reached m h r ->
  (forall b i, lookup b (entries r) = Some i -> usable m b /\ backend_class b (cls i)) /\
  (forall b b' i i', lookup b (entries r) = Some i -> lookup b' (entries r) = Some i' -> ident i = ident i' -> b = b').
Proof. exact C45_registered_usable_l. Qed.
Print Assumptions C45_registered_usable.
Example C45_registered_usable_ex : let m := mkMachine (fun b => String.eqb b "numpy" || String.eqb b "torch") false in
  exists r, reached m [Get "torch"; Register "numpy"] r /\ lookup "torch" (entries r) = Some (mkInst 1 "TorchBackend") /\
    lookup "numpy" (entries r) = Some (mkInst 2 "NumpyBackend").
Proof. cbv zeta. eexists. split; [eexists; split; reflexivity|]. split; reflexivity. Qed.

(** [backends[b]] returns an instance of the class of b, registering it if necessary, when the
    library is installed; otherwise it raises BackendNotAvailable and leaves the registry as it is *)
Theorem C45_get :
forall (m : machine) (h : list call) (r : registry) (b : string), reached m h r ->
  (usable m b -> exists i r', getitem m b r = (Ok i, r') /\ backend_class b (cls i) /\
     lookup b (entries r') = Some i /\ _active r' = _active r /\
     forall b', b' <> b -> lookup b' (entries r') = lookup b' (entries r)) /\
  (~ usable m b -> getitem m b r = (Err BackendNotAvailable, r)).
Proof. exact C45_get_l. Qed.
Print Assumptions C45_get.
Example C45_get_ex : let m := mkMachine (fun b => String.eqb b "numpy" || String.eqb b "torch") false in
  exists r, reached m [] r /\ usable m "torch" /\ ~ usable m "jax" /\ ~ usable m "cupy".
Proof.
  cbv zeta. eexists. split; [eexists; split; reflexivity|]. split; [split; [eexists; constructor|reflexivity]|].
  split; intros [(c & C) F]; [discriminate F|inversion C].
Qed.

(** two requests for the same backend return the same instance, whatever is called in between,
    as long as that backend is not registered again *)
Theorem C45_get_stable :
forall (m : machine) (h h' : list call) (r r' : registry) (b : string) (i : instance),
  reached m h r -> getitem m b r = (Ok i, r') -> ~ In (Register b) h' ->
  getitem m b (after m h' r') = (Ok i, after m h' r').
Proof. exact C45_get_stable_l. Qed.
Print Assumptions C45_get_stable.
Example C45_get_stable_ex : let m := mkMachine (fun b => String.eqb b "numpy" || String.eqb b "torch") false in
  exists r r' i, reached m [] r /\ getitem m "torch" r = (Ok i, r') /\ ~ In (Register "torch") [Register "numpy"; Get "jax"].
Proof.
  cbv zeta. do 3 eexists. split; [eexists; split; reflexivity|]. split; [reflexivity|]. simpl. intros [X|[X|[]]]; discriminate X.
Qed.

(** registering a backend again replaces its instance: references obtained before are not the
    registered one any more *)
Theorem C45_register_again_refuted :
exists (m : machine) (h : list call) (r r' : registry) (i i' : instance),
  reached m h r /\ getitem m "numpy" r = (Ok i, r) /\ r' = after m [Register "numpy"] r /\
  getitem m "numpy" r' = (Ok i', r') /\ ident i <> ident i'.
Proof. exact C45_register_again_refuted_l. Qed.
Print Assumptions C45_register_again_refuted.

(** the active backend is the last one given to set_active, by default numba if it was imported
    and numpy otherwise; [backend=None] in a score means the active backend *)
Theorem C45_active :
forall (m : machine) (h : list call) (r : registry), reached m h r ->
  _active r = last_set h (default_backend m) /\
  score_backend m None r = getitem m (last_set h (default_backend m)) r /\
  active m r = getitem m (last_set h (default_backend m)) r.
Proof. exact C45_active_l. Qed.
Print Assumptions C45_active.
Example C45_active_ex : last_set [SetActive "torch"; Get "numpy"; SetActive "jax"; Active] "numba" = "jax" /\
  last_set [Get "torch"; Score None] "numba" = "numba".
Proof. split; reflexivity. Qed.

(** if every name given to set_active is installed, every score called without backend finds one *)
Theorem C45_active_usable :
forall (m : machine) (h : list call) (r : registry), reached m h r ->
  (forall b, In (SetActive b) h -> usable m b) ->
  exists b i r', score_backend m None r = (Ok i, r') /\ usable m b /\ backend_class b (cls i).
Proof. exact C45_active_usable_l. Qed.
Print Assumptions C45_active_usable.
Example C45_active_usable_ex : let m := mkMachine (fun b => String.eqb b "numpy" || String.eqb b "torch") false in
  exists r, reached m [SetActive "torch"] r /\ usable m "torch" /\ fst (score_backend m None r) = Ok (mkInst 1 "TorchBackend").
Proof. cbv zeta. eexists. split; [eexists; split; reflexivity|]. split; [split; [eexists; constructor|reflexivity]|]. reflexivity. Qed.

(** set_active accepts any name: afterwards every score called without backend raises
    BackendNotAvailable, until set_active is called again *)
Theorem C45_set_active_unchecked_refuted :
exists (m : machine) (b : string), ~ usable m b /\ importable m /\ forall h r,
  reached m h r -> fst (set_active b r) = Ok tt /\
  forall h', (forall b', ~ In (SetActive b') h') ->
  score_backend m None (after m h' (snd (set_active b r))) = (Err BackendNotAvailable, after m h' (snd (set_active b r))).
Proof. exact C45_set_active_unchecked_refuted_l. Qed.
Print Assumptions C45_set_active_unchecked_refuted.

(** register_backend raises BackendNotAvailable exactly for backends that are not installed *)
Theorem C45_register :
forall (m : machine) (r : registry) (b : string),
  (usable m b -> exists r' i, register_backend m b r = (Ok tt, r') /\ lookup b (entries r') = Some i /\ backend_class b (cls i) /\
     forall b', b' <> b -> lookup b' (entries r') = lookup b' (entries r)) /\
  (~ usable m b -> register_backend m b r = (Err BackendNotAvailable, r)).
Proof. exact C45_register_l. Qed.
Print Assumptions C45_register.
Example C45_register_ex : let m := mkMachine (fun b => String.eqb b "numpy" || String.eqb b "torch") false in
  usable m "torch" /\ ~ usable m "numba".
Proof. cbv zeta. split; [split; [eexists; constructor|reflexivity]|]. intros [_ F]. discriminate F. Qed.
