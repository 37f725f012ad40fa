(** ModelFlory.v -- the class [FloryHuggins], flory/free_energy/flory_huggins.py,
    and [independent_entries] of the interaction.  The object refers to an
    interaction and an entropy object; their arrays live in the store of
    ModelObjects.v, the thermodynamic methods of FreeEnergyBase are those of
    ModelFreeEnergy.v applied to the current arrays. *)

From Coq Require Import Reals List Bool Arith ZArith.
From Verif Require Import Base ModelCommon ModelParts ModelKernel ModelObjects ModelFreeEnergy.
Import ListNotations.
Open Scope R_scope.

(** flory/entropy/ideal_gas.py:102-123 [IdealGasEntropyBase.__init__]; [None]
    stands for an omitted [sizes] argument: [np.ones(num_comp)]. *)
Definition ig_new (s : store) (nc : nat) (sizes : option (dtype * nd)) : res (store * igo) :=
  match sizes with
  | None =>
      let '(s', c) := alloc s (floats (fun _ _ => 1)) in
      Ok (s', {| go_nc := nc; go_npf := None; go_sizes := c |})
  | Some (t, a) =>
      let* b := convert_and_broadcast a [nc] in
      let '(s', c) := alloc s (vec_cell t true b) in
      Ok (s', {| go_nc := nc; go_npf := None; go_sizes := c |})
  end.

(** flory/interaction/flory_huggins.py:235-239 [independent_entries] *)
Definition independent_entries (s : store) (o : fho) : list R :=
  map (fun '(i, j) => z_at (st_cell s (fo_chis o)) i j) (triu (fo_nc o) 0).

(** [interaction], [entropy], [num_comp] of FreeEnergyBase *)
Record fhe := { he_nc : nat; he_int : fho; he_ent : igo }.

(** free_energy/base.py:27-47 [FreeEnergyBase.__init__] *)
Definition energy_new (i : fho) (e : igo) : res fhe :=
  if Nat.eqb (fo_nc i) (go_nc e) then Ok {| he_nc := fo_nc i; he_int := i; he_ent := e |}
  else Err ComponentNumberError.

(** free_energy/flory_huggins.py:35-52 [__init__] *)
Definition flory_new (s : store) (nc : nat) (chis : nd) (sizes : option (dtype * nd)) : res (store * fhe) :=
  let* (s1, i) := fh_new s nc chis in
  let* (s2, e) := ig_new s1 nc sizes in
  let* o := energy_new i e in
  Ok (s2, o).

(** lines 54-61: [chis] is the matrix of the interaction *)
Definition flory_chis (s : store) (o : fhe) : mat := z_at (st_cell s (fo_chis (he_int o))).
Definition flory_set_chis (s : store) (o : fhe) (a : nd) : res (store * fhe) :=
  let* (s', i) := fh_set_chis s (he_int o) a in
  Ok (s', {| he_nc := he_nc o; he_int := i; he_ent := he_ent o |}).

(** lines 63-70: [sizes] is the vector of the entropy *)
Definition flory_sizes (s : store) (o : fhe) : vec := z_at (st_cell s (go_sizes (he_ent o))) 0%nat.
Definition flory_set_sizes (s : store) (o : fhe) (t : dtype) (a : nd) : res (store * fhe) :=
  let* (s', e) := ig_set_sizes s (he_ent o) t a in
  Ok (s', {| he_nc := he_nc o; he_int := he_int o; he_ent := e |}).

(** [fe.interaction.set_uniform_chis(...)] *)
Definition flory_set_uniform (s : store) (o : fhe) (t : dtype) (chi : R) (vanishing : bool) : store * fhe :=
  let '(s', i) := fh_set_uniform s (he_int o) t chi vanishing in
  (s', {| he_nc := he_nc o; he_int := i; he_ent := he_ent o |}).

(** lines 72-88 [from_uniform] *)
Definition flory_from_uniform (s : store) (nc : nat) (t : dtype) (chi : R) (sizes : option (dtype * nd))
    (vanishing : bool) : res (store * fhe) :=
  let* (s1, o) := flory_new s nc (scalar 0) sizes in
  Ok (flory_set_uniform s1 o t chi vanishing).

(** lines 90-112 [from_random_normal] *)
Definition flory_from_random {G} (ops : rng_ops G) (s : store) (nc : nat) (mean std : R)
    (sizes : option (dtype * nd)) (vanishing : bool) (g : G) : res (store * fhe * G) :=
  let* (s1, o) := flory_new s nc (scalar 0) sizes in
  let '(s2, g', e) := fh_set_random ops s1 (he_int o) mean std vanishing g in
  match e with Some x => Err x | None => Ok (s2, o, g') end.

(** The methods of FreeEnergyBase read the attributes of the two parts at the
    time of the call. *)
Definition flory_now (s : store) (o : fhe) : fe :=
  {| fe_nc := he_nc o; fe_chis := flory_chis s o; fe_sizes := flory_sizes s o |}.
