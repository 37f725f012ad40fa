(** ModelParts.v -- compiled interactions, entropies, ensembles, constraints.

    The finder's kernel only uses these objects through a small interface.
    Each interface is a record of functions, so that kernel theorems can
    quantify over every user-supplied implementation; the built-in compiled
    classes are instances.  Arrays written in place ("Output"/"Mutable"
    arguments) are passed in and returned. *)

From Coq Require Import Reals List Bool Arith ZArith.
From Verif Require Import Base.
Import ListNotations.
Open Scope R_scope.

(** flory/interaction/base.py:14-95 [InteractionBaseCompiled].
    [incomp_coef] may depend on the compartment (base.py:76-95). *)
Record interaction := {
  i_feat : nat;                                (* num_feat *)
  i_potential : mat -> mat;                    (* potential(phis_feat) *)
  i_coef : mat -> vec;                         (* incomp_coef(phis_feat) *)
  i_vd : mat -> mat -> vec                     (* volume_derivative(potential, phis_feat) *)
}.

(** flory/entropy/base.py:11-114 [EntropyBaseCompiled]; [num_part] is the
    length of [Js].  [partition] writes [phis_comp] and returns [Qs]. *)
Record entropy := {
  s_comp : nat;                                (* num_comp *)
  s_feat : nat;                                (* num_feat *)
  s_partition : nat -> mat -> mat -> vec -> res (mat * vec);
                                   (* num_part, phis_comp, omegas, Js *)
  s_comp_to_feat : mat -> mat -> mat;          (* phis_feat, phis_comp *)
  s_vd : mat -> vec                            (* volume_derivative(phis_comp) *)
}.

(** flory/ensemble/base.py:11-57 [EnsembleBaseCompiled]; [normalize] writes
    [phis_comp] and returns the incompressibility. *)
Record ensemble := {
  n_comp : nat;                                (* num_comp *)
  n_normalize : mat -> vec -> vec -> res (mat * vec)  (* phis_comp, Qs, masks *)
}.

(** flory/constraint/base.py:11-100 [ConstraintBaseCompiled]: a stateful object.
    [St] is the type of its internal state. *)
Record cons_class (St : Type) := {
  k_feat : nat;                                (* num_feat *)
  k_init : nat -> St -> St;                    (* initialize(num_part) *)
  k_prepare : nat -> mat -> vec -> vec -> St -> St;
                                               (* prepare(phis_feat, Js, masks) *)
  k_potential : St -> mat;                     (* property potential *)
  k_vd : St -> vec;                            (* property volume_derivative *)
  k_evolve : nat -> R -> vec -> St -> St * R   (* evolve(step, masks) *)
}.
Arguments k_feat {St}. Arguments k_init {St}. Arguments k_prepare {St}.
Arguments k_potential {St}. Arguments k_vd {St}. Arguments k_evolve {St}.

(** A compiled constraint object: its class and its current state. *)
Record cons_obj (St : Type) := { o_class : cons_class St; o_state : St }.
Arguments o_class {St}. Arguments o_state {St}.

(* ------------------------------------------------------------------ *)
(** * Interaction *)

(** numpy [chis.sum()] and [chis.min()] of an [n x n] matrix. *)
Definition mat_sum (n : nat) (A : mat) : R := rsum n (fun r => rsum n (fun s => A r s)).
Definition mat_min (n : nat) (A : mat) : R := vmin n (fun r => vmin n (fun s => A r s)).

(** flory/interaction/flory_huggins.py:25-71 [FloryHugginsInteractionCompiled].
    Simplification: [np.zeros_like(...)]+accumulation is one sum. *)
Definition fh_compiled (nf : nat) (chis : mat) (chis_shift : R) : interaction := {|
  i_feat := nf;
  (* line 67-68 *)
  i_potential := fun phis r m => rsum nf (fun s => chis r s * phis s m);
  (* line 50, 70-71 *)
  i_coef := fun _ _ => mat_sum nf chis + chis_shift * INR nf * INR nf;
  (* lines 56-65 *)
  i_vd := fun pot phis m => rsum nf (fun r => pot r m * phis r m) * (1/2)
|}.

(** flory/interaction/flory_huggins.py:377-380 (and 134-136): the compiled
    instance of a Flory-Huggins interaction. *)
Definition fh_compile (nf : nat) (chis : mat) (additional_chis_shift : R) : interaction :=
  fh_compiled nf chis (- mat_min nf chis + additional_chis_shift).

(* ------------------------------------------------------------------ *)
(** * Entropy *)

(** Boltzmann factor [np.exp(-omega * size)]. *)
Definition boltzmann (omega size : R) : R := exp (- omega * size).

(** [row i of A := v] *)
Definition upd_row (A : mat) (i : nat) (v : vec) : mat := upd A i v.

(** flory/entropy/ideal_gas.py:78-82 and
    flory/entropy/ideal_gas_polydispersed.py:93-97:
    [ans -= phis_comp[i] / sizes[i]] for every component. *)
Definition ig_vd (nc : nat) (sizes : vec) (phis_comp : mat) : vec :=
  fun m => for_ nc (fun i ans => ans - phis_comp i m / sizes i) 0.

(** flory/entropy/ideal_gas.py:62-71 [partition].  The scalar division by
    [total_Js] raises ZeroDivisionError (numba's default error model); the
    model raises before the loop, which is equivalent for [num_comp >= 1]. *)
Definition ig_partition (nc : nat) (sizes : vec)
    (np : nat) (phis_comp omegas : mat) (Js : vec) : res (mat * vec) :=
  let total := rsum np Js in
  if Reqb total 0 then Err ZeroDivisionError else
  Ok (for_ nc (fun i '(phis, Qs) =>
         let row := fun m => boltzmann (omegas i m) (sizes i) in
         (upd_row phis i row, upd Qs i (rsum np (fun m => row m * Js m) / total)))
       (phis_comp, fun _ => 0)).

(** flory/entropy/ideal_gas.py:25-82 [IdealGasEntropyCompiled]. *)
Definition ig_compiled (nc : nat) (sizes : vec) : entropy := {|
  s_comp := nc;
  s_feat := nc;
  s_partition := ig_partition nc sizes;
  (* lines 73-76 *)
  s_comp_to_feat := fun phis_feat phis_comp =>
    for_ nc (fun r f => upd_row f r (phis_comp r)) phis_feat;
  s_vd := ig_vd nc sizes
|}.

(** flory/entropy/ideal_gas_polydispersed.py:69-82 [partition]: two nested
    loops sharing the running component index. *)
Definition pg_partition (nf : nat) (npf : nat -> nat) (sizes : vec)
    (np : nat) (phis_comp omegas : mat) (Js : vec) : res (mat * vec) :=
  let total := rsum np Js in
  if Reqb total 0 then Err ZeroDivisionError else
  let '(_, phis, Qs) :=
    for_ nf (fun r st =>
       for_ (npf r) (fun _ '(i, phis, Qs) =>
          let row := fun m => boltzmann (omegas r m) (sizes i) in
          (S i, upd_row phis i row, upd Qs i (rsum np (fun m => row m * Js m) / total))) st)
      (O, phis_comp, fun _ => 0) in
  Ok (phis, Qs).

(** flory/entropy/ideal_gas_polydispersed.py:84-91 [comp_to_feat]: the first
    component of a feature is copied unconditionally, the others are added. *)
Definition pg_comp_to_feat (nf : nat) (npf : nat -> nat) (phis_feat phis_comp : mat) : mat :=
  snd (for_ nf (fun r '(i, f) =>
         for_ (npf r - 1) (fun _ '(i, f) =>
             (S i, upd_row f r (fun m => f r m + phis_comp i m)))
           (S i, upd_row f r (phis_comp i)))
       (O, phis_feat)).

(** flory/entropy/ideal_gas_polydispersed.py:27-97. [nc] is [sizes.shape[0]]. *)
Definition pg_compiled (nc nf : nat) (npf : nat -> nat) (sizes : vec) : entropy := {|
  s_comp := nc;
  s_feat := nf;
  s_partition := pg_partition nf npf sizes;
  s_comp_to_feat := pg_comp_to_feat nf npf;
  s_vd := ig_vd nc sizes
|}.

(* ------------------------------------------------------------------ *)
(** * Ensemble *)

(** flory/ensemble/canonical.py:54-63 [normalize].  [phi_means[i]/Qs[i]] is
    a scalar division: ZeroDivisionError when [Qs[i] == 0].  Simplification:
    the exception is raised before the loop instead of at the first bad
    component (the array written in place is then no longer of interest). *)
Definition can_normalize (nc : nat) (phi_means : vec)
    (phis_comp : mat) (Qs masks : vec) : res (mat * vec) :=
  if negb (Nat.eqb (ncount nc (fun i => Reqb (Qs i) 0)) 0) then Err ZeroDivisionError else
  let '(phis, incomp) :=
    for_ nc (fun i '(phis, incomp) =>
       let factor := phi_means i / Qs i in
       let row := fun m => factor * phis i m * masks m in
       (upd_row phis i row, fun m => incomp m + row m))
      (phis_comp, fun _ => -1) in
  Ok (phis, fun m => incomp m * masks m).

(** flory/ensemble/canonical.py:23-63. *)
Definition can_compiled (nc : nat) (phi_means : vec) : ensemble :=
  {| n_comp := nc; n_normalize := can_normalize nc phi_means |}.

(** flory/ensemble/grandcanonical.py:54-64 [normalize]. *)
Definition gc_normalize (nc : nat) (scaled_activity : vec)
    (phis_comp : mat) (Qs masks : vec) : res (mat * vec) :=
  let '(phis, incomp) :=
    for_ nc (fun i '(phis, incomp) =>
       let row := fun m => scaled_activity i * phis i m * masks m in
       (upd_row phis i row, fun m => incomp m + row m))
      (phis_comp, fun _ => -1) in
  Ok (phis, fun m => incomp m * masks m).

(** flory/ensemble/grandcanonical.py:23-64. *)
Definition gc_compiled (nc : nat) (scaled_activity : vec) : ensemble :=
  {| n_comp := nc; n_normalize := gc_normalize nc scaled_activity |}.

(** flory/ensemble/grandcanonical.py:126-128 [from_chemical_potential]. *)
Definition gc_activity_from_mu (mus sizes : vec) : vec :=
  fun i => sizes i * exp (sizes i * mus i).

(* ------------------------------------------------------------------ *)
(** * Constraints *)

(** Internal state shared by the built-in constraints.  The global constraint
    stores one multiplier and one residue per constraint; it uses column 0. *)
Record cstate := {
  c_mult : mat;        (* _multiplier *)
  c_res : mat;         (* _residue *)
  c_pot : mat;         (* _potential *)
  c_vold : vec         (* _volume_derivative *)
}.

Definition cstate0 : cstate :=
  {| c_mult := fun _ _ => 0; c_res := fun _ _ => 0; c_pot := fun _ _ => 0; c_vold := fun _ => 0 |}.

(** Parameters of a linear constraint (Cs, Ts, acceptance ratio, elasticity). *)
Record lin_par := {
  l_cons : nat;  l_feat : nat;
  l_Cs : mat;  l_Ts : vec;
  l_ratio : R;  l_elast : R
}.

(** [self._Cs @ phis_feat] minus the targets: entry (a, m).
    linear_local.py:103-105, linear_global.py:104-106. *)
Definition lin_residue (p : lin_par) (phis_feat : mat) : mat :=
  fun a m => rsum (l_feat p) (fun r => l_Cs p a r * phis_feat r m) - l_Ts p a.

(** flory/constraint/linear_local.py:102-117 [prepare]. *)
Definition local_prepare (p : lin_par) (np : nat) (phis_feat : mat) (Js masks : vec)
    (c : cstate) : cstate :=
  let residue := lin_residue p phis_feat in
  let potential := fun r m =>
    rsum (l_cons p) (fun a => l_Cs p a r * (c_mult c a m + 2 * l_elast p * residue a m)) in
  let vd := fun m =>
    rsum (l_cons p) (fun a => residue a m * (c_mult c a m + residue a m * l_elast p)) in
  {| c_mult := c_mult c;
     c_res := fun a m => residue a m * masks m;
     c_pot := fun r m => potential r m * masks m;
     c_vold := fun m => vd m * masks m |}.

(** flory/constraint/linear_local.py:119-122 [evolve]. *)
Definition local_evolve (p : lin_par) (np : nat) (step : R) (masks : vec) (c : cstate)
    : cstate * R :=
  ({| c_mult := fun a m => (c_mult c a m + step * l_ratio p * c_res c a m) * masks m;
      c_res := c_res c; c_pot := c_pot c; c_vold := c_vold c |},
   vmax (l_cons p) (fun a => vmax np (fun m => Rabs (c_res c a m)))).

(** flory/constraint/linear_local.py:31-122; [initialize] is lines 99-100. *)
Definition local_class (p : lin_par) : cons_class cstate := {|
  k_feat := l_feat p;
  k_init := fun _ c => {| c_mult := fun _ _ => 0; c_res := c_res c;
                          c_pot := c_pot c; c_vold := c_vold c |};
  k_prepare := local_prepare p;
  k_potential := c_pot;
  k_vd := c_vold;
  k_evolve := local_evolve p
|}.

(** flory/constraint/linear_global.py:103-124 [prepare].  The final array
    division [residue /= Js.sum()] does not raise. *)
Definition global_prepare (p : lin_par) (np : nat) (phis_feat : mat) (Js masks : vec)
    (c : cstate) : cstate :=
  let cres := lin_residue p phis_feat in
  let residue := fun a => rsum np (fun m => cres a m * Js m) in
  let potential := fun r =>
    rsum (l_cons p) (fun a => l_Cs p a r * (c_mult c a 0%nat + 2 * l_elast p * residue a)) in
  let vd := fun m =>
    rsum (l_cons p) (fun a => cres a m * (c_mult c a 0%nat + 2 * residue a * l_elast p)) in
  {| c_mult := c_mult c;
     c_res := fun a _ => residue a / rsum np Js;
     c_pot := fun r m => potential r * masks m;
     c_vold := fun m => vd m * masks m |}.

(** flory/constraint/linear_global.py:126-128 [evolve]. *)
Definition global_evolve (p : lin_par) (np : nat) (step : R) (masks : vec) (c : cstate)
    : cstate * R :=
  ({| c_mult := fun a m => c_mult c a m + step * l_ratio p * c_res c a m;
      c_res := c_res c; c_pot := c_pot c; c_vold := c_vold c |},
   vmax (l_cons p) (fun a => Rabs (c_res c a 0%nat))).

(** flory/constraint/linear_global.py:31-128; [initialize] is lines 100-101. *)
Definition global_class (p : lin_par) : cons_class cstate := {|
  k_feat := l_feat p;
  k_init := fun _ c => {| c_mult := fun _ _ => 0; c_res := c_res c;
                          c_pot := c_pot c; c_vold := c_vold c |};
  k_prepare := global_prepare p;
  k_potential := c_pot;
  k_vd := c_vold;
  k_evolve := global_evolve p
|}.

(** flory/constraint/no.py:22-58 [NoConstraintCompiled]. *)
Definition no_class (nf : nat) : cons_class cstate := {|
  k_feat := nf;
  k_init := fun _ c => {| c_mult := c_mult c; c_res := c_res c;
                          c_pot := fun _ _ => 0; c_vold := fun _ => 0 |};
  k_prepare := fun _ _ _ _ c => c;
  k_potential := c_pot;
  k_vd := c_vold;
  k_evolve := fun _ _ _ c => (c, 0)
|}.

(** Freshly compiled constraint object (all arrays zero; linear_local.py:76-85,
    linear_global.py:76-86, no.py:26-34). *)
Definition new_cons (k : cons_class cstate) : cons_obj cstate :=
  {| o_class := k; o_state := cstate0 |}.
