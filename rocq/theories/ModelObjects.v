(** ModelObjects.v -- the user-level parameter objects (interaction, entropy,
    ensemble, constraint) with their numpy arrays as shared, mutable cells.

    Arrays live in a store of cells; an object refers to its arrays by address,
    so that aliasing between an object and its compiled counterpart is visible.
    Vectors use row 0 of a cell. *)

From Coq Require Import String Reals List Bool Arith ZArith.
From Verif Require Import Base ModelCommon ModelParts ModelKernel.
Import ListNotations.
Open Scope R_scope.

(** numpy element types that matter: int64 and float64. *)
Inductive dtype := DInt | DFloat.

(** conversion of a float to int64 on assignment: truncation towards zero *)
Definition trunc (x : R) : R := if Rltb x 0 then - IZR (Int_part (- x)) else IZR (Int_part x).
Definition cast (t : dtype) (x : R) : R := match t with DInt => trunc x | DFloat => x end.

Record cell := { z_type : dtype; z_writeable : bool; z_at : mat }.
Record store := { st_next : nat; st_cell : nat -> cell }.

(** a new array object *)
Definition alloc (s : store) (c : cell) : store * nat :=
  ({| st_next := S (st_next s); st_cell := upd (st_cell s) (st_next s) c |}, st_next s).

Definition floats (A : mat) : cell := {| z_type := DFloat; z_writeable := true; z_at := A |}.

(** replace the entries of an array, converting to its type *)
Definition overwrite (s : store) (a : nat) (A : mat) : store :=
  let c := st_cell s a in
  {| st_next := st_next s;
     st_cell := upd (st_cell s) a
       {| z_type := z_type c; z_writeable := z_writeable c; z_at := fun i j => cast (z_type c) (A i j) |} |}.

(** [arr[i, j] = x] by the user; read-only arrays raise ValueError *)
Definition write (s : store) (a i j : nat) (x : R) : store * option exn :=
  let c := st_cell s a in
  if z_writeable c then
    ({| st_next := st_next s;
        st_cell := upd (st_cell s) a
          {| z_type := z_type c; z_writeable := true; z_at := upd2 (z_at c) i j (cast (z_type c) x) |} |}, None)
  else (s, Some ValueError).

(** entries of a 1D or 2D array as a cell *)
Definition mat_of_nd (a : nd) : mat := fun i j => nd_at a [i; j].
Definition row_of_nd (a : nd) : mat := fun _ j => nd_at a [j].

Definition symmetrize (A : mat) : mat := fun i j => 1 / 2 * (A i j + A j i).

(* ------------------------------------------------------------------ *)
(** * Flory-Huggins interaction *)

(** flory/interaction/flory_huggins.py:195-380 [FloryHugginsInteraction]. *)
Record fho := { fo_nc : nat; fo_chis : nat }.

(** lines 100-110 (= 226-233): broadcast, then symmetrise into a new array;
    the warning for asymmetric input is a log message only. *)
Definition fh_symmetric (s : store) (nc : nat) (a : nd) : res (store * nat) :=
  let* b := convert_and_broadcast a [nc; nc] in
  Ok (alloc s (floats (symmetrize (mat_of_nd b)))).

Definition fh_new (s : store) (nc : nat) (a : nd) : res (store * fho) :=
  let* (s', c) := fh_symmetric s nc a in
  Ok (s', {| fo_nc := nc; fo_chis := c |}).

(** lines 226-233 [chis.setter] *)
Definition fh_set_chis (s : store) (o : fho) (a : nd) : res (store * fho) :=
  let* (s', c) := fh_symmetric s (fo_nc o) a in
  Ok (s', {| fo_nc := fo_nc o; fo_chis := c |}).

(** lines 297-315 [set_uniform_chis]: [np.full] takes the type of [chi]. *)
Definition fh_set_uniform (s : store) (o : fho) (t : dtype) (chi : R) (vanishing : bool) : store * fho :=
  let A := fun i j => if (vanishing && Nat.eqb i j)%bool then 0 else cast t chi in
  let '(s', c) := alloc s {| z_type := t; z_writeable := true; z_at := A |} in
  (s', {| fo_nc := fo_nc o; fo_chis := c |}).

(** [np.triu_indices(n, k)]: the index pairs [(i, j)] with [j >= i + k], row by row. *)
Definition triu (n k : nat) : list (nat * nat) :=
  flat_map (fun i => map (fun j => (i, j)) (seq (i + k) (n - (i + k)))) (seq 0 n).

(** [A[i, j] = vals; A[j, i] = vals] for index arrays *)
Definition assign_pairs (A : mat) (ps : list (nat * nat)) (vals : list R) : mat :=
  fold_left (fun B '((i, j), x) => upd2 B i j x) (combine ps vals) A.
Definition swap_pair (p : nat * nat) : nat * nat := (snd p, fst p).

Section Random.
Context {G : Type} (ops : rng_ops G).

(** [rng.normal(mean, std, n)] *)
Fixpoint normals (n : nat) (mean std : R) (g : G) : list R * G :=
  match n with
  | O => ([], g)
  | S n' => let '(x, g1) := g_normal ops g mean std in
            let '(l, g2) := normals n' mean std g1 in (x :: l, g2)
  end.

(** lines 317-353 [set_random_chis]: in place; the matrix is reset before the
    numbers are drawn, and numpy raises ValueError for a negative [chi_std]. *)
Definition fh_set_random (s : store) (o : fho) (mean std : R) (vanishing : bool) (g : G)
    : store * G * option exn :=
  let s1 := overwrite s (fo_chis o) (fun _ _ => 0) in
  if Rltb std 0 then (s1, g, Some ValueError) else
  let n := fo_nc o in
  let num := if vanishing then (n * (n - 1) / 2)%nat else (n * (n + 1) / 2)%nat in
  let '(vals, g') := normals num mean std g in
  let ps := triu n (if vanishing then 1 else 0) in
  let A := z_at (st_cell s1 (fo_chis o)) in
  let A1 := assign_pairs A ps vals in
  let A2 := assign_pairs A1 (map swap_pair ps) vals in
  (overwrite s1 (fo_chis o) A2, g', None).

(** lines 241-263 [from_uniform] and 265-295 [from_random_normal]. *)
Definition scalar (x : R) : nd := {| nd_shape := []; nd_at := fun _ => x |}.
Definition fh_from_uniform (s : store) (nc : nat) (t : dtype) (chi : R) (vanishing : bool) : res (store * fho) :=
  let* (s1, o) := fh_new s nc (scalar 0) in
  Ok (fh_set_uniform s1 o t chi vanishing).
Definition fh_from_random (s : store) (nc : nat) (mean std : R) (vanishing : bool) (g : G)
    : res (store * fho * G) :=
  let* (s1, o) := fh_new s nc (scalar 0) in
  let '(s2, g', e) := fh_set_random s1 o mean std vanishing g in
  match e with Some x => Err x | None => Ok (s2, o, g') end.
End Random.

(* ------------------------------------------------------------------ *)
(** * Block interaction *)

(** python attribute look-up: [names] are the attributes assigned so far (and
    the properties of the class) *)
Definition getattr (names : list string) (x : string) : res unit :=
  if existsb (String.eqb x) names then Ok tt else Err AttributeError.

(** [np.allclose(A, A.T)] with the default tolerances *)
Definition allclose_T (n : nat) (A : mat) : bool :=
  Nat.eqb (ncount n (fun i => negb (Nat.eqb (ncount n (fun j =>
    negb (Rleb (Rabs (A i j - A j i)) (1 / 100000000 + 1 / 100000 * Rabs (A j i))))) 0))) 0.

(** flory/interaction/flory_huggins_block.py:20-128. *)
Record blo := { bo_nf : nat; bo_npf : list nat; bo_nc : nat; bo_feat : nat; bo_chis : nat }.

(** properties of the class: lines 71-89 *)
Definition block_props : list string := ["num_comp_per_feat"; "chis"; "chis_feat"]%string.

(** the block of component [i]: the first feature whose components end after [i] *)
Fixpoint block_of (npf : list nat) (i : nat) : nat :=
  match npf with
  | [] => O
  | n :: npf' => if Nat.ltb i n then O else S (block_of npf' (i - n))
  end.

(** lines 56-69 [__init__] ([num_comp_per_feat] already an integer vector). *)
Definition block_new (s : store) (nf : nat) (a : nd) (npf : list nat) : res (store * blo) :=
  if negb (Nat.eqb (length npf) nf) then Err ValueError else
  let* b := convert_and_broadcast a [nf; nf] in
  let A := mat_of_nd b in
  (* self._logger is assigned by the base class only, lines 66-69 *)
  let names := ["num_feat"; "_num_comp_per_feat"]%string ++ block_props in
  let* _ := if allclose_T nf A then Ok tt else getattr names "_logger" in
  let F := symmetrize A in
  let '(s1, f) := alloc s (floats F) in
  (* make_square_blocks in index form (C33_entries), then the base class
     symmetrises once more *)
  let C := fun i j => F (block_of npf i) (block_of npf j) in
  let '(s2, c) := alloc s1 (floats (symmetrize C)) in
  Ok (s2, {| bo_nf := nf; bo_npf := npf; bo_nc := list_sum npf; bo_feat := f; bo_chis := c |}).

(** attributes of a constructed block interaction *)
Definition block_names : list string :=
  ["num_feat"; "_num_comp_per_feat"; "_chis_feat"; "num_comp"; "_logger"; "_chis"]%string ++ block_props.

(** lines 91-103 [chis_feat.setter]: the arguments of convert_and_broadcast
    read [self._num_feat]. *)
Definition block_set_feat (s : store) (o : blo) (a : nd) : res (store * blo) :=
  let* _ := getattr block_names "_num_feat" in
  let* b := convert_and_broadcast a [bo_nf o; bo_nf o] in
  let A := mat_of_nd b in
  let* _ := if allclose_T (bo_nf o) A then Ok tt else getattr block_names "_logger" in
  let F := symmetrize A in
  let '(s1, f) := alloc s (floats F) in
  let C := fun i j => F (block_of (bo_npf o) i) (block_of (bo_npf o) j) in
  let '(s2, c) := alloc s1 (floats C) in
  Ok (s2, {| bo_nf := bo_nf o; bo_npf := bo_npf o; bo_nc := bo_nc o; bo_feat := f; bo_chis := c |}).

(* ------------------------------------------------------------------ *)
(** * Entropy, ensemble and constraint objects *)

(** flory/entropy/ideal_gas.py:108-123, 230-240 (constructor and setter of
    [sizes]); also ideal_gas_polydispersed.py:132-160 with [go_npf].  [t] is the
    type of the user's array. *)
Record igo := { go_nc : nat; go_npf : option nat; go_sizes : nat }.
Definition vec_cell (t : dtype) (w : bool) (b : nd) : cell :=
  {| z_type := t; z_writeable := w; z_at := fun i j => cast t (row_of_nd b i j) |}.
Definition ig_set_sizes (s : store) (o : igo) (t : dtype) (a : nd) : res (store * igo) :=
  let* b := convert_and_broadcast a [go_nc o] in
  let '(s', c) := alloc s (vec_cell t true b) in
  Ok (s', {| go_nc := go_nc o; go_npf := go_npf o; go_sizes := c |}).

(** flory/ensemble/canonical.py:96-104 [phi_means.setter]: a read-only view of
    a copy. *)
Record cano := { co_nc : nat; co_means : nat }.
Definition can_set_means (s : store) (o : cano) (t : dtype) (a : nd) : res (store * cano) :=
  let* b := convert_and_broadcast a [co_nc o] in
  let '(s', c) := alloc s (vec_cell t false b) in
  Ok (s', {| co_nc := co_nc o; co_means := c |}).

(** flory/ensemble/grandcanonical.py:92-96 [scaled_activity.setter]. *)
Record gco := { xo_nc : nat; xo_act : nat }.
Definition gc_set_act (s : store) (o : gco) (t : dtype) (a : nd) : res (store * gco) :=
  let* b := convert_and_broadcast a [xo_nc o] in
  let '(s', c) := alloc s (vec_cell t true b) in
  Ok (s', {| xo_nc := xo_nc o; xo_act := c |}).

(** flory/constraint/linear_local.py:161-201 and linear_global.py:167-207:
    [Cs] and [Ts] are float copies. *)
Record lino := { lo_cons : nat; lo_feat : nat; lo_Cs : nat; lo_Ts : nat }.
Definition lin_set_Cs (s : store) (o : lino) (a : nd) : res (store * lino) :=
  let* b := convert_and_broadcast a [lo_cons o; lo_feat o] in
  let '(s', c) := alloc s (floats (mat_of_nd b)) in
  Ok (s', {| lo_cons := lo_cons o; lo_feat := lo_feat o; lo_Cs := c; lo_Ts := lo_Ts o |}).
Definition lin_set_Ts (s : store) (o : lino) (a : nd) : res (store * lino) :=
  let* b := convert_and_broadcast a [lo_cons o] in
  let '(s', c) := alloc s (vec_cell DFloat true b) in
  Ok (s', {| lo_cons := lo_cons o; lo_feat := lo_feat o; lo_Cs := lo_Cs o; lo_Ts := c |}).

(** linear_local.py:161-178 [__init__]: a 1D matrix is one constraint, a 2D
    matrix one per row, anything else a ValueError. *)
Definition lin_new (s : store) (nf : nat) (Cs Ts : nd) : res (store * lino) :=
  let* n := match nd_shape (atleast_1d Cs) with
            | [_] => Ok 1%nat | [n; _] => Ok n | _ => Err ValueError end in
  let o := {| lo_cons := n; lo_feat := nf; lo_Cs := O; lo_Ts := O |} in
  let* (s1, o1) := lin_set_Cs s o Cs in
  lin_set_Ts s1 o1 Ts.

(* ------------------------------------------------------------------ *)
(** * The user's world and the compiled parts *)

Inductive int_obj := UFH (o : fho) | UBlock (o : blo).
Inductive ens_obj := UCan (o : cano) | UGC (o : gco).

(** [u_exposed]: every array the user may hold a reference to (their own
    arrays and every array that ever was the value of a property). *)
Record world := {
  u_store : store;
  u_int : int_obj;
  u_ent : igo;
  u_ens : ens_obj;
  u_lin : lino;
  u_exposed : list nat
}.

Definition with_store (u : world) (s : store) (shown : list nat) : world :=
  {| u_store := s; u_int := u_int u; u_ent := u_ent u; u_ens := u_ens u; u_lin := u_lin u;
     u_exposed := shown ++ u_exposed u |}.
Definition set_int (u : world) (o : int_obj) : world :=
  {| u_store := u_store u; u_int := o; u_ent := u_ent u; u_ens := u_ens u; u_lin := u_lin u; u_exposed := u_exposed u |}.
Definition set_ent (u : world) (o : igo) : world :=
  {| u_store := u_store u; u_int := u_int u; u_ent := o; u_ens := u_ens u; u_lin := u_lin u; u_exposed := u_exposed u |}.
Definition set_ens (u : world) (o : ens_obj) : world :=
  {| u_store := u_store u; u_int := u_int u; u_ent := u_ent u; u_ens := o; u_lin := u_lin u; u_exposed := u_exposed u |}.
Definition set_lin (u : world) (o : lino) : world :=
  {| u_store := u_store u; u_int := u_int u; u_ent := u_ent u; u_ens := u_ens u; u_lin := o; u_exposed := u_exposed u |}.

Section Actions.
Context {G : Type} (ops : rng_ops G).

(** What the user can do with the parameter objects and their arrays. *)
Inductive action :=
| SetChis (a : nd)                          (* interaction.chis = a *)
| SetUniform (t : dtype) (chi : R) (vanishing : bool)
| SetRandom (mean std : R) (vanishing : bool) (g : G)
| SetChisFeat (a : nd)                      (* block.chis_feat = a *)
| SetSizes (t : dtype) (a : nd)             (* entropy.sizes = a *)
| SetMeans (t : dtype) (a : nd)             (* canonical.phi_means = a *)
| SetActivity (t : dtype) (a : nd)          (* grandcanonical.scaled_activity = a *)
| SetCs (a : nd) | SetTs (a : nd)           (* constraint.Cs = a, .Ts = a *)
| Write (c i j : nat) (x : R).              (* arr[i, j] = x *)

(** An action that raises leaves the world unchanged, except for the reset of
    the matrix in set_random_chis. *)
Definition act (u : world) (x : action) : world :=
  match x with
  | SetChis a =>
      match u_int u with
      | UFH o => match fh_set_chis (u_store u) o a with
                 | Ok (s, o') => set_int (with_store u s [fo_chis o']) (UFH o') | Err _ => u end
      | UBlock _ => u                        (* no setter: AttributeError *)
      end
  | SetUniform t chi v =>
      match u_int u with
      | UFH o => let '(s, o') := fh_set_uniform (u_store u) o t chi v in
                 set_int (with_store u s [fo_chis o']) (UFH o')
      | UBlock _ => u
      end
  | SetRandom mean std v g =>
      match u_int u with
      | UFH o => let '(s, _, _) := fh_set_random ops (u_store u) o mean std v g in with_store u s []
      | UBlock _ => u
      end
  | SetChisFeat a =>
      match u_int u with
      | UBlock o => match block_set_feat (u_store u) o a with
                    | Ok (s, o') => set_int (with_store u s [bo_feat o'; bo_chis o']) (UBlock o')
                    | Err _ => u end
      | UFH _ => u                           (* a new, unrelated attribute *)
      end
  | SetSizes t a =>
      match ig_set_sizes (u_store u) (u_ent u) t a with
      | Ok (s, o') => set_ent (with_store u s [go_sizes o']) o' | Err _ => u end
  | SetMeans t a =>
      match u_ens u with
      | UCan o => match can_set_means (u_store u) o t a with
                  | Ok (s, o') => set_ens (with_store u s [co_means o']) (UCan o') | Err _ => u end
      | UGC _ => u
      end
  | SetActivity t a =>
      match u_ens u with
      | UGC o => match gc_set_act (u_store u) o t a with
                 | Ok (s, o') => set_ens (with_store u s [xo_act o']) (UGC o') | Err _ => u end
      | UCan _ => u
      end
  | SetCs a =>
      match lin_set_Cs (u_store u) (u_lin u) a with
      | Ok (s, o') => set_lin (with_store u s [lo_Cs o']) o' | Err _ => u end
  | SetTs a =>
      match lin_set_Ts (u_store u) (u_lin u) a with
      | Ok (s, o') => set_lin (with_store u s [lo_Ts o']) o' | Err _ => u end
  | Write c i j x =>
      if existsb (Nat.eqb c) (u_exposed u) then with_store u (fst (write (u_store u) c i j x)) [] else u
  end.

Definition acts (u : world) (xs : list action) : world := fold_left act xs u.
End Actions.

(** The arrays and numbers held by the compiled parts inside a finder. *)
Record compiled_refs := {
  r_nf : nat;  r_chis : nat;  r_coef : R;
  r_nc : nat;  r_npf : option (list nat);  r_sizes : nat;
  r_ens : bool;                       (* canonical? *)
  r_ens_nc : nat;  r_ens_vec : nat;
  r_cons : nat;  r_cfeat : nat;  r_Cs : nat;  r_Ts : nat
}.

(** [arr.astype(np.float64)]: always a copy *)
Definition copy_float (s : store) (a : nat) : store * nat := alloc s (floats (z_at (st_cell s a))).

(** values of an integer vector [num_comp_per_feat] *)
Definition ints (s : store) (a : nat) (n : nat) : list nat :=
  map (fun k => Z.to_nat (Int_part (z_at (st_cell s a) 0%nat k))) (seq 0 n).

(** Compiling the four objects, as the finder's constructor does:
    flory_huggins.py:377-380 (copy), flory_huggins_block.py:126-128 (shared),
    ideal_gas.py:250-253 and ideal_gas_polydispersed.py (copies),
    canonical.py:116 and grandcanonical.py:142 (shared), linear_*.py (shared). *)
Definition compile_world (u : world) (shift : R) : world * compiled_refs :=
  let s := u_store u in
  let '(s1, nf, chis) :=
    match u_int u with
    | UFH o => let '(s1, c) := copy_float s (fo_chis o) in (s1, fo_nc o, c)
    | UBlock o => (s, bo_nf o, bo_feat o)
    end in
  let X := z_at (st_cell s1 chis) in
  let coef := mat_sum nf X + (- mat_min nf X + shift) * INR nf * INR nf in
  let '(s2, sizes) := copy_float s1 (go_sizes (u_ent u)) in
  let npf := option_map (fun a => ints s a nf) (go_npf (u_ent u)) in
  let '(canon, enc, env) := match u_ens u with UCan o => (true, co_nc o, co_means o) | UGC o => (false, xo_nc o, xo_act o) end in
  (with_store u s2 [],
   {| r_nf := nf; r_chis := chis; r_coef := coef; r_nc := go_nc (u_ent u); r_npf := npf; r_sizes := sizes;
      r_ens := canon; r_ens_nc := enc; r_ens_vec := env;
      r_cons := lo_cons (u_lin u); r_cfeat := lo_feat (u_lin u); r_Cs := lo_Cs (u_lin u); r_Ts := lo_Ts (u_lin u) |}).

(** What the finder computes with at a later time: the compiled parts read the
    arrays they refer to. *)
Definition seen_interaction (s : store) (r : compiled_refs) : interaction :=
  let X := z_at (st_cell s (r_chis r)) in
  {| i_feat := r_nf r;
     i_potential := i_potential (fh_compiled (r_nf r) X 0);
     i_coef := fun _ _ => r_coef r;
     i_vd := i_vd (fh_compiled (r_nf r) X 0) |}.
Definition seen_entropy (s : store) (r : compiled_refs) : entropy :=
  let l := z_at (st_cell s (r_sizes r)) 0%nat in
  match r_npf r with
  | None => ig_compiled (r_nc r) l
  | Some npf => pg_compiled (r_nc r) (r_nf r) (fun k => nth k npf O) l
  end.
Definition seen_ensemble (s : store) (r : compiled_refs) : ensemble :=
  let v := z_at (st_cell s (r_ens_vec r)) 0%nat in
  if r_ens r then can_compiled (r_ens_nc r) v else gc_compiled (r_ens_nc r) v.
Definition seen_constraint (s : store) (r : compiled_refs) (ratio elast : R) : lin_par :=
  {| l_cons := r_cons r; l_feat := r_cfeat r;
     l_Cs := z_at (st_cell s (r_Cs r)); l_Ts := z_at (st_cell s (r_Ts r)) 0%nat;
     l_ratio := ratio; l_elast := elast |}.
