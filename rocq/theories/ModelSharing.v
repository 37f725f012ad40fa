(** ModelSharing.v -- which arrays [Phases] objects share (flory/common/phases.py).

    Arrays live in a store; an object holds references to its two arrays.
    Arrays given by the user are not views of each other; the attributes
    [volumes] and [fractions] are not rebound. *)

From Coq Require Import String Reals List Bool Arith ZArith.
From Verif Require Import Base ModelCommon ModelKernel ModelPhases.
Import ListNotations.
Open Scope R_scope.

Record store := {
  z_next : nat;                 (* arrays with smaller numbers exist *)
  z_arr : nat -> nd;
  z_objs : list (nat * nat)     (* numbers of [volumes] and [fractions] *)
}.

Definition z_alloc (s : store) (x : nd) : store * nat :=
  ({| z_next := S (z_next s); z_arr := upd (z_arr s) (z_next s) x; z_objs := z_objs s |}, z_next s).

(** What a user sees of an object. *)
Definition look (s : store) (o : nat) : res phases :=
  match nth_error (z_objs s) o with
  | Some (v, f) => mk_phases (z_arr s v) (z_arr s f)
  | None => Err AttributeError
  end.

(** phases.py:39-62: [np.asarray] of an array is that array. *)
Definition z_construct (s : store) (v f : nat) : store * res nat :=
  match mk_phases (z_arr s v) (z_arr s f) with
  | Ok _ => ({| z_next := z_next s; z_arr := z_arr s; z_objs := z_objs s ++ [(v, f)] |}, Ok (length (z_objs s)))
  | Err e => (s, Err e)
  end.

(** [_copy] with new volumes and the fractions of [o] (phases.py:95-97) ... *)
Definition z_copy_vol (s : store) (vol : list R) (f : nat) : store * res nat :=
  let '(s1, v) := z_alloc s (nd_of_vec vol) in z_construct s1 v f.
(** ... or with two new arrays (phases.py:107, 144: fancy indexing copies,
    lists are converted) *)
Definition z_copy_both (s : store) (vol : list R) (rows : list (list R)) (nc : nat) : store * res nat :=
  let '(s1, v) := z_alloc s (nd_of_vec vol) in
  let '(s2, f) := z_alloc s1 (nd_of_rows rows nc) in z_construct s2 v f.

(** phases.py:95-97 *)
Definition z_normalize (s : store) (o : nat) : store * res nat :=
  match look s o, nth_error (z_objs s) o with
  | Ok p, Some (_, f) => z_copy_vol s (map (fun v => v / total_volume p) (p_vol p)) f
  | _, _ => (s, Err AttributeError)
  end.

(** phases.py:99-107 *)
Definition z_sort (argsort : list R -> list nat) (s : store) (o : nat) : store * res nat :=
  match look s o with
  | Ok p =>
      if Nat.eqb (p_nc p) 0 then (s, Err TypeError) else
      let idx := lexsort (map argsort (p_frac p)) in
      z_copy_both s (map (fun i => nth i (p_vol p) 0) idx) (map (fun i => nth i (p_frac p) []) idx) (p_nc p)
  | Err e => (s, Err e)
  end.

(** phases.py:109-144: fewer than two phases gives the object itself. *)
Definition z_clusters (fcluster : list (list R) -> list nat) (s : store) (o : nat) : store * res nat :=
  match look s o with
  | Ok p =>
      if Nat.ltb (num_phases p) 2 then (s, Ok o) else
      let labels := fcluster (p_frac p) in
      match collect p labels (np_unique labels) with
      | Ok (vs, fs) => z_copy_both s vs fs (p_nc p)
      | Err e => (s, Err e)
      end
  | Err e => (s, Err e)
  end.

(** phases.py:169-179 [PhasesResult.from_phases] *)
Definition z_from (s : store) (o : nat) : store * res nat :=
  match nth_error (z_objs s) o with
  | Some (v, f) => z_construct s v f
  | None => (s, Err AttributeError)
  end.

Fixpoint in_range (shape idx : list nat) : bool :=
  match shape, idx with
  | [], [] => true
  | n :: shape', i :: idx' => Nat.ltb i n && in_range shape' idx'
  | _, _ => false
  end.
Definition list_eqb (a b : list nat) : bool := if list_eq_dec Nat.eq_dec a b then true else false.

(** [arr[idx] = x] *)
Definition z_write (s : store) (a : nat) (idx : list nat) (x : R) : store * res nat :=
  if Nat.ltb a (z_next s) && in_range (nd_shape (z_arr s a)) idx then
    ({| z_next := z_next s; z_objs := z_objs s;
        z_arr := upd (z_arr s) a {| nd_shape := nd_shape (z_arr s a);
                                    nd_at := fun j => if list_eqb j idx then x else nd_at (z_arr s a) j |} |}, Ok a)
  else (s, Err IndexError).

Inductive act :=
| NewArr (x : nd)                                   (* arr = np.array(...) *)
| Construct (v f : nat)                             (* Phases(arr_v, arr_f) *)
| NormalizeO (o : nat)                              (* obj.normalize() *)
| SortO (argsort : list R -> list nat) (o : nat)    (* obj.sort() *)
| ClustersO (fcluster : list (list R) -> list nat) (o : nat)
| FromO (o : nat)                                   (* PhasesResult.from_phases(obj) *)
| WriteA (a : nat) (idx : list nat) (x : R).        (* arr[idx] = x, also through obj.volumes or obj.fractions *)

Definition do_act (s : store) (c : act) : store * res nat :=
  match c with
  | NewArr x => let '(s', a) := z_alloc s x in (s', Ok a)
  | Construct v f => if Nat.ltb v (z_next s) && Nat.ltb f (z_next s) then z_construct s v f else (s, Err AttributeError)
  | NormalizeO o => z_normalize s o
  | SortO argsort o => z_sort argsort s o
  | ClustersO fcluster o => z_clusters fcluster s o
  | FromO o => z_from s o
  | WriteA a idx x => z_write s a idx x
  end.
Definition do_acts (s : store) (cs : list act) : store := fold_left (fun s c => fst (do_act s c)) cs s.

Definition empty_store : store := {| z_next := O; z_arr := fun _ => {| nd_shape := []; nd_at := fun _ => 0 |}; z_objs := [] |}.
