(** ModelOwnership.v -- which arrays a CoexistingPhasesFinder shares with its
    user: the property [omegas] (finder.py:490-498), the arguments of
    [reinitialize_from_omegas/phis] (finder.py:286-309, 458-488) and the arrays
    of the [Phases] returned by [run] (finder.py:655-686).

    The contents of [_omegas] are kept in a memory of arrays; the other fields
    of the finder are never handed out. *)

From Coq Require Import String Reals List Bool Arith ZArith.
From Verif Require Import Base ModelCommon ModelParts ModelKernel ModelPhases ModelFinder ModelHistory.
Import ListNotations.
Open Scope R_scope.

Record array := { ar_shape : list nat; ar_at : mat }.

Section Ownership.
Context {G St : Type} (ops : rng_ops G) (no : nat -> cons_obj St).

Record memory := {
  y_next : nat;                  (* arrays with smaller numbers exist *)
  y_at : nat -> array;
  y_f : finder G St;             (* its field [v_omegas] is not used *)
  y_om : nat;                    (* the array [_omegas] *)
  y_held : list nat              (* arrays the user can reach *)
}.

Definition k_with_omegas (k : kstate G St) (w : mat) : kstate G St := k_with_fields k w (v_Js k) (v_g k).
(** the finder as its methods see it *)
Definition current (m : memory) : finder G St :=
  with_k (y_f m) (k_with_omegas (f_k (y_f m)) (ar_at (y_at m (y_om m)))).

Definition field_array (f : finder G St) : array := {| ar_shape := [f_nf f; f_np f]; ar_at := v_omegas (f_k f) |}.
Definition add_array (m : memory) (x : array) (held : bool) : memory :=
  {| y_next := S (y_next m); y_at := upd (y_at m) (y_next m) x; y_f := y_f m; y_om := y_om m;
     y_held := if held then y_next m :: y_held m else y_held m |}.

(** [self._omegas] is updated in place (run) ... *)
Definition store_in_place (m : memory) (f : finder G St) : memory :=
  {| y_next := y_next m; y_at := upd (y_at m) (y_om m) (field_array f); y_f := f; y_om := y_om m; y_held := y_held m |}.
(** ... or replaced by a new array (finder.py:449, 466, 485) *)
Definition store_rebound (m : memory) (f : finder G St) : memory :=
  {| y_next := S (y_next m); y_at := upd (y_at m) (y_next m) (field_array f); y_f := f; y_om := y_next m; y_held := y_held m |}.

Definition rebinds (c : call St) (out : option exn) : bool :=
  match c, out with
  | CReinitRandom, _ | CReinitOmegas _, None | CReinitPhis _, None => true
  | _, _ => false
  end.

(** [final_Js] and [final_phis_comp.T] are new arrays *)
Definition add_result (m : memory) (ph : phases) : memory :=
  let m1 := add_array m {| ar_shape := [length (p_vol ph)]; ar_at := fun _ p => nth p (p_vol ph) 0 |} true in
  add_array m1 {| ar_shape := [length (p_frac ph); p_nc ph]; ar_at := fun p i => nth i (nth p (p_frac ph) []) 0 |} true.

Definition call_on (m : memory) (c : call St) : memory :=
  let f := current m in
  let '(f', out) := exec ops no f c in
  let m' := if rebinds c out then store_rebound m f' else store_in_place m f' in
  match c with
  | CRun a t i => match snd (run ops f a t i) with Ok ph => add_result m' ph | Err _ => m' end
  | _ => m'
  end.

(** What the user does. *)
Inductive deed :=
| Call (c : call St)                            (* a method with literal arguments *)
| GiveOmegas (h : nat) | GivePhis (h : nat)     (* finder.reinitialize_from_omegas(arr), ..._phis(arr) *)
| GetOmegas                                     (* arr = finder.omegas *)
| NewArray (x : array)                          (* arr = np.array(...) *)
| WriteTo (h i j : nat) (x : R).                (* arr[i, j] = x *)

Definition nd_of_array (x : array) : nd :=
  {| nd_shape := ar_shape x; nd_at := fun idx => match idx with [i; j] => ar_at x i j | [j] => ar_at x 0%nat j | _ => 0 end |}.

(** the method call a deed amounts to *)
Definition call_of (m : memory) (d : deed) : list (call St) :=
  match d with
  | Call c => [c]
  | GiveOmegas h => if existsb (Nat.eqb h) (y_held m) then [CReinitOmegas (nd_of_array (y_at m h))] else []
  | GivePhis h => if existsb (Nat.eqb h) (y_held m) then [CReinitPhis (nd_of_array (y_at m h))] else []
  | _ => []
  end.

Definition do_deed (m : memory) (d : deed) : memory :=
  match d with
  | Call _ | GiveOmegas _ | GivePhis _ => fold_left call_on (call_of m d) m
  | GetOmegas => {| y_next := y_next m; y_at := y_at m; y_f := y_f m; y_om := y_om m; y_held := y_om m :: y_held m |}
  | NewArray x => add_array m x true
  | WriteTo h i j x =>
      if existsb (Nat.eqb h) (y_held m) then
        {| y_next := y_next m; y_f := y_f m; y_om := y_om m; y_held := y_held m;
           y_at := upd (y_at m) h {| ar_shape := ar_shape (y_at m h); ar_at := upd2 (ar_at (y_at m h)) i j x |} |}
      else m
  end.
Definition do_all (m : memory) (ds : list deed) : memory := fold_left do_deed ds m.

End Ownership.
Arguments memory G St : clear implicits.
Arguments deed St : clear implicits.
