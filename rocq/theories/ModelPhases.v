(** ModelPhases.v -- flory/common/phases.py. *)

From Coq Require Import String Reals List Bool Arith ZArith Permutation.
From Verif Require Import Base ModelCommon ModelKernel.
Import ListNotations.
Open Scope R_scope.

(** phases.py:36-62 [Phases]: volumes (1D) and fractions (2D, one row per
    phase); [p_nc] is [fractions.shape[1]]. *)
Record phases := {
  p_vol : list R;
  p_frac : list (list R);
  p_nc : nat
}.

(** phases.py:51-62: the constructor's checks on arbitrary arrays. *)
Definition mk_phases (v f : nd) : res phases :=
  match nd_shape v with
  | [nv] =>
      match nd_shape f with
      | [nf; nc] =>
          if Nat.eqb nv nf then
            Ok {| p_vol := map (fun p => nd_at v [p]) (seq 0 nv);
                  p_frac := map (fun p => map (fun i => nd_at f [p; i]) (seq 0 nc)) (seq 0 nv);
                  p_nc := nc |}
          else Err ValueError
      | _ => Err ValueError
      end
  | _ => Err ValueError
  end.

(** Rectangular list data as arrays. *)
Definition nd_of_vec (l : list R) : nd :=
  {| nd_shape := [length l];
     nd_at := fun idx => match idx with [p] => nth p l 0 | _ => 0 end |}.
Definition nd_of_rows (rows : list (list R)) (nc : nat) : nd :=
  {| nd_shape := [length rows; nc];
     nd_at := fun idx => match idx with [p; i] => nth i (nth p rows []) 0 | _ => 0 end |}.

(** phases.py:64-70 [_copy]: goes through the constructor again. *)
Definition ph_copy (vol : list R) (rows : list (list R)) (nc : nat) : res phases :=
  mk_phases (nd_of_vec vol) (nd_of_rows rows nc).

(** phases.py:75-78 *)
Definition num_phases (p : phases) : nat := length (p_vol p).

(** phases.py:85-88 *)
Definition total_volume (p : phases) : R := lsum (p_vol p) (fun v => v).

(** phases.py:90-93 [mean_fractions], component [i].  Array division: no
    exception for vanishing total volume (the real-valued model is only used
    with non-zero total). *)
Definition mean_fraction (p : phases) (i : nat) : R :=
  lsum (combine (p_vol p) (p_frac p)) (fun '(v, row) => v * nth i row 0) / total_volume p.

(** phases.py:95-97 *)
Definition ph_normalize (p : phases) : res phases :=
  ph_copy (map (fun v => v / total_volume p) (p_vol p)) (p_frac p) (p_nc p).

(* ------------------------------------------------------------------ *)
(** ** sort *)

(** lexicographic comparison of equally long keys: [true] if [a <= b]. *)
Fixpoint lex_le (a b : list nat) : bool :=
  match a, b with
  | [], _ => true
  | _ :: _, [] => false
  | x :: a', y :: b' => if Nat.ltb x y then true else if Nat.eqb x y then lex_le a' b' else false
  end.

Fixpoint insert_by {A} (le : A -> A -> bool) (x : A) (l : list A) : list A :=
  match l with
  | [] => [x]
  | y :: l' => if le x y then x :: y :: l' else y :: insert_by le x l'
  end.

(** stable sort *)
Definition sort_by {A} (le : A -> A -> bool) (l : list A) : list A :=
  fold_right (insert_by le) [] l.

(** [np.argsort] of one row: any function returning a permutation of the
    indices along which the row is non-decreasing (numpy's quicksort breaks
    ties in an unspecified way). *)
Definition argsort_spec (argsort : list R -> list nat) : Prop :=
  forall row, Permutation (argsort row) (seq 0 (length row)) /\
    forall a b, (a < b < length row)%nat ->
      nth (nth a (argsort row) O) row 0 <= nth (nth b (argsort row) O) row 0.

(** [np.lexsort(np.transpose(enrich))]: indices sorted stably, the last column
    (the index of the most concentrated component) being the primary key. *)
Definition lexsort (enrich : list (list nat)) : list nat :=
  sort_by (fun a b => lex_le (rev (nth a enrich [])) (rev (nth b enrich [])))
    (seq 0 (length enrich)).

(** phases.py:99-107; [np.lexsort] raises TypeError without any key, that is
    for zero components. *)
Definition ph_sort (argsort : list R -> list nat) (p : phases) : res phases :=
  if Nat.eqb (p_nc p) 0 then Err TypeError else
  let enrich := map argsort (p_frac p) in
  let idx := lexsort enrich in
  ph_copy (map (fun i => nth i (p_vol p) 0) idx) (map (fun i => nth i (p_frac p) []) idx) (p_nc p).

(* ------------------------------------------------------------------ *)
(** ** clustering *)

(** [np.unique] of integer labels. *)
Definition np_unique (l : list nat) : list nat := sort_by Nat.leb (nodup Nat.eq_dec l).

(** [arr[clusters == n]] *)
Definition select {A} (labels : list nat) (n : nat) (l : list A) : list A :=
  map snd (filter (fun '(a, _) => Nat.eqb a n) (combine labels l)).

(** [np.average(rows, weights=w, axis=0)]: ZeroDivisionError when the weights
    sum to zero. *)
Definition np_average (rows : list (list R)) (w : list R) (nc : nat) : res (list R) :=
  let total := lsum w (fun v => v) in
  if Reqb total 0 then Err ZeroDivisionError
  else Ok (map (fun i => lsum (combine w rows) (fun '(v, row) => v * nth i row 0) / total)
             (seq 0 nc)).

(** phases.py:133-142: the loop collecting the clusters. *)
Fixpoint collect (p : phases) (labels ns : list nat) : res (list R * list (list R)) :=
  match ns with
  | [] => Ok ([], [])
  | n :: ns' =>
      let rows := select labels n (p_frac p) in
      let vols := select labels n (p_vol p) in
      let* mean := np_average rows vols (p_nc p) in
      let* (vs, fs) := collect p labels ns' in
      Ok (lsum vols (fun v => v) :: vs, mean :: fs)
  end.

(** phases.py:109-144 [get_clusters].  [fcluster] is scipy's
    pdist/linkage/fcluster chain: any labelling of the rows. *)
Definition get_clusters (fcluster : list (list R) -> list nat) (p : phases) : res phases :=
  if Nat.ltb (num_phases p) 2 then Ok p else
  let labels := fcluster (p_frac p) in
  let* (vs, fs) := collect p labels (np_unique labels) in
  ph_copy vs fs (p_nc p).

(** scipy returns one label per row. *)
Definition fcluster_spec (fcluster : list (list R) -> list nat) : Prop :=
  forall rows, length (fcluster rows) = length rows.

(* ------------------------------------------------------------------ *)
(** ** random composition *)

Section RandomComposition.
Context {G : Type} (ops : rng_ops G).

(** phases.py:14-33 [get_uniform_random_composition]. *)
Definition random_composition (n : nat) (g : G) : res (vec * G) :=
  match n with
  | O => Err IndexError                       (* phis[-1] of an empty array *)
  | S n1 =>
      let '(phis, _, g') :=
        for_ n1 (fun d '(phis, phi_max, g) =>
           let '(b, g') := g_beta ops g (n - d - 1) in
           let x := b * phi_max in
           (upd phis d x, phi_max - x, g'))
          ((fun _ => 0), 1, g) in
      Ok (upd phis n1 (1 - rsum n1 phis), g')
  end.
End RandomComposition.

(* ------------------------------------------------------------------ *)
(** ** PhasesResult and its info dictionary *)

(** Dictionaries are python objects: a heap of info dictionaries. *)
Record heap := { h_next : nat; h_cell : nat -> dict }.

Definition heap_alloc (h : heap) (d : dict) : heap * nat :=
  ({| h_next := S (h_next h); h_cell := upd (h_cell h) (h_next h) d |}, h_next h).
(** [obj.info[k] = v] *)
Definition heap_set (h : heap) (a : nat) (k : string) (v : R) : heap :=
  {| h_next := h_next h; h_cell := upd (h_cell h) a (dict_merge (h_cell h a) [(k, v)]) |}.

(** A [Phases] object or a [PhasesResult] with a reference to its info. *)
Record pobj := { b_ph : phases; b_info : option nat }.

(** phases.py:64-70 and 186-192 [_copy]: PhasesResult copies the dictionary. *)
Definition obj_copy (h : heap) (b : pobj) (r : res phases) : res (heap * pobj) :=
  let* p := r in
  match b_info b with
  | None => Ok (h, {| b_ph := p; b_info := None |})
  | Some a =>
      let '(h', a') := heap_alloc h (h_cell h a) in
      Ok (h', {| b_ph := p; b_info := Some a' |})
  end.

Definition obj_normalize (h : heap) (b : pobj) : res (heap * pobj) :=
  obj_copy h b (ph_normalize (b_ph b)).
Definition obj_sort argsort (h : heap) (b : pobj) : res (heap * pobj) :=
  obj_copy h b (ph_sort argsort (b_ph b)).
(** phases.py:122-123: fewer than two phases returns the object itself. *)
Definition obj_clusters fcluster (h : heap) (b : pobj) : res (heap * pobj) :=
  if Nat.ltb (num_phases (b_ph b)) 2 then Ok (h, b)
  else obj_copy h b (get_clusters fcluster (b_ph b)).

(** phases.py:169-179 [PhasesResult.from_phases] with [info=d]: the given
    dictionary object is stored (no copy); [None] allocates an empty one. *)
Definition from_phases (h : heap) (b : pobj) (info : option nat) : heap * pobj :=
  match info with
  | Some a => (h, {| b_ph := b_ph b; b_info := Some a |})
  | None => let '(h', a) := heap_alloc h [] in (h', {| b_ph := b_ph b; b_info := Some a |})
  end.
