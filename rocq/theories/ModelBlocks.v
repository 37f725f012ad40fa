(** ModelBlocks.v -- flory/common/utilities.py:45-70 [make_square_blocks] for
    arrays of any number of dimensions. *)

From Coq Require Import Reals List Bool Arith.
From Verif Require Import Base ModelCommon.
Import ListNotations.

(** the list [l] with [f] applied at position [k] *)
Fixpoint at_axis (k : nat) (f : nat -> nat) (l : list nat) : list nat :=
  match l, k with
  | [], _ => []
  | x :: l', O => f x :: l'
  | x :: l', S k' => x :: at_axis k' f l'
  end.

(** [np.repeat(a, sizes, axis=k)]: entry [k] of the axis is repeated [sizes[k]]
    times; [len(sizes)] is the length of the axis, else ValueError *)
Definition repeat_axis (sizes : list nat) (a : nd) (k : nat) : res nd :=
  if Nat.eqb (length sizes) (nth k (nd_shape a) O) then
    Ok {| nd_shape := at_axis k (fun _ => list_sum sizes) (nd_shape a);
          nd_at := fun idx => nd_at a (at_axis k (fun i => nth i (np_repeat (seq 0 (length sizes)) sizes) O) idx) |}
  else Err ValueError.

(** [len(set(l)) == 1] *)
Definition one_value (l : list nat) : bool :=
  match l with [] => false | x :: l' => forallb (Nat.eqb x) l' end.

(** the loop over the axes *)
Fixpoint repeat_axes (sizes : list nat) (a : nd) (ks : list nat) : res nd :=
  match ks with
  | [] => Ok a
  | k :: ks' => let* b := repeat_axis sizes a k in repeat_axes sizes b ks'
  end.

Definition make_square_blocks_nd (a : nd) (sizes : list nat) : res nd :=
  if (negb (one_value (nd_shape a)) || negb (Nat.eqb (length sizes) (hd O (nd_shape a))))%bool then Err ValueError
  else repeat_axes sizes a (seq 0 (length (nd_shape a))).
