(** ModelBlockArgs.v -- the argument [num_comp_per_feat] of
    flory/interaction/flory_huggins_block.py:56-75 as the user passes it. *)

From Coq Require Import Reals List Bool Arith ZArith.
From Verif Require Import Base ModelCommon ModelParts ModelObjects.
Import ListNotations.
Open Scope R_scope.

(** [__init__] with counts of any shape and type.  The counts are broadcast
    first; [np.repeat] in make_square_blocks refuses floats (TypeError) and
    negative counts (ValueError), after the feature matrix has been processed.
    The object is the one of [block_new]. *)
Definition block_make (s : store) (nf : nat) (t : dtype) (counts a : nd) : res (store * blo) :=
  let* b := convert_and_broadcast counts [nf] in
  let c := map (fun r => Int_part (nd_at b [r])) (seq 0 nf) in
  let* r := block_new s nf a (map Z.to_nat c) in
  match t with
  | DFloat => Err TypeError
  | DInt => if existsb (fun z => z <? 0)%Z c then Err ValueError else Ok r
  end.
