(** ModelPoly.v -- the user object of the polydispersed entropy and its compiled
    loops with bounds-checked array accesses.

    Numba does not check indices; here an access outside an array is an
    IndexError, so that its absence can be stated. *)

From Coq Require Import Reals List Bool Arith ZArith.
From Verif Require Import Base ModelCommon ModelParts ModelObjects.
Import ListNotations.
Open Scope R_scope.

(** sum of an integer array *)
Fixpoint isum (n : nat) (f : nat -> Z) : Z :=
  match n with O => 0%Z | S k => (isum k f + f k)%Z end.

(** flory/entropy/ideal_gas_polydispersed.py:100-157.  [num_comp] and
    [num_feat] are plain attributes. *)
Record peo := {
  pe_nf : nat;
  pe_counts : nat -> Z;      (* _num_comp_per_feat, of length pe_nf at construction *)
  pe_nc : nat;               (* num_comp *)
  pe_sizes : list R          (* _sizes *)
}.

(** entries of a 1D array *)
Definition as_list (n : nat) (b : nd) : list R := map (fun i => nd_at b [i]) (seq 0 n).

(** lines 115-142 [__init__] with ideal_gas.py:103-123.  The sum of an array of
    floats is a float, which numpy does not accept as a shape; a negative one is
    a ValueError. *)
Definition pe_new (nf : nat) (t : dtype) (counts : nd) (sizes : option nd) : res peo :=
  let* b := convert_and_broadcast counts [nf] in
  match t with
  | DFloat => Err TypeError
  | DInt =>
      let c := fun r => Int_part (nd_at b [r]) in
      let total := isum nf c in
      if (total <? 0)%Z then Err ValueError else
      let nc := Z.to_nat total in
      match sizes with
      | None => Ok {| pe_nf := nf; pe_counts := c; pe_nc := nc; pe_sizes := repeat 1 nc |}
      | Some a =>
          let* l := convert_and_broadcast a [nc] in
          Ok {| pe_nf := nf; pe_counts := c; pe_nc := nc; pe_sizes := as_list nc l |}
      end
  end.

(** lines 149-153 [sizes.setter] *)
Definition pe_set_sizes (o : peo) (a : nd) : res peo :=
  let* l := convert_and_broadcast a [pe_nc o] in
  Ok {| pe_nf := pe_nf o; pe_counts := pe_counts o; pe_nc := pe_nc o; pe_sizes := as_list (pe_nc o) l |}.

(** assignment to the attribute [num_comp] *)
Definition pe_set_nc (o : peo) (k : nat) : peo :=
  {| pe_nf := pe_nf o; pe_counts := pe_counts o; pe_nc := k; pe_sizes := pe_sizes o |}.

(** what the user does with the object; a failing assignment has no effect *)
Inductive pe_op := PSizes (a : nd) | PNumComp (k : nat).
Definition pe_do (o : peo) (x : pe_op) : peo :=
  match x with
  | PSizes a => match pe_set_sizes o a with Ok o' => o' | Err _ => o end
  | PNumComp k => pe_set_nc o k
  end.

(** loop whose body can fail *)
Fixpoint for_res {A} (n : nat) (body : nat -> A -> res A) (s : A) : res A :=
  match n with
  | O => Ok s
  | S k => let* x := for_res k body s in body k x
  end.

(** lines 69-82 [partition]; [nc] is the length of [sizes], [Qs] and the number
    of rows of [phis_comp]; [range] of a negative number is empty. *)
Definition partition_checked (nc nf : nat) (counts : nat -> Z) (sizes : vec)
    (np : nat) (phis_comp omegas : mat) (Js : vec) : res (mat * vec) :=
  let total := rsum np Js in
  if Reqb total 0 then Err ZeroDivisionError else
  let* (_, phis, Qs) :=
    for_res nf (fun r st =>
       for_res (Z.to_nat (counts r)) (fun _ '(i, phis, Qs) =>
          if Nat.ltb i nc then
            let row := fun m => boltzmann (omegas r m) (sizes i) in
            Ok (S i, upd_row phis i row, upd Qs i (rsum np (fun m => row m * Js m) / total))
          else Err IndexError) st)
      (O, phis_comp, fun _ => 0) in
  Ok (phis, Qs).

(** lines 84-91 [comp_to_feat] *)
Definition comp_to_feat_checked (nc nf : nat) (counts : nat -> Z) (phis_feat phis_comp : mat) : res mat :=
  let* (_, f) :=
    for_res nf (fun r '(i, f) =>
       let* st := if Nat.ltb i nc then Ok (S i, upd_row f r (phis_comp i)) else Err IndexError in
       for_res (Z.to_nat (counts r - 1)) (fun _ '(i, f) =>
          if Nat.ltb i nc then Ok (S i, upd_row f r (fun m => f r m + phis_comp i m)) else Err IndexError) st)
      (O, phis_feat) in
  Ok f.

(** lines 155-166 [_compiled_impl]: copies of the arrays (the counts fit into
    int32); the number of components is the length of [sizes]. *)
Definition pe_partition (o : peo) := partition_checked (length (pe_sizes o)) (pe_nf o) (pe_counts o) (fun i => nth i (pe_sizes o) 0).
Definition pe_comp_to_feat (o : peo) := comp_to_feat_checked (length (pe_sizes o)) (pe_nf o) (pe_counts o).
(** the instance handed to the kernel in the rest of the model *)
Definition pe_compiled (o : peo) : entropy :=
  pg_compiled (length (pe_sizes o)) (pe_nf o) (fun r => Z.to_nat (pe_counts o r)) (fun i => nth i (pe_sizes o) 0).
