(** ModelInterrupt.v -- what run() leaves behind when it does not finish:
    KeyboardInterrupt (or another exception raised by a signal handler) between
    two statements, and exceptions raised inside the compiled kernel. *)

From Coq Require Import String Reals List Bool Arith ZArith.
From Verif Require Import Base ModelCommon ModelParts ModelKernel ModelPhases ModelFinder.
Import ListNotations.
Open Scope R_scope.

(** Places in finder.py:510-686 between statements that change the finder.
    Compiled code is never interrupted: a signal that arrives while
    [multicomponent_self_consistent_metastep] works is raised after it returned
    and before line 614, which is [Returned]. *)
Inductive stop :=
| Started                  (* before the first metastep *)
| Returned (j : nat)       (* the j-th metastep has returned (j = 1, 2, ...) *)
| Counted (j : nat)        (* line 614 of the j-th pass has been executed *)
| Filled                   (* after line 659-664, revive_compartments_by_copy *)
| Finished.                (* diagnostics stored, lines 675-683 *)

Section Interrupt.
Context {G St : Type} (ops : rng_ops G).
Notation finder := (finder G St).
Notation kstate := (kstate G St).

(** finder.py:585-648 up to the [j]-th pass; None if the loop ends earlier. *)
Fixpoint loop_at (tol : R) (inner n : nat) (f : finder) (j : nat) (counted : bool) : option finder :=
  match n, j with
  | S n', S j' =>
      match metastep ops (kernel_of f) inner (f_left f) (f_k f) with
      | Err _ => None
      | Ok (k', rep, count, safe) =>
          let f1 := with_k f k' in                                  (* 586-611 *)
          let f2 := with_left f1 (f_left f1 - Z.of_nat count)%Z in  (* 614 *)
          match j' with
          | O => Some (if counted then f2 else f1)
          | S _ =>
              if String.eqb (m_criterion (f_par f)) "standard" then
                if converged tol safe rep then None else loop_at tol inner n' f2 j' counted
              else None
          end
      end
  | _, _ => None
  end.

(** The finder when run() is abandoned at [p]; None if this place is not reached. *)
Definition interrupted (f : finder) (max_steps tolerance interval : option R) (p : stop) : option finder :=
  let dflt o d := match o with Some x => x | None => d end in
  let max_steps' := dflt max_steps (m_max_steps (f_par f)) in
  let tol := dflt tolerance (m_tolerance (f_par f)) in
  let interval' := dflt interval (m_interval (f_par f)) in
  match schedule max_steps' interval' with
  | Err _ => None
  | Ok (tracker, inner) =>
      match p with
      | Started => Some f
      | Returned j => loop_at tol inner tracker f j false
      | Counted j => loop_at tol inner tracker f j true
      | Filled =>
          match run_loop ops tol inner tracker {| r_f := f; r_steps := O; r_rep := None; r_conv := false |} with
          | (s, Ok _) =>
              let f1 := r_f s in
              match revive_by_copy ops (f_np f1) (v_Js (f_k f1)) (v_phis_comp (f_k f1))
                      (m_thr (f_par f1)) (v_g (f_k f1)) with
              | Ok (_, _, _, g) => Some (with_k f1 (k_with_g (f_k f1) g))
              | Err _ => None
              end
          | (_, Err _) => None
          end
      | Finished =>
          match run ops f max_steps tolerance interval with
          | (f', Ok _) => Some f'
          | (_, Err _) => None
          end
      end
  end.

(** _finder_impl.py:339-414 when an exception is raised: fields, generator and
    multipliers are those before the iteration, [Js *= masks] (line 342) has been
    executed, the constraints may have been prepared; the output arrays
    [phis_comp], [phis_feat] have unspecified entries. *)
Definition broken (q : kernel) (k k' : kstate) : Prop :=
  v_omegas k' = v_omegas k /\ v_g k' = v_g k /\
  v_Js k' = (fun m => v_Js k m * make_masks (v_Js k) (q_thr q) m) /\
  (v_cons k' = v_cons k \/
   exists feat, v_cons k' = prepare_all (q_np q) feat (v_Js k') (make_masks (v_Js k) (q_thr q)) (v_cons k)).

(** The kernel raises [e]: in some iteration of some metastep.  The iterations
    before have modified the arrays in place, line 614 is not reached. *)
Inductive loop_raises (tol : R) (inner : nat) : nat -> finder -> exn -> finder -> Prop :=
| raises_here n' m w c k k' f e :
    (m < inner)%nat ->
    steps ops (kernel_of f) (f_left f) m
      {| w_k := f_k f; w_count := O; w_valid := 0%Z; w_rep := None |} = Ok w ->
    maybe_revive ops (kernel_of f) (f_left f) (w_count w) (w_k w) = (c, k) ->
    iterate (kernel_of f) k = Err e ->
    broken (kernel_of f) k k' ->
    loop_raises tol inner (S n') f e (with_k f k')
| raises_later n' f k1 rep count safe e f' :
    metastep ops (kernel_of f) inner (f_left f) (f_k f) = Ok (k1, rep, count, safe) ->
    m_criterion (f_par f) = "standard"%string ->
    converged tol safe rep = false ->
    loop_raises tol inner n' (with_left (with_k f k1) (f_left f - Z.of_nat count)%Z) e f' ->
    loop_raises tol inner (S n') f e f'.

Definition kernel_raises (f : finder) (max_steps tolerance interval : option R) (e : exn) (f' : finder) : Prop :=
  let dflt o d := match o with Some x => x | None => d end in
  exists tracker inner,
    schedule (dflt max_steps (m_max_steps (f_par f))) (dflt interval (m_interval (f_par f))) = Ok (tracker, inner) /\
    loop_raises (dflt tolerance (m_tolerance (f_par f))) inner tracker f e f'.

End Interrupt.
