(** ModelHistory.v -- sequences of calls on a CoexistingPhasesFinder. *)

From Coq Require Import String Reals List Bool Arith ZArith.
From Verif Require Import Base ModelCommon ModelParts ModelKernel ModelPhases ModelFinder.
Import ListNotations.
Open Scope R_scope.

Section History.
Context {G St : Type} (ops : rng_ops G) (no : nat -> cons_obj St).

(** The public methods of finder.py:311-686 that modify the finder. *)
Inductive call :=
| CRun (max_steps tolerance interval : option R)
| CReinitRandom
| CReinitOmegas (a : nd)
| CReinitPhis (a : nd)
| CReinitConstraint
| CResetRevive
| CSetInteraction (c : compilable interaction) (reset : bool) (kw : dict)
| CSetEntropy (c : compilable entropy) (reset : bool) (kw : dict)
| CSetEnsemble (c : compilable ensemble) (reset : bool) (kw : dict)
| CSetConstraints (a : cons_arg St) (reset : bool) (ind : ind_arg) (kw : dict).

Definition outcome {A} (r : res A) : option exn := match r with Ok _ => None | Err e => Some e end.

(** One call: the finder afterwards and the exception, if any. *)
Definition exec (f : finder G St) (c : call) : finder G St * option exn :=
  match c with
  | CRun a t i => let '(f', r) := run ops f a t i in (f', outcome r)
  | CReinitRandom => (reinitialize_random ops f, None)
  | CReinitOmegas a => let '(f', r) := reinitialize_from_omegas f a in (f', outcome r)
  | CReinitPhis a => let '(f', r) := reinitialize_from_phis f a in (f', outcome r)
  | CReinitConstraint => (reinit_constraint f, None)
  | CResetRevive => (reset_revive f, None)
  | CSetInteraction c b kw => let '(f', r) := set_interaction f c b kw in (f', outcome r)
  | CSetEntropy c b kw => let '(f', r) := set_entropy f c b kw in (f', outcome r)
  | CSetEnsemble c b kw => let '(f', r) := set_ensemble f c b kw in (f', outcome r)
  | CSetConstraints a b ind kw => let '(f', r) := set_constraints no f a b ind kw in (f', outcome r)
  end.

(** A program that ignores exceptions. *)
Fixpoint exec_all (f : finder G St) (l : list call) : finder G St :=
  match l with
  | [] => f
  | c :: l' => exec_all (fst (exec f c)) l'
  end.

End History.
Arguments call St : clear implicits.
