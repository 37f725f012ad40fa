(** ModelWorld.v -- several finders and random generators in one program
    (finder.py:204-212 and the uses of [self._rng]). *)

From Coq Require Import String Reals List Bool Arith ZArith.
From Verif Require Import Base ModelCommon ModelParts ModelKernel ModelPhases ModelFinder ModelHistory.
Import ListNotations.
Open Scope R_scope.

Section World.
Context {G St : Type} (ops : rng_ops G) (no : nat -> cons_obj St).

(** [np.random.default_rng(seed)] *)
Context (seeded : Z -> G).

(** Generators are objects; a finder holds a reference to one.  Its field
    [v_g] is not used. *)
Record world := {
  u_next : nat;                             (* generators with smaller numbers exist *)
  u_gen : nat -> G;
  u_fs : list (finder G St * nat)
}.

(** finder [n] as its methods see it *)
Definition see (w : world) (n : nat) : option (finder G St) :=
  match nth_error (u_fs w) n with
  | Some (f, r) => Some (with_k f (k_with_g (f_k f) (u_gen w r)))
  | None => None
  end.

(** arguments of the constructor except the generator *)
Record setup := {
  x_inter : compilable interaction; x_ent : compilable entropy; x_ens : compilable ensemble;
  x_cons : cons_arg St; x_np : option nat; x_par : params; x_kw : dict
}.
Definition build (x : setup) (g : G) : res (finder G St) :=
  create ops no (x_inter x) (x_ent x) (x_ens x) (x_cons x) (x_np x) (x_par x) (x_kw x) g.

Inductive event :=
| ERng (g : G)                              (* rng = np.random.default_rng(...) *)
| EUse (r : nat) (h : G -> G)               (* any other use of a generator *)
| ENew (x : setup) (rng : option nat) (now : R)   (* CoexistingPhasesFinder(..., rng=rng) *)
| ECall (n : nat) (c : call St).            (* a method of finder [n] *)

Fixpoint set_nth {A} (l : list A) (n : nat) (a : A) : list A :=
  match l, n with
  | [], _ => []
  | _ :: l', O => a :: l'
  | b :: l', S n' => b :: set_nth l' n' a
  end.

Definition add_gen (w : world) (g : G) : world :=
  {| u_next := S (u_next w); u_gen := upd (u_gen w) (u_next w) g; u_fs := u_fs w |}.
(** a constructor that raises leaves no finder behind and has drawn nothing *)
Definition add_finder (w : world) (x : setup) (r : nat) : world :=
  match build x (u_gen w r) with
  | Ok f => {| u_next := u_next w; u_gen := upd (u_gen w) r (v_g (f_k f)); u_fs := u_fs w ++ [(f, r)] |}
  | Err _ => w
  end.

Definition happen (w : world) (e : event) : world :=
  match e with
  | ERng g => add_gen w g
  | EUse r h => if Nat.ltb r (u_next w) then {| u_next := u_next w; u_gen := upd (u_gen w) r (h (u_gen w r)); u_fs := u_fs w |} else w
  | ENew x (Some r) _ => if Nat.ltb r (u_next w) then add_finder w x r else w
  (* int(datetime.now().timestamp()) *)
  | ENew x None now => add_finder (add_gen w (seeded (Int_part now))) x (u_next w)
  | ECall n c =>
      match nth_error (u_fs w) n, see w n with
      | Some (_, r), Some f =>
          let f' := fst (exec ops no f c) in
          {| u_next := u_next w; u_gen := upd (u_gen w) r (v_g (f_k f')); u_fs := set_nth (u_fs w) n (f', r) |}
      | _, _ => w
      end
  end.
Definition happen_all (w : world) (es : list event) : world := fold_left happen es w.

(** the calls on finder [n] *)
Fixpoint calls_on (n : nat) (es : list event) : list (call St) :=
  match es with
  | [] => []
  | ECall m c :: es' => if Nat.eqb m n then c :: calls_on n es' else calls_on n es'
  | _ :: es' => calls_on n es'
  end.

End World.
Arguments world G St : clear implicits.
Arguments setup St : clear implicits.
Arguments event G St : clear implicits.
