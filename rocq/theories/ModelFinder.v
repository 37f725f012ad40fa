(** ModelFinder.v -- flory/mcmp/finder.py: class CoexistingPhasesFinder.

    Every method is a function from the finder to the new finder together with
    the outcome, so that the state after an exception is visible. *)

From Coq Require Import String Reals List Bool Arith ZArith.
From Verif Require Import Base ModelCommon ModelParts ModelKernel ModelPhases.
Import ListNotations.
Open Scope R_scope.

(** finder.py:214-227: parameters stored by the constructor.
    [max_revive_per_compartment] is a python int. *)
Record params := {
  m_max_steps : R;
  m_criterion : string;
  m_tolerance : R;
  m_interval : R;
  m_random_std : R;
  m_acc_J : R;
  m_acc_w : R;
  m_ub : R;
  m_thr : R;
  m_scaler : R;
  m_max_revive : Z
}.

(** finder.py:675-683 [diagnostics] (the wall-clock entry "time" is left out). *)
Record diag := {
  d_steps : Z;
  d_incomp : R;
  d_omega : R;
  d_Js : R;
  d_cons : R;
  d_left : Z
}.

Section Finder.
Context {G St : Type} (ops : rng_ops G).

(** finder.py:180-239: attributes of the finder.  The mutable arrays, the
    compiled constraints and the generator are grouped as the kernel state. *)
Record finder := {
  f_inter : interaction;
  f_entropy : entropy;
  f_ensemble : ensemble;
  f_nc : nat;                    (* _num_comp *)
  f_nf : nat;                    (* _num_feat *)
  f_np : nat;                    (* _num_part *)
  f_par : params;
  f_kwargs : dict;               (* _kwargs_for_instances *)
  f_k : kstate G St;             (* _omegas, _Js, _phis_comp, _phis_feat, _constraints, _rng *)
  f_left : Z;                    (* _revive_count_left *)
  f_diag : option diag           (* _diagnostics; None is the empty dict *)
}.

(** attribute assignments *)
Definition with_inter (f : finder) x := {| f_inter := x; f_entropy := f_entropy f; f_ensemble := f_ensemble f; f_nc := f_nc f; f_nf := f_nf f; f_np := f_np f; f_par := f_par f; f_kwargs := f_kwargs f; f_k := f_k f; f_left := f_left f; f_diag := f_diag f |}.
Definition with_entropy (f : finder) x := {| f_inter := f_inter f; f_entropy := x; f_ensemble := f_ensemble f; f_nc := f_nc f; f_nf := f_nf f; f_np := f_np f; f_par := f_par f; f_kwargs := f_kwargs f; f_k := f_k f; f_left := f_left f; f_diag := f_diag f |}.
Definition with_ensemble (f : finder) x := {| f_inter := f_inter f; f_entropy := f_entropy f; f_ensemble := x; f_nc := f_nc f; f_nf := f_nf f; f_np := f_np f; f_par := f_par f; f_kwargs := f_kwargs f; f_k := f_k f; f_left := f_left f; f_diag := f_diag f |}.
Definition with_k (f : finder) x := {| f_inter := f_inter f; f_entropy := f_entropy f; f_ensemble := f_ensemble f; f_nc := f_nc f; f_nf := f_nf f; f_np := f_np f; f_par := f_par f; f_kwargs := f_kwargs f; f_k := x; f_left := f_left f; f_diag := f_diag f |}.
Definition with_left (f : finder) x := {| f_inter := f_inter f; f_entropy := f_entropy f; f_ensemble := f_ensemble f; f_nc := f_nc f; f_nf := f_nf f; f_np := f_np f; f_par := f_par f; f_kwargs := f_kwargs f; f_k := f_k f; f_left := x; f_diag := f_diag f |}.
Definition with_diag (f : finder) x := {| f_inter := f_inter f; f_entropy := f_entropy f; f_ensemble := f_ensemble f; f_nc := f_nc f; f_nf := f_nf f; f_np := f_np f; f_par := f_par f; f_kwargs := f_kwargs f; f_k := f_k f; f_left := f_left f; f_diag := x |}.

Definition k_with_cons (k : kstate G St) cs : kstate G St := {| v_omegas := v_omegas k; v_Js := v_Js k; v_phis_comp := v_phis_comp k; v_phis_feat := v_phis_feat k; v_cons := cs; v_g := v_g k |}.
Definition k_with_fields (k : kstate G St) w J g : kstate G St := {| v_omegas := w; v_Js := J; v_phis_comp := v_phis_comp k; v_phis_feat := v_phis_feat k; v_cons := v_cons k; v_g := g |}.
Definition k_with_g (k : kstate G St) g : kstate G St := {| v_omegas := v_omegas k; v_Js := v_Js k; v_phis_comp := v_phis_comp k; v_phis_feat := v_phis_feat k; v_cons := v_cons k; v_g := g |}.

(** finder.py:594-611: the constants passed to the kernel. *)
Definition kernel_of (f : finder) : kernel :=
  {| q_inter := f_inter f; q_entropy := f_entropy f; q_ensemble := f_ensemble f;
     q_nf := f_nf f; q_np := f_np f;
     q_acc_J := m_acc_J (f_par f); q_ub := m_ub (f_par f); q_acc_w := m_acc_w (f_par f);
     q_thr := m_thr (f_par f); q_scaler := m_scaler (f_par f) |}.

(* ------------------------------------------------------------------ *)
(** * Checks *)

(** finder.py:241-284 [check_instance]: [None] means the attribute is absent. *)
Definition check_sizes (nc nf : nat) (c r : option nat) : res unit :=
  let* _ := match c with
            | Some c' => if Nat.eqb c' nc then Ok tt else Err ComponentNumberError
            | None => Ok tt
            end in
  match r with
  | Some r' => if Nat.eqb r' nf then Ok tt else Err FeatureNumberError
  | None => Ok tt
  end.

(** The attributes of the compiled classes: interactions and constraints have
    [num_feat] only, ensembles [num_comp] only, entropies both. *)
Definition check_inter nc nf (i : interaction) := check_sizes nc nf None (Some (i_feat i)).
Definition check_entropy nc nf (s : entropy) := check_sizes nc nf (Some (s_comp s)) (Some (s_feat s)).
Definition check_ensemble nc nf (n : ensemble) := check_sizes nc nf (Some (n_comp n)) None.
Definition check_cons nc nf (o : cons_obj St) := check_sizes nc nf None (Some (k_feat (o_class o))).

Fixpoint check_cons_all nc nf (l : list (cons_obj St)) : res unit :=
  match l with
  | [] => Ok tt
  | o :: l' => let* _ := check_cons nc nf o in check_cons_all nc nf l'
  end.

(* ------------------------------------------------------------------ *)
(** * (Re)initialisation *)

(** finder.py:433-436 [reset_revive]. *)
Definition reset_revive (f : finder) : finder :=
  with_left f (m_max_revive (f_par f) * Z.of_nat (f_np f))%Z.

(** finder.py:438-442 [reinitialize_constraint]. *)
Definition init_cons (np : nat) (l : list (cons_obj St)) : list (cons_obj St) :=
  map (fun o => set_state o (k_init (o_class o) np (o_state o))) l.
Definition reinit_constraint (f : finder) : finder :=
  with_k f (k_with_cons (f_k f) (init_cons (f_np f) (v_cons (f_k f)))).

(** [rng.normal(0.0, std, (nf, np))]: row-major draws. *)
Definition draw_normal (nf np : nat) (std : R) (g : G) : mat * G :=
  for_ nf (fun r s =>
    for_ np (fun m '(w, g) =>
       let '(x, g') := g_normal ops g 0 std in (upd2 w r m x, g')) s)
    ((fun _ _ => 0), g).

(** Common tail of the three methods: volumes one, budget and multipliers
    reset (finder.py:454-456, 467-469, 486-488). *)
Definition reinit_with (f : finder) (w : mat) (g : G) : finder :=
  reinit_constraint (reset_revive (with_k f (k_with_fields (f_k f) w (fun _ => 1) g))).

(** finder.py:444-456 [reinitialize_random]. *)
Definition reinitialize_random (f : finder) : finder :=
  let '(w, g) := draw_normal (f_nf f) (f_np f) (m_random_std (f_par f)) (v_g (f_k f)) in
  reinit_with f w g.

(** finder.py:286-309 [check_field]: the shape must be that of [_omegas],
    which is (num_feat, num_part). *)
Definition check_field (f : finder) (a : nd) : res mat :=
  match nd_shape a with
  | [r; m] => if (Nat.eqb r (f_nf f) && Nat.eqb m (f_np f))%bool
              then Ok (fun i j => nd_at a [i; j]) else Err ValueError
  | _ => Err ValueError
  end.

(** finder.py:458-469 [reinitialize_from_omegas]. *)
Definition reinitialize_from_omegas (f : finder) (a : nd) : finder * res unit :=
  match check_field f a with
  | Err e => (f, Err e)
  | Ok w => (reinit_with f w (v_g (f_k f)), Ok tt)
  end.

(** finder.py:471-488 [reinitialize_from_phis]. *)
Definition reinitialize_from_phis (f : finder) (a : nd) : finder * res unit :=
  match check_field f a with
  | Err e => (f, Err e)
  | Ok phis => (reinit_with f (i_potential (f_inter f) phis) (v_g (f_k f)), Ok tt)
  end.

(* ------------------------------------------------------------------ *)
(** * Constructor and setters *)

(** Argument [constraints] of the constructor and of [set_constraints]:
    nothing, one constraint, or an iterable. *)
Inductive cons_arg :=
| CA_none
| CA_one (c : compilable (cons_obj St))
| CA_list (l : list (compilable (cons_obj St))).

(** [no nf] is [NoConstraintCompiled(nf)]. *)
Context (no : nat -> cons_obj St).

Fixpoint compile_zip (base : dict) (l : list (compilable (cons_obj St))) (ind : list dict)
    : res (list (cons_obj St)) :=
  match l, ind with
  | c :: l', d :: ind' =>
      let* o := compiled c (dict_merge base d) in
      let* os := compile_zip base l' ind' in
      Ok (o :: os)
  | _, _ => Ok []                     (* zip stops at the shorter sequence *)
  end.

(** Argument [kwargs_individual]. *)
Inductive ind_arg := IA_none | IA_dict (d : dict) | IA_list (l : list dict).

(** finder.py:403-423: the list of compiled constraints.  An empty iterable is
    falsy.  Simplification: [kwargs_individual] has the kind (dict or tuple)
    that fits [constraints]; other combinations are a TypeError. *)
Definition compile_cons (nf : nat) (base : dict) (a : cons_arg) (ind : ind_arg)
    : res (list (cons_obj St)) :=
  match a with
  | CA_none | CA_list [] => Ok [no nf]
  | CA_one c =>
      match ind with
      | IA_none => let* o := compiled c base in Ok [o]
      | IA_dict d => let* o := compiled c (dict_merge base d) in Ok [o]
      | IA_list _ => Err TypeError
      end
  | CA_list l =>
      match ind with
      | IA_none => compile_zip base l (repeat [] (length l))
      | IA_list ds => compile_zip base l ds
      | IA_dict _ => Err TypeError
      end
  end.

(** What the list contains when compiling fails: the constraints before the
    first failure. *)
Fixpoint compile_prefix (base : dict) (l : list (compilable (cons_obj St))) (ind : list dict)
    : list (cons_obj St) :=
  match l, ind with
  | c :: l', d :: ind' =>
      match compiled c (dict_merge base d) with
      | Ok o => o :: compile_prefix base l' ind'
      | Err _ => []
      end
  | _, _ => []
  end.
Definition cons_prefix (base : dict) (a : cons_arg) (ind : ind_arg) : list (cons_obj St) :=
  match a, ind with
  | CA_list l, IA_none => compile_prefix base l (repeat [] (length l))
  | CA_list l, IA_list ds => compile_prefix base l ds
  | _, _ => []
  end.

(** finder.py:180-239 [__init__].  [num_part]: [None] or 0 means the default
    8 * num_comp.  Simplification: an externally supplied generator. *)
Definition create (inter : compilable interaction) (ent : compilable entropy)
    (ens : compilable ensemble) (cons : cons_arg) (num_part : option nat)
    (par : params) (kw : dict) (g : G) : res finder :=
  let* i := compiled inter kw in
  let* s := compiled ent kw in
  let* n := compiled ens kw in
  let nc := s_comp s in
  let nf := s_feat s in
  let np := match num_part with Some (S k) => S k | _ => (nc * 8)%nat end in
  let* cs := compile_cons nf kw cons IA_none in
  let* _ := check_inter nc nf i in
  let* _ := check_entropy nc nf s in
  let* _ := check_ensemble nc nf n in
  let* _ := check_cons_all nc nf cs in
  Ok (reinitialize_random
    {| f_inter := i; f_entropy := s; f_ensemble := n; f_nc := nc; f_nf := nf; f_np := np;
       f_par := par; f_kwargs := kw;
       f_k := {| v_omegas := fun _ _ => 0; v_Js := fun _ => 0; v_phis_comp := fun _ _ => 0;
                 v_phis_feat := fun _ _ => 0; v_cons := cs; v_g := g |};
       f_left := (m_max_revive par * Z.of_nat np)%Z; f_diag := None |}).

(** finder.py:311-332 [set_interaction]: stored before it is checked. *)
Definition set_interaction (f : finder) (c : compilable interaction) (reset : bool) (kw : dict)
    : finder * res unit :=
  match compiled c (dict_merge (f_kwargs f) kw) with
  | Err e => (f, Err e)
  | Ok i =>
      let f1 := with_inter f i in
      match check_inter (f_nc f1) (f_nf f1) i with
      | Err e => (f1, Err e)
      | Ok _ => (if reset then reset_revive f1 else f1, Ok tt)
      end
  end.

(** finder.py:334-354 [set_entropy]. *)
Definition set_entropy (f : finder) (c : compilable entropy) (reset : bool) (kw : dict)
    : finder * res unit :=
  match compiled c (dict_merge (f_kwargs f) kw) with
  | Err e => (f, Err e)
  | Ok s =>
      let f1 := with_entropy f s in
      match check_entropy (f_nc f1) (f_nf f1) s with
      | Err e => (f1, Err e)
      | Ok _ => (if reset then reset_revive f1 else f1, Ok tt)
      end
  end.

(** finder.py:356-376 [set_ensemble]. *)
Definition set_ensemble (f : finder) (c : compilable ensemble) (reset : bool) (kw : dict)
    : finder * res unit :=
  match compiled c (dict_merge (f_kwargs f) kw) with
  | Err e => (f, Err e)
  | Ok n =>
      let f1 := with_ensemble f n in
      match check_ensemble (f_nc f1) (f_nf f1) n with
      | Err e => (f1, Err e)
      | Ok _ => (if reset then reset_revive f1 else f1, Ok tt)
      end
  end.

(** finder.py:378-431 [set_constraints].  The list is emptied first (line 403);
    when compiling fails half way the already compiled ones remain. *)
Definition set_constraints (f : finder) (a : cons_arg) (reset : bool) (ind : ind_arg) (kw : dict)
    : finder * res unit :=
  let base := dict_merge (f_kwargs f) kw in
  match compile_cons (f_nf f) base a ind with
  | Err e => (with_k f (k_with_cons (f_k f) (cons_prefix base a ind)), Err e)
  | Ok cs =>
      let f1 := with_k f (k_with_cons (f_k f) cs) in
      match check_cons_all (f_nc f) (f_nf f) cs with
      | Err e => (f1, Err e)
      | Ok _ =>
          let f2 := reinit_constraint f1 in
          (if reset then reset_revive f2 else f2, Ok tt)
      end
  end.

(* ------------------------------------------------------------------ *)
(** * run *)

(** [int(np.ceil(x))] *)
Definition zceil (x : R) : Z := (- Int_part (- x))%Z.

(** finder.py:556-557: number of metasteps and steps per metastep. *)
Definition schedule (max_steps interval : R) : res (nat * nat) :=
  if Reqb interval 0 then Err ZeroDivisionError else
  let tracker := zceil (max_steps / interval) in
  if Z.eqb tracker 0 then Err ZeroDivisionError else
  let inner := Z.max 1 (zceil max_steps / tracker) in
  Ok (Z.to_nat tracker, Z.to_nat inner).    (* range(negative) is empty *)

(** What the loop leaves behind. *)
Record rstate := {
  r_f : finder;
  r_steps : nat;                 (* steps *)
  r_rep : option report;         (* errors of the last metastep *)
  r_conv : bool                  (* left by "break" *)
}.

(** finder.py:631-644: the "standard" convergence criterion. *)
Definition converged (tol : R) (safe : bool) (rep : report) : bool :=
  safe && Rltb (e_incomp rep) tol && Rltb (e_omega rep) tol
       && Rltb (e_Js rep) tol && Rltb (e_cons rep) tol.

(** finder.py:585-648: the loop over metasteps.  If the kernel raises, the
    state before the failing metastep is kept (simplification: the arrays
    would be partly updated). *)
Fixpoint run_loop (tol : R) (inner n : nat) (s : rstate) : rstate * res unit :=
  match n with
  | O => (s, Ok tt)
  | S n' =>
      match metastep ops (kernel_of (r_f s)) inner (f_left (r_f s)) (f_k (r_f s)) with
      | Err e => (s, Err e)
      | Ok (k', rep, count, safe) =>
          let f' := with_left (with_k (r_f s) k') (f_left (r_f s) - Z.of_nat count)%Z in
          let s' := {| r_f := f'; r_steps := (r_steps s + inner)%nat; r_rep := Some rep;
                       r_conv := false |} in
          if String.eqb (m_criterion (f_par (r_f s))) "standard" then
            if converged tol safe rep
            then ({| r_f := f'; r_steps := r_steps s'; r_rep := Some rep; r_conv := true |}, Ok tt)
            else run_loop tol inner n' s'
          else (s', Err ValueError)
      end
  end.

(** [Phases(final_Js, final_phis_comp.T)], finder.py:686. *)
Definition result_phases (nc np : nat) (Js : vec) (phis : mat) : res phases :=
  mk_phases {| nd_shape := [np]; nd_at := fun i => match i with [p] => Js p | _ => 0 end |}
            {| nd_shape := [np; nc];
               nd_at := fun i => match i with [p; c] => phis c p | _ => 0 end |}.

(** finder.py:510-686 [run]; the arguments override the stored values.
    Progress bars, logging and timing are not modelled. *)
Definition run (f : finder) (max_steps tolerance interval : option R) : finder * res phases :=
  let dflt o d := match o with Some x => x | None => d end in
  let max_steps := dflt max_steps (m_max_steps (f_par f)) in
  let tol := dflt tolerance (m_tolerance (f_par f)) in
  let interval := dflt interval (m_interval (f_par f)) in
  match schedule max_steps interval with
  | Err e => (f, Err e)
  | Ok (tracker, inner) =>
      match run_loop tol inner tracker {| r_f := f; r_steps := O; r_rep := None; r_conv := false |} with
      | (s, Err e) => (r_f s, Err e)
      | (s, Ok _) =>
          let f1 := r_f s in
          match revive_by_copy ops (f_np f1) (v_Js (f_k f1)) (v_phis_comp (f_k f1))
                  (m_thr (f_par f1)) (v_g (f_k f1)) with
          | Err e => (f1, Err e)
          | Ok (_, Js, phis, g) =>
              let f2 := with_k f1 (k_with_g (f_k f1) g) in
              match r_rep s with
              | None => (f2, Err UnboundLocalError)
              | Some rep =>
                  (with_diag f2 (Some {| d_steps := Z.of_nat (r_steps s);
                                         d_incomp := e_incomp rep; d_omega := e_omega rep;
                                         d_Js := e_Js rep; d_cons := e_cons rep;
                                         d_left := f_left f2 |}),
                   result_phases (f_nc f2) (f_np f2) Js phis)
              end
          end
      end
  end.

End Finder.
Arguments finder G St : clear implicits.
Arguments rstate G St : clear implicits.
Arguments cons_arg St : clear implicits.
